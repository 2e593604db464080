(* Proofs about the command cfg parse. *)
From Verif Require Import M_Nom Base M_Util M_Recog M_Agenda M_Search M_Automata M_CFG M_Chart M_Text M_Negra M_Command M_Mcfg M_CfgCommand
  S_Search S_Util S_Recog S_Automata S_CFG S_Text S_AutText S_Command S_Mcfg S_CfgCommand P_Agenda P_Search P_Util P_Recog P_Automata P_PDA P_CFG P_Text P_AutText P_Command P_Beam P_CfgEnds P_Mcfg
  Properties_Automata Properties_CFG Properties_Beam Properties_CfgEnds.

Section CfgCommand.
  Context {K : ZWeight} (KL : RoundLaws K) (neqb teqb : bytes -> bytes -> bool) (NE : EqbSpec neqb) (TE : EqbSpec teqb).
  Context (wadd : K -> K -> K) (WZ : forall x, wadd wzero x = x).
  Notation code := (item (list nat) (pd_instr nat) nat K).
  Notation parse := (item (list (push_state bytes bytes)) (pd_instr (push_state bytes bytes)) bytes K).
  Context (H : max_heap (code * K) (wi_leb wleb)) (Hb : minmax_heap (code * K) (wi_leb wleb))
          (shuffle : list (transition (pd_instr nat) nat K) -> list (transition (pd_instr nat) nat K)) (SH : forall l, Permutation (shuffle l) l)
          (order : list bytes -> list bytes) (OR : forall l, Permutation (order l) l).
  Context (debug_string : bytes -> bytes) (debug_weight : K -> bytes).
  Context (init : list bytes) (rules : list (cfg_rule bytes bytes K)).
  Notation g := (CFG init rules : cfg bytes bytes K).
  Context (DI : cfg_distinct g).

  Definition cfg_over (M : pda (push_state bytes bytes) bytes K) (beam : option nat) (word : list bytes) (calls : nat) : Prop :=
    match beam with
    | Some b => recognise_beam_ended (pda_automaton shuffle M) Hb b (opt_all (int_find_key teqb (pa_t M)) word) calls
    | None => recognise_ended (pda_automaton shuffle M) H (opt_all (int_find_key teqb (pa_t M)) word) calls
    end.
  (* the item is the one for the derivation *)
  Definition item_for (word : list bytes) (x : parse) (ds : list (cfg_rule bytes bytes K)) : Prop :=
    exists s, In s init /\ leftmost (fun r => In r rules) [Label s] ds word /\
      x = (Conf [] [Designated] (derivation_weight ds), pd_from (init_trans s :: derivation_run ds [Label s])).
  Lemma leftmost_head s s' ds w w' : leftmost (fun r => In r rules) [Label s] ds w -> leftmost (fun r => In r rules) [Label s'] ds w' -> s = s'.
  Proof. intros A B. inversion A; inversion B; subst. congruence. Qed.
  Lemma item_for_fun word x y ds : item_for word x ds -> item_for word y ds -> x = y.
  Proof. intros (s & _ & L & ->) (s' & _ & L' & ->). now rewrite (leftmost_head _ _ _ _ _ L L'). Qed.
  Lemma nodup_items word outs dss : NoDup outs -> Forall2 (item_for word) outs dss -> NoDup dss.
  Proof.
    intros ND F. induction F as [|x ds outs dss G F IH]; [constructor|]. apply NoDup_cons_iff in ND. destruct ND as [N1 N2]. constructor; [|now apply IH].
    intros HI. destruct (forall2_in_r _ _ _ _ F HI) as (y & Hy & Gy). rewrite (item_for_fun word x y ds G Gy) in N1. now apply N1.
  Qed.
  Lemma sorted_items word outs dss : Forall2 (item_for word) outs dss ->
    (forall before y after, outs = before ++ y :: after -> forall x, In x before -> wleb (item_weight y) (item_weight x) = true) ->
    StronglySorted (fun x y => wleb (derivation_weight y) (derivation_weight x) = true) dss.
  Proof.
    induction 1 as [|x d l l' Gx Fl IH]; intros HS; [constructor|]. constructor.
    - apply IH. intros b0 y a E z Hz. apply (HS (x :: b0) y a); [cbn; now rewrite E|now right].
    - apply Forall_forall. intros d' Hd'. destruct (forall2_in_r _ _ _ d' Fl Hd') as (y & Hy & Gy). apply in_split in Hy. destruct Hy as (b0 & a & ->). specialize (HS (x :: b0) y a eq_refl x (or_introl eq_refl)).
      destruct Gx as (sx & _ & _ & Ex), Gy as (sy & _ & _ & Ey). rewrite Ex, Ey in HS. exact HS.
  Qed.
  Lemma cfg_found_gives M beam word calls : pda_from_cfg teqb wadd wzero neqb order g = Some M ->
    exists outs ended dss, cfg_found teqb H Hb shuffle M beam word calls = (Some outs, ended) /\ Forall2 (item_for word) outs dss /\
      (ended = true <-> cfg_over M beam word calls) /\ NoDup dss /\
      (bounded_weights rules -> forall n, StronglySorted (fun x y => wleb (derivation_weight y) (derivation_weight x) = true) (firstn n dss)) /\
      forall n, beam = None -> n <= length outs \/ ended = true -> cfg_best_of init rules n word (firstn n dss).
  Proof.
    intros EM. destruct beam as [b|].
    - destruct (C16_cfg_pda_beam bytes bytes K neqb teqb NE TE KL wadd wzero WZ order OR g DI) as (M' & EM' & HO). rewrite EM in EM'. injection EM' as <-.
      destruct (HO shuffle SH Hb b word calls) as (outs & O1 & O2 & O3 & O4 & _).
      destruct (forall2_exists (item_for word) outs) as (dss & F).
      { intros x HI. destruct (O2 x HI) as (s & ds & (I1 & L) & ->). exists ds, s. auto. }
      exists outs. eexists. exists dss. split; [unfold cfg_found; rewrite O1; reflexivity|]. split; [exact F|]. split; [cbn [cfg_over]; apply ended_calls_iff|]. split; [eapply nodup_items; eassumption|]. split; [|discriminate].
      intros BW n. apply (sorted_items word (firstn n outs)); [now apply forall2_firstn|]. intros b0 y a E. apply firstn_split in E. destruct E as (a' & E). exact (O4 BW b0 y a' E).
    - destruct (C16_cfg_pda_derivations bytes bytes K neqb teqb NE TE KL wadd wzero WZ order OR g DI) as (M' & EM' & HO). rewrite EM in EM'. injection EM' as <-.
      destruct (HO shuffle SH H word calls) as (_ & outs & O1 & O2 & O3 & O4 & O5).
      destruct (forall2_exists (item_for word) outs) as (dss & F).
      { intros x HI. destruct (O2 x HI) as (s & ds & (I1 & L) & ->). exists ds, s. auto. }
      set (e := ended_calls (search_calls_p (heap_agenda item_weight wleb H) (item_succs (pda_automaton shuffle M)) calls (heap_collect item_weight wleb H (init_items (pda_automaton shuffle M) (opt_all (int_find_key teqb (pa_t M)) word))))).
      assert (EI : e = true <-> cfg_over M None word calls) by apply ended_calls_iff.
      assert (INJ : forall s ds ds', In s init -> leftmost (fun r => In r rules) [Label s] ds word -> item_for word (Conf [] [Designated] (derivation_weight ds), pd_from (init_trans s :: derivation_run ds [Label s])) ds' -> ds = ds').
      { intros s ds ds' I1 L (s' & I2 & L' & E). destruct (HO shuffle SH H word calls) as (IN & _). apply (IN s ds s' ds'); [split; [exact I1|exact L]|split; [exact I2|exact L']|exact E]. }
      exists outs, e, dss. split; [unfold cfg_found; rewrite O1; reflexivity|]. split; [exact F|]. split; [exact EI|]. split; [eapply nodup_items; eassumption|]. split; [|intros n _ HN; split].
      + intros BW n. apply (sorted_items word (firstn n outs)); [now apply forall2_firstn|]. intros b0 y a E. apply firstn_split in E. destruct E as (a' & E). exact (proj1 (O4 BW b0 y a' E)).
      + intros L ds (s & I1 & LM). assert (LD : length dss = length outs) by (symmetry; exact (forall2_length _ _ _ F)). rewrite firstn_length in L. assert (LN : length dss < n) by lia.
        assert (EE : e = true) by (destruct HN as [HN|HN]; [exfalso; rewrite LD in LN; exact (Nat.lt_irrefl _ (Nat.le_lt_trans _ _ _ HN LN))|exact HN]).
        rewrite firstn_all2 by lia. destruct (forall2_in_l _ _ _ _ F (O5 (proj1 EI EE) s ds (conj I1 LM))) as (ds' & Hd & G). now rewrite (INJ s ds ds' I1 LM G).
      + intros BW ds ds' (s & I1 & LM) NI HI. destruct (wleb (derivation_weight ds) (derivation_weight ds')) eqn:EW; [reflexivity|]. exfalso. apply NI. apply in_split in HI. destruct HI as (bd & ad & ED).
        destruct (forall2_split_r _ _ (firstn n outs) bd ds' ad (forall2_firstn _ n _ _ F) ED) as (b0 & y & a & Eo & Fb & Gy & _). apply firstn_split in Eo. destruct Eo as (a' & Eo).
        destruct Gy as (s' & _ & _ & Ey). pose proof (proj2 (O4 BW b0 y a' Eo) s ds (conj I1 LM)) as X. rewrite Ey in X. specialize (X EW).
        destruct (forall2_in_l _ _ _ _ Fb X) as (d2 & Hd2 & G2). rewrite ED. apply in_or_app. left. now rewrite (INJ s ds d2 I1 LM G2).
  Qed.

  Definition line_for (k : K) : bytes := «"Configuration { word: [], storage: PushDown { elements: [Designated] }, weight: "» ++ debug_weight k ++ «" }"» ++ newline.
  Lemma texts_for word outs dss : Forall2 (item_for word) outs dss ->
    map (fun p : parse => debug_configuration debug_string debug_weight (fst p) ++ newline) outs = map (fun ds => line_for (derivation_weight ds)) dss.
  Proof.
    induction 1 as [|x ds outs dss (s & _ & _ & ->) F IH]; [reflexivity|]. cbn [map]. rewrite IH. f_equal. unfold debug_configuration, line_for. cbn [fst c_word c_storage c_weight].
    rewrite <- !app_assoc. reflexivity.
  Qed.

  Context (n : nat) (beam : option nat).
  Lemma cfg_line_gives M calls line word : pda_from_cfg teqb wadd wzero neqb order g = Some M -> words line word ->
    (~ cfg_over M beam word calls /\ cfg_line teqb H Hb shuffle debug_string debug_weight M n beam calls line = Running) \/
    exists out, cfg_printed init rules (beam = None) n line_for word out /\ cfg_line teqb H Hb shuffle debug_string debug_weight M n beam calls line = Done out.
  Proof.
    intros EM HW. destruct (cfg_found_gives M beam word calls EM) as (outs & ended & dss & EF & F2 & EE & ND & HS & HB). unfold cfg_line. rewrite (words_split line word HW), EF. cbn [or_panic and_then].
    destruct (Nat.leb n (length outs) || ended) eqn:EB; [right|left; split; [|reflexivity]].
    - eexists. split; [|reflexivity]. exists (firstn n dss). split; [rewrite firstn_length; lia|]. split; [|split; [|split; [|split]]].
      + intros ds Hd. destruct (forall2_in_r _ _ _ ds (forall2_firstn _ n _ _ F2) Hd) as (x & _ & (s & I1 & L & _)). exists s. auto.
      + rewrite <- (firstn_skipn n dss) in ND. eapply nodup_front; exact ND.
      + intros BW. now apply HS.
      + intros EN. apply HB; [exact EN|]. apply orb_true_iff in EB. rewrite Nat.leb_le in EB. exact EB.
      + f_equal. f_equal. apply (texts_for word). now apply forall2_firstn.
    - intros C. apply EE in C. rewrite C, orb_true_r in EB. discriminate.
  Qed.
  Lemma cfg_lines_give M calls ls sents : pda_from_cfg teqb wadd wzero neqb order g = Some M -> Forall2 words ls sents ->
    ((exists word, In word sents /\ ~ cfg_over M beam word calls) /\ cfg_lines teqb H Hb shuffle debug_string debug_weight M n beam calls ls = Running) \/
    exists outs, Forall2 (cfg_printed init rules (beam = None) n line_for) sents outs /\ cfg_lines teqb H Hb shuffle debug_string debug_weight M n beam calls ls = Done (List.concat outs).
  Proof.
    intros EM. induction 1 as [|line word ls sents HW _ IH]; [right; exists []; split; [constructor|reflexivity]|]. cbn [cfg_lines].
    destruct (cfg_line_gives M calls line word EM HW) as [(HE & E)|(out & HP & E)]; rewrite E; cbn [and_then].
    - left. split; [exists word; split; [now left|exact HE]|reflexivity].
    - destruct IH as [((w & Hw & HE) & E2)|(outs & HO & E2)]; rewrite E2; cbn [and_then].
      + left. split; [exists w; split; [now right|exact HE]|reflexivity].
      + right. exists (out :: outs). split; [constructor; assumption|reflexivity].
  Qed.
End CfgCommand.
