(* Proofs: what is found by a search that may never end. *)
From Verif Require Import Base M_Agenda M_Search M_Util M_Recog M_Automata M_CFG S_Search S_Util S_Recog S_Automata S_CFG S_Fading
  P_Agenda P_Search P_Util P_Recog P_Automata P_PDA P_CFG P_Beam P_CfgEnds.

Section Rec.
  Context (a : automaton) (TE : EqbSpec (au_teqb a)) (KL : RoundLaws (au_K a)).
  Notation AItem := (item (au_S a) (au_I a) (au_T a) (au_K a)).
  Context (H : max_heap (AItem * au_K a) (wi_leb wleb)) (LE : forall t, au_trans a t -> wleb (t_weight t) wone = true) (KO : key_ok a).
  Notation AG := (heap_agenda (item_weight (S := au_S a) (I := au_I a) (T := au_T a) (K := au_K a)) wleb H).
  Notation succs := (dflt (item_succs a)).
  Notation ex := (executes (T := au_T a) (K := au_K a) (au_apply a)).
  Lemma recognise_finds_from word ts s D :
    ex (au_init a) ts s -> (forall t, In t ts -> au_trans a t) -> run_word ts = word ->
    au_terminal a (Conf [] s (run_weight ts)) = true -> length ts < D ->
    (forall us s', ex (au_init a) us s' -> (forall t, In t us -> au_trans a t) -> (exists rest, run_word us ++ rest = word) ->
       D <= length us -> wleb (run_weight ts) (run_weight us) = false) ->
    exists n0, forall n outs, n0 <= n -> recognise_int a H (Some word) n = Some outs -> In (the_item a ts [] s) outs.
  Proof.
    intros HE HT HW HF HL HB.
    set (init := init_items a (Some word)). exists (S (length (forest succs D init))). intros n outs HN E.
    apply recognise_unfold in E. subst outs. apply filter_In. split; [|exact HF].
    pose proof (heap_maxfirst item_weight wleb H) as AM.
    apply (weighted_finds AG _ _ _ wleb (rl_order _ KL) AM succs (run_weight_le a TE KL LE) _ _ init D).
    - apply heap_wf_collect.
    - apply (heap_collect_content item_weight wleb H).
    - eapply in_level_forest; [|exact HL]. apply (complete_level a); auto. now rewrite app_nil_r.
    - intros E y HD Hy. assert (R : reachable succs init y) by (apply reachable_level; eauto).
      destruct (item_inv_reachable a TE KL word y R) as (I1 & I2 & I3 & I4).
      pose proof (level_length a word E y Hy) as LY.
      unfold item_weight, the_item. cbn [fst c_weight]. rewrite I4. eapply HB; eauto. lia.
    - lia.
  Qed.
End Rec.

(* an accepting run that is heavier than all long runs is returned after finitely many calls *)
Section CodedFinds.
  Context (ai : automaton) {S I T : Type} (apply : I -> S -> list S) (init : S)
          (tr : transition I T (au_K ai) -> Prop) (final : S -> Prop)
          (kS : S -> Prop) (kI : I -> Prop) (kT : T -> Prop)
          (eS : S -> au_S ai) (eI : I -> au_I ai) (eT : T -> au_T ai)
          (tti : T -> option (au_T ai))
          (item_map : item (au_S ai) (au_I ai) (au_T ai) (au_K ai) -> option (item S I T (au_K ai))).
  Context (CD : coded ai apply init tr final kS kI kT eS eI eT tti item_map) (KL : RoundLaws (au_K ai)).
  Context (H : max_heap (item (au_S ai) (au_I ai) (au_T ai) (au_K ai) * au_K ai) (wi_leb wleb)).
  Notation eTr := (eTr ai eI eT).
  Lemma coded_finds word ts s D : (forall t, tr t -> wleb (t_weight t) wone = true) ->
    accepting_run apply init tr final word ts s -> length ts < D ->
    (forall us, partial_run apply init tr word us -> D <= length us -> wleb (run_weight ts) (run_weight us) = false) ->
    exists n0, forall n outs, n0 <= n -> recognise_with ai tti item_map H word n = Some outs -> In (Conf [] s (run_weight ts), pd_from ts) outs.
  Proof.
    intros LE (A1 & A2 & A3 & A4) HL HB.
    assert (KW : forall x, In x word -> kT x) by (rewrite <- A3; eapply known_word; eauto).
    pose proof (tti_word _ _ _ _ _ _ _ _ _ _ _ _ _ CD word KW) as EW.
    destruct (exec_down _ _ _ _ _ _ _ _ _ _ _ _ _ CD ts init s (cd_kinit _ _ _ _ _ _ _ _ _ _ _ _ _ CD) A1 A2) as [C1 C2].
    assert (LEI : forall t, au_trans ai t -> wleb (t_weight t) wone = true).
    { intros t Ht. apply (cd_tr _ _ _ _ _ _ _ _ _ _ _ _ _ CD) in Ht. destruct Ht as (t0 & Ht0 & ->). cbn. auto. }
    destruct (recognise_finds_from ai (cd_teqb _ _ _ _ _ _ _ _ _ _ _ _ _ CD) KL H LEI (cd_key _ _ _ _ _ _ _ _ _ _ _ _ _ CD) (map eT word) (map eTr ts) (eS s) D) as (n0 & HN).
    - rewrite (cd_init _ _ _ _ _ _ _ _ _ _ _ _ _ CD). exact C1.
    - intros t Ht. apply in_map_iff in Ht. destruct Ht as (t0 & <- & Ht0). apply (cd_tr _ _ _ _ _ _ _ _ _ _ _ _ _ CD). eauto.
    - rewrite run_word_eTr. now f_equal.
    - apply (cd_final _ _ _ _ _ _ _ _ _ _ _ _ _ CD _ _ _ C2). auto.
    - now rewrite map_length.
    - intros us' s' E HT (rest & HW) HD. rewrite (cd_init _ _ _ _ _ _ _ _ _ _ _ _ _ CD) in E.
      destruct (exec_up _ _ _ _ _ _ _ _ _ _ _ _ _ CD us' init s' (cd_kinit _ _ _ _ _ _ _ _ _ _ _ _ _ CD) E HT) as (us & s1 & -> & U1 & _ & _ & U4).
      rewrite !run_weight_eTr. apply HB; [|now rewrite map_length in HD]. rewrite run_word_eTr in HW.
      assert (P : exists r, run_word us ++ r = word).
      { assert (KR : forall x, In x (run_word us) -> kT x) by (eapply known_word; eauto). clear -HW KR KW CD. revert word HW KW. induction (run_word us) as [|x l IH]; intros w HW KW.
        - exists w. reflexivity.
        - destruct w as [|y w]; [discriminate|]. cbn in HW. injection HW as X1 X2.
          apply (cd_tinj _ _ _ _ _ _ _ _ _ _ _ _ _ CD) in X1; [|apply KR; now left|apply KW; now left]. subst y.
          destruct (IH (fun z Hz => KR z (or_intror Hz)) w X2 (fun z Hz => KW z (or_intror Hz))) as (r & <-). exists r. reflexivity. }
      destruct P as (r & P). exists s1, r. auto.
    - exists n0. intros n outs Hn R. unfold recognise_with in R. rewrite EW in R.
      destruct (recognise_int ai H (Some (map eT word)) n) as [oi|] eqn:RI; [|discriminate]. apply opt_all_Some in R.
      pose proof (HN n oi Hn RI) as Hin.
      pose proof (cd_map _ _ _ _ _ _ _ _ _ _ _ _ _ CD [] s (run_weight ts) ts C2 ltac:(intros x []) A2) as EM.
      unfold the_item in Hin. rewrite run_weight_eTr in Hin.
      clear -R Hin EM. induction R as [|o e os es E R IH]; [destruct Hin|]. destruct Hin as [->|Hin]; [left|right; auto].
      cbn [map] in EM. rewrite EM in E. now injection E as <-.
  Qed.
End CodedFinds.

(* a run of the automaton of a grammar applies rules, and reads *)
Section CfgFinds.
  Context {N T : Type} {K : Weight} (KL : RoundLaws K) (neqb : N -> N -> bool) (teqb : T -> T -> bool) (NE : EqbSpec neqb) (TE : EqbSpec teqb).
  Context (order : list T -> list T) (OR : forall l, Permutation (order l) l) (g : cfg N T K).
  Notation rules := (cg_rules g).
  Notation apply := (pdi_apply (ps_eqb neqb teqb)).
  Notation PS := (ps_eqb_spec neqb teqb NE TE).
  Notation Ts := (cfg_transitions teqb order g).
  Notation stack alpha := (Designated :: rev (map sym alpha)).

  Lemma run_rules us : forall alpha s, executes (T := T) (K := K) apply (stack alpha) us s -> (forall t, In t us -> In t Ts) ->
    exists rs, (forall r, In r rs -> In r rules) /\ (forall k, fold_left wmul (map t_weight us) k = fold_left wmul (map cr_weight rs) k) /\ length us <= length rs + length (run_word us).
  Proof.
    induction us as [|t us IH]; intros alpha s HE HT.
    - exists []. split; [intros r []|]. split; [reflexivity|cbn; lia].
    - destruct (first_step neqb teqb NE TE order OR g _ _ _ _ HE (HT t (or_introl eq_refl))) as [(x & beta & _ & -> & HE')|(r & beta & Hr & _ & -> & HE')];
        destruct (IH _ _ HE' (fun t Ht => HT t (or_intror Ht))) as (rs & R1 & R2 & R3).
      + exists rs. split; [exact R1|]. split; [|unfold run_word in *; cbn [flat_map read_trans rule_trans t_word length app] in *; rewrite ?app_length; cbn [length] in *; lia]. intros k. cbn [map fold_left t_weight read_trans]. rewrite (wl_one_r KL). apply R2.
      + exists (r :: rs). split; [intros q [<-|Hq]; auto|]. split; [|unfold run_word in *; cbn [flat_map read_trans rule_trans t_word length app] in *; rewrite ?app_length; cbn [length] in *; lia]. intros k. cbn [map fold_left t_weight rule_trans]. apply R2.
  Qed.
  Lemma partial_rules word us : partial_run apply [Designated; Initial] (fun t => In t Ts) word us ->
    exists rs, (forall r, In r rs -> In r rules) /\ run_weight us = derivation_weight rs /\ length us <= S (length rs + length word).
  Proof.
    intros (s & rest & HE & HT & HW). destruct us as [|t us]; [exists []; split; [intros r []|split; [reflexivity|cbn; lia]]|].
    inversion HE as [|? ? ? s1 ? H1 H2]; subst. apply (pdi_apply_spec _ PS) in H1. destruct H1 as (rest' & E1 & E2). pose proof (HT t (or_introl eq_refl)) as Ht. apply (Ts_In teqb TE order OR) in Ht.
    change ([Designated; Initial] : list (push_state N T)) with ([Designated] ++ [Initial] : list (push_state N T)) in E1.
    destruct Ht as [(r & _ & ->)|[(y & _ & ->)|(n & Hn & ->)]]; cbn [pi_current t_ins rule_trans read_trans init_trans rev app] in E1; apply (single_top [Designated]) in E1; destruct E1 as [<- E1]; try discriminate.
    cbn in E2. subst s1. destruct (run_rules us [Label n] s H2 (fun t Ht => HT t (or_intror Ht))) as (rs & R1 & R2 & R3). exists rs. split; [exact R1|]. split.
    - transitivity (run_weight us); [exact (lprod_one_l KL _)|exact (R2 wone)].
    - unfold run_word in *. cbn [flat_map init_trans t_word length app] in *. rewrite ?app_length in *. lia.
  Qed.
End CfgFinds.

(* the automaton knows no tokens but those of its transitions *)
Lemma int_list_from {A} (eqb : A -> A -> bool) xs : forall l, forall y, In y (fst (int_list eqb l xs)) -> In y l \/ In y xs.
Proof.
  induction xs as [|x xs IH]; intros l y; cbn [int_list]; [now left|]. unfold int_integerise. destruct (find_index eqb x l) as [k|].
  - specialize (IH l y). destruct (int_list eqb l xs) as [l2 ks]. intros Hy. destruct (IH Hy) as [H|H]; [now left|right; now right].
  - specialize (IH (l ++ [x]) y). destruct (int_list eqb (l ++ [x]) xs) as [l2 ks]. intros Hy. destruct (IH Hy) as [H|H]; [|right; now right].
    apply in_app_or in H. destruct H as [H|[<-|[]]]; [now left|right; now left].
Qed.
Lemma trs_tokens {I I' T Q : Type} {K : Weight} (teqb : T -> T -> bool) (ins_int : list Q -> I -> list Q * I') (ts : list (transition I T K)) : forall lt lq y,
  In y (fst (fst (trs_integerise teqb ins_int lt lq ts))) -> In y lt \/ exists t, In t ts /\ In y (t_word t).
Proof.
  induction ts as [|t ts IH]; intros lt lq y; cbn [trs_integerise]; [now left|]. unfold tr_integerise. pose proof (int_list_from teqb (t_word t) lt y) as IL.
  destruct (int_list teqb lt (t_word t)) as [lt1 w]. destruct (ins_int lq (t_ins t)) as [lq1 i]. specialize (IH lt1 lq1 y). destruct (trs_integerise teqb ins_int lt1 lq1 ts) as [ls r']. intros Hy.
  destruct (IH Hy) as [H|(u & Hu & H)]; [|right; exists u; split; [now right|exact H]]. destruct (IL H) as [H1|H1]; [now left|right; exists t; split; [now left|exact H1]].
Qed.
Lemma pda_tokens {A T : Type} {K : Weight} wadd wzero (aeqb : A -> A -> bool) (teqb : T -> T -> bool) (ts : list (transition (pd_instr A) T K)) initial M :
  pda_new wadd wzero aeqb teqb ts initial = Some M -> forall y, In y (pa_t M) -> exists t, In t ts /\ In y (t_word t).
Proof.
  unfold pda_new. destruct (int_list aeqb [] initial) as [a1 ini]. pose proof (trs_tokens teqb (pdi_integerise aeqb) ts [] a1) as G. destruct (trs_integerise teqb (pdi_integerise aeqb) [] a1 ts) as [[lt la] us].
  destruct (pda_map wadd wzero us []) as [m|]; [|discriminate]. intros E y Hy. injection E as <-. destruct (G y Hy) as [[]|H]. exact H.
Qed.
