(* C16 and C45, continued: left-recursive grammars.  The search does not end, but with weights that fade it finds every derivation. *)
From Verif Require Import M_Nom Base M_Util M_Recog M_Agenda M_Search M_Automata M_CFG M_Grammar M_Chart M_Text M_AutText M_Negra M_Command M_Mcfg M_CfgCommand
  S_Search S_Util S_Recog S_Automata S_CFG S_Text S_AutText S_Command S_Mcfg S_CfgCommand S_Fading P_Agenda P_Search P_Util P_Recog P_Automata P_PDA P_CFG P_Text P_AutText P_Command P_Beam P_CfgEnds P_Mcfg P_CfgCommand P_Finds
  Properties_Text Properties_Automata Properties_CFG Properties_Beam Properties_CfgEnds Properties_Chart Properties_CSParse Properties_Command Properties_CfgCommand.

(* C16 with left recursion: if no two rules coincide up to weight, no weight exceeds one, and products of many weights fall below
   the weight of a derivation, then the search returns this derivation after finitely many calls. *)
Theorem C16_left_recursion_finds :
  forall (N T : Type) (K : Weight) (neqb : N -> N -> bool) (teqb : T -> T -> bool), EqbSpec neqb -> EqbSpec teqb -> RoundLaws K ->
  forall (wadd : K -> K -> K) (wzero : K), (forall x, wadd wzero x = x) ->
  forall (order : list T -> list T), (forall l, Permutation (order l) l) ->
  forall g : cfg N T K, cfg_distinct g -> (forall r, In r (cg_rules g) -> wleb (cr_weight r) wone = true) ->
  exists M, pda_from_cfg teqb wadd wzero neqb order g = Some M /\
  forall shuffle, (forall l, Permutation (shuffle l) l) ->
  forall H (word : list T) s ds, In s (cg_initial g) -> leftmost (fun r => In r (cg_rules g)) [Label s] ds word ->
    fades (cg_rules g) (derivation_weight ds) ->
  exists n0, forall n, n0 <= n -> exists outs, pda_recognise teqb shuffle M H word n = Some outs /\
    In (Conf [] [Designated] (derivation_weight ds), pd_from (init_trans s :: derivation_run ds [Label s])) outs.
Proof.
  intros N T K neqb teqb NE TE KL wadd wzero WZ order OR g DI LE.
  pose proof (ps_eqb_spec neqb teqb NE TE) as PE.
  destruct (C16_cfg_pda_language N T K neqb teqb NE TE KL wadd wzero order OR g) as (M & HM & HD). exists M. split; [exact HM|]. intros shuffle SH H word s ds Hs L (m & HF).
  pose proof HM as HM'. unfold pda_from_cfg in HM'.
  assert (ME : forall t, merged wadd wzero (ps_eqb neqb teqb) teqb (cfg_transitions teqb order g) t <-> In t (cfg_transitions teqb order g)).
  { apply (merged_distinct teqb TE (ps_eqb neqb teqb) PE wadd wzero WZ). eapply cfg_transitions_distinct; eauto. }
  set (ts := init_trans s :: derivation_run ds [Label s]).
  assert (WT : run_weight ts = derivation_weight ds).
  { exact (init_run_weight KL _ _ _ _ s L). }
  assert (AC : accepting_run (pdi_apply (ps_eqb neqb teqb)) [Designated; Initial] (merged wadd wzero (ps_eqb neqb teqb) teqb (cfg_transitions teqb order g)) (fun s => length s = 1) word ts [Designated]).
  { assert (A : accepting_run (pdi_apply (ps_eqb neqb teqb)) [Designated; Initial] (fun t => In t (cfg_transitions teqb order g)) (fun s => length s = 1) word ts [Designated]) by (apply (cfg_runs neqb teqb NE TE order OR g); exists s, ds; auto).
    destruct A as (A1 & A2 & A3 & A4). split; [exact A1|]. split; [intros t Ht; apply ME; auto|]. auto. }
  destruct (coded_finds _ _ _ _ _ _ _ _ _ _ _ _ _ (pda_coded wadd wzero _ teqb PE TE _ _ shuffle SH M HM') KL H word ts [Designated] (S (S (m + length word + length ts)))) as (n0 & HN).
  - intros t Ht. apply ME in Ht. apply (Ts_In teqb TE order OR) in Ht. destruct Ht as [(r & Hr & ->)|[(x & _ & ->)|(q & _ & ->)]]; cbn; [auto|apply (wleb_refl KL)|apply (wleb_refl KL)].
  - exact AC.
  - assert (X : forall a b c, a < S (S (b + c + a))) by (intros; lia). apply X.
  - intros us (s' & rest & P1 & P2 & P3) HL. destruct (partial_rules KL neqb teqb NE TE order OR g word us) as (rs & R1 & R2 & R3).
    { exists s', rest. split; [exact P1|]. split; [|exact P3]. intros t Ht. apply ME. now apply P2. }
    assert (X : forall a b c d e, S (S (a + b + c)) <= d -> d <= S (e + b) -> a <= e) by (intros; lia).
    pose proof (HF rs R1 (X _ _ _ _ _ HL R3)) as Q. rewrite <- WT, <- R2 in Q. exact Q.
  - exists n0. intros n Hn. destruct (proj1 (HD shuffle SH H word) n) as (outs & E & _). exists outs. split; [exact E|]. rewrite <- WT. exact (HN n outs Hn E).
Qed.
Print Assumptions C16_left_recursion_finds.

(* C45 with left recursion, without a beam: with weights that fade, the command ends if every sentence has at least n derivations or
   a token that no rule mentions.  If left recursion can be reached from an initial nonterminal, it ends only then. *)
Theorem C45_left_recursion_ends :
  forall (K : ZWeight) (neqb teqb : bytes -> bytes -> bool), RoundLaws K -> EqbSpec neqb -> EqbSpec teqb ->
  forall (wadd : K -> K -> K), (forall x, wadd wzero x = x) ->
  forall (H : max_heap (item (list nat) (pd_instr nat) nat K * K) (wi_leb wleb)) (Hb : minmax_heap (item (list nat) (pd_instr nat) nat K * K) (wi_leb wleb))
    (shuffle : list (transition (pd_instr nat) nat K) -> list (transition (pd_instr nat) nat K)), (forall l, Permutation (shuffle l) l) ->
  forall (order : list bytes -> list bytes), (forall l, Permutation (order l) l) ->
  forall (iow : text_io K) (debug_string : bytes -> bytes) (debug_weight : K -> bytes)
    (grammar : bytes) (init : list bytes) (rules : list (cfg_rule bytes bytes K)), text_means string_io (cfg_rule_syntax string_io string_io iow) grammar init rules ->
  cfg_distinct (CFG init rules : cfg bytes bytes K) ->
  forall (text : bytes) (sents : list (list bytes)), sentences text sents ->
  forall (n : nat),
  let run calls := cfg_parse neqb teqb wadd H Hb shuffle order iow debug_string debug_weight grammar n None calls text in
  (bounded_weights rules -> (forall sent ds, In sent sents -> cfg_derivation init rules sent ds -> fades rules (derivation_weight ds)) ->
     (forall sent, In sent sents -> enough init rules n sent \/ foreign rules sent) ->
     exists calls0, forall calls, calls0 <= calls -> exists out, run calls = Done out) /\
  (forall s k A j, In s init -> leads rules s k A -> leads rules A (S j) A ->
     forall calls out, run calls = Done out -> forall sent, In sent sents -> enough init rules n sent \/ foreign rules sent).
Proof.
  intros K neqb teqb KL NE TE wadd WZ H Hb shuffle SH order OR iow debug_string debug_weight grammar init rules TM DI text sents (ls & TL & HW) n run.
  destruct (C39_grammar_syntax bytes bytes K string_io string_io iow grammar init) as (HG & _). pose proof (HG rules TM) as EG.
  set (g := CFG init rules : cfg bytes bytes K) in *. pose proof (ps_eqb_spec neqb teqb NE TE) as PE.
  destruct (C16_cfg_pda_derivations bytes bytes K neqb teqb NE TE KL wadd wzero WZ order OR g DI) as (M & EM & HO). pose proof EM as EM'. unfold pda_from_cfg in EM'.
  assert (ER : forall calls, run calls = cfg_lines teqb H Hb shuffle debug_string debug_weight M n None calls ls).
  { intros calls. unfold run, cfg_parse. rewrite EG. fold g. rewrite EM. cbn [or_panic and_then]. now rewrite (text_lines_app text ls TL). }
  assert (KN : forall x, In x (pa_t M) <-> exists r, In r rules /\ In (Value x) (cr_rhs r)).
  { intros x. split.
    - intros HI. destruct (pda_tokens _ _ _ _ _ _ _ EM' x HI) as (t & Ht & Hx). apply (Ts_In teqb TE order OR) in Ht. destruct Ht as [(r & _ & ->)|[(y & (r & Hr & HV) & ->)|(q & _ & ->)]]; cbn in Hx; [destruct Hx| |destruct Hx].
      destruct Hx as [<-|[]]. exists r. auto.
    - intros (r & Hr & HV). destruct (pda_new_spec wadd wzero (ps_eqb neqb teqb) teqb PE TE _ _ M EM') as (_ & _ & HT & _).
      destruct (HT (read_trans x)) as [_ W]; [apply (Ts_In teqb TE order OR); right; left; exists x; split; [exists r; auto|reflexivity]|]. apply W. now left. }
  assert (DEC : forall sent : list bytes, foreign rules sent \/ forall x, In x sent -> exists r, In r rules /\ In (Value x) (cr_rhs r)).
  { induction sent as [|x sent [(y & Hy & F)|IH]]; [right; intros ? []|left; exists y; split; [now right|exact F]|].
    destruct (in_dec (fun a b => match bool_dec (teqb a b) true with left E => left (proj1 (TE a b) E) | right E => right (fun C => E (proj2 (TE a b) C)) end) x (pa_t M)) as [HI|HN].
    - right. intros y [<-|Hy]; [now apply KN|auto].
    - left. exists x. split; [now left|]. intros r Hr HV. apply HN, KN. eauto. }
  split.
  - intros BW FA EN.
    assert (ONE : forall line sent, words line sent -> In sent sents -> exists c0, forall calls, c0 <= calls -> exists out, cfg_line teqb H Hb shuffle debug_string debug_weight M n None calls line = Done out).
    { intros line sent WS HS. unfold cfg_line. rewrite (words_split line sent WS). destruct (EN sent HS) as [(dss & ND & LN & HD)|(x & Hx & FX)].
      - assert (ALL : exists c0, forall calls, c0 <= calls -> forall ds, In ds dss -> exists s outs, In s init /\ leftmost (fun r => In r rules) [Label s] ds sent /\ pda_recognise teqb shuffle M H sent calls = Some outs /\
            In (Conf [] [Designated] (derivation_weight ds), pd_from (init_trans s :: derivation_run ds [Label s])) outs).
        { clear LN ND. induction dss as [|ds dss IH]; [exists 0; intros ? _ ? []|]. destruct IH as (c1 & IH); [intros; apply HD; now right|]. destruct (HD ds (or_introl eq_refl)) as (s & Hs & L).
          destruct (C16_left_recursion_finds bytes bytes K neqb teqb NE TE KL wadd wzero WZ order OR g DI BW) as (M' & EM2 & HF). rewrite EM in EM2. injection EM2 as <-.
          destruct (HF shuffle SH H sent s ds Hs L) as (c0 & HC); [apply (FA sent ds HS); exists s; auto|].
          exists (Nat.max c0 c1). intros calls Hc ds' [<-|Hd]; [|apply IH; [lia|exact Hd]]. destruct (HC calls ltac:(lia)) as (outs & E & HI). exists s, outs. auto. }
        destruct ALL as (c0 & HC). exists c0. intros calls Hc. unfold cfg_found. destruct (HO shuffle SH H sent calls) as (INJ & outs & E & _). rewrite E. cbn [or_panic and_then].
        assert (LE : n <= length outs).
        { destruct (forall2_exists (fun ds (x : item _ _ _ _) => In x outs /\ exists s, In s init /\ leftmost (fun r => In r rules) [Label s] ds sent /\ x = (Conf [] [Designated] (derivation_weight ds), pd_from (init_trans s :: derivation_run ds [Label s]))) dss) as (xs & F).
          { intros ds Hd. destruct (HC calls Hc ds Hd) as (s & outs' & Hs & L & E' & HI). rewrite E in E'. injection E' as <-. eexists. split; [exact HI|]. exists s. auto. }
          transitivity (length xs); [now rewrite <- (forall2_length _ _ _ F)|]. apply NoDup_incl_length.
          - clear -F ND INJ. induction F as [|ds x dss xs (_ & s & Hs & L & ->) F IH]; [constructor|]. apply NoDup_cons_iff in ND. destruct ND as [N1 N2]. constructor; [|now apply IH].
            intros HI. destruct (forall2_in_r _ _ _ _ F HI) as (ds' & Hd' & _ & s' & Hs' & L' & EE). destruct (INJ s ds s' ds' (conj Hs L) (conj Hs' L') EE) as [_ ->]. now apply N1.
          - intros x Hx. destruct (forall2_in_r _ _ _ _ F Hx) as (ds & _ & HI & _). exact HI. }
        match goal with |- exists _, (if Nat.leb n ?l || _ then _ else _) = _ => assert (EB : Nat.leb n l = true) by (apply Nat.leb_le; exact LE); rewrite EB end. cbn [orb]. eexists. reflexivity.
      - exists 1. intros calls Hc. destruct (cfg_found_gives KL neqb teqb NE TE wadd WZ H Hb shuffle SH order OR init rules DI M None sent calls EM) as (outs & ended & _ & E & _ & EE & _). rewrite E. cbn [or_panic and_then].
        assert (ended = true) as ->; [|rewrite orb_true_r; eexists; reflexivity]. apply EE. cbn [cfg_over].
        assert (opt_all (int_find_key teqb (pa_t M)) sent = None) as ->; [|destruct calls; [lia|apply ends_none]].
        apply opt_all_None. exists x. split; [exact Hx|]. destruct (tti_enc teqb TE (pa_t M) x) as [[HI _]|[_ E0]]; [|exact E0]. apply KN in HI. destruct HI as (r & Hr & HV). exfalso. exact (FX r Hr HV). }
    assert (G : exists c0, forall calls, c0 <= calls -> exists out, cfg_lines teqb H Hb shuffle debug_string debug_weight M n None calls ls = Done out).
    { clear -HW ONE. assert (ON : forall line sent, words line sent -> In sent sents -> exists c0, forall calls, c0 <= calls -> exists out, cfg_line teqb H Hb shuffle debug_string debug_weight M n None calls line = Done out) by exact ONE. clear ONE.
      induction HW as [|line sent ls sents WS HW IH]; [exists 0; intros; eexists; reflexivity|]. destruct IH as (c1 & IH); [intros l s Hl Hs; apply (ON l s Hl); now right|].
      destruct (ON line sent WS (or_introl eq_refl)) as (c0 & HC). exists (Nat.max c0 c1). intros calls Hc. destruct (HC calls ltac:(lia)) as (o & EO), (IH calls ltac:(lia)) as (os & EOS).
      cbn [cfg_lines]. rewrite EO. cbn [and_then]. rewrite EOS. eexists. reflexivity. }
    destruct G as (c0 & HC). exists c0. intros calls Hc. rewrite ER. now apply HC.
  - intros s k A j Hs L1 L2 calls out ED sent HS. rewrite ER in ED. destruct (DEC sent) as [F|KW]; [now right|left].
    assert (ONE : exists line o, words line sent /\ cfg_line teqb H Hb shuffle debug_string debug_weight M n None calls line = Done o).
    { clear -HW HS ED. revert out ED. induction HW as [|line s0 ls sents WS HW IH]; intros out ED; [destruct HS|]. cbn [cfg_lines] in ED.
      destruct (cfg_line _ _ _ _ _ _ _ _ _ _ line) as [o| |] eqn:EL; [|discriminate|discriminate]. cbn [and_then] in ED. destruct HS as [->|HS]; [exists line, o; auto|].
      destruct (cfg_lines _ _ _ _ _ _ _ _ _ _ ls) as [o2| |] eqn:EL2; [|discriminate|discriminate]. eapply IH; [exact HS|reflexivity]. }
    destruct ONE as (line & o & WS & EL). unfold cfg_line in EL. rewrite (words_split line sent WS) in EL.
    destruct (cfg_found_gives KL neqb teqb NE TE wadd WZ H Hb shuffle SH order OR init rules DI M None sent calls EM) as (outs & ended & dss & E & F & EE & ND & _). rewrite E in EL. cbn [or_panic and_then] in EL.
    destruct (C16_left_recursion_never_ends bytes bytes K neqb teqb NE TE KL wadd wzero order OR g s k A j Hs L1 L2) as (M' & EM2 & HN). rewrite EM in EM2. injection EM2 as <-.
    destruct ended; [exfalso; exact (HN shuffle SH H sent KW calls (proj1 EE eq_refl))|]. rewrite orb_false_r in EL. destruct (Nat.leb n (length outs)) eqn:LE; [|discriminate]. apply Nat.leb_le in LE.
    exists dss. split; [exact ND|]. split; [now rewrite <- (forall2_length _ _ _ F)|]. intros ds Hd. destruct (forall2_in_r _ _ _ _ F Hd) as (x & _ & s' & Hs' & L & _). exists s'. auto.
Qed.
Print Assumptions C45_left_recursion_ends.

(* S -> S b | a, both with cost 1: left-recursive, and the weights fade *)
Lemma ex_left_fades rs : (forall r, In r rs -> In r ex_left) -> derivation_weight rs = Some (length rs).
Proof.
  unfold derivation_weight. rewrite (lprod_wprod (zl_weight _ TropLaws)). induction rs as [|r rs IH]; intros HR; [reflexivity|]. unfold wprod in *. cbn [map fold_right]. rewrite IH by (intros; apply HR; now right).
  pose proof (HR r (or_introl eq_refl)) as Hr. unfold ex_left in Hr. in_cases Hr; reflexivity.
Qed.
Example C45_left_recursion_example :
  text_means string_io (cfg_rule_syntax string_io string_io trop_io) (cfg_file ex_left) [«"S"»] ex_left /\
  cfg_distinct (CFG [«"S"»] ex_left : cfg bytes bytes TropWeight) /\ bounded_weights ex_left /\
  sentences (lines_of [«"a b"»; «"c"»]) [[«"a"»; «"b"»]; [«"c"»]] /\
  (forall k, fades ex_left (Some k)) /\
  (forall sent ds, cfg_derivation [«"S"»] ex_left sent ds -> fades ex_left (derivation_weight ds)) /\
  enough [«"S"»] ex_left 1 [«"a"»; «"b"»] /\ foreign ex_left [«"c"»] /\
  leads ex_left «"S"» 0 «"S"» /\ leads ex_left «"S"» 1 «"S"» /\
  trop_cfg (cfg_file ex_left) 1 None 20 (lines_of [«"a b"»; «"c"»]) = Done (conf_line «"2"» ++ newline ++ newline) /\
  trop_cfg (cfg_file ex_left) 2 None 20 (lines_of [«"a b"»; «"c"»]) = Running.
Proof.
  assert (FD : forall k, fades ex_left (Some k)).
  { intros k. exists (S k). intros rs HR HL. rewrite (ex_left_fades rs HR). cbn. apply Nat.leb_gt. exact HL. }
  repeat match goal with |- _ /\ _ => split end.
  - apply cfg_file_means. intros r Hr. unfold ex_left in Hr. in_cases Hr; show_cfg_rule.
  - split; unfold ex_left; cbn; repeat first [apply NoDup_nil | apply NoDup_cons; [cbn; intuition discriminate|]].
  - intros r Hr. unfold ex_left in Hr. in_cases Hr; reflexivity.
  - exists [«"a b"»; «"c"»]. split.
    + apply (tl_cons «"a b"» [] (lines_of [«"c"»]) [«"c"»]); [not_in|intros [|? [|? [|? [|? ?]]]]; discriminate|now left|]. apply (tl_cons «"c"» [] [] []); [not_in|intros [|? [|? ?]]; discriminate|now left|constructor].
    + constructor; [cbn; read_words|constructor; [cbn; read_words|constructor]].
  - exact FD.
  - intros sent ds (s & _ & L). rewrite ex_left_fades; [apply FD|]. clear -L. induction L as [|x alpha ds w L IH|r alpha ds w Hr L IH]; [intros ? []|exact IH|intros q [<-|Hq]; auto].
  - exists [[ex_r «"S"» [Label «"S"»; Value «"b"»] 1; ex_r «"S"» [Value «"a"»] 1]]. split; [constructor; [intros []|constructor]|]. split; [cbn; lia|]. intros ds [<-|[]]. exists «"S"». split; [now left|].
    apply (lm_label _ (ex_r «"S"» [Label «"S"»; Value «"b"»] 1) []); [now left|]. apply (lm_label _ (ex_r «"S"» [Value «"a"»] 1) [Value «"b"»]); [right; now left|]. cbn. repeat constructor.
  - exists «"c"». split; [now left|]. intros r Hr. unfold ex_left in Hr. in_cases Hr; cbn; intuition discriminate.
  - constructor.
  - apply (leads_rule ex_left (ex_r «"S"» [Label «"S"»; Value «"b"»] 1) [] «"S"» [Value «"b"»] 0); [now left|reflexivity|exists []; constructor|constructor].
  - vm_compute. reflexivity.
  - vm_compute. reflexivity.
Qed.
