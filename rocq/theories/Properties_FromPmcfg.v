(* C18: the tree stack automaton built from a PMCFG. *)
From Verif Require Import Base BMap M_Agenda M_Search M_Util M_Recog M_Automata M_CFG M_TreeStack M_Grammar M_FromPmcfg
  S_Recog S_TreeStack S_Grammar S_FromPmcfg P_Agenda P_Search P_Util P_Recog P_Automata P_TreeStack P_TSA P_Grammar P_GrammarCFG P_Conversion
  P_FromPmcfg P_FromPmcfg2 P_FromPmcfg3 P_FromPmcfg4 P_FromPmcfg5 Properties_TreeStack.

(* the accepting runs of the automaton with transitions ts, in the sense of S_Recog *)
Notation tsa_run reqb ts := (accepting_run (tsi_apply (posstate_eqb reqb)) (ts_new Initial) (fun t => In t ts) (fun s => ts_is_at_bottom s = true)).

(* C55: C18_runs_partial for weights whose products are rounded (no associativity): the weight of a run is the product of the
   weights of the derivation's rules in the order in which they are entered when the word is read. *)
Theorem C55_runs :
  forall (N T : Type) (K : Weight) (neqb : N -> N -> bool) (reqb : prule N T K -> prule N T K -> bool), EqbSpec neqb -> EqbSpec reqb -> RoundLaws K ->
  forall (f : N -> nat) (g : pmcfg N T K), ordered_grammar f g ->
  exists ts, pmcfg_transitions neqb g = Some ts /\
    (forall w us s, tsa_run reqb ts w us s ->
       (w = [] /\ us = [] /\ s = ts_new Initial) \/
       exists A d, In A (pg_initial g) /\ deriv (fun r => In r (pg_rules g)) A d /\ yield (read_tree d) = Some [w] /\
         run_weight us = read_weight d /\ shows s d) /\
    (forall A d w, In A (pg_initial g) -> deriv (fun r => In r (pg_rules g)) A d -> yield (read_tree d) = Some [w] ->
       exists us s, tsa_run reqb ts w us s /\ run_weight us = read_weight d /\ shows s d /\
         forall us' s', tsa_run reqb ts w us' s' -> shows s' d -> us' = us /\ s' = s).
Proof.
  intros N T K neqb reqb NE RE KL f g OG. destruct (pmcfg_transitions_spec neqb NE f g OG) as (ts & ET & HT). exists ts. split; [exact ET|].
  assert (FI : forall r, In r (pg_rules g) -> In (pr_head r) (pg_initial g) -> length (pr_comp r) = 1).
  { intros r Hr Hi. pose proof OG as (FO & _ & _ & FI). rewrite (FO r Hr). auto. }
  assert (WT : forall (r : prule N T K) us1, run_word (ipush r :: us1 ++ [idown r]) = run_word us1 ++ dw r 0).
  { intros r us1. unfold run_word. cbn [flat_map ipush t_word app]. rewrite flat_map_app. cbn. now rewrite app_nil_r. }
  assert (WW : forall (r : prule N T K) us1 ch', Go g r 0 0 [] us1 ch' -> forall d, d_rule d = r -> below d 0 = pushes us1 -> run_weight (ipush r :: us1 ++ [idown r]) = read_weight d).
  { intros r us1 ch' G d <- EP. pose proof (Go_weight g KL _ _ _ _ _ _ G) as W. unfold read_weight. rewrite entered_eq, EP.
    unfold run_weight, lprod. cbn [map fold_left ipush t_weight app]. rewrite map_app, fold_left_app, W. cbn [map fold_left idown t_weight]. apply (wl_one_r KL). }
  assert (SD : forall w us s, tsa_run reqb ts w us s -> (us = [] /\ s = ts_new Initial /\ w = []) \/
             exists r us1 ch' d, In r (pg_rules g) /\ In (pr_head r) (pg_initial g) /\ Go g r 0 0 [] us1 ch' /\ us = ipush r :: us1 ++ [idown r] /\
                 s = TStack None Designated [Some (TStack None (Position r 0 (nv r 0)) ch')] /\
                 d_rule d = r /\ deriv (fun r => In r (pg_rules g)) (pr_head r) d /\ tyield d = [w] /\ Tree (TStack None (Position r 0 (nv r 0)) ch') d).
  { intros w us s (E & HI & HW & HB). destruct (accepting_Go reqb RE g us s E) as [[-> ->]|(r & us1 & ch' & Hr & Hi & G & -> & ->)].
    - intros t Ht. apply HT. now apply HI.
    - exact HB.
    - left. now rewrite <- HW.
    - right. pose proof (FI r Hr Hi) as L1. assert (L0 : 0 < length (pr_comp r)) by lia.
      assert (K0 : KI g r [] (fun _ => []) (fun _ => r) (before r 0 0)) by (rewrite before_0; split; [auto|split; [intros i y C; now destruct i|split; [intros i y C; now destruct i|auto]]]).
      destruct (Go_sound f g OG _ _ _ _ _ _ G Hr L0 _ _ K0) as (wss & rs & K1 & X & W).
      pose proof (Vis_extend f g OG r 0 [] _ _ ch' wss rs Hr L0 K0 K1 X) as V. cbn [seq map app] in V.
      destruct (Vis_deriv f g OG _ _ _ V) as (d & D1 & D2 & D3 & D4); [cbn; rewrite <- (proj1 OG r Hr); auto|].
      exists r, us1, ch', d. repeat split; auto. rewrite D3, <- W, <- HW, WT. reflexivity. }
  assert (CO : forall A d w, In A (pg_initial g) -> deriv (fun r => In r (pg_rules g)) A d -> yield (read_tree d) = Some [w] ->
       exists us s, tsa_run reqb ts w us s /\ run_weight us = read_weight d /\ shows s d /\
         forall us' s', tsa_run reqb ts w us' s' -> shows s' d -> us' = us /\ s' = s).
  { intros A d w HA HD HY. pose proof OG as (FO & _ & _ & FA). destruct (tyield_yield f g OG d A HD) as [Y LY]. rewrite Y in HY. injection HY as HY.
    assert (HR : In (d_rule d) (pg_rules g) /\ pr_head (d_rule d) = A) by (inversion HD; subst; auto). destruct HR as [HR HH].
    assert (L1 : length (pr_comp (d_rule d)) = 1) by (apply FI; [assumption|now rewrite HH]).
    destruct (Go_complete f g OG d A HD 0 ltac:(lia) []) as (us1 & ch' & G & EC & W & EP); [intros i; rewrite before_0; now destruct i|].
    assert (TR : Tree (TStack None (Position (d_rule d) 0 (nv (d_rule d) 0)) ch') d).
    { apply (Enc_Tree f g OG _ d 0) with (A := A); [destruct d as [r ds]; now apply Enc_EK|assumption|now rewrite (FA A HA)]. }
    destruct (Go_accepting reqb RE g (d_rule d) us1 ch' HR ltac:(now rewrite HH) G) as (E1 & E2 & E3).
    exists (ipush (d_rule d) :: us1 ++ [idown (d_rule d)]), (TStack None Designated [Some (TStack None (Position (d_rule d) 0 (nv (d_rule d) 0)) ch')]).
    split; [|split; [|split]].
    + split; [exact E1|]. split; [intros t Ht; apply HT; now apply E2|]. split; [|exact E3]. rewrite WT, W, HY. reflexivity.
    + now apply (WW (d_rule d) us1 ch').
    + now apply Tree_shows.
    + intros us' s' HA' (m & M1 & M2). destruct (SD w us' s' HA') as [(-> & -> & _)|(r & us2 & ch2 & d2 & Hr & Hi & G2 & -> & -> & D1 & D2 & D3 & D4)].
      * cbn in M1. injection M1 as <-. specialize (M2 []). destruct d; discriminate.
      * assert (ED : d = d2).
        { destruct (Tree_shows _ _ D4) as (m' & M3 & M4). rewrite M1 in M3. injection M3 as <-. apply rule_at_ext. intros a. now rewrite <- M2, M4. }
        subst d2 r. apply Tree_Sub in TR, D4. apply Compat_Sub in TR, D4. destruct TR as [_ C1], D4 as [_ C2].
        destruct (Go_det g _ _ _ _ _ _ G2 _ _ _ G C2 C1) as [-> ->]. auto. }
  split.
  - intros w us s HA. destruct (SD w us s HA) as [(-> & -> & ->)|(r & us1 & ch' & d & Hr & Hi & G & -> & -> & D1 & D2 & D3 & D4)]; [left; auto|].
    right. exists (pr_head r), d. split; [assumption|]. split; [assumption|]. split; [rewrite <- D3; now apply (tyield_yield f g OG) in D2|]. pose proof (Tree_shows _ _ D4) as SW. split; [|exact SW].
    assert (YW : yield (read_tree d) = Some [w]) by (rewrite <- D3; now apply (tyield_yield f g OG) in D2).
    destruct (CO (pr_head r) d w Hi D2 YW) as (us' & s' & _ & W' & _ & U). destruct (U _ _ HA SW) as [-> _]. exact W'.
  - exact CO.
Qed.
Print Assumptions C55_runs.

(* C55: the order is one of all rules of the derivation; so, if the order does not matter, the weight is that of the
   derivation. *)
Theorem C55_read_weight :
  forall (N T : Type) (K : Weight) (f : N -> nat) (g : pmcfg N T K), ordered_grammar f g ->
  forall A d, In A (pg_initial g) -> deriv (fun r => In r (pg_rules g)) A d ->
  Permutation (entered d 0) (d_rules d) /\ (WeightLaws K -> read_weight d = d_weight d).
Proof.
  intros N T K f g OG A d HA HD. pose proof OG as (FO & _ & _ & FA).
  assert (P : Permutation (entered d 0) (d_rules d)).
  { assert (HR : In (d_rule d) (pg_rules g) /\ pr_head (d_rule d) = A) by (inversion HD; subst; auto). destruct HR as [HR HH].
    assert (L1 : length (pr_comp (d_rule d)) = 1) by (rewrite (FO _ HR), HH; now apply FA).
    destruct (Go_complete f g OG d A HD 0 ltac:(lia) []) as (us1 & ch' & G & EC & W & EP); [intros i; rewrite before_0; now destruct i|].
    assert (TR : Tree (TStack None (Position (d_rule d) 0 (nv (d_rule d) 0)) ch') d).
    { apply (Enc_Tree f g OG _ d 0) with (A := A); [destruct d as [r ds]; now apply Enc_EK|assumption|now rewrite (FA A HA)]. }
    apply Tree_rules in TR. rewrite trules_eq in TR. rewrite <- TR, entered_eq, EP. cbn [app]. constructor. symmetry.
    pose proof (Go_pushes g _ _ _ _ _ _ G) as PP. cbn [krules flat_map] in PP. now rewrite app_nil_r in PP. }
  split; [exact P|]. intros KL. unfold read_weight, d_weight. rewrite (lprod_wprod KL). apply (wprod_perm KL). now apply Permutation_map.
Qed.
Print Assumptions C55_read_weight.

(* C18: for every grammar in which each variable occurs once and in increasing order, the conversion does not panic and the
   runs of the automaton are, apart from the empty run, the derivations of the grammar, with their weights; reading the
   abstract syntax tree from the final storage gives back the derivation, and each derivation has one run.  The word read is
   that of the derivation after [read_rule], which shortens the terminals at the end of a component. *)
Theorem C18_runs_partial :
  forall (N T : Type) (K : Weight) (neqb : N -> N -> bool) (reqb : prule N T K -> prule N T K -> bool), EqbSpec neqb -> EqbSpec reqb -> WeightLaws K ->
  forall (f : N -> nat) (g : pmcfg N T K), ordered_grammar f g ->
  exists ts, pmcfg_transitions neqb g = Some ts /\
    (forall w us s, tsa_run reqb ts w us s ->
       (w = [] /\ us = [] /\ s = ts_new Initial) \/
       exists A d, In A (pg_initial g) /\ deriv (fun r => In r (pg_rules g)) A d /\ yield (read_tree d) = Some [w] /\
         run_weight us = d_weight d /\ shows s d) /\
    (forall A d w, In A (pg_initial g) -> deriv (fun r => In r (pg_rules g)) A d -> yield (read_tree d) = Some [w] ->
       exists us s, tsa_run reqb ts w us s /\ run_weight us = d_weight d /\ shows s d /\
         forall us' s', tsa_run reqb ts w us' s' -> shows s' d -> us' = us /\ s' = s).
Proof.
  intros N T K neqb reqb NE RE KL f g OG. destruct (C55_runs N T K neqb reqb NE RE KL f g OG) as (ts & ET & H1 & H2). exists ts. split; [exact ET|].
  split.
  - intros w us s HA. destruct (H1 w us s HA) as [X|(A & d & X1 & X2 & X3 & X4 & X5)]; [now left|right]. exists A, d. rewrite <- (proj2 (C55_read_weight N T K f g OG A d X1 X2) KL). auto.
  - intros A d w HA HD HY. destruct (H2 A d w HA HD HY) as (us & s & X1 & X2 & X3 & X4). exists us, s. split; [exact X1|]. split; [rewrite <- (proj2 (C55_read_weight N T K f g OG A d HA HD) KL); exact X2|]. split; [exact X3|exact X4].
Qed.
Print Assumptions C18_runs_partial.

(* C18 for grammars whose components end with at most one terminal: the automaton accepts the empty word and the words the
   grammar derives, the latter with the weights of their derivations. *)
Theorem C18_language_partial :
  forall (N T : Type) (K : Weight) (neqb : N -> N -> bool) (reqb : prule N T K -> prule N T K -> bool), EqbSpec neqb -> EqbSpec reqb -> RoundLaws K ->
  forall (f : N -> nat) (g : pmcfg N T K), ordered_grammar f g -> (forall r, In r (pg_rules g) -> short_tails r) ->
  exists ts, pmcfg_transitions neqb g = Some ts /\
    (forall w k, (exists us s, tsa_run reqb ts w us s /\ us <> [] /\ run_weight us = k) <->
       exists A d, In A (pg_initial g) /\ deriv (fun r => In r (pg_rules g)) A d /\ yield d = Some [w] /\ read_weight d = k) /\
    (WeightLaws K -> forall w k, (exists us s, tsa_run reqb ts w us s /\ us <> [] /\ run_weight us = k) <-> pmcfg_derives g w k) /\
    (forall w, (exists us s, tsa_run reqb ts w us s) <-> w = [] \/ exists k, pmcfg_derives g w k).
Proof.
  intros N T K neqb reqb NE RE KL f g OG ST. destruct (C55_runs N T K neqb reqb NE RE KL f g OG) as (ts & ET & H1 & H2). exists ts. split; [exact ET|].
  assert (HY : forall A d, deriv (fun r => In r (pg_rules g)) A d -> read_tree d = d) by (intros A d; now apply read_tree_short).
  assert (E0 : tsa_run reqb ts [] [] (ts_new Initial)) by (split; [constructor|split; [intros t []|split; reflexivity]]).
  assert (A1 : forall w k, (exists us s, tsa_run reqb ts w us s /\ us <> [] /\ run_weight us = k) <->
    exists A d, In A (pg_initial g) /\ deriv (fun r => In r (pg_rules g)) A d /\ yield d = Some [w] /\ read_weight d = k).
  { intros w k. split.
    - intros (us & s & HA & NZ & <-). destruct (H1 w us s HA) as [(_ & -> & _)|(A & d & HI & HD & Y & W & _)]; [congruence|]. exists A, d. rewrite (HY A d HD) in Y. auto.
    - intros (A & d & HI & HD & Y & W). rewrite <- (HY A d HD) in Y. destruct (H2 A d w HI HD Y) as (us & s & HA & W' & (m & M1 & M2) & _). exists us, s. split; [assumption|]. split; [|congruence].
      intros ->. destruct HA as (E & _). inversion E; subst. cbn in M1. injection M1 as <-. specialize (M2 []). destruct d; discriminate. }
  split; [exact A1|]. split.
  - intros WL w k. rewrite A1. split; intros (A & d & HI & HD & Y & W); exists A, d; repeat split; auto; destruct (C55_read_weight N T K f g OG A d HI HD) as [_ RW]; rewrite <- W; [symmetry|]; now apply RW.
  - intros w. split.
    + intros (us & s & HA). destruct us as [|u us]; [left; destruct HA as (_ & _ & <- & _); reflexivity|]. right. destruct (proj1 (A1 w (run_weight (u :: us)))) as (A & d & HI & HD & Y & _).
      { exists (u :: us), s. repeat split; auto; try apply HA. discriminate. }
      exists (d_weight d), A, d. auto.
    + intros [->|[k (A & d & HI & HD & Y & _)]]; [exists [], (ts_new Initial); exact E0|]. destruct (proj2 (A1 w (read_weight d))) as (us & s & HA & _); [exists A, d; auto|]. eauto.
Qed.
Print Assumptions C18_language_partial.

(* C18 together with C14: recognising with the automaton enumerates the derivations of the word, best first, and each of
   them once if no rule is listed twice.  The weights may be rounded; the weight of a derivation is then the product in the
   order of reading (which is d_weight if the order does not matter, C55_read_weight). *)
Theorem C18_recognise_partial :
  forall (N T : Type) (K : Weight) (neqb : N -> N -> bool) (reqb : prule N T K -> prule N T K -> bool) (teqb : T -> T -> bool),
  EqbSpec neqb -> EqbSpec reqb -> EqbSpec teqb -> RoundLaws K ->
  forall (f : N -> nat) (g : pmcfg N T K), ordered_grammar f g -> (forall r, In r (pg_rules g) -> short_tails r) ->
  forall shuffle, (forall l, Permutation (shuffle l) l) ->
  forall (H : max_heap (item (tstack nat) (ts_instr nat) nat K * K) (wi_leb wleb)) (word : list T) (n : nat),
  let derivation d := exists A, In A (pg_initial g) /\ deriv (fun r => In r (pg_rules g)) A d /\ yield d = Some [word] in
  exists M outs, tsa_from_pmcfg neqb reqb teqb g = Some M /\ tsa_recognise teqb shuffle M H word n = Some outs /\
    (forall conf run, In (conf, run) outs ->
       (word = [] /\ pd_to_vec run = []) \/ exists d, derivation d /\ c_weight conf = read_weight d /\ shows (c_storage conf) d) /\
    ((forall r, In r (pg_rules g) -> wleb (pr_weight r) wone = true) ->
       forall before y after, outs = before ++ y :: after ->
         (forall x, In x before -> wleb (item_weight y) (item_weight x) = true) /\
         (forall d, derivation d -> wleb (read_weight d) (item_weight y) = false -> exists x, In x before /\ shows (c_storage (fst x)) d)) /\
    (recognise_ended (tsa_automaton shuffle M) H (opt_all (int_find_key teqb (ta_t M)) word) n ->
       forall d, derivation d -> exists x, In x outs /\ shows (c_storage (fst x)) d) /\
    (NoDup (pg_rules g) -> forall before x between y after d, outs = before ++ x :: between ++ y :: after ->
       shows (c_storage (fst x)) d -> ~ shows (c_storage (fst y)) d).
Proof.
  intros N T K neqb reqb teqb NE RE TE KL f g OG ST shuffle SH H word n derivation.
  destruct (C55_runs N T K neqb reqb NE RE KL f g OG) as (ts & ET & H1 & H2).
  assert (HY : forall A d, deriv (fun r => In r (pg_rules g)) A d -> read_tree d = d) by (intros A d; now apply read_tree_short).
  destruct (C14_tsa_recognise (posstate (prule N T K)) T K (posstate_eqb reqb) teqb (peqb_spec reqb RE) TE KL ts (ts_new Initial) shuffle SH H word n) as (outs & O1 & O2 & O3 & O4 & O5 & _).
  exists (tsa_new (posstate_eqb reqb) teqb ts (ts_new Initial)), outs. split; [unfold tsa_from_pmcfg; now rewrite ET|]. split; [exact O1|]. split; [|split; [|split]].
  - intros conf run HI. destruct (O2 conf run HI) as (HA & _ & W). destruct (H1 _ _ _ HA) as [(-> & E & _)|(A & d & I1 & D & Y & W' & SW)]; [left; auto|].
    right. exists d. split; [exists A; rewrite (HY A d D) in Y; auto|]. split; [etransitivity; [exact W|exact W']|assumption].
  - intros HW before y after E. destruct (O3) with (before := before) (y := y) (after := after) as [B1 B2]; [|exact E|].
    + intros t Ht. destruct (pmcfg_transitions_spec neqb NE f g OG) as (ts' & ET' & HT). rewrite ET in ET'. injection ET' as <-. apply HT in Ht.
      assert (W1 : wleb (wone : K) wone = true) by (destruct (to_total _ (rl_order _ KL) wone wone); assumption).
      destruct Ht as [(r & Hr & _ & [->| ->])|(r & j & k & b & i & j1 & ri & Hr & _ & _ & Hri & [->| ->])]; cbn; auto. destruct j1; cbn; auto.
    + split; [exact B1|]. intros d (A & I1 & D & Y) L. rewrite <- (HY A d D) in Y. destruct (H2 A d word I1 D Y) as (us & s & HA & W & SW & _). rewrite <- W in L.
      eexists. split; [exact (B2 us s HA L)|]. exact SW.
  - intros HE d (A & I1 & D & Y). rewrite <- (HY A d D) in Y. destruct (H2 A d word I1 D Y) as (us & s & HA & W & SW & _). eexists. split; [exact (O4 HE us s HA)|]. exact SW.
  - intros ND before x between y after d E SX SY.
    assert (IX : In x outs) by (rewrite E; apply in_or_app; right; now left).
    assert (IY : In y outs) by (rewrite E; apply in_or_app; right; right; apply in_or_app; right; now left).
    destruct x as [[cxw cxs cxk] rx], y as [[cyw cys cyk] ry]. destruct (O2 _ rx IX) as (AX & _). destruct (O2 _ ry IY) as (AY & _). cbn [fst c_storage] in SX, SY, AX, AY.
    destruct (H1 _ _ _ AX) as [(_ & _ & Es)|(A & d' & I1 & D & Y & _ & (m' & M1' & M2'))].
    + destruct SX as (m & M1 & M2). rewrite Es in M1. cbn in M1. injection M1 as <-. specialize (M2 []). destruct d; discriminate.
    + assert (ED : d = d'). { destruct SX as (m & M1 & M2). rewrite M1 in M1'. injection M1' as <-. apply rule_at_ext. intros a. now rewrite <- M2, M2'. }
      subst d'. destruct (H2 A d word I1 D Y) as (us & s & _ & _ & _ & U).
      destruct (U _ _ AX SX) as [E1 _]. destruct (U _ _ AY SY) as [E2 _].
      assert (ER : rx = ry) by (etransitivity; [symmetry; apply pd_from_to|]; etransitivity; [|apply pd_from_to]; f_equal; exact (eq_trans E1 (eq_sym E2))).
      pose proof (O5 (transitions_once neqb g ts ND ET)) as NO. rewrite E, map_app in NO. cbn [map snd] in NO. rewrite map_app in NO. cbn [map snd] in NO. apply NoDup_remove_2 in NO. apply NO. apply in_or_app. right. apply in_or_app. right. left. now rewrite ER.
Qed.
Print Assumptions C18_recognise_partial.

(* C18: without left recursion the search ends, whatever the word; a run that has read m symbols has at most
   2 (m + (m + 1) R) + 2 steps where R bounds the ranks. *)
Theorem C18_recognise_ends_partial :
  forall (N T : Type) (K : Weight) (neqb : N -> N -> bool) (reqb : prule N T K -> prule N T K -> bool) (teqb : T -> T -> bool),
  EqbSpec neqb -> EqbSpec reqb -> EqbSpec teqb -> RoundLaws K ->
  forall (f : N -> nat) (g : pmcfg N T K), ordered_grammar f g ->
  forall (rank : N -> nat -> nat), no_left_recursion (pg_rules g) rank ->
  forall shuffle, (forall l, Permutation (shuffle l) l) ->
  forall (H : max_heap (item (tstack nat) (ts_instr nat) nat K * K) (wi_leb wleb)) (word : list T),
  (forall ts us s, pmcfg_transitions neqb g = Some ts -> executes (tsi_apply (posstate_eqb reqb)) (ts_new Initial) us s -> (forall t, In t us -> In t ts) ->
     forall R, (forall r j, In r (pg_rules g) -> j < length (pr_comp r) -> rank (pr_head r) j <= R) ->
     length us <= 2 * (length (run_word us) + (length (run_word us) + 1) * R) + 2) /\
  exists M n, tsa_from_pmcfg neqb reqb teqb g = Some M /\ recognise_ended (tsa_automaton shuffle M) H (opt_all (int_find_key teqb (ta_t M)) word) n.
Proof.
  intros N T K neqb reqb teqb NE RE TE KL f g OG rank NL shuffle SH H word.
  destruct (pmcfg_transitions_spec neqb NE f g OG) as (ts & ET & HT). split.
  - intros ts' us s ET' HE HU R HR. rewrite ET in ET'. injection ET' as <-.
    assert (TR : top g rank <= R).
    { unfold top. apply list_max_le. apply Forall_forall. intros k Hk. apply in_flat_map in Hk. destruct Hk as (r & Hr & Hk). apply in_map_iff in Hk. destruct Hk as (j & <- & Hj). apply in_seq in Hj. apply HR; [exact Hr|lia]. }
    pose proof (run_bound reqb RE f g OG rank NL us s ltac:(intros u Hu; apply HT; auto) HE (length (run_word us)) (le_n _)) as LB.
    etransitivity; [exact LB|]. apply Nat.add_le_mono_r, Nat.mul_le_mono_l, Nat.add_le_mono_l, Nat.mul_le_mono_l. exact TR.
  - set (M := tsa_new (posstate_eqb reqb) teqb ts (ts_new Initial)). exists M.
    pose proof (tsa_coded (posstate_eqb reqb) teqb (peqb_spec reqb RE) TE ts (ts_new Initial) shuffle SH) as CD.
    destruct (coded_ends _ _ _ _ _ _ _ _ _ _ _ _ _ CD KL H word (S (2 * (length word + (length word + 1) * top g rank) + 2))) as (n & HN).
    + intros us s rest HE HU HW _. split; [discriminate|]. apply le_n_S. apply (run_bound reqb RE f g OG rank NL us s); [intros u Hu; apply HT; now apply HU|exact HE|]. rewrite <- HW, app_length. apply Nat.le_add_r.
    + exists n. split; [unfold tsa_from_pmcfg; now rewrite ET|exact HN].
Qed.
Print Assumptions C18_recognise_ends_partial.

(* ---- a concrete grammar: {a^n b^n c^n d^n} ---- *)
Definition ex_vart_dec (x y : vart nat) : {x = y} + {x <> y}.
Proof. decide equality; apply Nat.eq_dec. Defined.
Definition ex_rule_dec (x y : prule nat nat CostWeight) : {x = y} + {x <> y}.
Proof. decide equality; [apply Nat.eq_dec|apply list_eq_dec, list_eq_dec, ex_vart_dec|apply list_eq_dec, Nat.eq_dec|apply Nat.eq_dec]. Defined.
Definition ex_reqb (x y : prule nat nat CostWeight) : bool := if ex_rule_dec x y then true else false.
Lemma ex_reqb_spec : EqbSpec ex_reqb.
Proof. intros x y. unfold ex_reqb. destruct (ex_rule_dec x y); split; congruence. Qed.
Lemma nat_eqb_spec : EqbSpec Nat.eqb.
Proof. intros x y. apply Nat.eqb_eq. Qed.
Notation ex_rule h t c w := (PRule (W := CostWeight) h t c w).
(* S -> [x0.0 x0.1](A);  A -> [a x0.0 b, c x0.1 d](A);  A -> [eps, eps]() *)
Definition ex_g : pmcfg nat nat CostWeight :=
  PMCFG [0] [ex_rule 0 [1] [[Var 0 0; Var 0 1]] 0; ex_rule 1 [1] [[Tm 0; Var 0 0; Tm 1]; [Tm 2; Var 0 1; Tm 3]] 1; ex_rule 1 [] [[]; []] 2].
Lemma mono_check {N T W} (r : prule N T W) (b : bool) :
  (fix chk (l : list (nat * nat)) : bool := match l with [] => true | v :: l => forallb (fun v' => negb (Nat.eqb (fst v) (fst v')) || Nat.ltb (snd v) (snd v')) l && chk l end) (variables (pr_comp r)) = true -> monotone r.
Proof.
  intros H l1 l2 l3 i j j' E. rewrite E in H. clear E. induction l1 as [|v l1 IH]; cbn [app] in H.
  - apply andb_true_iff in H. destruct H as [H _]. rewrite forallb_forall in H. specialize (H (i, j')). rewrite in_app_iff in H. specialize (H (or_intror (or_introl eq_refl))).
    cbn [fst snd] in H. rewrite Nat.eqb_refl in H. cbn in H. now apply Nat.ltb_lt.
  - apply andb_true_iff in H. destruct H as [_ H]. now apply IH.
Qed.
Ltac solve_vars := repeat match goal with
  | H : _ \/ _ |- _ => destruct H as [H|H]
  | H : False |- _ => destruct H

  | H : (_, _) = (_, _) |- _ => injection H; clear H; intros; subst
  end.
Example ex_g_ordered : ordered_grammar (fun A => if Nat.eqb A 0 then 1 else 2) ex_g /\ (forall r, In r (pg_rules ex_g) -> short_tails r).
Proof.
  split; [split; [|split; [|split]]|].
  - intros r [<-|[<-|[<-|[]]]]; reflexivity.
  - intros r Hr. split; [|split; [apply (mono_check r true)|]; destruct Hr as [<-|[<-|[<-|[]]]]; (reflexivity || discriminate)].
    destruct Hr as [<-|[<-|[<-|[]]]]; (split; [cbn; repeat constructor; cbn; intuition congruence|split]).
    1,3,5: intros i j H; cbn in H; solve_vars; exists 1; cbn; (split; [reflexivity|lia]).
    1,2: intros [|[|i]] B j H L; cbn in H; try discriminate; injection H as <-; cbn in L; (destruct j as [|[|j]]; [cbn; auto|cbn; auto|lia]).
    intros [|i] B j H; discriminate.
  - intros r B [<-|[<-|[<-|[]]]] HB; cbn in HB; solve_vars; exists (ex_rule 1 [] [[]; []] 2); cbn; auto.
  - intros A [<-|[]]. reflexivity.
  - intros r [<-|[<-|[<-|[]]]]; (split; [intros c Hc; cbn in Hc; solve_vars; subst; cbn; lia|]); intros b a pre t E; cbn in E.
    + destruct b as [|x [|y b]]; try discriminate.
    + destruct b as [|x [|y [|z b]]]; try discriminate.
    + destruct b as [|x [|y [|z b]]]; try discriminate; injection E as <-; destruct pre; discriminate.
Qed.
(* S -> [x0.0 x1.0](A, B);  A -> [a]();  B -> [b x0.0](B);  B -> [b]() *)
Definition ex_right : pmcfg nat nat CostWeight :=
  PMCFG [0] [ex_rule 0 [1;2] [[Var 0 0; Var 1 0]] 0; ex_rule 1 [] [[Tm 0]] 1; ex_rule 2 [2] [[Tm 1; Var 0 0]] 1; ex_rule 2 [] [[Tm 1]] 2].
Example C18_ends_case : ordered_grammar (fun _ => 1) ex_right /\ no_left_recursion (pg_rules ex_right) (fun A _ => if Nat.eqb A 0 then 1 else 0).
Proof.
  split; [split; [|split; [|split]]|].
  - intros r [<-|[<-|[<-|[<-|[]]]]]; reflexivity.
  - intros r Hr. split; [|split; [apply (mono_check r true)|]; destruct Hr as [<-|[<-|[<-|[<-|[]]]]]; (reflexivity || discriminate)].
    destruct Hr as [<-|[<-|[<-|[<-|[]]]]]; (split; [cbn; repeat constructor; cbn; intuition congruence|split]).
    1,3,5,7: intros i j H; cbn in H; solve_vars; eexists; cbn; (split; [reflexivity|lia]).
    1,2,3,4: intros [|[|i]] B j H L; cbn in H; try discriminate; (injection H as <- || (destruct i; discriminate)); cbn in L; (destruct j as [|j]; [cbn; auto|lia]).
  - intros r B [<-|[<-|[<-|[<-|[]]]]] HB; cbn in HB; solve_vars; subst; [exists (ex_rule 1 [] [[Tm 0]] 1)|exists (ex_rule 2 [] [[Tm 1]] 2)|exists (ex_rule 2 [] [[Tm 1]] 2)]; cbn; auto 10.
  - intros A _. reflexivity.
  - intros r j c [<-|[<-|[<-|[<-|[]]]]] E; (destruct j as [|j]; [|destruct j; discriminate]); cbn in E; injection E as <-; (split; [discriminate|]); intros i k rest B E HB; try discriminate. injection E as <- <- <-. cbn in HB. injection HB as <-. cbn. lia.
Qed.
Definition ex_gheap : max_heap (item (tstack nat) (ts_instr nat) nat CostWeight * CostWeight) (wi_leb wleb) := list_heap _ (wi_TO wleb (wl_order _ cost_laws)).
Definition ex_run (g : pmcfg nat nat CostWeight) (w : list nat) : option (option (list nat)) :=
  option_map (fun M => option_map (map (fun i => (c_weight (K:=CostWeight) (fst i) : nat))) (tsa_recognise Nat.eqb (fun l => l) M ex_gheap w 60)) (tsa_from_pmcfg Nat.eqb ex_reqb Nat.eqb g).
Example C18_case : ex_run ex_g [0;0;1;1;2;2;3;3] = Some (Some [4]) /\ ex_run ex_g [0;0;1;1;2;3;3] = Some (Some []) /\ ex_run ex_g [] = Some (Some [0; 2]).
Proof. split; [vm_compute; reflexivity|]. split; vm_compute; reflexivity. Qed.
Example C18_case_panics : pmcfg_transitions Nat.eqb (PMCFG [0] [ex_rule 0 [1] [[Var 0 0]] 0] : pmcfg nat nat CostWeight) = None.
Proof. reflexivity. Qed.

(* ---- without the side conditions the automaton and the grammar disagree ---- *)
(* The empty word is accepted whatever the grammar: the storage starts at the root and acceptance asks for nothing else. *)
Theorem C18_empty_word_accepted :
  forall (N T : Type) (K : Weight) (neqb : N -> N -> bool) (reqb : prule N T K -> prule N T K -> bool) (g : pmcfg N T K) ts,
  pmcfg_transitions neqb g = Some ts -> tsa_run reqb ts [] [] (ts_new Initial).
Proof. intros N T K neqb reqb g ts _. split; [constructor|split; [intros t []|split; reflexivity]]. Qed.
Print Assumptions C18_empty_word_accepted.

Notation ex_claim g := (exists ts, pmcfg_transitions Nat.eqb g = Some ts /\ forall w, (exists us s, tsa_run ex_reqb ts w us s) <-> exists k, pmcfg_derives g w k).
Definition ex_ended (g : pmcfg nat nat CostWeight) (w : list nat) (n : nat) : bool :=
  match tsa_from_pmcfg Nat.eqb ex_reqb Nat.eqb g with
  | Some M => match search_calls_p (heap_agenda (item_weight (K:=CostWeight)) wleb ex_gheap) (item_succs (tsa_automaton (fun l => l) M)) n
                      (heap_collect (item_weight (K:=CostWeight)) wleb ex_gheap (init_items (tsa_automaton (fun l => l) M) (opt_all (int_find_key Nat.eqb (ta_t M)) w))) with
              | Some (os, _) => existsb (fun o => match o with None => true | _ => false end) os
              | None => false
              end
  | None => false
  end.
(* a search that ends without a result: the word has no accepting run *)
Lemma ex_rejects g w n ts : pmcfg_transitions Nat.eqb g = Some ts -> ex_ended g w n = true ->
  match tsa_from_pmcfg Nat.eqb ex_reqb Nat.eqb g with Some M => match tsa_recognise Nat.eqb (fun l => l) M ex_gheap w n with Some [] => true | _ => false end | None => false end = true ->
  ~ exists us s, tsa_run ex_reqb ts w us s.
Proof.
  intros ET EN EM (us & s & HA). unfold tsa_from_pmcfg, ex_ended in *. rewrite ET in *. cbn [option_map] in *.
  destruct (C14_tsa_recognise _ nat CostWeight (posstate_eqb ex_reqb) Nat.eqb (peqb_spec ex_reqb ex_reqb_spec) nat_eqb_spec cost_laws ts (ts_new Initial) (fun l => l) (fun l => Permutation_refl l) ex_gheap w n) as (outs & O1 & _ & _ & O4 & _).
  rewrite O1 in EM. destruct outs; [|discriminate]. refine (O4 _ us s HA). unfold recognise_ended. unfold tsa_from_pmcfg in EN. rewrite ET in EN. cbn [option_map] in EN.
  destruct (search_calls_p _ _ _ _) as [[os h]|]; [|discriminate]. exists os, h. split; [reflexivity|]. apply existsb_exists in EN. destruct EN as ([?|] & HI & HE); [discriminate|assumption].
Qed.

(* S -> [a]() : the empty word is not derived *)
Theorem C18_empty_word_refuted :
  exists (f : nat -> nat) (g : pmcfg nat nat CostWeight), ordered_grammar f g /\ (forall r, In r (pg_rules g) -> short_tails r) /\ ~ ex_claim g.
Proof.
  exists (fun _ => 1), (PMCFG [0] [ex_rule 0 [] [[Tm 0]] 0]). split; [split; [|split; [|split]]|split].
  - intros r [<-|[]]. reflexivity.
  - intros r Hr. split; [|split; [apply (mono_check r true)|]; destruct Hr as [<-|[]]; (reflexivity || discriminate)]. destruct Hr as [<-|[]].
    split; [constructor|split; [intros i j []|intros [|i] B j H; discriminate]].
  - intros r B [<-|[]] [].
  - intros A _. reflexivity.
  - intros r [<-|[]]. split; [intros c [<-|[]]; cbn; lia|intros [|b [|b' before]] after pre t E; discriminate].
  - intros (ts & ET & H). destruct (proj1 (H [])) as (k & A & d & HI & HD & HY & _); [exists [], (ts_new Initial); eapply C18_empty_word_accepted; eassumption|].
    destruct d as [r ds]. apply deriv_inv in HD. destruct HD as (_ & [<-|[]] & HF). cbn in HF. inversion HF; subst. discriminate.
Qed.
Print Assumptions C18_empty_word_refuted.

(* S -> [a b]() : of two terminals at the end of a component only the last is read, so b is accepted and a b is not *)
Definition ex_ab : pmcfg nat nat CostWeight := PMCFG [0] [ex_rule 0 [] [[Tm 0; Tm 1]] 0].
Theorem C18_trailing_terminals_refuted :
  exists f, ordered_grammar f ex_ab /\ exists ts, pmcfg_transitions Nat.eqb ex_ab = Some ts /\
    (exists us s, tsa_run ex_reqb ts [1] us s) /\ ~ (exists k, pmcfg_derives ex_ab [1] k) /\
    (exists k, pmcfg_derives ex_ab [0; 1] k) /\ ~ (exists us s, tsa_run ex_reqb ts [0; 1] us s).
Proof.
  assert (OG : ordered_grammar (fun _ => 1) ex_ab).
  { split; [|split; [|split]].
    - intros r [<-|[]]. reflexivity.
    - intros r Hr. split; [|split; [apply (mono_check r true)|]; destruct Hr as [<-|[]]; (reflexivity || discriminate)]. destruct Hr as [<-|[]].
      split; [constructor|split; [intros i j []|intros [|i] B j H; discriminate]].
    - intros r B [<-|[]] [].
    - intros A _. reflexivity. }
  assert (D : deriv (fun r => In r (pg_rules ex_ab)) 0 (DNode (ex_rule 0 [] [[Tm 0; Tm 1]] 0) [])) by (apply (deriv_node (fun r => In r (pg_rules ex_ab)) (ex_rule 0 [] [[Tm 0; Tm 1]] 0) []); [now left|constructor]).
  assert (U : forall A d, deriv (fun r => In r (pg_rules ex_ab)) A d -> d = DNode (ex_rule 0 [] [[Tm 0; Tm 1]] 0) []).
  { intros A [r ds] HD. apply deriv_inv in HD. destruct HD as (_ & [<-|[]] & HF). cbn in HF. now inversion HF. }
  exists (fun _ => 1). split; [exact OG|]. destruct (C18_runs_partial nat nat CostWeight Nat.eqb ex_reqb nat_eqb_spec ex_reqb_spec cost_laws _ _ OG) as (ts & ET & H1 & H2).
  exists ts. split; [exact ET|]. split; [|split; [|split]].
  - destruct (H2 0 _ [1] (or_introl eq_refl) D eq_refl) as (us & s & HA & _). eauto.
  - intros (k & A & d & _ & HD & HY & _). rewrite (U A d HD) in HY. discriminate.
  - exists 0, 0, (DNode (ex_rule 0 [] [[Tm 0; Tm 1]] 0) []). repeat split; auto. now left.
  - intros (us & s & HA). destruct (H1 _ _ _ HA) as [(E & _)|(A & d & _ & HD & HY & _)]; [discriminate|]. rewrite (U A d HD) in HY. discriminate.
Qed.
Print Assumptions C18_trailing_terminals_refuted.

(* S -> [x0.0](A) where A has no rule: the conversion panics *)
Theorem C18_undefined_nonterminal_refuted :
  exists g : pmcfg nat nat CostWeight, (forall w k, ~ pmcfg_derives g w k) /\ tsa_from_pmcfg Nat.eqb ex_reqb Nat.eqb g = None.
Proof.
  exists (PMCFG [0] [ex_rule 0 [1] [[Var 0 0]] 0]). split; [|reflexivity].
  intros w k (A & [r ds] & _ & HD & _). apply deriv_inv in HD. destruct HD as (_ & [<-|[]] & HF). inversion HF as [|B d ? ? HD]; subst. destruct d as [r ds']. apply deriv_inv in HD.
  destruct HD as (E & [<-|[]] & _). discriminate.
Qed.
Print Assumptions C18_undefined_nonterminal_refuted.

(* S -> [x0.1 x0.0](A);  A -> [x0.0, x0.1](B);  B -> [a, b]() : the components of A are used in the wrong order *)
Definition ex_swap : pmcfg nat nat CostWeight :=
  PMCFG [0] [ex_rule 0 [1] [[Var 0 1; Var 0 0]] 0; ex_rule 1 [2] [[Var 0 0]; [Var 0 1]] 0; ex_rule 2 [] [[Tm 0]; [Tm 1]] 0].
Definition ex_swap_d : dtree nat nat CostWeight :=
  DNode (ex_rule 0 [1] [[Var 0 1; Var 0 0]] 0) [DNode (ex_rule 1 [2] [[Var 0 0]; [Var 0 1]] 0) [DNode (ex_rule 2 [] [[Tm 0]; [Tm 1]] 0) []]].
Theorem C18_unordered_refuted :
  (exists f, fanouts_ok (pg_rules ex_swap) f /\ (forall r, In r (pg_rules ex_swap) -> lcfrs_rule f r)) /\
  (exists k, pmcfg_derives ex_swap [1; 0] k) /\
  exists ts, pmcfg_transitions Nat.eqb ex_swap = Some ts /\ ~ exists us s, tsa_run ex_reqb ts [1; 0] us s.
Proof.
  split; [|split].
  - exists (fun A => if Nat.eqb A 0 then 1 else 2). split; [intros r [<-|[<-|[<-|[]]]]; reflexivity|].
    intros r [<-|[<-|[<-|[]]]]; (split; [cbn; repeat constructor; cbn; intuition congruence|split]).
    + intros i j H. cbn in H. solve_vars; exists 1; cbn; auto.
    + intros [|[|i]] B j H L; cbn in H; try discriminate; injection H as <-; cbn in L. destruct j as [|[|j]]; [cbn; auto|cbn; auto|lia].
    + intros i j H. cbn in H. solve_vars; exists 2; cbn; auto.
    + intros [|[|i]] B j H L; cbn in H; try discriminate; injection H as <-; cbn in L. destruct j as [|[|j]]; [cbn; auto|cbn; auto|lia].
    + intros i j [].
    + intros [|i] B j H; discriminate.
  - exists 0, 0, ex_swap_d. split; [now left|]. split; [|split; reflexivity].
    apply (deriv_node (fun r => In r (pg_rules ex_swap)) (ex_rule 0 [1] [[Var 0 1; Var 0 0]] 0)); [cbn; auto|constructor; [|constructor]].
    apply (deriv_node (fun r => In r (pg_rules ex_swap)) (ex_rule 1 [2] [[Var 0 0]; [Var 0 1]] 0)); [cbn; auto|constructor; [|constructor]].
    apply (deriv_node (fun r => In r (pg_rules ex_swap)) (ex_rule 2 [] [[Tm 0]; [Tm 1]] 0)); [cbn; auto|constructor].
  - destruct (pmcfg_transitions Nat.eqb ex_swap) as [ts|] eqn:ET; [|vm_compute in ET; discriminate]. exists ts. split; [reflexivity|]. apply (ex_rejects ex_swap [1; 0] 60); [exact ET|vm_compute; reflexivity|vm_compute; reflexivity].
Qed.
Print Assumptions C18_unordered_refuted.

(* S -> [x0.0 x0.0](A);  A -> [x0.0](B);  B -> [a]() : a component is used twice *)
Definition ex_copy : pmcfg nat nat CostWeight :=
  PMCFG [0] [ex_rule 0 [1] [[Var 0 0; Var 0 0]] 0; ex_rule 1 [2] [[Var 0 0]] 0; ex_rule 2 [] [[Tm 0]] 0].
Theorem C18_copying_refuted :
  (exists k, pmcfg_derives ex_copy [0; 0] k) /\
  exists ts, pmcfg_transitions Nat.eqb ex_copy = Some ts /\ ~ exists us s, tsa_run ex_reqb ts [0; 0] us s.
Proof.
  split.
  - exists 0, 0, (DNode (ex_rule 0 [1] [[Var 0 0; Var 0 0]] 0) [DNode (ex_rule 1 [2] [[Var 0 0]] 0) [DNode (ex_rule 2 [] [[Tm 0]] 0) []]]). split; [now left|]. split; [|split; reflexivity].
    apply (deriv_node (fun r => In r (pg_rules ex_copy)) (ex_rule 0 [1] [[Var 0 0; Var 0 0]] 0)); [cbn; auto|constructor; [|constructor]].
    apply (deriv_node (fun r => In r (pg_rules ex_copy)) (ex_rule 1 [2] [[Var 0 0]] 0)); [cbn; auto|constructor; [|constructor]].
    apply (deriv_node (fun r => In r (pg_rules ex_copy)) (ex_rule 2 [] [[Tm 0]] 0)); [cbn; auto|constructor].
  - destruct (pmcfg_transitions Nat.eqb ex_copy) as [ts|] eqn:ET; [|vm_compute in ET; discriminate]. exists ts. split; [reflexivity|]. apply (ex_rejects ex_copy [0; 0] 60); [exact ET|vm_compute; reflexivity|vm_compute; reflexivity].
Qed.
Print Assumptions C18_copying_refuted.

(* S -> [a](A);  A -> [a](A) : the automaton never visits the successor that is not used, and A derives nothing *)
Definition ex_del : pmcfg nat nat CostWeight := PMCFG [0] [ex_rule 0 [1] [[Tm 0]] 0; ex_rule 1 [1] [[Tm 0]] 0].
Theorem C18_deleting_refuted :
  (forall w k, ~ pmcfg_derives ex_del w k) /\
  exists ts, pmcfg_transitions Nat.eqb ex_del = Some ts /\ exists us s, tsa_run ex_reqb ts [0] us s.
Proof.
  assert (NA : forall d, ~ deriv (fun r => In r (pg_rules ex_del)) 1 d).
  { induction d as [r ts IH] using dtree_ind2. intros HD. apply deriv_inv in HD. destruct HD as (E & [<-|[<-|[]]] & HF); [discriminate|]. inversion HF as [|B d ? ? HB]; subst. inversion IH; subst; contradiction. }
  split.
  - intros w k (A & [r ds] & [<-|[]] & HD & _). apply deriv_inv in HD. destruct HD as (E & [<-|[<-|[]]] & HF); [|discriminate]. inversion HF as [|B d ? ? HB]; subst. exact (NA _ HB).
  - destruct (pmcfg_transitions Nat.eqb ex_del) as [ts|] eqn:ET; [|vm_compute in ET; discriminate]. exists ts. split; [reflexivity|]. vm_compute in ET. injection ET as <-.
    exists [Trans [] (0 : CostWeight) (IPush 0 Initial (Position (ex_rule 0 [1] [[Tm 0]] 0) 0 0)); Trans [0] (0 : CostWeight) (IDown (Position (ex_rule 0 [1] [[Tm 0]] 0) 0 0) Initial Designated)].
    exists (TStack None Designated [Some (TStack None (Position (ex_rule 0 [1] [[Tm 0]] 0) 0 0) [])]). split; [|split; [|split; reflexivity]].
    + eapply ex_cons; [left; reflexivity|]. eapply ex_cons; [left; reflexivity|]. constructor.
    + intros t [<-|[<-|[]]]; cbn; auto.
Qed.
Print Assumptions C18_deleting_refuted.

(* With a left-recursive rule for an initial nonterminal the search never ends, for any word whose symbols the automaton knows
   (if it does not know one of them, there is nothing to search). *)
Theorem C18_left_recursion_never_ends :
  forall (N T : Type) (K : Weight) (neqb : N -> N -> bool) (reqb : prule N T K -> prule N T K -> bool) (teqb : T -> T -> bool),
  EqbSpec neqb -> EqbSpec reqb -> EqbSpec teqb -> RoundLaws K ->
  forall (f : N -> nat) (g : pmcfg N T K), ordered_grammar f g ->
  forall (r : prule N T K) i rest cs, In r (pg_rules g) -> In (pr_head r) (pg_initial g) -> pr_comp r = (Var i 0 :: rest) :: cs -> nth_error (pr_tail r) i = Some (pr_head r) ->
  exists ts M, pmcfg_transitions neqb g = Some ts /\ tsa_from_pmcfg neqb reqb teqb g = Some M /\
    forall word, (forall x, In x word -> exists t, In t ts /\ In x (t_word t)) ->
    forall shuffle, (forall l, Permutation (shuffle l) l) ->
    forall (H : max_heap (item (tstack nat) (ts_instr nat) nat K * K) (wi_leb wleb)) n,
    ~ recognise_ended (tsa_automaton shuffle M) H (opt_all (int_find_key teqb (ta_t M)) word) n.
Proof.
  intros N T K neqb reqb teqb NE RE TE KL f g OG r i rest cs Hr Hh Hc Ht.
  destruct (pmcfg_transitions_spec neqb NE f g OG) as (ts & ET & HT). exists ts, (tsa_new (posstate_eqb reqb) teqb ts (ts_new Initial)). split; [exact ET|]. split; [unfold tsa_from_pmcfg; now rewrite ET|].
  intros word KW shuffle SH H n. pose proof (tsa_coded (posstate_eqb reqb) teqb (peqb_spec reqb RE) TE ts (ts_new Initial) shuffle SH) as CD.
  apply (coded_never_ends _ _ _ _ _ _ _ _ _ _ _ _ _ CD KL H word n).
  - intros x Hx. destruct (KW x Hx) as (t & Ht' & Hxt). destruct (tsa_new_spec (posstate_eqb reqb) teqb (peqb_spec reqb RE) TE ts (ts_new Initial)) as (_ & _ & KT & _). exact (proj2 (KT t Ht') x Hxt).
  - set (e := enter r 0 0 [] None i 0 r : transition (ts_instr (posstate (prule N T K))) T K).
    assert (G : forall d, exists s, executes (tsi_apply (posstate_eqb reqb)) (ts_new Initial) (ipush r :: repeat e d) s /\ ts_value s = Position r 0 0 /\ ts_children s = []).
    { induction d as [|d (s & E & V & C)].
      - eexists. split; [eapply ex_cons; [left; reflexivity|constructor]|]. split; reflexivity.
      - exists (TStack (Some (i, ts_fill s i)) (Position r 0 0) []). split; [|split; reflexivity].
        replace (ipush r :: repeat e (S d)) with ((ipush r :: repeat e d) ++ [e]) by (cbn; f_equal; now rewrite <- repeat_cons).
        apply executes_snoc. exists s. split; [exact E|]. unfold e. cbn [enter t_ins tsi_apply]. unfold ts_current_symbol. rewrite V. rewrite (proj2 (peqb_spec reqb RE _ _) eq_refl).
        unfold ts_push, ts_push_p. assert (EF : ts_children (ts_fill s i) = repeat None (i + 1)) by (unfold ts_fill; rewrite C; cbn; now rewrite Nat.sub_0_r). rewrite EF. rewrite nth_error_repeat by lia. now left. }
    assert (W0 : forall d, run_word (repeat e d) = []) by (induction d; cbn; auto).
    intros [|d].
    + exists [], (ts_new Initial), word. repeat split; try constructor; intros t [].
    + destruct (G d) as (s & E & _). exists (ipush r :: repeat e d), s, word. split; [exact E|]. split; [|split].
      * intros t Ht'. apply HT. destruct Ht' as [<-|Ht']; [left; exists r; cbn; auto|]. apply repeat_spec in Ht'. subst t. right. exists r, 0, 0, [], i, 0, r. split; [exact Hr|]. split; [unfold at_var; rewrite Hc; reflexivity|]. auto.
      * unfold run_word in *. cbn [flat_map ipush t_word app]. rewrite W0. reflexivity.
      * cbn. now rewrite repeat_length.
Qed.
Print Assumptions C18_left_recursion_never_ends.

(* S -> [x0.0 x1.0](S, B);  S -> [a]();  B -> [b]() : the search for the word b, which is not derived, never ends *)
Definition ex_left : pmcfg nat nat CostWeight := PMCFG [0] [ex_rule 0 [0;1] [[Var 0 0; Var 1 0]] 0; ex_rule 0 [] [[Tm 0]] 0; ex_rule 1 [] [[Tm 1]] 0].
Theorem C18_left_recursion_refuted :
  exists f, ordered_grammar f ex_left /\ (forall r, In r (pg_rules ex_left) -> short_tails r) /\ (forall k, ~ pmcfg_derives ex_left [1] k) /\
  exists M, tsa_from_pmcfg Nat.eqb ex_reqb Nat.eqb ex_left = Some M /\
  forall shuffle, (forall l, Permutation (shuffle l) l) ->
  forall (H : max_heap (item (tstack nat) (ts_instr nat) nat CostWeight * CostWeight) (wi_leb wleb)) n,
  ~ recognise_ended (tsa_automaton shuffle M) H (opt_all (int_find_key Nat.eqb (ta_t M)) [1]) n.
Proof.
  assert (OG : ordered_grammar (fun _ => 1) ex_left).
  { split; [|split; [|split]].
    - intros r [<-|[<-|[<-|[]]]]; reflexivity.
    - intros r Hr. split; [|split; [apply (mono_check r true)|]; destruct Hr as [<-|[<-|[<-|[]]]]; (reflexivity || discriminate)].
      destruct Hr as [<-|[<-|[<-|[]]]]; (split; [cbn; repeat constructor; cbn; intuition congruence|split]).
      1,3,5: intros i j H; cbn in H; solve_vars; eexists; cbn; (split; [reflexivity|lia]).
      1,2,3: intros [|[|i]] B j H L; cbn in H; try discriminate; (injection H as <- || (destruct i; discriminate)); cbn in L; (destruct j as [|j]; [cbn; auto|lia]).
    - intros r B [<-|[<-|[<-|[]]]] HB; cbn in HB; solve_vars; subst; [exists (ex_rule 0 [] [[Tm 0]] 0)|exists (ex_rule 1 [] [[Tm 1]] 0)]; cbn; auto.
    - intros A _. reflexivity. }
  exists (fun _ => 1). split; [exact OG|]. split; [|split].
  - intros r [<-|[<-|[<-|[]]]]; (split; [intros c Hc; cbn in Hc; solve_vars; subst; cbn; lia|]); intros b a pre t E; cbn in E; destruct b as [|x [|y b]]; discriminate.
  - assert (G : forall d ws, deriv (fun r => In r (pg_rules ex_left)) 0 d -> yield d = Some ws -> exists w, ws = [0 :: w]).
    { induction d as [r ds IH] using dtree_ind2. intros ws HD HY. apply deriv_inv in HD. destruct HD as (E & HR & HF). cbn [yield] in HY.
      destruct HR as [<-|[<-|[<-|[]]]]; [| |discriminate].
      - cbn [pr_tail] in HF. inversion HF as [|B d1 ? l1 D1 F1]; subst. inversion F1 as [|B2 d2 ? l2 D2 F2]; subst. inversion F2; subst. cbn [pr_comp map opt_all nth_error option_map] in HY. destruct (yield d1) as [w1|] eqn:Y1; [|cbn in HY; discriminate].
        rewrite Forall_forall in IH. destruct (IH d1 (or_introl eq_refl) w1 D1 Y1) as (w & ->). destruct (yield d2) as [w2|]; [|cbn in HY; discriminate]. destruct w2 as [|x w2]; [cbn in HY; discriminate|]. cbn in HY. injection HY as <-. eexists. reflexivity.
      - cbn in HY. injection HY as <-. exists []. reflexivity. }
    intros k (A & d & [<-|[]] & HD & HY & _). destruct (G d _ HD HY) as (w & E). discriminate.
  - set (r0 := ex_rule 0 [0;1] [[Var 0 0; Var 1 0]] 0 : prule nat nat CostWeight).
    destruct (C18_left_recursion_never_ends nat nat CostWeight Nat.eqb ex_reqb Nat.eqb nat_eqb_spec ex_reqb_spec nat_eqb_spec cost_laws _ ex_left OG r0 0 [Var 1 0] [] (or_introl eq_refl) (or_introl eq_refl) eq_refl eq_refl) as (ts & M & ET & EM & HE).
    exists M. split; [exact EM|]. apply HE. intros x [<-|[]]. assert (EX : existsb (fun t => existsb (Nat.eqb 1) (t_word t)) ts = true) by (vm_compute in ET; injection ET as <-; reflexivity).
    apply existsb_exists in EX. destruct EX as (t & Ht & Hx). apply existsb_exists in Hx. destruct Hx as (y & Hy & E). apply Nat.eqb_eq in E. subst y. eauto.
Qed.
Print Assumptions C18_left_recursion_refuted.
