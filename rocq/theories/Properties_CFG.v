(* C16: the pushdown automaton of a context-free grammar. *)
From Verif Require Import Base M_Agenda M_Search M_Util M_Recog M_Automata M_CFG S_Search S_Util S_Recog S_Automata S_CFG
  P_Agenda P_Search P_Util P_Recog P_Automata P_PDA P_CFG Properties_Automata.
Arguments Nat.ltb : simpl never.

(* C16, language: for every grammar the automaton exists, recognition never panics, and a word is accepted precisely if
   the grammar derives it. *)
Theorem C16_cfg_pda_language :
  forall (N T : Type) (K : Weight) (neqb : N -> N -> bool) (teqb : T -> T -> bool), EqbSpec neqb -> EqbSpec teqb -> RoundLaws K ->
  forall (wadd : K -> K -> K) (wzero : K) (order : list T -> list T), (forall l, Permutation (order l) l) ->
  forall g : cfg N T K,
  exists M, pda_from_cfg teqb wadd wzero neqb order g = Some M /\
  forall shuffle, (forall l, Permutation (shuffle l) l) ->
  forall H (word : list T),
    (forall n, exists outs, pda_recognise teqb shuffle M H word n = Some outs /\
       (outs <> [] -> cfg_language g word) /\
       (recognise_ended (pda_automaton shuffle M) H (opt_all (int_find_key teqb (pa_t M)) word) n ->
          cfg_language g word -> outs <> [])) /\
    (forall H' beam n outs, pda_recognise_beam teqb shuffle M H' beam word n = Some outs -> outs <> [] -> cfg_language g word).
Proof.
  intros N T K neqb teqb NE TE KL wadd wzero order OR g.
  pose proof (ps_eqb_spec neqb teqb NE TE) as PE.
  destruct (proj2 (pda_new_defined wadd wzero (ps_eqb neqb teqb) teqb PE TE (cfg_transitions teqb order g) [Designated; Initial])) as [M HM].
  { intros t Ht. eapply Ts_current; eauto. }
  exists M. split; [exact HM|]. intros shuffle SH H word. split.
  - intros n. destruct (C14_pda_recognise _ _ K wadd wzero (ps_eqb neqb teqb) teqb PE TE KL _ _ shuffle SH M HM H word n) as [C D].
    destruct D as [outs E].
    { intros us s rest X1 X2 _. destruct (cfg_stack_bottom neqb teqb NE TE order OR g wadd wzero us _ _ X1 X2) as [r ->]; [eauto|discriminate]. }
    exists outs. split; [exact E|]. destruct (C outs E) as (S1 & _ & S3 & _). split.
    + intros NEo. destruct outs as [|[c r] outs]; [congruence|]. destruct (S1 c r (or_introl eq_refl)) as [A _].
      eapply (cfg_pda_language neqb teqb NE TE order OR g wadd wzero). eauto.
    + intros EN L Z. subst outs. eapply (cfg_pda_language neqb teqb NE TE order OR g wadd wzero) in L. destruct L as (ts & s & A).
      apply (S3 EN ts s A).
  - intros H' beam n outs E NEo.
    pose proof (C14_pda_recognise_beam _ _ K wadd wzero (ps_eqb neqb teqb) teqb PE TE KL _ _ shuffle SH M HM H' beam word n outs E) as S1.
    destruct outs as [|[c r] outs]; [congruence|]. destruct (S1 c r (or_introl eq_refl)) as [A _].
    eapply (cfg_pda_language neqb teqb NE TE order OR g wadd wzero). eauto.
Qed.
Print Assumptions C16_cfg_pda_language.

(* C16, derivations: if no two rules coincide up to weight (and no initial nonterminal is listed twice), the returned items
   are precisely the leftmost derivations, each once, with the derivation's weight. *)
Theorem C16_cfg_pda_derivations :
  forall (N T : Type) (K : Weight) (neqb : N -> N -> bool) (teqb : T -> T -> bool), EqbSpec neqb -> EqbSpec teqb -> RoundLaws K ->
  forall (wadd : K -> K -> K) (wzero : K), (forall x, wadd wzero x = x) ->
  forall (order : list T -> list T), (forall l, Permutation (order l) l) ->
  forall g : cfg N T K, cfg_distinct g ->
  exists M, pda_from_cfg teqb wadd wzero neqb order g = Some M /\
  forall shuffle, (forall l, Permutation (shuffle l) l) ->
  forall H (word : list T) n,
  (* the item that stands for a leftmost derivation from initial nonterminal s *)
  let result s (ds : list (cfg_rule N T K)) :=
    (Conf [] [Designated] (derivation_weight ds), pd_from (init_trans s :: derivation_run ds [Label s])) in
  let derivation s ds := In s (cg_initial g) /\ leftmost (fun r => In r (cg_rules g)) [Label s] ds word in
  (* different derivations have different items *)
  (forall s ds s' ds', derivation s ds -> derivation s' ds' -> result s ds = result s' ds' -> s = s' /\ ds = ds') /\
  exists outs, pda_recognise teqb shuffle M H word n = Some outs /\
    (forall o, In o outs -> exists s ds, derivation s ds /\ o = result s ds) /\
    NoDup outs /\
    ((forall r, In r (cg_rules g) -> wleb (cr_weight r) wone = true) ->
       forall before y after, outs = before ++ y :: after ->
         (forall x, In x before -> wleb (item_weight y) (item_weight x) = true) /\
         (forall s ds, derivation s ds -> wleb (derivation_weight ds) (item_weight y) = false -> In (result s ds) before)) /\
    (recognise_ended (pda_automaton shuffle M) H (opt_all (int_find_key teqb (pa_t M)) word) n ->
       forall s ds, derivation s ds -> In (result s ds) outs).
Proof.
  intros N T K neqb teqb NE TE KL wadd wzero WZ order OR g DI.
  pose proof (ps_eqb_spec neqb teqb NE TE) as PE.
  destruct (proj2 (pda_new_defined wadd wzero (ps_eqb neqb teqb) teqb PE TE (cfg_transitions teqb order g) [Designated; Initial])) as [M HM].
  { intros t Ht. eapply Ts_current; eauto. }
  exists M. split; [exact HM|]. intros shuffle SH H word n result derivation.
  assert (ME : forall t, merged wadd wzero (ps_eqb neqb teqb) teqb (cfg_transitions teqb order g) t <-> In t (cfg_transitions teqb order g)).
  { apply (merged_distinct teqb TE (ps_eqb neqb teqb) PE wadd wzero WZ). eapply cfg_transitions_distinct; eauto. }
  assert (WT : forall s ds, derivation s ds -> run_weight (init_trans s :: derivation_run ds [Label s]) = derivation_weight ds).
  { intros s ds [_ L]. exact (init_run_weight KL _ _ _ _ s L). }
  assert (ACC : forall ts s, accepting_run (pdi_apply (ps_eqb neqb teqb)) [Designated; Initial]
     (merged wadd wzero (ps_eqb neqb teqb) teqb (cfg_transitions teqb order g)) (fun s => length s = 1) word ts s <->
     exists n0 ds, derivation n0 ds /\ ts = init_trans n0 :: derivation_run ds [Label n0] /\ s = [Designated]).
  { intros ts s. transitivity (accepting_run (pdi_apply (ps_eqb neqb teqb)) [Designated; Initial]
       (fun t => In t (cfg_transitions teqb order g)) (fun s => length s = 1) word ts s).
    - unfold accepting_run. split; intros (A1 & A2 & A3 & A4); (split; [|split; [|split]]); auto; intros t Ht; apply ME; auto.
    - rewrite (cfg_runs neqb teqb NE TE order OR g). unfold derivation. split; [intros (n0 & ds & B1 & B2 & B3 & B4)|intros (n0 & ds & [B1 B2] & B3 & B4)]; exists n0, ds; auto. }
  split.
  { intros s ds s' ds' [D1 L1] [D2 L2] E. unfold result in E.
    assert (E1 : pd_from (init_trans s :: derivation_run ds [Label s]) = pd_from (init_trans s' :: derivation_run ds' [Label s'])) by congruence.
    apply (f_equal pd_to_vec) in E1. rewrite !pd_to_from in E1.
    assert (Es : init_trans (T:=T) (K:=K) s = init_trans s') by congruence. unfold init_trans in Es.
    assert (s = s') by congruence. subst s'. split; [reflexivity|]. eapply derivation_run_inj; [exact L1|exact L2|congruence]. }
  destruct (C14_pda_recognise _ _ K wadd wzero (ps_eqb neqb teqb) teqb PE TE KL _ _ shuffle SH M HM H word n) as [C D].
  destruct D as [outs E].
  { intros us s rest X1 X2 _. destruct (cfg_stack_bottom neqb teqb NE TE order OR g wadd wzero us _ _ X1 X2) as [r ->]; [eauto|discriminate]. }
  exists outs. split; [exact E|]. destruct (C outs E) as (S1 & S2 & S3 & S4 & _).
  assert (RES : forall s ds, derivation s ds -> (Conf [] [Designated] (run_weight (init_trans s :: derivation_run ds [Label s])), pd_from (init_trans s :: derivation_run ds [Label s])) = result s ds).
  { intros s ds D. unfold result. now rewrite WT. }
  split; [|split; [|split]].
  - intros [c r] Ho. destruct (S1 c r Ho) as (A & B1 & B2). apply ACC in A. destruct A as (s & ds & D & Er & Es).
    exists s, ds. split; [assumption|]. rewrite <- RES by assumption. rewrite <- Er, <- B2, pd_from_to. f_equal.
    destruct c as [cw cs ck]. cbn in *. now subst.
  - eapply NoDup_map_inv. exact S4.
  - intros LE before y after Eo. destruct (S2 ltac:(intros t Ht; apply ME in Ht; apply (Ts_In teqb TE order OR) in Ht;
      destruct Ht as [(r & Hr & ->)|[(x & _ & ->)|(s & _ & ->)]]; cbn; [auto|apply (wleb_refl KL)|apply (wleb_refl KL)]) before y after Eo) as [Q1 Q2].
    split; [exact Q1|]. intros s ds D L. rewrite <- RES by assumption. apply Q2; [apply ACC; exists s, ds; auto|]. now rewrite WT.
  - intros EN s ds D. rewrite <- RES by assumption. apply (S3 EN). apply ACC. exists s, ds. auto.
Qed.
Print Assumptions C16_cfg_pda_derivations.

(* S -> a S b | a b, with weights *)
Definition ex_cfg : cfg nat nat CostWeight := CFG [0]
  [CFGRule (K:=CostWeight) 0 [Value 10; Label 0; Value 11] 1; CFGRule (K:=CostWeight) 0 [Value 10; Value 11] 2].
Example ex_cfg_run :
  cfg_distinct ex_cfg /\ cfg_language ex_cfg [10;10;11;11] /\ (forall x, Nat.add 0 x = x) /\
  exists M, pda_from_cfg Nat.eqb (Nat.add : CostWeight -> _ -> CostWeight) 0 Nat.eqb (fun l => l) ex_cfg = Some M /\
    option_map (map item_weight) (pda_recognise Nat.eqb (fun l => l) M ex_pda_heap [10;10;11;11] 30) = Some [3 : CostWeight] /\
    pda_recognise Nat.eqb (fun l => l) M ex_pda_heap [10;11;11] 30 = Some [].
Proof.
  split; [split; repeat first [apply NoDup_nil | apply NoDup_cons; [cbn; intuition discriminate|]]|]. split.
  - exists 0. split; [now left|]. eapply der_step.
    + exists [], [], (CFGRule (K:=CostWeight) 0 [Value 10; Label 0; Value 11] 1). cbn. auto.
    + eapply der_step; [|apply der_refl]. exists [Value 10], [Value 11], (CFGRule (K:=CostWeight) 0 [Value 10; Value 11] 2). cbn. auto.
  - split; [reflexivity|]. eexists. split; [vm_compute; reflexivity|]. split; vm_compute; reflexivity.
Qed.
