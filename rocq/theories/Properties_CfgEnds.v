(* C16, continued: when the search with the pushdown automaton of a context-free grammar ends, and what a beam search finds. *)
From Verif Require Import Base M_Agenda M_Search M_Util M_Recog M_Automata M_CFG S_Search S_Util S_Recog S_Automata S_CFG
  P_Agenda P_Search P_Util P_Recog P_Automata P_PDA P_CFG P_Beam P_CfgEnds P_FromPmcfg5 Properties_Automata Properties_CFG Properties_Beam.
Arguments Nat.ltb : simpl never.

(* C16, end: without left recursion, every search ends, with and without a beam; the exhaustive search then decides whether the
   grammar derives the word. *)
Theorem C16_cfg_ends :
  forall (N T : Type) (K : Weight) (neqb : N -> N -> bool) (teqb : T -> T -> bool), EqbSpec neqb -> EqbSpec teqb -> RoundLaws K ->
  forall (wadd : K -> K -> K) (wzero : K) (order : list T -> list T), (forall l, Permutation (order l) l) ->
  forall (g : cfg N T K) rank, cfg_no_left_recursion (cg_rules g) rank ->
  exists M, pda_from_cfg teqb wadd wzero neqb order g = Some M /\
  forall shuffle, (forall l, Permutation (shuffle l) l) ->
  forall H H' beam (word : list T),
    let known := opt_all (int_find_key teqb (pa_t M)) word in
    (exists n outs, recognise_ended (pda_automaton shuffle M) H known n /\ pda_recognise teqb shuffle M H word n = Some outs /\ (outs <> [] <-> cfg_language g word)) /\
    (exists n outs, recognise_beam_ended (pda_automaton shuffle M) H' beam known n /\ pda_recognise_beam teqb shuffle M H' beam word n = Some outs /\ (outs <> [] -> cfg_language g word)).
Proof.
  intros N T K neqb teqb NE TE KL wadd wzero order OR g rank NL. pose proof (ps_eqb_spec neqb teqb NE TE) as PE.
  destruct (C16_cfg_pda_language N T K neqb teqb NE TE KL wadd wzero order OR g) as (M & HM & HL). exists M. split; [exact HM|]. intros shuffle SH H H' beam word known.
  destruct (HL shuffle SH H word) as [L1 L2]. unfold pda_from_cfg in HM.
  destruct (all_bounded neqb teqb NE TE order OR g rank NL wadd wzero word) as (bound & HB).
  assert (NZ : forall us s rest, executes (pdi_apply (ps_eqb neqb teqb)) [Designated; Initial] us s -> (forall t, In t us -> merged wadd wzero (ps_eqb neqb teqb) teqb (cfg_transitions teqb order g) t) -> run_word us ++ rest = word -> s <> []).
  { intros us s rest X1 X2 _. destruct (cfg_stack_bottom neqb teqb NE TE order OR g wadd wzero us _ _ X1 X2) as [r ->]; [eauto|discriminate]. }
  split.
  - destruct (coded_ends _ _ _ _ _ _ _ _ _ _ _ _ _ (pda_coded wadd wzero _ teqb PE TE _ _ shuffle SH M HM) KL H word bound) as (n & EN).
    { intros us s rest X1 X2 X3 _. split.
      - apply (pda_key_ok (K := K)). cbn. specialize (NZ us s rest X1 X2 X3). destruct s as [|y s]; [congruence|]. intros Z. inversion Z.
      - apply HB. exists s, rest. auto. }
    destruct (L1 n) as (outs & E & A & B). exists n, outs. split; [exact EN|]. split; [exact E|]. split; [exact A|]. intros L. now apply B.
  - destruct (C14_pda_beam_search _ _ K wadd wzero _ teqb PE TE KL _ _ shuffle SH M HM H' beam word) as [_ D]. destruct (D NZ) as [D1 D2]. destruct (D2 bound HB) as (n & EN). destruct (D1 n) as (outs & E).
    exists n, outs. split; [apply EN; lia|]. split; [exact E|]. exact (L2 H' beam n outs E).
Qed.
Print Assumptions C16_cfg_ends.

(* Not more than that: with left recursion that can be reached from an initial nonterminal, the exhaustive search never ends,
   whatever the word (of symbols that occur in the grammar). *)
Theorem C16_left_recursion_never_ends :
  forall (N T : Type) (K : Weight) (neqb : N -> N -> bool) (teqb : T -> T -> bool), EqbSpec neqb -> EqbSpec teqb -> RoundLaws K ->
  forall (wadd : K -> K -> K) (wzero : K) (order : list T -> list T), (forall l, Permutation (order l) l) ->
  forall (g : cfg N T K) s k A j, In s (cg_initial g) -> leads (cg_rules g) s k A -> leads (cg_rules g) A (S j) A ->
  exists M, pda_from_cfg teqb wadd wzero neqb order g = Some M /\
  forall shuffle, (forall l, Permutation (shuffle l) l) ->
  forall H (word : list T), (forall x, In x word -> exists r, In r (cg_rules g) /\ In (Value x) (cr_rhs r)) ->
  forall n, ~ recognise_ended (pda_automaton shuffle M) H (opt_all (int_find_key teqb (pa_t M)) word) n.
Proof.
  intros N T K neqb teqb NE TE KL wadd wzero order OR g s k A j Hs L1 L2. pose proof (ps_eqb_spec neqb teqb NE TE) as PE.
  destruct (C16_cfg_pda_language N T K neqb teqb NE TE KL wadd wzero order OR g) as (M & HM & _). exists M. split; [exact HM|]. intros shuffle SH H word HW n. unfold pda_from_cfg in HM.
  apply (coded_never_ends _ _ _ _ _ _ _ _ _ _ _ _ _ (pda_coded wadd wzero _ teqb PE TE _ _ shuffle SH M HM) KL).
  - intros x Hx. destruct (HW x Hx) as (r & Hr & Hv). destruct (pda_new_spec wadd wzero (ps_eqb neqb teqb) teqb PE TE _ _ M HM) as (_ & _ & HT & _).
    destruct (HT (read_trans x)) as [_ W]; [apply (Ts_In teqb TE order OR); right; left; exists x; split; [exists r; auto|reflexivity]|]. apply W. now left.
  - apply (long_runs neqb teqb NE TE order OR g wadd wzero word s k A j Hs L1 L2).
Qed.
Print Assumptions C16_left_recursion_never_ends.

(* C16 with a beam: if no two rules coincide up to weight, the returned items are leftmost derivations, each once, with the
   derivation's weight; sorted if no weight exceeds one; and if the search has ended and the beam had room for all runs on
   prefixes of the word, all of them. *)
Theorem C16_cfg_pda_beam :
  forall (N T : Type) (K : Weight) (neqb : N -> N -> bool) (teqb : T -> T -> bool), EqbSpec neqb -> EqbSpec teqb -> RoundLaws K ->
  forall (wadd : K -> K -> K) (wzero : K), (forall x, wadd wzero x = x) ->
  forall (order : list T -> list T), (forall l, Permutation (order l) l) ->
  forall g : cfg N T K, cfg_distinct g ->
  exists M, pda_from_cfg teqb wadd wzero neqb order g = Some M /\
  forall shuffle, (forall l, Permutation (shuffle l) l) ->
  forall H beam (word : list T) n,
  let result s (ds : list (cfg_rule N T K)) :=
    (Conf [] [Designated] (derivation_weight ds), pd_from (init_trans s :: derivation_run ds [Label s])) in
  let derivation s ds := In s (cg_initial g) /\ leftmost (fun r => In r (cg_rules g)) [Label s] ds word in
  exists outs, pda_recognise_beam teqb shuffle M H beam word n = Some outs /\
    (forall o, In o outs -> exists s ds, derivation s ds /\ o = result s ds) /\
    NoDup outs /\
    ((forall r, In r (cg_rules g) -> wleb (cr_weight r) wone = true) ->
       forall before y after, outs = before ++ y :: after -> forall x, In x before -> wleb (item_weight y) (item_weight x) = true) /\
    (recognise_beam_ended (pda_automaton shuffle M) H beam (opt_all (int_find_key teqb (pa_t M)) word) n ->
       forall runs, (forall us, partial_run (pdi_apply (ps_eqb neqb teqb)) [Designated; Initial] (fun t => In t (cfg_transitions teqb order g)) word us -> In us runs) ->
         length runs <= beam -> forall s ds, derivation s ds -> In (result s ds) outs).
Proof.
  intros N T K neqb teqb NE TE KL wadd wzero WZ order OR g DI.
  pose proof (ps_eqb_spec neqb teqb NE TE) as PE.
  destruct (C16_cfg_pda_language N T K neqb teqb NE TE KL wadd wzero order OR g) as (M & HM & _). exists M. split; [exact HM|]. intros shuffle SH H beam word n result derivation.
  pose proof HM as HM'. unfold pda_from_cfg in HM'.
  assert (ME : forall t, merged wadd wzero (ps_eqb neqb teqb) teqb (cfg_transitions teqb order g) t <-> In t (cfg_transitions teqb order g)).
  { apply (merged_distinct teqb TE (ps_eqb neqb teqb) PE wadd wzero WZ). eapply cfg_transitions_distinct; eauto. }
  assert (RES : forall s ds, derivation s ds -> (Conf [] [Designated] (run_weight (init_trans s :: derivation_run ds [Label s])), pd_from (init_trans s :: derivation_run ds [Label s])) = result s ds).
  { intros s ds [_ L]. unfold result. f_equal. f_equal. exact (init_run_weight KL _ _ _ _ s L). }
  assert (ACC : forall ts s, accepting_run (pdi_apply (ps_eqb neqb teqb)) [Designated; Initial]
     (merged wadd wzero (ps_eqb neqb teqb) teqb (cfg_transitions teqb order g)) (fun s => length s = 1) word ts s <->
     exists n0 ds, derivation n0 ds /\ ts = init_trans n0 :: derivation_run ds [Label n0] /\ s = [Designated]).
  { intros ts s. transitivity (accepting_run (pdi_apply (ps_eqb neqb teqb)) [Designated; Initial]
       (fun t => In t (cfg_transitions teqb order g)) (fun s => length s = 1) word ts s).
    - unfold accepting_run. split; intros (A1 & A2 & A3 & A4); (split; [|split; [|split]]); auto; intros t Ht; apply ME; auto.
    - rewrite (cfg_runs neqb teqb NE TE order OR g). unfold derivation. split; [intros (n0 & ds & B1 & B2 & B3 & B4)|intros (n0 & ds & [B1 B2] & B3 & B4)]; exists n0, ds; auto. }
  destruct (C14_pda_beam_search _ _ K wadd wzero _ teqb PE TE KL _ _ shuffle SH M HM' H beam word) as [C D].
  destruct D as [D _].
  { intros us s rest X1 X2 _. destruct (cfg_stack_bottom neqb teqb NE TE order OR g wadd wzero us _ _ X1 X2) as [r ->]; [eauto|discriminate]. }
  destruct (D n) as [outs E]. exists outs. split; [exact E|]. destruct (C n outs E) as (S1 & S2 & S3 & S4).
  split; [|split; [|split]].
  - intros [c r] Ho. destruct (S1 c r Ho) as (A & B1 & B2). apply ACC in A. destruct A as (s & ds & D' & Er & Es).
    exists s, ds. split; [assumption|]. rewrite <- RES by assumption. rewrite <- Er, <- B2, pd_from_to. f_equal.
    destruct c as [cw cs ck]. cbn in *. now subst.
  - eapply NoDup_map_inv. now apply S2.
  - intros LE. apply S3. intros t Ht. apply ME in Ht. apply (Ts_In teqb TE order OR) in Ht. destruct Ht as [(r & Hr & ->)|[(x & _ & ->)|(s & _ & ->)]]; cbn; [auto|apply (wleb_refl KL)|apply (wleb_refl KL)].
  - intros EN runs HR HL s ds D'. rewrite <- RES by assumption. apply (S4 I EN runs); [|exact HL|apply ACC; exists s, ds; auto].
    intros us (s' & rest & P1 & P2 & P3). apply HR. exists s', rest. split; [exact P1|]. split; [|exact P3]. intros t Ht. apply ME. now apply P2.
Qed.
Print Assumptions C16_cfg_pda_beam.

(* ---- examples ---- *)
(* S -> a S b | a b is not left-recursive *)
Definition ex_mmheap : minmax_heap (item (list nat) (pd_instr nat) nat CostWeight * CostWeight) (wi_leb wleb) := list_minmax _ (wi_TO wleb (rl_order _ cost_laws)).
Example ex_cfg_ends :
  cfg_no_left_recursion (cg_rules ex_cfg) (fun _ => 0) /\
  exists M, pda_from_cfg Nat.eqb (Nat.add : CostWeight -> _ -> CostWeight) 0 Nat.eqb (fun l => l) ex_cfg = Some M /\
    option_map (map item_weight) (pda_recognise_beam Nat.eqb (fun l => l) M ex_mmheap 3 [10;10;11;11] 30) = Some [3 : CostWeight].
Proof.
  split; [|eexists; split; [vm_compute; reflexivity|vm_compute; reflexivity]].
  intros r before B after Hr E (ds & V). exfalso. cbn in Hr. destruct before as [|x before]; [destruct Hr as [<-|[<-|[]]]; discriminate|].
  destruct Hr as [<-|[<-|[]]]; cbn in E; injection E as <- _; inversion V.
Qed.
(* S -> A S b, A -> (empty), S -> a is left-recursive behind an A that vanishes *)
Definition ex_cfg_left : cfg nat nat CostWeight := CFG [0]
  [CFGRule (K:=CostWeight) 0 [Label 1; Label 0; Value 11] 1; CFGRule (K:=CostWeight) 1 [] 1; CFGRule (K:=CostWeight) 0 [Value 10] 2].
Example ex_cfg_left_leads : leads (cg_rules ex_cfg_left) 0 1 0 /\ cfg_language ex_cfg_left [10] /\
  (forall x, In x [10] -> exists r, In r (cg_rules ex_cfg_left) /\ In (Value x) (cr_rhs r)).
Proof.
  split; [|split].
  - change 0 with (cr_head (CFGRule (K:=CostWeight) 0 [Label 1; Label 0; Value 11 : lettert nat nat] 1)) at 1.
    eapply (leads_rule _ _ [Label 1] 0 [Value 11]); [now left|reflexivity| |constructor].
    exists [CFGRule (K:=CostWeight) 1 [] 1]. apply (lm_label _ (CFGRule (K:=CostWeight) 1 [] 1) []); [right; now left|constructor].
  - exists 0. split; [now left|]. eapply der_step; [|apply der_refl]. exists [], [], (CFGRule (K:=CostWeight) 0 [Value 10] 2). cbn. auto.
  - intros x [<-|[]]. exists (CFGRule (K:=CostWeight) 0 [Value 10] 2). cbn. auto.
Qed.
