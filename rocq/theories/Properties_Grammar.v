(* C31-C35: PMCFG, MCFG, LCFRS and the conversions between them and to context-free grammars. *)
From Verif Require Import Base BMap M_Agenda M_Search M_Util M_Recog M_Automata M_CFG M_TreeStack M_Grammar M_Conversion
  S_Search S_Recog S_CFG S_Grammar P_Agenda P_Search P_Util P_Recog P_Automata P_TreeStack P_Grammar P_GrammarCFG P_Conversion Properties_Automata.
Arguments Nat.ltb : simpl never.

(* C35: for every tree of rules, stored in a map from addresses to rules, evaluating the term of the tree gives the
   yield of the tree; it panics (None) precisely if the yield is undefined, i.e. a composition refers to a missing child or component. *)
Theorem C35_evaluate :
  forall (N T W : Type) (d : dtree N T W) (tree_map : gorn (prule N T W)),
    sorted_keys addr_cmp (map fst tree_map) -> (forall addr, gt_get addr tree_map = rule_at d addr) ->
    evaluate (fst (to_term tree_map)) = option_map (map (map Tm)) (yield d) /\
    forall addr, gt_get addr (snd (to_term tree_map)) = option_map pr_head (rule_at d addr).
Proof.
  intros N T W d m S1 HM. split.
  - unfold evaluate. apply evaluate_pos_spec; [|cbn; lia]. intros k. cbn [app]. rewrite (proj1 (to_term_spec m k S1)), HM. reflexivity.
  - intros k. now rewrite (proj2 (to_term_spec m k S1)), HM.
Qed.
Print Assumptions C35_evaluate.

(* C35: the yield of a derivation is defined, with one string per component, if fanouts are consistent and compositions
   only use existing variables *)
Theorem C35_yield_defined :
  forall (N T W : Type) (f : N -> nat) (rules : list (prule N T W)),
    fanouts_ok rules f -> (forall r, In r rules -> vars_exist f r) ->
    forall A d, deriv (fun r => In r rules) A d -> exists y, yield d = Some y /\ length y = f A.
Proof. intros N T W f rules FO VE A d. now apply yield_total. Qed.
Print Assumptions C35_yield_defined.

Definition ex_r0 : prule nat nat unit := PRule 0 [1; 2] [[Var 1 0; Tm 7; Var 0 1; Var 0 0; Var 0 1]] tt.
Definition ex_r1 : prule nat nat unit := PRule 1 [] [[Tm 1]; [Tm 2; Tm 3]] tt.
Definition ex_r2 : prule nat nat unit := PRule 2 [] [[]] tt.
Example C35_ex :
  let d := DNode ex_r0 [DNode ex_r1 []; DNode ex_r2 []] in
  let m := [([], ex_r0); ([0], ex_r1); ([1], ex_r2)] in
  sorted_keys addr_cmp (map fst m) /\ (forall addr, gt_get addr m = rule_at d addr) /\
  evaluate (fst (to_term m)) = Some [[Tm 7; Tm 2; Tm 3; Tm 1; Tm 2; Tm 3]].
Proof.
  cbn zeta. split; [cbn; repeat split; intros k' Hk; cbn in Hk; intuition (subst; reflexivity)|]. split; [|reflexivity].
  intros [|[|[|i]] [|j k]]; cbn; try reflexivity; try (destruct i; reflexivity); destruct j; reflexivity.
Qed.

(* C32: a PMCFG is accepted as an MCFG, with its rules unchanged, precisely if no variable occurs twice in a composition
   and it has precisely one initial nonterminal. *)
Theorem C32_from_pmcfg :
  forall (N T W : Type) (g : pmcfg N T W) (g' : mcfg N T W),
    mcfg_from_pmcfg g = Some g' <->
    (forall r, In r (pg_rules g) -> linear r) /\ pg_initial g = [mg_initial g'] /\ mg_rules g' = pg_rules g.
Proof.
  intros N T W g g'. unfold mcfg_from_pmcfg.
  assert (F : forallb (fun r => insert_all_fresh [] (variables (pr_comp r))) (pg_rules g) = true <-> forall r, In r (pg_rules g) -> linear r).
  { rewrite forallb_forall. split; intros H r Hr; [apply H, insert_all_fresh_spec in Hr; tauto|apply insert_all_fresh_spec; split; [now apply H|intros ? _ []]]. }
  destruct (forallb _ (pg_rules g)).
  - assert (L := proj1 F eq_refl). destruct g as [[|i [|i' l]] rules]; cbn; cbn in L.
    + split; [discriminate|]. intros (_ & H & _). discriminate.
    + split; [intros H; injection H as <-; auto|]. destruct g' as [r' i']. cbn. intros (_ & H & ->). injection H as ->. reflexivity.
    + split; [discriminate|]. intros (_ & H & _). discriminate.
  - split; [discriminate|]. intros (H & _). apply F in H. discriminate.
Qed.
Print Assumptions C32_from_pmcfg.

(* and the language does not change *)
Theorem C32_same_language :
  forall (N T : Type) (K : Weight) (g : pmcfg N T K) (g' : mcfg N T K), mcfg_from_pmcfg g = Some g' ->
  forall w k, mcfg_derives g' w k <-> pmcfg_derives g w k.
Proof.
  intros N T K g g' H w k. apply C32_from_pmcfg in H. destruct H as (_ & H1 & H2). unfold mcfg_derives, pmcfg_derives. rewrite H1, H2. split.
  - intros (d & H). exists (mg_initial g'), d. split; [now left|exact H].
  - intros (A & d & [<-|[]] & H). exists d. exact H.
Qed.
Print Assumptions C32_same_language.
Example C32_ex :
  mcfg_from_pmcfg (PMCFG [0] [PRule 0 [1] [[Var 0 0; Tm 5; Var 0 1]] 1; PRule 1 [] [[Tm 1]; [Tm 2]] 1])
    = Some (MCFG [PRule 0 [1] [[Var 0 0; Tm 5; Var 0 1]] 1; PRule 1 [] [[Tm 1]; [Tm 2]] 1] 0) /\
  mcfg_from_pmcfg (PMCFG [0] [PRule 0 [1] [[Var 0 0; Tm 5]; [Var 0 0]] 1]) = None /\
  mcfg_from_pmcfg (PMCFG [0; 0] [PRule 0 [] [[Tm 5]] 1]) = None.
Proof. repeat split. Qed.

(* C31, the part that holds: Lcfrs::new returns a grammar precisely for LCFRSs in which every nonterminal of a right-hand
   side has a rule and no right-hand side ends with a nonterminal of fanout 0, and then it is the given one; and it does
   not panic if every nonterminal of a right-hand side has a rule. *)
Theorem C31_new_partial :
  forall (N T W : Type) (neqb : N -> N -> bool), EqbSpec neqb ->
  forall (rules : list (prule N T W)) (init : N),
    (forall g, lcfrs_new neqb rules init = Some (Some g) <->
       g = MCFG rules init /\ is_lcfrs rules init /\ defined_tails rules /\ no_empty_last rules) /\
    (defined_tails rules -> lcfrs_new neqb rules init <> None).
Proof. intros N T W neqb E rules init. split; [intros g; now apply lcfrs_new_ok|now apply lcfrs_new_defined]. Qed.
Print Assumptions C31_new_partial.
Definition ex_lcfrs : list (prule nat nat nat) :=
  [PRule 0 [1; 1] [[Var 0 0; Var 1 0; Var 0 1; Var 1 1]] 1; PRule 1 [1] [[Tm 1; Var 0 0]; [Var 0 1; Tm 2]] 1; PRule 1 [] [[]; []] 1].
Example C31_ex :
  lcfrs_new Nat.eqb ex_lcfrs 0 = Some (Some (MCFG ex_lcfrs 0)) /\
  lcfrs_new Nat.eqb ex_lcfrs 1 = Some None /\
  lcfrs_new Nat.eqb [PRule 0 [1] [[Var 0 1; Var 0 1]] 1; PRule 1 [] [[Tm 1]; []] 1] 0 = Some None.
Proof. repeat split. Qed.

(* C31 in full is false: an LCFRS whose last successor has fanout 0 is rejected, and a rule with a successor that has no
   rule makes Lcfrs::new panic. *)
Theorem C31_new_refuted :
  (exists rules : list (prule nat nat nat), is_lcfrs rules 0 /\ defined_tails rules /\ lcfrs_new Nat.eqb rules 0 = Some None) /\
  (exists rules : list (prule nat nat nat), is_lcfrs rules 0 /\ lcfrs_new Nat.eqb rules 0 = None).
Proof.
  split.
  - exists [PRule 0 [1] [[Tm 5]] 1; PRule 1 [] [] 1]. split; [|split; [|reflexivity]].
    + exists (fun n => 1 - n). split; [intros r [<-|[<-|[]]]; reflexivity|]. split; [reflexivity|]. split; [eexists; split; [now left|reflexivity]|].
      intros r [<-|[<-|[]]]; split; [constructor| |constructor|]; (split; [intros i j []|]); intros [|i] B j HB Hj; cbn in HB; try discriminate; try (destruct i; discriminate).
      injection HB as <-. lia.
    + intros r B [<-|[<-|[]]] HB; cbn in HB; [|destruct HB]. destruct HB as [<-|[]]. eexists. split; [right; now left|reflexivity].
  - exists [PRule 0 [1] [[Tm 5; Var 0 0]] 1]. split; [|reflexivity].
    exists (fun _ => 1). split; [intros r [<-|[]]; reflexivity|]. split; [reflexivity|]. split; [eexists; split; [now left|reflexivity]|].
    intros r [<-|[]]. split; [repeat constructor; cbn; tauto|]. split.
    + intros i j Hij. cbn in Hij. destruct Hij as [Eq|[]]. injection Eq as <- <-. exists 1. split; [reflexivity|lia].
    + intros [|i] B j HB Hj; cbn in HB; [|destruct i; discriminate]. left. f_equal. lia.
Qed.
Print Assumptions C31_new_refuted.

(* C33, termination: the conversion of an MCFG to an LCFRS looks at finitely many (nonterminal, deleted components) pairs:
   after enough calls of next() nothing changes. *)
Theorem C33_terminates :
  forall (N T : Type) (K : Weight) (neqb : N -> N -> bool), EqbSpec neqb ->
  forall (g : mcfg N T K) (f : N -> nat), fanouts_ok (mg_rules g) f ->
  exists n0, forall n, n0 <= n -> lcfrs_from_mcfg neqb n g = lcfrs_from_mcfg neqb n0 g.
Proof. intros N T K neqb E g f FO. exact (conv_main_terminates neqb E g f FO). Qed.
Print Assumptions C33_terminates.
(* C33, no panic: if every nonterminal of a right-hand side has a rule *)
Theorem C33_defined :
  forall (N T : Type) (K : Weight) (neqb : N -> N -> bool), EqbSpec neqb ->
  forall (g : mcfg N T K) (f : N -> nat), fanouts_ok (mg_rules g) f -> (forall r, In r (mg_rules g) -> vars_exist f r) ->
  defined_tails (mg_rules g) -> forall n, lcfrs_from_mcfg neqb n g <> None.
Proof. intros N T K neqb E g f FO VX DT n. exact (conv_main_defined neqb E g f FO VX n DT). Qed.
Print Assumptions C33_defined.
(* C33, shape: the result is linear and non-deleting *)
Theorem C33_is_lcfrs :
  forall (N T : Type) (K : Weight) (neqb : N -> N -> bool), EqbSpec neqb ->
  forall (g : mcfg N T K) (f : N -> nat), fanouts_ok (mg_rules g) f -> (forall r, In r (mg_rules g) -> vars_exist f r /\ linear r) ->
  f (mg_initial g) = 1 -> (exists r, In r (mg_rules g) /\ pr_head r = mg_initial g) ->
  forall n g', lcfrs_from_mcfg neqb (S n) g = Some g' -> is_lcfrs (mg_rules g') (mg_initial g').
Proof.
  intros N T K neqb E g f FO VX F1 HI n g'. apply (conv_main_lcfrs neqb E g f FO (fun r Hr => proj1 (VX r Hr)) n g' (fun r Hr => proj2 (VX r Hr)) F1 HI).
Qed.
Print Assumptions C33_is_lcfrs.
(* C33, soundness: every word the result derives is derived by the MCFG, with the same weight *)
Theorem C33_sound :
  forall (N T : Type) (K : Weight) (neqb : N -> N -> bool), EqbSpec neqb ->
  forall (g : mcfg N T K) (f : N -> nat), fanouts_ok (mg_rules g) f -> (forall r, In r (mg_rules g) -> vars_exist f r) ->
  forall n g', lcfrs_from_mcfg neqb n g = Some g' -> forall w k, mcfg_derives g' w k -> mcfg_derives g w k.
Proof. intros N T K neqb E g f FO VX n g' H w k. exact (conv_main_sound neqb E g f FO VX n g' w k H). Qed.
Print Assumptions C33_sound.
(* C33, completeness: if the search over (nonterminal, deleted components) pairs has returned every reachable pair, every
   word the MCFG derives is derived by the result, with the same weight.  Missing: the search may stop early, see below. *)
Theorem C33_complete_partial :
  forall (N T : Type) (K : Weight) (neqb : N -> N -> bool), EqbSpec neqb ->
  forall (g : mcfg N T K) (f : N -> nat), fanouts_ok (mg_rules g) f -> (forall r, In r (mg_rules g) -> vars_exist f r) ->
  forall n g', lcfrs_from_mcfg neqb n g = Some g' ->
  (forall fan x, read_fanouts neqb (mg_rules g) = Some fan ->
     reachable (fun x => match conv_succs neqb fan (mg_rules g) x with Some l => l | None => [] end) [(mg_initial g, [])] x ->
     In x (conv_items neqb fan (mg_rules g) (mg_initial g) n)) ->
  forall w k, mcfg_derives g w k -> mcfg_derives g' w k.
Proof. intros N T K neqb E g f FO VX n g' H CV w k. exact (conv_main_complete neqb E g f FO VX n g' H CV w k). Qed.
Print Assumptions C33_complete_partial.

(* S -> [x00 5](A), A -> [x00 1] [2 x10 x01](A,B), A -> [3] [4], B -> [6] [7]: deletes component 1 of A and then B altogether *)
Definition ex_mcfg : mcfg nat nat CostWeight :=
  MCFG [PRule (W:=CostWeight) 0 [1] [[Var 0 0; Tm 5]] 1; PRule (W:=CostWeight) 1 [2; 3] [[Var 0 0; Tm 1]; [Tm 2; Var 1 0; Var 0 1]] 2;
        PRule (W:=CostWeight) 2 [] [[Tm 3]; [Tm 4]] 1; PRule (W:=CostWeight) 3 [] [[Tm 6]; [Tm 7]] 1] 0.
Definition ex_fan (n : nat) := match n with 0 => 1 | _ => 2 end.
Example C33_ex :
  fanouts_ok (mg_rules ex_mcfg) ex_fan /\ (forall r, In r (mg_rules ex_mcfg) -> vars_exist ex_fan r /\ linear r) /\
  defined_tails (mg_rules ex_mcfg) /\
  lcfrs_from_mcfg Nat.eqb 10 ex_mcfg = Some (MCFG
    [PRule (W:=CostWeight) (0, []) [(1, [1])] [[Var 0 0; Tm 5]] 1; PRule (W:=CostWeight) (1, [1]) [(2, [1]); (3, [0; 1])] [[Var 0 0; Tm 1]] 2;
     PRule (W:=CostWeight) (2, [1]) [] [[Tm 3]] 1; PRule (W:=CostWeight) (3, [0; 1]) [] [] 1] (0, [])) /\
  (forall fan x, read_fanouts Nat.eqb (mg_rules ex_mcfg) = Some fan ->
     reachable (fun x => match conv_succs Nat.eqb fan (mg_rules ex_mcfg) x with Some l => l | None => [] end) [(0, [])] x ->
     In x (conv_items Nat.eqb fan (mg_rules ex_mcfg) 0 10)) /\
  mcfg_derives ex_mcfg [3; 1; 5] 5.
Proof.
  split; [intros r [<-|[<-|[<-|[<-|[]]]]]; reflexivity|]. split.
  { intros r [<-|[<-|[<-|[<-|[]]]]]; (split; [intros i j Hij; cbn in Hij; repeat (destruct Hij as [Eq|Hij]; [injection Eq as <- <-; eexists; split; [reflexivity|cbn; lia]|]); destruct Hij|
      repeat first [apply NoDup_nil | apply NoDup_cons; [cbn; intuition discriminate|]]]). }
  split.
  { intros r B [<-|[<-|[<-|[<-|[]]]]] HB; cbn in HB; try destruct HB as [<-|[<-|[]]]; try destruct HB as [<-|[]]; try destruct HB; cbn;
      first [now (eexists; split; [right; left; reflexivity|reflexivity]) | now (eexists; split; [right; right; left; reflexivity|reflexivity])
            | now (eexists; split; [right; right; right; left; reflexivity|reflexivity])]. }
  split; [reflexivity|]. split.
  - intros fan x Hf Hx. cbn in Hf. injection Hf as <-. vm_compute. induction Hx as [x [<-|[]]|x y _ IH Hy]; [now left|].
    destruct IH as [<-|[<-|[<-|[<-|[]]]]]; vm_compute in Hy; intuition.
  - exists (DNode (PRule (W:=CostWeight) 0 [1] [[Var 0 0; Tm 5]] 1) [DNode (PRule (W:=CostWeight) 1 [2; 3] [[Var 0 0; Tm 1]; [Tm 2; Var 1 0; Var 0 1]] 2)
      [DNode (PRule (W:=CostWeight) 2 [] [[Tm 3]; [Tm 4]] 1) []; DNode (PRule (W:=CostWeight) 3 [] [[Tm 6]; [Tm 7]] 1) []]]).
    split; [|split; reflexivity]. repeat (first [apply Forall2_nil | apply Forall2_cons | match goal with |- deriv ?R _ (DNode ?r ?ts) => apply (deriv_node R r ts) end]); cbn; auto 10.
Qed.

(* C33 in full is false: in S -> [x0 x1 x2](A,A,B), A -> [0], B -> [1] the search stops when it meets A a second time, the
   rule for B is lost, and with it the only derivable word; and a reachable rule with a successor without rules makes
   the conversion panic. *)
Definition ex_lost : mcfg nat nat CostWeight :=
  MCFG [PRule (W:=CostWeight) 0 [1; 1; 2] [[Var 0 0; Var 1 0; Var 2 0]] 1; PRule (W:=CostWeight) 1 [] [[Tm 0]] 1; PRule (W:=CostWeight) 2 [] [[Tm 1]] 1] 0.
Definition ex_panic : mcfg nat nat CostWeight :=
  MCFG [PRule (W:=CostWeight) 0 [1] [[Var 0 0]] 1; PRule (W:=CostWeight) 0 [] [[Tm 0]] 1] 0.
Lemma ex_lost_conv n : lcfrs_from_mcfg Nat.eqb (3 + n) ex_lost = lcfrs_from_mcfg Nat.eqb 3 ex_lost.
Proof.
  unfold lcfrs_from_mcfg. destruct (read_fanouts Nat.eqb (mg_rules ex_lost)) as [fan|] eqn:Ef; [|reflexivity]. cbn in Ef. injection Ef as <-. cbv zeta.
  rewrite conv_items_none; [reflexivity|]. right. right. now left.
Qed.
Lemma ex_panic_conv n : lcfrs_from_mcfg Nat.eqb (2 + n) ex_panic = lcfrs_from_mcfg Nat.eqb 2 ex_panic.
Proof.
  unfold lcfrs_from_mcfg. destruct (read_fanouts Nat.eqb (mg_rules ex_panic)) as [fan|] eqn:Ef; [|reflexivity]. cbn in Ef. injection Ef as <-. cbv zeta.
  rewrite conv_items_none; [reflexivity|]. right. now left.
Qed.
Theorem C33_language_refuted :
  (is_lcfrs (mg_rules ex_lost) 0 /\ defined_tails (mg_rules ex_lost) /\ mcfg_derives ex_lost [0; 0; 1] 4 /\
   forall n g', lcfrs_from_mcfg Nat.eqb n ex_lost = Some g' -> forall k, ~ mcfg_derives g' [0; 0; 1] k) /\
  (is_lcfrs (mg_rules ex_panic) 0 /\ mcfg_derives ex_panic [0] 1 /\ forall n, lcfrs_from_mcfg Nat.eqb (S n) ex_panic = None).
Proof.
  split.
  - split; [|split; [|split]].
    + exists (fun _ => 1). split; [intros r [<-|[<-|[<-|[]]]]; reflexivity|]. split; [reflexivity|]. split; [eexists; split; [now left|reflexivity]|].
      intros r [<-|[<-|[<-|[]]]]; (split; [repeat first [apply NoDup_nil | apply NoDup_cons; [cbn; intuition discriminate|]]|split;
        [intros i j Hij; cbn in Hij; repeat (destruct Hij as [Eq|Hij]; [injection Eq as <- <-; eexists; split; [reflexivity|cbn; lia]|]); destruct Hij|]]);
      intros [|[|[|i]]] B [|j] HB Hj; cbn in HB; try discriminate; try lia; try (destruct i; discriminate); cbn; auto.
    + intros r B [<-|[<-|[<-|[]]]] HB; cbn in HB; try destruct HB as [<-|[<-|[<-|[]]]]; try destruct HB as [<-|[]]; try destruct HB; cbn;
      first [now (eexists; split; [right; left; reflexivity|reflexivity]) | now (eexists; split; [right; right; left; reflexivity|reflexivity])].
    + exists (DNode (PRule (W:=CostWeight) 0 [1; 1; 2] [[Var 0 0; Var 1 0; Var 2 0]] 1) [DNode (PRule (W:=CostWeight) 1 [] [[Tm 0]] 1) []; DNode (PRule (W:=CostWeight) 1 [] [[Tm 0]] 1) []; DNode (PRule (W:=CostWeight) 2 [] [[Tm 1]] 1) []]).
      split; [|split; reflexivity]. repeat (first [apply Forall2_nil | apply Forall2_cons | match goal with |- deriv ?R _ (DNode ?r ?ts) => apply (deriv_node R r ts) end]); cbn; auto 10.
    + intros n g' H k (d & HD & _ & _).
      assert (G : forall r, In r (mg_rules g') -> fst (pr_head r) <> 2 /\ (mg_initial g' = (0, []) -> fst (pr_head r) = 0 -> In (2, []) (pr_tail r))).
      { destruct n as [|[|[|n]]]; [| | |change (S (S (S n))) with (3 + n) in H; rewrite ex_lost_conv in H];
        vm_compute in H; injection H as <-; cbn; intuition (subst; cbn in *; auto; discriminate). }
      assert (I0 : mg_initial g' = (0, [])). { unfold lcfrs_from_mcfg in H. cbn [read_fanouts ex_lost mg_rules] in H. repeat (match type of H with match ?o with Some _ => _ | None => _ end = _ => destruct o; [|discriminate] end). injection H as <-. reflexivity. }
      destruct d as [r ts]. apply deriv_inv in HD. destruct HD as (Eh & Hr & F2). destruct (G r Hr) as [_ G2]. specialize (G2 I0). rewrite <- Eh, I0 in G2. specialize (G2 eq_refl).
      destruct (F2_in_l _ _ _ F2 _ G2) as ([r2 ts2] & _ & HD2). apply deriv_inv in HD2. destruct HD2 as (Eh2 & Hr2 & _). destruct (G r2 Hr2) as [G3 _]. rewrite <- Eh2 in G3. now apply G3.
  - split; [|split].
    + exists (fun _ => 1). split; [intros r [<-|[<-|[]]]; reflexivity|]. split; [reflexivity|]. split; [eexists; split; [now left|reflexivity]|].
      intros r [<-|[<-|[]]]; (split; [repeat first [apply NoDup_nil | apply NoDup_cons; [cbn; intuition discriminate|]]|split;
        [intros i j Hij; cbn in Hij; repeat (destruct Hij as [Eq|Hij]; [injection Eq as <- <-; eexists; split; [reflexivity|cbn; lia]|]); destruct Hij|]]);
      intros [|i] B [|j] HB Hj; cbn in HB; try discriminate; try lia; try (destruct i; discriminate); cbn; auto.
    + exists (DNode (PRule (W:=CostWeight) 0 [] [[Tm 0]] 1) []). split; [|split; reflexivity]. apply (deriv_node _ (PRule (W:=CostWeight) 0 [] [[Tm 0]] 1) []); cbn; auto.
    + intros [|n]; [reflexivity|]. change (S (S n)) with (2 + n). rewrite ex_panic_conv. reflexivity.
Qed.
Print Assumptions C33_language_refuted.

(* C34: the conversion to a CFG panics precisely if some rule does not have exactly one component or uses a component
   other than 0 or a successor it does not have. *)
Theorem C34_panics :
  forall (N T : Type) (K : Weight) (g : pmcfg N T K),
    cfg_from_pmcfg g = None <->
    exists r, In r (pg_rules g) /\ ~ exists c, pr_comp r = [c] /\ forall i j, In (i, j) (variables [c]) -> i < length (pr_tail r) /\ j = 0.
Proof.
  intros N T K g. unfold cfg_from_pmcfg. destruct (opt_all cfg_rule_from (pg_rules g)) as [l|] eqn:O; cbn.
  - split; [discriminate|]. intros (r & Hr & H). apply cfg_rule_from_None in H. apply opt_all_Some in O. destruct (F2_in_l _ _ _ O r Hr) as (x & _ & Hx). congruence.
  - split; [|reflexivity]. intros _. apply opt_all_None in O. destruct O as (r & Hr & H). exists r. split; [assumption|]. now apply cfg_rule_from_None.
Qed.
Print Assumptions C34_panics.
(* C34, the part that holds: if every rule has one component that uses every successor exactly once, the CFG has a leftmost
   derivation of w with weight k precisely if the PMCFG has a derivation of w with weight k. *)
Theorem C34_language_partial :
  forall (N T : Type) (K : Weight), WeightLaws K ->
  forall (g : pmcfg N T K) (g' : cfg N T K), (forall r, In r (pg_rules g) -> cf_rule r) -> cfg_from_pmcfg g = Some g' ->
  forall w k, pmcfg_derives g w k <-> cfg_derives g' (leftmost (fun r => In r (cg_rules g'))) w k.
Proof.
  intros N T K KL g g' CF H w k. unfold cfg_from_pmcfg in H. destruct (opt_all cfg_rule_from (pg_rules g)) as [l|] eqn:O; [|discriminate]. injection H as <-.
  unfold pmcfg_derives, cfg_derives. cbn [cg_initial cg_rules]. split.
  - intros (A & d & HA & HD). destruct (proj1 (cfg_equiv KL (pg_rules g) l O CF A w k)) as (ds & H1 & H2); [eauto|]. exists A, ds. auto.
  - intros (A & ds & HA & HD). destruct (proj2 (cfg_equiv KL (pg_rules g) l O CF A w k)) as (d & H1 & H2); [eauto|]. exists A, d. tauto.
Qed.
Print Assumptions C34_language_partial.
Example C34_ex :
  let g := PMCFG [0] [PRule (W:=CostWeight) 0 [1; 0] [[Var 1 0; Tm 5; Var 0 0]] 1; PRule (W:=CostWeight) 0 [] [[]] 2; PRule (W:=CostWeight) 1 [] [[Tm 3; Tm 4]] 3] in
  (forall r, In r (pg_rules g) -> cf_rule r) /\
  cfg_from_pmcfg g = Some (CFG [0] [CFGRule (K:=CostWeight) 0 [Label 0; Value 5; Label 1] 1; CFGRule (K:=CostWeight) 0 [] 2; CFGRule (K:=CostWeight) 1 [Value 3; Value 4] 3]).
Proof.
  cbn zeta. split; [|reflexivity]. intros r [<-|[<-|[<-|[]]]]; eexists; (split; [reflexivity|]); (split; [repeat first [apply NoDup_nil | apply NoDup_cons; [cbn; intuition discriminate|]]|]);
  intros i j; cbn; (split; [intros H; repeat (destruct H as [Eq|H]; [injection Eq as <- <-; lia|]); try destruct H|intros [H ->]; destruct i as [|[|i]]; auto; lia]).
Qed.

(* C34 in full is false: rules that use a successor twice or not at all are converted without complaint, and the language
   changes: S -> [x0 x0](A), A -> [0] | [1] then derives 01, S -> [0](A) without rules for A derives 0. *)
Theorem C34_language_refuted :
  (exists (g : pmcfg nat nat CostWeight) g' w k, (forall r, In r (pg_rules g) -> exists c, pr_comp r = [c]) /\ cfg_from_pmcfg g = Some g' /\
     cfg_derives g' (leftmost (fun r => In r (cg_rules g'))) w k /\ forall k, ~ pmcfg_derives g w k) /\
  (exists (g : pmcfg nat nat CostWeight) g' w k, (forall r, In r (pg_rules g) -> exists c, pr_comp r = [c] /\ linear r) /\ cfg_from_pmcfg g = Some g' /\
     cfg_derives g' (leftmost (fun r => In r (cg_rules g'))) w k /\ forall k, ~ pmcfg_derives g w k).
Proof.
  split.
  - exists (PMCFG [0] [PRule (W:=CostWeight) 0 [1] [[Var 0 0; Var 0 0]] 1; PRule (W:=CostWeight) 1 [] [[Tm 0]] 1; PRule (W:=CostWeight) 1 [] [[Tm 1]] 1]).
    eexists. exists [0; 1], 3. split; [intros r [<-|[<-|[<-|[]]]]; eexists; reflexivity|]. split; [reflexivity|]. split.
    + exists 0, [CFGRule (K:=CostWeight) 0 [Label 1; Label 1] 1; CFGRule (K:=CostWeight) 1 [Value 0] 1; CFGRule (K:=CostWeight) 1 [Value 1] 1].
      split; [now left|]. split; [|reflexivity]. apply (lm_label _ (CFGRule (K:=CostWeight) 0 [Label 1; Label 1] 1)); [cbn; auto|]. cbn [cr_rhs app].
      apply (lm_label _ (CFGRule (K:=CostWeight) 1 [Value 0] 1)); [cbn; auto|]. cbn [cr_rhs app]. constructor. apply (lm_label _ (CFGRule (K:=CostWeight) 1 [Value 1] 1)); [cbn; auto|]. cbn [cr_rhs app]. constructor. constructor.
    + intros k (A & [r ts] & [<-|[]] & HD & Y & _). apply deriv_inv in HD. destruct HD as (Eh & [<-|[<-|[<-|[]]]] & F2); try discriminate Eh. cbn in F2.
      inversion F2 as [|B d tl ts' HDd F2']; subst. rewrite yield_eq in Y. cbn [pr_comp opt_all] in Y. cbn in Y. destruct (yield d) as [[|v y]|]; try discriminate Y. cbn in Y. rewrite app_nil_r in Y. injection Y as Y.
      destruct v as [|a [|b [|c v]]]; cbn in Y; try discriminate; injection Y; intros; subst; discriminate.
  - exists (PMCFG [0] [PRule (W:=CostWeight) 0 [1] [[Tm 0]] 1]).
    eexists. exists [0], 1. split; [intros r [<-|[]]; eexists; split; [reflexivity|constructor]|]. split; [reflexivity|]. split.
    + exists 0, [CFGRule (K:=CostWeight) 0 [Value 0] 1]. split; [now left|]. split; [|reflexivity]. apply (lm_label _ (CFGRule (K:=CostWeight) 0 [Value 0] 1)); [cbn; auto|]. cbn [cr_rhs app]. constructor. constructor.
    + intros k (A & [r ts] & [<-|[]] & HD & Y & _). apply deriv_inv in HD. destruct HD as (Eh & [<-|[]] & F2). cbn in F2. inversion F2 as [|B d tl ts' HDd F2']; subst. destruct d as [r2 ts2].
      apply deriv_inv in HDd. destruct HDd as (E2 & [<-|[]] & _). discriminate E2.
Qed.
Print Assumptions C34_language_refuted.
