(* C34: what holds of the words for rules that copy or delete. *)
From Verif Require Import Base BMap M_Util M_Recog M_Automata M_CFG M_TreeStack M_Grammar S_Recog S_CFG S_Grammar P_Automata P_TreeStack P_Grammar P_GrammarCFG P_CfgWords.

(* Whenever the conversion succeeds, no word is lost: every word the PMCFG derives is derived by the CFG (rules that copy or
   delete can change its weight). *)
Theorem C34_no_word_lost :
  forall (N T : Type) (K : Weight) (g : pmcfg N T K) (g' : cfg N T K), cfg_from_pmcfg g = Some g' ->
  forall w k, pmcfg_derives g w k -> exists k', cfg_derives g' (leftmost (fun r => In r (cg_rules g'))) w k'.
Proof.
  intros N T K g g' H w k. unfold cfg_from_pmcfg in H. destruct (opt_all cfg_rule_from (pg_rules g)) as [l|] eqn:O; [|discriminate]. injection H as <-.
  intros (A & d & HA & HD & HY & _). destruct (tree_spelt (pg_rules g) l O d A HD) as (w' & HY' & G). assert (w' = w) by congruence. subst w'.
  destruct (G [] [] [] (lm_nil _)) as (ds & H1). rewrite app_nil_r in H1. exists (wprod (map cr_weight ds)), A, ds. auto.
Qed.
Print Assumptions C34_no_word_lost.

(* If no rule copies and every nonterminal of a right-hand side has a derivation, both derive the same words, also if rules
   delete. *)
Theorem C34_words_kept :
  forall (N T : Type) (K : Weight) (g : pmcfg N T K) (g' : cfg N T K), cfg_from_pmcfg g = Some g' ->
  (forall r, In r (pg_rules g) -> linear r) ->
  (forall r B, In r (pg_rules g) -> In B (pr_tail r) -> exists d, deriv (fun r => In r (pg_rules g)) B d) ->
  forall w, (exists k, pmcfg_derives g w k) <-> (exists k, cfg_derives g' (leftmost (fun r => In r (cg_rules g'))) w k).
Proof.
  intros N T K g g' H LN PD w. split; [intros [k D]; eapply C34_no_word_lost; eauto|].
  unfold cfg_from_pmcfg in H. destruct (opt_all cfg_rule_from (pg_rules g)) as [l|] eqn:O; [|discriminate]. injection H as <-.
  intros (k & A & ds & HA & HD & _). cbn [cg_rules cg_initial] in *. destruct (leftmost_spelt (pg_rules g) l O LN PD _ _ _ HD) as (fs & SP).
  inversion SP as [| |A' d w' a f0 v0 D HY SP0]; subst. inversion SP0; subst. rewrite app_nil_r. exists (d_weight d), A, d. auto.
Qed.
Print Assumptions C34_words_kept.

(* S -> [x10 5](A, B), A -> [3], B -> [4] with a deleted successor A *)
Definition ex_del : pmcfg nat nat CostWeight :=
  PMCFG [0] [PRule (W:=CostWeight) 0 [1; 2] [[Var 1 0; Tm 5]] 1; PRule (W:=CostWeight) 1 [] [[Tm 3]] 1; PRule (W:=CostWeight) 2 [] [[Tm 4]] 1].
Example C34_words_kept_ex :
  cfg_from_pmcfg ex_del = Some (CFG [0] [CFGRule (K:=CostWeight) 0 [Label 2; Value 5] 1; CFGRule (K:=CostWeight) 1 [Value 3] 1; CFGRule (K:=CostWeight) 2 [Value 4] 1]) /\
  (forall r, In r (pg_rules ex_del) -> linear r) /\
  (forall r B, In r (pg_rules ex_del) -> In B (pr_tail r) -> exists d, deriv (fun r => In r (pg_rules ex_del)) B d) /\
  pmcfg_derives ex_del [4; 5] 3 /\ ~ (forall r, In r (pg_rules ex_del) -> cf_rule r).
Proof.
  split; [reflexivity|]. split; [|split; [|split]].
  - intros r [<-|[<-|[<-|[]]]]; unfold linear; cbn; repeat constructor; cbn; intuition discriminate.
  - intros r B [<-|[<-|[<-|[]]]] HB; cbn in HB; [|contradiction|contradiction]. destruct HB as [<-|[<-|[]]].
    + exists (DNode (PRule (W:=CostWeight) 1 [] [[Tm 3]] 1) []). refine (deriv_node _ (PRule (W:=CostWeight) 1 [] [[Tm 3]] 1) _ _ _); [cbn; auto|constructor].
    + exists (DNode (PRule (W:=CostWeight) 2 [] [[Tm 4]] 1) []). refine (deriv_node _ (PRule (W:=CostWeight) 2 [] [[Tm 4]] 1) _ _ _); [cbn; auto|constructor].
  - exists 0, (DNode (PRule (W:=CostWeight) 0 [1; 2] [[Var 1 0; Tm 5]] 1) [DNode (PRule (W:=CostWeight) 1 [] [[Tm 3]] 1) []; DNode (PRule (W:=CostWeight) 2 [] [[Tm 4]] 1) []]).
    split; [now left|]. split; [|split; reflexivity].
    repeat match goal with |- deriv _ _ (DNode ?r ?ts) => refine (deriv_node _ r ts _ _); [cbn; auto 8|cbn [pr_tail]] | |- Forall2 _ _ _ => constructor end.
  - intros H. destruct (H _ (or_introl eq_refl)) as (c & Ec & _ & V). cbn in Ec. injection Ec as <-. destruct (proj2 (V 0 0)) as [E|[]]; [cbn; lia|]. discriminate E.
Qed.
