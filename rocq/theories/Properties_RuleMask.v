(* C27: the rule mask. *)
From Verif Require Import Base M_Util M_Recog M_Automata M_Grammar M_Chart M_CSAuto S_Grammar S_CS P_Grammar P_GrammarCFG P_Conversion M_RuleMask S_RuleMask P_RuleMask Properties_Chart.

Lemma lens_rules {N T} {K : ZWeight} (factorize : K -> nat -> list K) (FL : FactorLaws factorize) (rules : list (prule N T K)) : (forall r, In r rules -> mask_nf r) -> length (cs_rules factorize rules) = lens rules.
Proof. intros NF. apply (cs_rules_from_len factorize FL). intros r Hr. apply (NF r Hr). Qed.
Lemma firstn_incl {X} (l : list X) n x : In x (firstn n l) -> In x l.
Proof. intros Hx. rewrite <- (firstn_skipn n l). apply in_or_app. now left. Qed.

(* the initial nonterminal occurs in the rules *)
Definition occurs_in {N T W} (rules : list (prule N T W)) (A : N) : Prop := exists r, In r rules /\ (pr_head r = A \/ In A (pr_tail r)).

(* C27: the mask has one entry per rule of the approximation, numbered alike, and enables exactly the rules that come from
   a rule of the grammar whose left-hand side is reachable and productive and whose successors are productive *)
Theorem C27_mask_exact :
  forall (N T : Type) (K : ZWeight) (neqb : N -> N -> bool) (teqb : T -> T -> bool) (distinct : list nat -> list nat) (factorize : K -> nat -> list K)
    (rules : list (prule N T K)) (init : N),
    EqbSpec neqb -> EqbSpec teqb -> FactorLaws factorize -> (forall l, NoDup (distinct l) /\ forall x, In x (distinct l) <-> In x l) ->
    (forall r, In r rules -> mask_nf r) -> occurs_in rules init ->
    exists m, rm_new neqb teqb distinct rules init = Some m /\ forall word, exists mask, rm_build teqb m word = Some mask /\
      length mask = length (cs_rules factorize rules) /\
      forall k, nth_error mask k = Some true <->
        exists i r, nth_error rules i = Some r /\ comes_from factorize rules k i /\
          in_reach rules init word (pr_head r) /\ usable rules word (pr_head r) /\ forall B, In B (pr_tail r) -> usable rules word B.
Proof.
  intros N T K neqb teqb distinct factorize rules init NE TE FL DC NF OC.
  destruct (rm_new_spec neqb teqb NE TE distinct (fun l x => proj2 (DC l) x) rules init) as (m & L & E & MT).
  - intros r c Hr Hc. destruct (NF r Hr) as (_ & [(t & Et)|A] & _); [rewrite Et in Hc; destruct Hc as [<-|[]]; discriminate|now apply A].
  - destruct OC as (r & Hr & [<-|Ht]); [exists r; auto|]. exists r. split; [exact Hr|]. right. split; [|exact Ht]. intros (t & Et). destruct (NF r Hr) as (_ & _ & TL). rewrite (TL t Et) in Ht. destruct Ht.
  - exists m. split; [exact E|]. intros word. destruct (rm_build_spec neqb teqb NE distinct (fun l x => proj2 (DC l) x) rules init L m MT NF word) as (mask & EB & LM & HM).
    exists mask. split; [exact EB|]. split; [now rewrite (lens_rules factorize FL rules NF)|]. intros k. rewrite HM. unfold enabled, comes_from, ok_rule.
    assert (X : forall i r, nth_error rules i = Some r -> length (cs_rules factorize (firstn i rules)) = lens (firstn i rules) /\ length (cs_rules factorize (firstn (S i) rules)) = lens (firstn i rules) + rule_len r).
    { intros i r Hi. split; [apply (lens_rules factorize FL); intros r' Hr'; apply NF; now apply firstn_incl in Hr'|]. rewrite <- lens_snoc, <- (firstn_S _ _ _ Hi). apply (lens_rules factorize FL). intros r' Hr'. apply NF. now apply firstn_incl in Hr'. }
    split; intros (i & r & Hi & Hk & A); exists i, r; (split; [exact Hi|]); (split; [|exact A]); destruct (X i r Hi) as [X1 X2]; lia.
Qed.
Print Assumptions C27_mask_exact.

(* in a derivation by rules that use all components of their successors, each terminal of a rule occurs in the yield *)
Lemma terminals_in_yield {N T W} (rules : list (prule N T W)) (f : N -> nat) : fanouts_ok rules f -> (forall r, In r rules -> lcfrs_rule f r) ->
  forall d A, deriv (fun r => In r rules) A d -> exists y, yield d = Some y /\ length y = f A /\ forall r t, In r (d_rules d) -> In (Tm t) (concat (pr_comp r)) -> In t (concat y).
Proof.
  intros FO LR. induction d as [r ts IH] using dtree_ind2. intros A D. destruct (yield_total f rules FO (fun r Hr => proj1 (proj2 (LR r Hr))) _ _ D) as (y & Ey & Ly). exists y. split; [exact Ey|]. split; [exact Ly|].
  apply deriv_inv in D. destruct D as (-> & Hr & F). rewrite yield_eq in Ey.
  assert (PART : forall c x w, In c (pr_comp r) -> In x c -> sval ts x = Some w -> forall t, In t w -> In t (concat y)).
  { intros c x w Hc Hx Hw t Ht. destruct (In_nth_error _ _ Hc) as (k & Hk). pose proof (opt_all_nth _ _ _ Ey k) as E1. rewrite Hk in E1.
    assert (Lk : k < length y) by (rewrite (opt_all_len _ _ _ Ey); apply nth_error_Some; congruence). destruct (nth_error y k) as [yk|] eqn:Eyk; [|apply nth_error_None in Eyk; lia].
    destruct (opt_all (sval ts) c) as [ws|] eqn:Ec; [|discriminate]. injection E1 as ->. destruct (In_nth_error _ _ Hx) as (l & Hl). pose proof (opt_all_nth _ _ _ Ec l) as E2. rewrite Hl, Hw in E2.
    apply in_concat. exists (concat ws). split; [eapply nth_error_In; exact Eyk|]. apply in_concat. exists w. split; [eapply nth_error_In; exact E2|exact Ht]. }
  intros r' t Hin Ht. cbn in Hin. destruct Hin as [<-|Hin].
  - apply in_concat in Ht. destruct Ht as (c & Hc & Ht). apply (PART c (Tm t) [t] Hc Ht eq_refl). now left.
  - apply in_flat_map in Hin. destruct Hin as (d & Hd & Hin). destruct (In_nth_error _ _ Hd) as (i & Hi). rewrite Forall_forall in IH.
    assert (FI : exists B, nth_error (pr_tail r) i = Some B /\ deriv (fun r => In r rules) B d). { clear -F Hi. revert i Hi. induction F as [|B d' tl ts HB F IHF]; intros [|i] Hi; cbn in Hi; try discriminate; [injection Hi as ->; exists B; auto|now apply IHF]. }
    destruct FI as (B & HB & DB). destruct (IH d Hd B DB) as (yi & Eyi & Lyi & HT). specialize (HT r' t Hin Ht). apply in_concat in HT. destruct HT as (w & Hw & Htw). destruct (In_nth_error _ _ Hw) as (j & Hj).
    assert (Lj : j < f B) by (rewrite <- Lyi; apply nth_error_Some; congruence). destruct (LR r Hr) as (_ & _ & ND). apply (ND i B j HB) in Lj. apply in_variables in Lj. destruct Lj as (c & Hc & Hv).
    apply (PART c (Var i j) w Hc Hv); [|exact Htw]. rewrite (sval_var ts i j d yi Hi Eyi). exact Hj.
Qed.
Lemma derivation_enabled {N T W} (rules : list (prule N T W)) init word d : forall A, deriv (fun r => In r rules) A d -> (forall r t, In r (d_rules d) -> In (Tm t) (concat (pr_comp r)) -> In t word) ->
  in_reach rules init word A -> forall r, In r (d_rules d) -> in_reach rules init word (pr_head r) /\ usable rules word (pr_head r) /\ forall B, In B (pr_tail r) -> usable rules word B.
Proof.
  induction d as [r ts IH] using dtree_ind2. intros A D HT R r' Hr'. pose proof D as D0. apply deriv_inv in D. destruct D as (-> & Hr & F).
  assert (SUB : forall B d, In d ts -> deriv (fun r => In r rules) B d -> usable rules word B).
  { intros B d Hd DB. exists d. split; [exact DB|]. intros r0 t Hin. apply HT. right. apply in_flat_map. eauto. }
  assert (OK : forall B, In B (pr_tail r) -> usable rules word B) by (intros B HB; destruct (F2_in_l _ _ _ F B HB) as (d & Hd & DB); eauto).
  destruct Hr' as [<-|Hr']; [split; [exact R|]; split; [exists (DNode r ts); auto|exact OK]|].
  apply in_flat_map in Hr'. destruct Hr' as (d & Hd & Hin). destruct (F2_in_r _ _ _ F d Hd) as (B & HB & DB). rewrite Forall_forall in IH. apply (IH d Hd B DB); [|eapply ir_step; eauto|exact Hin].
  intros r0 t Hin0. apply HT. right. apply in_flat_map. eauto.
Qed.
(* C27: no rule of a derivation of the word is disabled *)
Theorem C27_needed_rules_are_enabled :
  forall (N T : Type) (K : ZWeight) (neqb : N -> N -> bool) (teqb : T -> T -> bool) (distinct : list nat -> list nat) (factorize : K -> nat -> list K)
    (rules : list (prule N T K)) (init : N) (word : list T) (d : dtree N T K),
    EqbSpec neqb -> EqbSpec teqb -> FactorLaws factorize -> (forall l, NoDup (distinct l) /\ forall x, In x (distinct l) <-> In x l) ->
    (forall r, In r rules -> mask_nf r) -> is_lcfrs rules init ->
    deriv (fun r => In r rules) init d -> yield d = Some [word] ->
    exists m mask, rm_new neqb teqb distinct rules init = Some m /\ rm_build teqb m word = Some mask /\
      forall i r k, nth_error rules i = Some r -> In r (d_rules d) -> comes_from factorize rules k i -> nth_error mask k = Some true.
Proof.
  intros N T K neqb teqb distinct factorize rules init word d NE TE FL DC NF (f & FO & _ & (r0 & Hr0 & H0) & LR) D Y.
  destruct (C27_mask_exact N T K neqb teqb distinct factorize rules init NE TE FL DC NF) as (m & E & HM); [exists r0; auto|]. destruct (HM word) as (mask & EB & _ & ME). exists m, mask. split; [exact E|]. split; [exact EB|].
  destruct (terminals_in_yield rules f FO LR d init D) as (y & Ey & _ & HT). rewrite Y in Ey. injection Ey as <-. cbn in HT. rewrite app_nil_r in HT.
  intros i r k Hi Hr Hk. apply ME. exists i, r. split; [exact Hi|]. split; [exact Hk|]. apply (derivation_enabled rules init word d init D HT (ir_init _ _ _) r Hr).
Qed.
Print Assumptions C27_needed_rules_are_enabled.

(* the hypotheses of the two theorems hold for each grammar Lcfrs::new accepts that is in normal form and has no rule
   without components *)
Theorem C27_accepted_grammars :
  forall (N T : Type) (K : ZWeight) (neqb : N -> N -> bool) (rules : list (prule N T K)) (init : N) (g : mcfg N T K),
    EqbSpec neqb -> lcfrs_new neqb rules init = Some (Some g) -> in_normal_form rules = true -> (forall r, In r rules -> pr_comp r <> []) ->
    is_lcfrs rules init /\ occurs_in rules init /\ forall r, In r rules -> mask_nf r.
Proof.
  intros N T K neqb rules init g NE E NF C0. apply (lcfrs_new_ok neqb NE) in E. destruct E as (_ & LC & DT & NL). split; [exact LC|]. destruct LC as (f & FO & _ & (r0 & Hr0 & H0) & LR). split; [exists r0; auto|].
  intros r Hr. unfold in_normal_form in NF. rewrite forallb_forall in NF. specialize (NF r Hr). apply andb_prop in NF. destruct NF as [NF1 NF2]. rewrite forallb_forall in NF1. destruct (LR r Hr) as (LI & VE & ND). split; [now apply C0|]. split.
  - apply orb_prop in NF2. destruct NF2 as [NF2|NF2].
    + right. intros c Hc. split; [intros ->; specialize (NF1 [] Hc); discriminate|]. intros x Hx. rewrite forallb_forall in NF2. assert (Hin : In x (concat (pr_comp r))) by (apply in_concat; eauto). specialize (NF2 x Hin). destruct x as [i j|t]; [|discriminate]. exists i, j. split; [reflexivity|].
      destruct (VE i j) as (B & HB & _); [apply in_variables; eauto|]. apply nth_error_Some. congruence.
    + left. destruct (pr_comp r) as [|[|[i j|t] [|]] [|]]; try discriminate. exists t. reflexivity.
  - intros t Et. destruct (pr_tail r) as [|B tl] eqn:ETl; [reflexivity|]. exfalso. destruct (DT r B Hr) as (r' & Hr' & Hh); [rewrite ETl; now left|]. specialize (C0 r' Hr'). specialize (FO r' Hr'). rewrite Hh in FO. destruct (pr_comp r') as [|c cs]; [contradiction|].
    assert (X : In (0, 0) (variables (pr_comp r))) by (apply (ND 0 B 0); [now rewrite ETl|rewrite <- FO; cbn; lia]). rewrite Et in X. destruct X.
Qed.
Print Assumptions C27_accepted_grammars.

(* Refuted for rules without components: Lcfrs::new accepts the following grammar, which is in normal form and derives the
   word 7, but the mask disables both rules of the approximation *)
Definition ex_zero : list (prule nat nat TropWeight) := [ex_csr 0 [1; 2] [[Var 1 0]] 1; ex_csr 1 [] [] 0; ex_csr 2 [] [[Tm 7]] 2].
Theorem C27_needed_rules_refuted :
  lcfrs_new Nat.eqb ex_zero 0 = Some (Some (MCFG ex_zero 0)) /\ in_normal_form ex_zero = true /\
  (exists d, deriv (fun r => In r ex_zero) 0 d /\ yield d = Some [[7]]) /\ length (cs_rules trop_factorize ex_zero) = 2 /\
  option_map (fun m => rm_build Nat.eqb m [7]) (rm_new Nat.eqb Nat.eqb (nodup Nat.eq_dec) ex_zero 0) = Some (Some [false; false]).
Proof.
  split; [reflexivity|]. split; [reflexivity|]. split; [|split; vm_compute; reflexivity].
  exists (DNode (ex_csr 0 [1; 2] [[Var 1 0]] 1) [DNode (ex_csr 1 [] [] 0) []; DNode (ex_csr 2 [] [[Tm 7]] 2) []]). split; [|reflexivity].
  repeat match goal with |- deriv _ _ (DNode ?r ?ts) => refine (deriv_node _ r ts _ _); [cbn [In ex_zero]; unfold ex_csr; repeat (first [left; reflexivity|right])|unfold ex_csr; cbn [pr_tail]] | |- Forall2 _ _ _ => constructor end.
Qed.
Print Assumptions C27_needed_rules_refuted.

(* A discontinuous grammar: S -> A | A' of which only one can be used for the words 7 8, and an unreachable C *)
Definition ex_mask : list (prule nat nat TropWeight) :=
  [ex_csr 0 [1; 2] [[Var 0 0; Var 1 0; Var 0 1]] 1; ex_csr 1 [3; 4] [[Var 0 0]; [Var 1 0]] 0; ex_csr 2 [4] [[Var 0 0]] 0; ex_csr 3 [] [[Tm 7]] 2; ex_csr 4 [] [[Tm 8]] 1;
   ex_csr 0 [5; 3] [[Var 0 0; Var 1 0]] 0; ex_csr 5 [] [[Tm 9]] 0; ex_csr 6 [3] [[Var 0 0]] 0].
Example C27_example :
  (forall r, In r ex_mask -> mask_nf r) /\ occurs_in ex_mask 0 /\
  deriv (fun r => In r ex_mask) 0 (DNode (nth 0 ex_mask (ex_csr 0 [] [] 0)) [DNode (nth 1 ex_mask (ex_csr 0 [] [] 0)) [DNode (nth 3 ex_mask (ex_csr 0 [] [] 0)) []; DNode (nth 4 ex_mask (ex_csr 0 [] [] 0)) []];
    DNode (nth 2 ex_mask (ex_csr 0 [] [] 0)) [DNode (nth 4 ex_mask (ex_csr 0 [] [] 0)) []]]) /\
  option_map (fun m => rm_build Nat.eqb m [7; 8; 8]) (rm_new Nat.eqb Nat.eqb (nodup Nat.eq_dec) ex_mask 0) = Some (Some [true; true; true; true; true; true; true; false; false; false]) /\
  option_map (fun m => rm_build Nat.eqb m [7; 9]) (rm_new Nat.eqb Nat.eqb (nodup Nat.eq_dec) ex_mask 0) = Some (Some [false; false; false; false; false; true; false; true; true; false]) /\
  length (cs_rules trop_factorize ex_mask) = 10.
Proof.
  assert (NF : forall r, In r ex_mask -> mask_nf r).
  { intros r Hr. repeat (destruct Hr as [<-|Hr]; [split; [discriminate|split; [|intros t Et; first [discriminate|reflexivity]]]; first [left; eexists; reflexivity|right; intros c Hc; repeat (destruct Hc as [<-|Hc]; [split; [discriminate|]; intros x Hx; repeat (destruct Hx as [<-|Hx]; [eexists; eexists; split; [reflexivity|cbn; lia]|]); destruct Hx|]); destruct Hc]|]). destruct Hr. }
  split; [exact NF|]. split; [eexists; split; [now left|left; reflexivity]|]. split; [|split; [vm_compute; reflexivity|split; [vm_compute; reflexivity|reflexivity]]].
  repeat match goal with |- deriv _ _ (DNode ?r ?ts) => refine (deriv_node _ r ts _ _); [cbn [In ex_mask nth]; unfold ex_csr; repeat (first [left; reflexivity|right])|cbn [pr_tail nth ex_mask]; unfold ex_csr; cbn [pr_tail]] | |- Forall2 _ _ _ => constructor end.
Qed.
