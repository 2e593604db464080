(* Specification of the rule mask: nonterminals that derive something over the terminals of a word, and those that are
   reachable from the initial nonterminal by such rules. *)
From Verif Require Import Base M_Grammar M_Chart S_Grammar S_CS.

Section Spec.
  Context {N T W : Type} (rules : list (prule N T W)) (init : N) (word : list T).
  (* A has a derivation in which only terminals of the word occur *)
  Definition usable (A : N) : Prop :=
    exists d, deriv (fun r => In r rules) A d /\ forall r t, In r (d_rules d) -> In (Tm t) (concat (pr_comp r)) -> In t word.
  (* A occurs below the initial nonterminal if one only uses rules all of whose successors are usable *)
  Inductive in_reach : N -> Prop :=
  | ir_init : in_reach init
  | ir_step r B : In r rules -> in_reach (pr_head r) -> (forall C, In C (pr_tail r) -> usable C) -> In B (pr_tail r) -> in_reach B.
End Spec.
(* rule k of the approximation comes from the i-th rule of the grammar *)
Definition comes_from {N T} {K : ZWeight} (factorize : K -> nat -> list K) (rules : list (prule N T K)) (k i : nat) : Prop :=
  length (cs_rules factorize (firstn i rules)) <= k < length (cs_rules factorize (firstn (S i) rules)).
(* in a grammar in normal form a terminal rule has no successor, and every rule has a component *)
Definition mask_nf {N T W} (r : prule N T W) : Prop :=
  pr_comp r <> [] /\ rule_nf r /\ forall t, pr_comp r = [[Tm t]] -> pr_tail r = [].
