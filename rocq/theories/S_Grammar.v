(* Specification: derivations of (parallel multiple) context-free grammars as trees of rules. *)
From Verif Require Import Base M_Util M_Recog M_Automata M_CFG M_Grammar S_Recog.

(* A derivation: the rule at the root and the derivations of its successors. *)
Inductive dtree (N T W : Type) := DNode (r : prule N T W) (ts : list (dtree N T W)).
Arguments DNode {N T W}.
Definition d_rule {N T W} (d : dtree N T W) : prule N T W := match d with DNode r _ => r end.
Definition d_children {N T W} (d : dtree N T W) : list (dtree N T W) := match d with DNode _ ts => ts end.

(* d is a derivation from the nonterminal A with rules R *)
Inductive deriv {N T W} (R : prule N T W -> Prop) : N -> dtree N T W -> Prop :=
| deriv_node r ts : R r -> Forall2 (deriv R) (pr_tail r) ts -> deriv R (pr_head r) (DNode r ts).

(* the yield: one string per component, Var i j standing for component j of child i;
   None if a rule refers to a child or component that does not exist *)
Fixpoint yield {N T W} (d : dtree N T W) : option (list (list T)) :=
  match d with
  | DNode r ts =>
      let ys := map yield ts in
      opt_all (fun c => option_map (@concat T) (opt_all (fun x => match x with
        | Tm t => Some [t]
        | Var i j => match nth_error ys i with Some (Some y) => nth_error y j | _ => None end
        end) c)) (pr_comp r)
  end.

(* the rules of a derivation in preorder, and the product of their weights *)
Fixpoint d_rules {N T W} (d : dtree N T W) : list (prule N T W) :=
  match d with DNode r ts => r :: flat_map d_rules ts end.
Definition d_weight {N T} {K : Weight} (d : dtree N T K) : K := wprod (map pr_weight (d_rules d)).

(* the rule at an address of the tree *)
Fixpoint rule_at {N T W} (d : dtree N T W) (addr : list nat) : option (prule N T W) :=
  match addr with
  | [] => Some (d_rule d)
  | i :: r => match nth_error (d_children d) i with Some c => rule_at c r | None => None end
  end.

(* the grammar derives the word w with a derivation of weight k *)
Definition pmcfg_derives {N T} {K : Weight} (g : pmcfg N T K) (w : list T) (k : K) : Prop :=
  exists A d, In A (pg_initial g) /\ deriv (fun r => In r (pg_rules g)) A d /\ yield d = Some [w] /\ d_weight d = k.
Definition mcfg_derives {N T} {K : Weight} (g : mcfg N T K) (w : list T) (k : K) : Prop :=
  exists d, deriv (fun r => In r (mg_rules g)) (mg_initial g) d /\ yield d = Some [w] /\ d_weight d = k.
Definition cfg_derives {N T} {K : Weight} (g : cfg N T K) (leftmost : list (lettert N T) -> list (cfg_rule N T K) -> list T -> Prop)
    (w : list T) (k : K) : Prop :=
  exists s ds, In s (cg_initial g) /\ leftmost [Label s] ds w /\ wprod (map cr_weight ds) = k.

(* fanout f for nonterminals: every rule for A has f A components *)
Definition fanouts_ok {N T W} (rules : list (prule N T W)) (f : N -> nat) : Prop :=
  forall r, In r rules -> length (pr_comp r) = f (pr_head r).
(* no variable twice *)
Definition linear {N T W} (r : prule N T W) : Prop := NoDup (variables (pr_comp r)).
(* the variables are those of the successors: component j < f B of successor i, where B is the i-th successor *)
Definition vars_exist {N T W} (f : N -> nat) (r : prule N T W) : Prop :=
  forall i j, In (i, j) (variables (pr_comp r)) -> exists B, nth_error (pr_tail r) i = Some B /\ j < f B.
Definition nondeleting {N T W} (f : N -> nat) (r : prule N T W) : Prop :=
  forall i B j, nth_error (pr_tail r) i = Some B -> j < f B -> In (i, j) (variables (pr_comp r)).
(* every variable exactly once *)
Definition lcfrs_rule {N T W} (f : N -> nat) (r : prule N T W) : Prop := linear r /\ vars_exist f r /\ nondeleting f r.
Definition is_lcfrs {N T W} (rules : list (prule N T W)) (init : N) : Prop :=
  exists f, fanouts_ok rules f /\ f init = 1 /\ (exists r, In r rules /\ pr_head r = init) /\
    forall r, In r rules -> lcfrs_rule f r.
(* every nonterminal of a right-hand side has a rule *)
Definition defined_tails {N T W} (rules : list (prule N T W)) : Prop :=
  forall r B, In r rules -> In B (pr_tail r) -> exists r', In r' rules /\ pr_head r' = B.
(* no right-hand side ends with a nonterminal of fanout 0 *)
Definition no_empty_last {N T W} (rules : list (prule N T W)) : Prop :=
  forall r l B r', In r rules -> pr_tail r = l ++ [B] -> In r' rules -> pr_head r' = B -> pr_comp r' <> [].
(* a rule of fanout one that uses every successor exactly once *)
Definition cf_rule {N T W} (r : prule N T W) : Prop :=
  exists c, pr_comp r = [c] /\ NoDup (variables [c]) /\
    forall i j, In (i, j) (variables [c]) <-> i < length (pr_tail r) /\ j = 0.
