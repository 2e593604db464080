(* Model of LabelledTreeNode::is_consistent, src/grammars/lcfrs/csparsing/cowderiv.rs. *)
From Verif Require Import Base M_Util M_CSAuto M_RuleMask M_Cow.

(* cowderiv.rs:25-29 *)
Definition same_content (trees : list cow) : bool :=
  match trees with [] => true | t :: ts => forallb (fun te => Nat.eqb (cow_content te) (cow_content t)) ts end.
(* cowderiv.rs:32-37; None = panic in push_to *)
Definition successors_per_fst (trees : list cow) : option (list (list cow)) :=
  fold_p (fun m t => fold_p (fun m e => let '(i, _, s) := e in vmm_push_to i s m) (cow_successors t) m) trees vmm_new.
(* cowderiv.rs:23-41; fuel for the recursion, None = panic or out of fuel *)
Fixpoint is_consistent_vec (fuel : nat) (trees : list cow) : option bool :=
  match fuel with
  | 0 => None
  | S fuel => if same_content trees then let? groups := successors_per_fst trees in all_p (is_consistent_vec fuel) groups else Some false
  end.
(* cowderiv.rs:19-21 *)
Definition is_consistent (t : cow) : option bool := is_consistent_vec (S (cow_height t)) [t].
