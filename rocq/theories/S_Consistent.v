(* Specification: consistent derivations of the approximation. *)
From Verif Require Import Base M_Cow.

(* the node that the path a leads to holds the rule number r; a path names the successors it goes to, not their components *)
Inductive node_at : cow -> list nat -> nat -> Prop :=
| node_root r ss : node_at (Cow r ss) [] r
| node_below r ss i j t a r' : In (i, j, t) ss -> node_at t a r' -> node_at (Cow r ss) (i :: a) r'.
(* all components of a successor are derived with the same rule *)
Definition consistent (c : cow) : Prop := forall a r r', node_at c a r -> node_at c a r' -> r = r'.
