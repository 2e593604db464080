(* Specification vocabulary for graphs in which a search meets every node at most once before it has been visited:
   walks, dominators and back edges, as for flow graphs.  Independent of how the search is implemented. *)
From Verif Require Import Base.

Section Graph.
  Context {I : Type} (succs : I -> list I) (init : list I).

  (* [walk p]: p, read from its last element to its first, starts at an initial node and follows edges *)
  Inductive walk : list I -> Prop :=
  | walk_one x : In x init -> walk [x]
  | walk_edge x y p : walk (x :: p) -> In y (succs x) -> walk (y :: x :: p).

  (* every walk to x visits y *)
  Definition dominates (y x : I) : Prop := forall p, walk (x :: p) -> In y (x :: p).

  (* an edge from x to y that does not merely lead back to a node every walk to x has visited *)
  Definition forward (x y : I) : Prop := (exists p, walk (x :: p)) /\ In y (succs x) /\ ~ dominates y x.

  (* no node is entered by two different forward edges, or by a forward edge although it is initial *)
  Definition entered_once : Prop :=
    NoDup init /\
    forall x y, forward x y ->
      ~ In y init /\ (forall x', forward x' y -> x' = x) /\ (forall l r, succs x = l ++ y :: r -> ~ In y (l ++ r)).
End Graph.
