(* Specification vocabulary for graph search: independent of how the search is implemented. *)
From Verif Require Import Base M_Agenda.

Section Graph.
  Context {I : Type} (succs : I -> list I).

  (* x is an initial node or reachable from one by successors *)
  Inductive reachable (init : list I) : I -> Prop :=
  | reach_init x : In x init -> reachable init x
  | reach_step x y : reachable init x -> In y (succs x) -> reachable init y.

  (* ends of all walks with exactly d steps, one entry per walk *)
  Fixpoint level (d : nat) (xs : list I) : list I :=
    match d with 0 => xs | S d => level d (flat_map succs xs) end.

  (* ends of all walks with fewer than D steps, one entry per walk, by increasing number of steps *)
  Definition walks (D : nat) (xs : list I) : list I := flat_map (fun d => level d xs) (seq 0 D).

  (* the recursive depth-first traversal order: [dfs_order xs ys] if visiting the nodes xs one after the other, each
     followed by the subtrees of its successors (last successor first), visits ys *)
  Inductive dfs_order : list I -> list I -> Prop :=
  | dfs_nil : dfs_order [] []
  | dfs_cons x xs ys zs : dfs_order (rev (succs x)) ys -> dfs_order xs zs -> dfs_order (x :: xs) (x :: ys ++ zs).
End Graph.

(* An agenda never invents items (it may drop some); [content] is an abstraction of its state. *)
Record agenda_sound {I : Type} (A : agenda I) (content : ag_T A -> list I) : Prop := {
  as_push : forall x a y, In y (content (ag_push A x a)) -> y = x \/ In y (content a);
  as_pop : forall a x a', ag_pop A a = Some (x, a') ->
      In x (content a) /\ forall y, In y (content a') -> In y (content a)
}.

(* An agenda neither invents nor drops items. *)
Record agenda_lossless {I : Type} (A : agenda I) (content : ag_T A -> list I) : Prop := {
  al_push : forall x a, Permutation (content (ag_push A x a)) (x :: content a);
  al_pop_some : forall a x a', ag_pop A a = Some (x, a') -> Permutation (content a) (x :: content a');
  al_pop_none : forall a, ag_pop A a = None <-> content a = []
}.

(* A lossless agenda that pops an item of maximal weight in every state satisfying an invariant [wf]. *)
Record agenda_maxfirst {I W : Type} (A : agenda I) (content : ag_T A -> list I) (wf : ag_T A -> Prop)
       (weight : I -> W) (leb : W -> W -> bool) : Prop := {
  am_lossless : agenda_lossless A content;
  am_wf_push : forall x a, wf a -> wf (ag_push A x a);
  am_wf_pop : forall a x a', ag_pop A a = Some (x, a') -> wf a -> wf a';
  am_max : forall a x a' y, wf a -> ag_pop A a = Some (x, a') -> In y (content a) -> leb (weight y) (weight x) = true
}.

(* non-increasing weights *)
Inductive nonincreasing {I W : Type} (weight : I -> W) (leb : W -> W -> bool) : list I -> Prop :=
| ni_nil : nonincreasing weight leb []
| ni_cons x xs : (forall y, In y xs -> leb (weight y) (weight x) = true) ->
                 nonincreasing weight leb xs -> nonincreasing weight leb (x :: xs).
