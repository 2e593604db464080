(* Specification of multiple Dyck languages. *)
From Verif Require Import Base M_Util S_Util.

Section MultipleDyck.
  Context {T : Type} (cells : list (list T)).
  Notation word := (list (bracket T)).

  (* (symbol, what its brackets enclose, what follows) *)
  Definition sym_of (x : T * word * word) : T := let '(s, v, u) := x in s.
  Definition enclosed (x : T * word * word) : word := let '(s, v, u) := x in v.
  Definition outside (x : T * word * word) : word := let '(s, v, u) := x in u.
  Definition bracketed (x : T * word * word) : word := let '(s, v, u) := x in Open s :: v ++ Close s :: u.

  (* u0 s1 v1 s1' u1 ... sk vk sk' uk cancels to u0 u1 ... uk if {s1, ..., sk} is a cell, all ui and vi are Dyck words and
     v1 ... vk cancels to the empty word *)
  Inductive multiple_dyck : word -> Prop :=
  | md_nil : multiple_dyck []
  | md_cancel cell u0 l : In cell cells -> Permutation (map sym_of l) cell ->
      dyck u0 -> (forall x, In x l -> dyck (enclosed x) /\ dyck (outside x)) ->
      multiple_dyck (flat_map enclosed l) -> multiple_dyck (u0 ++ flat_map outside l) ->
      multiple_dyck (u0 ++ flat_map bracketed l).

  (* the sorted variant: the symbols that are cancelled together have one sort, and on one level a sort is cancelled once *)
  Context (sort : T -> nat).
  (* s is a symbol of w that is not enclosed by other brackets *)
  Definition top_symbol (w : word) (s : T) : Prop := exists x v y, w = x ++ Open s :: v ++ Close s :: y /\ dyck x /\ dyck v /\ dyck y.
  Inductive sorted_multiple_dyck : word -> Prop :=
  | smd_nil : sorted_multiple_dyck []
  | smd_cancel cell u0 l p : In cell cells -> Permutation (map sym_of l) cell ->
      dyck u0 -> (forall x, In x l -> dyck (enclosed x) /\ dyck (outside x)) ->
      (forall x, In x l -> sort (sym_of x) = p) -> (forall s, top_symbol (u0 ++ flat_map outside l) s -> sort s <> p) ->
      sorted_multiple_dyck (flat_map enclosed l) -> sorted_multiple_dyck (u0 ++ flat_map outside l) ->
      sorted_multiple_dyck (u0 ++ flat_map bracketed l).

  (* the smallest equivalence that contains the cancellations *)
  Inductive md_equiv : word -> word -> Prop :=
  | me_refl u : md_equiv u u
  | me_sym u v : md_equiv u v -> md_equiv v u
  | me_trans u v w : md_equiv u v -> md_equiv v w -> md_equiv u w
  | me_cancel cell u0 l : In cell cells -> Permutation (map sym_of l) cell ->
      dyck u0 -> (forall x, In x l -> dyck (enclosed x) /\ dyck (outside x)) ->
      md_equiv (flat_map enclosed l) [] ->
      md_equiv (u0 ++ flat_map bracketed l) (u0 ++ flat_map outside l).
End MultipleDyck.
