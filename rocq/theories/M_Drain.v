(* Model of UniqueHeap::into_sorted_vec, unique-heap/src/lib.rs, and of the loop that pops a heap until it is empty. *)
From Verif Require Import Base M_Agenda.
From Coq Require Import Sorting.Sorted.

Section Drain.
  Context {It Wt : Type} (eqb : It -> It -> bool) {leb : (Wt * It) -> (Wt * It) -> bool} (H : max_heap (Wt * It) leb).

  (* std BinaryHeap::into_sorted_vec by its documented contract: the elements in ascending order *)
  Definition sorts (into_sorted_vec : mh_T H -> list (Wt * It)) : Prop :=
    forall h, Permutation (into_sorted_vec h) (mh_content H h) /\ StronglySorted (fun p q => leb p q = true) (into_sorted_vec h).

  (* lib.rs:72-74 *)
  Definition uh_into_sorted_vec (into_sorted_vec : mh_T H -> list (Wt * It)) (h : unique_heap H) : list (Wt * It) := into_sorted_vec (uh_heap H h).

  (* while let Some(x) = heap.pop(), with lib.rs:59-66; cut off after n calls *)
  Fixpoint uh_drain (n : nat) (h : unique_heap H) : list (It * Wt) :=
    match n with
    | 0 => []
    | S n => match uh_pop eqb H h with Some (x, h) => x :: uh_drain n h | None => [] end
    end.
End Drain.

(* while let Some(x) = heap.pop() for the other heaps, with limited_heap.rs:34-36 and beam_heap.rs:46-48; cut off after n calls *)
Fixpoint lh_drain {I W : Type} {leb : W -> W -> bool} (H : minmax_heap (I * W) (wi_leb leb)) (n : nat) (h : limited_heap H) : list I :=
  match n with
  | 0 => []
  | S n => match lh_pop H h with Some (x, h) => x :: lh_drain H n h | None => [] end
  end.
Fixpoint bh_drain {I W : Type} {leb : W -> W -> bool} (H : max_heap (I * W) (wi_leb leb)) (n : nat) (h : beam_heap H) : list I :=
  match n with
  | 0 => []
  | S n => match bh_pop H h with Some (x, h) => x :: bh_drain H n h | None => [] end
  end.
