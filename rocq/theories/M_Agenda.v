(* Models of search/src/agenda/*.rs and unique-heap/src/lib.rs. *)
From Verif Require Import Base.

(* ---- std::collections::BinaryHeap<I>, by its documented contract ------------------------------------------------
   Any type with these operations and these laws; every theorem holds for all of them, i.e. for every internal layout
   and every choice among equal elements.  [mh_content] lists the stored elements in the order of into_iter(). *)
Record max_heap (I : Type) (leb : I -> I -> bool) := MaxHeap {
  mh_T : Type;
  mh_empty : mh_T;
  mh_push : I -> mh_T -> mh_T;
  mh_pop : mh_T -> option (I * mh_T);
  mh_peek : mh_T -> option I;
  mh_len : mh_T -> nat;
  mh_of_list : list I -> mh_T;
  mh_content : mh_T -> list I;
  mh_empty_c : mh_content mh_empty = [];
  mh_push_c : forall x h, Permutation (mh_content (mh_push x h)) (x :: mh_content h);
  mh_of_list_c : forall l, Permutation (mh_content (mh_of_list l)) l;
  mh_pop_none : forall h, mh_pop h = None <-> mh_content h = [];
  mh_pop_some : forall h x h', mh_pop h = Some (x, h') ->
      Permutation (mh_content h) (x :: mh_content h') /\ forall y, In y (mh_content h) -> leb y x = true;
  mh_peek_pop : forall h, mh_peek h = option_map fst (mh_pop h);
  mh_len_c : forall h, mh_len h = length (mh_content h)
}.
Arguments mh_T {I leb}. Arguments mh_empty {I leb}. Arguments mh_push {I leb}. Arguments mh_pop {I leb}.
Arguments mh_peek {I leb}. Arguments mh_len {I leb}. Arguments mh_of_list {I leb}. Arguments mh_content {I leb}.
Arguments mh_empty_c {I leb}. Arguments mh_push_c {I leb}. Arguments mh_of_list_c {I leb}.
Arguments mh_pop_none {I leb}. Arguments mh_pop_some {I leb}. Arguments mh_peek_pop {I leb}. Arguments mh_len_c {I leb}.

(* ---- min_max_heap::MinMaxHeap<I>, by its documented contract; push_pop_min(x) pushes x and then pops the minimum. *)
Record minmax_heap (I : Type) (leb : I -> I -> bool) := MinMaxHeap {
  mm_T : Type;
  mm_empty : mm_T;
  mm_push : I -> mm_T -> mm_T;
  mm_pop_max : mm_T -> option (I * mm_T);
  mm_peek_max : mm_T -> option I;
  mm_push_pop_min : I -> mm_T -> I * mm_T;
  mm_len : mm_T -> nat;
  mm_content : mm_T -> list I;
  mm_empty_c : mm_content mm_empty = [];
  mm_push_c : forall x h, Permutation (mm_content (mm_push x h)) (x :: mm_content h);
  mm_pop_none : forall h, mm_pop_max h = None <-> mm_content h = [];
  mm_pop_some : forall h x h', mm_pop_max h = Some (x, h') ->
      Permutation (mm_content h) (x :: mm_content h') /\ forall y, In y (mm_content h) -> leb y x = true;
  mm_peek_pop : forall h, mm_peek_max h = option_map fst (mm_pop_max h);
  mm_ppm : forall h x y h', mm_push_pop_min x h = (y, h') ->
      Permutation (x :: mm_content h) (y :: mm_content h') /\ forall z, In z (x :: mm_content h) -> leb y z = true;
  mm_len_c : forall h, mm_len h = length (mm_content h)
}.
Arguments mm_T {I leb}. Arguments mm_empty {I leb}. Arguments mm_push {I leb}. Arguments mm_pop_max {I leb}.
Arguments mm_peek_max {I leb}. Arguments mm_push_pop_min {I leb}. Arguments mm_len {I leb}. Arguments mm_content {I leb}.
Arguments mm_empty_c {I leb}. Arguments mm_push_c {I leb}. Arguments mm_pop_none {I leb}. Arguments mm_pop_some {I leb}.
Arguments mm_peek_pop {I leb}. Arguments mm_ppm {I leb}. Arguments mm_len_c {I leb}.

(* search/src/agenda/weighted.rs:17-40  WeightedItem<I, W>: ordered by the weight alone. *)
Definition wi_leb {I W : Type} (wleb : W -> W -> bool) (a b : I * W) : bool := wleb (snd a) (snd b).

(* ---- search/src/agenda/mod.rs:25-41  trait Agenda ---------------------------------------------------------------
   (peek, len, is_empty are modelled with the concrete heaps below; Search uses push and pop only) *)
Record agenda (I : Type) := Agenda {
  ag_T : Type;
  ag_push : I -> ag_T -> ag_T;
  ag_pop : ag_T -> option (I * ag_T)
}.
Arguments ag_T {I}. Arguments ag_push {I}. Arguments ag_pop {I}.

(* search/src/agenda/mod.rs:36-40  Agenda::extend: push one after the other *)
Definition ag_extend {I : Type} (A : agenda I) (xs : list I) (a : ag_T A) : ag_T A :=
  fold_left (fun a x => ag_push A x a) xs a.

(* last element of a Vec and the rest: Vec::pop / VecDeque::pop_back *)
Definition vec_pop {I : Type} (v : list I) : option (I * list I) :=
  match rev v with
  | [] => None
  | x :: r => Some (x, rev r)
  end.

(* search/src/agenda/mod.rs:43-61  impl Agenda for Vec<I> *)
Definition vec_agenda (I : Type) : agenda I :=
  {| ag_T := list I; ag_push := fun x v => v ++ [x]; ag_pop := vec_pop |}.

(* search/src/agenda/mod.rs:63-81  impl Agenda for VecDeque<I>: push_front, pop_back *)
Definition deque_agenda (I : Type) : agenda I :=
  {| ag_T := list I; ag_push := fun x v => x :: v; ag_pop := vec_pop |}.

Section HeapAgendas.
  Context {I W : Type} (weight : I -> W) (leb : W -> W -> bool).

  (* search/src/agenda/mod.rs:83-104, binary_heap.rs:29-41  impl Agenda for weighted::BinaryHeap<I> *)
  Definition heap_agenda (H : max_heap (I * W) (wi_leb leb)) : agenda I :=
    {| ag_T := mh_T H;
       ag_push := fun x h => mh_push H (x, weight x) h;
       ag_pop := fun h => option_map (fun p => (fst (fst p), snd p)) (mh_pop H h) |}.

  (* binary_heap.rs:43-57  FromIterator for weighted::BinaryHeap *)
  Definition heap_collect (H : max_heap (I * W) (wi_leb leb)) (xs : list I) : mh_T H :=
    mh_of_list H (map (fun x => (x, weight x)) xs).
End HeapAgendas.

(* ---- search/src/agenda/limited_heap.rs -------------------------------------------------------------------------- *)
Section Limited.
  Context {I W : Type} {leb : W -> W -> bool} (H : minmax_heap (I * W) (wi_leb leb)).

  (* limited_heap.rs:8-15 *)
  Record limited_heap := LimitedHeap { lh_heap : mm_T H; lh_capacity : nat }.

  (* limited_heap.rs:18-23 *)
  Definition lh_with_capacity (c : nat) : limited_heap := LimitedHeap (mm_empty H) c.

  (* limited_heap.rs:25-32 *)
  Definition lh_push (e : I) (priority : W) (h : limited_heap) : option I * limited_heap :=
    if Nat.ltb (mm_len H (lh_heap h)) (lh_capacity h)
    then (None, LimitedHeap (mm_push H (e, priority) (lh_heap h)) (lh_capacity h))
    else let '(m, h') := mm_push_pop_min H (e, priority) (lh_heap h) in
         (Some (fst m), LimitedHeap h' (lh_capacity h)).

  (* limited_heap.rs:34-36 *)
  Definition lh_pop (h : limited_heap) : option (I * limited_heap) :=
    option_map (fun p => (fst (fst p), LimitedHeap (snd p) (lh_capacity h))) (mm_pop_max H (lh_heap h)).

  (* limited_heap.rs:38-40 *)
  Definition lh_clear (h : limited_heap) : limited_heap := LimitedHeap (mm_empty H) (lh_capacity h).

  (* limited_heap.rs:42-44 *)
  Definition lh_len (h : limited_heap) : nat := mm_len H (lh_heap h).

  (* limited_heap.rs:46-48 *)
  Definition lh_peek (h : limited_heap) : option I := option_map fst (mm_peek_max H (lh_heap h)).

  (* limited_heap.rs:104-113  into_iter; here together with the stored priorities *)
  Definition lh_items (h : limited_heap) : list (I * W) := mm_content H (lh_heap h).

  (* limited_heap.rs:68-75, mod.rs:129-150  weighted::LimitedHeap as an Agenda (the returned item is discarded) *)
  Definition limited_agenda (weight : I -> W) : agenda I :=
    {| ag_T := limited_heap;
       ag_push := fun x h => snd (lh_push x (weight x) h);
       ag_pop := lh_pop |}.
End Limited.

(* ---- search/src/agenda/beam_heap.rs ----------------------------------------------------------------------------- *)
Section Beam.
  Context {I W : Type} {leb : W -> W -> bool} (mul : W -> W -> W) (H : max_heap (I * W) (wi_leb leb)).

  (* beam_heap.rs:9-15 *)
  Record beam_heap := BeamHeap { bh_heap : mh_T H; bh_beta : W }.

  (* beam_heap.rs:21-26 *)
  Definition bh_new (beta : W) : beam_heap := BeamHeap (mh_empty H) beta.

  (* beam_heap.rs:28-40; is_empty() || priority >= peek().unwrap().1 * beta *)
  Definition bh_push (e : I) (priority : W) (h : beam_heap) : bool * beam_heap :=
    match mh_peek H (bh_heap h) with
    | None => (true, BeamHeap (mh_push H (e, priority) (bh_heap h)) (bh_beta h))
    | Some top =>
        if leb (mul (snd top) (bh_beta h)) priority
        then (true, BeamHeap (mh_push H (e, priority) (bh_heap h)) (bh_beta h))
        else (false, h)
    end.

  (* beam_heap.rs:42-44 *)
  Definition bh_peek (h : beam_heap) : option I := option_map fst (mh_peek H (bh_heap h)).

  (* beam_heap.rs:46-48 *)
  Definition bh_pop (h : beam_heap) : option (I * beam_heap) :=
    option_map (fun p => (fst (fst p), BeamHeap (snd p) (bh_beta h))) (mh_pop H (bh_heap h)).

  (* beam_heap.rs:50-52 *)
  Definition bh_len (h : beam_heap) : nat := mh_len H (bh_heap h).

  (* beam_heap.rs:54-56 *)
  Definition bh_clear (h : beam_heap) : beam_heap := BeamHeap (mh_empty H) (bh_beta h).

  (* beam_heap.rs:128-137  into_iter; here together with the stored priorities *)
  Definition bh_items (h : beam_heap) : list (I * W) := mh_content H (bh_heap h).

  (* beam_heap.rs:76-82, mod.rs:106-127  weighted::BeamHeap as an Agenda *)
  Definition beam_agenda (weight : I -> W) : agenda I :=
    {| ag_T := beam_heap;
       ag_push := fun x h => snd (bh_push x (weight x) h);
       ag_pop := bh_pop |}.
End Beam.

(* ---- unique-heap/src/lib.rs ------------------------------------------------------------------------------------- *)
Section Unique.
  Context {It Wt : Type} (eqb : It -> It -> bool) {leb : (Wt * It) -> (Wt * It) -> bool}
          (H : max_heap (Wt * It) leb).

  (* lib.rs:27-36; the HashSet is a list of elements (set semantics: see uh_insert/uh_remove) *)
  Record unique_heap := UniqueHeap { uh_heap : mh_T H; uh_current : list It }.

  (* HashSet::insert: (was it new?, new set) *)
  Definition uh_insert (x : It) (s : list It) : bool * list It :=
    if memb eqb x s then (false, s) else (true, x :: s).

  (* HashSet::remove *)
  Definition uh_remove (x : It) (s : list It) : list It := filter (fun y => negb (eqb x y)) s.

  (* lib.rs:85-97  Default *)
  Definition uh_default : unique_heap := UniqueHeap (mh_empty H) [].

  (* lib.rs:46-56 *)
  Definition uh_push (item : It) (weight : Wt) (h : unique_heap) : bool * unique_heap :=
    match uh_insert item (uh_current h) with
    | (true, s) => (true, UniqueHeap (mh_push H (weight, item) (uh_heap h)) s)
    | (false, s) => (false, UniqueHeap (uh_heap h) s)
    end.

  (* lib.rs:59-66 *)
  Definition uh_pop (h : unique_heap) : option ((It * Wt) * unique_heap) :=
    match mh_pop H (uh_heap h) with
    | Some ((weight, item), heap) => Some ((item, weight), UniqueHeap heap (uh_remove item (uh_current h)))
    | None => None
    end.

  (* lib.rs:68-70 *)
  Definition uh_is_empty (h : unique_heap) : bool := Nat.eqb (mh_len H (uh_heap h)) 0.

  (* lib.rs:76-78 *)
  Definition uh_peek (h : unique_heap) : option (Wt * It) := mh_peek H (uh_heap h).

  (* lib.rs:80-82 *)
  Definition uh_len (h : unique_heap) : nat := mh_len H (uh_heap h).

  (* lib.rs:145-157  into_iter: the items of the heap *)
  Definition uh_items (h : unique_heap) : list (Wt * It) := mh_content H (uh_heap h).

  (* lib.rs:99-128  FromIterator (the size hint only pre-allocates) *)
  Definition uh_from_iter (l : list (It * Wt)) : unique_heap :=
    fold_left (fun h p => match uh_insert (fst p) (uh_current h) with
                          | (true, s) => UniqueHeap (mh_push H (snd p, fst p) (uh_heap h)) s
                          | (false, s) => UniqueHeap (uh_heap h) s
                          end) l uh_default.

  (* lib.rs:130-143  From<Vec<(W, I)>>: collects the set, heapifies the unchanged vector *)
  Definition uh_from_vec (v : list (Wt * It)) : unique_heap :=
    UniqueHeap (mh_of_list H v) (fold_left (fun s p => snd (uh_insert (snd p) s)) v []).
End Unique.
