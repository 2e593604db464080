(* Models of vecmultimap/src/lib.rs, src/util/partition.rs, src/util/push_down.rs and src/dyck/mod.rs. *)
From Verif Require Import Base BMap.

(* ---- vecmultimap/src/lib.rs: VecMultiMap<T> and VecMultiMapAdapter<T> have the same functions ------------------- *)
Section VecMultiMap.
  Context {T : Type}.

  (* lib.rs:4-5 *)
  Definition vmm := list (list T).

  (* Vec::resize_with(n, Vec::new): truncate or pad with empty vectors *)
  Definition resize (n : nat) (m : vmm) : vmm := firstn n m ++ repeat [] (n - length m).

  (* lib.rs:8-12, 39-43 *)
  Definition vmm_pad_to (index : nat) (m : vmm) : vmm :=
    if Nat.leb (length m) index then resize (index + 1) m else m.

  (* v[index] = f(v[index]) *)
  Fixpoint update (index : nat) (f : list T -> list T) (m : vmm) : vmm :=
    match index, m with
    | _, [] => []
    | 0, v :: r => f v :: r
    | S i, v :: r => v :: update i f r
    end.

  (* lib.rs:35-37 *)
  Definition vmm_new : vmm := [].

  (* lib.rs:14-17, 45-48; None = index out of bounds (panic) *)
  Definition vmm_push_to (index : nat) (value : T) (m : vmm) : option vmm :=
    let m' := vmm_pad_to index m in
    if Nat.ltb index (length m') then Some (update index (fun v => v ++ [value]) m') else None.

  (* lib.rs:19-22, 50-53; None = read out of bounds by get_unchecked (undefined behaviour) *)
  Definition vmm_get (index : nat) (m : vmm) : option (list T) * vmm :=
    let m' := vmm_pad_to index m in (nth_error m' index, m').

  (* lib.rs:24-26, 55-57 *)
  Definition vmm_get_or_fail (index : nat) (m : vmm) : option (list T) := nth_error m index.

  (* lib.rs:28-31, 59-62  get_mut; the caller's modification of the vector is the function f *)
  Definition vmm_get_mut (index : nat) (f : list T -> list T) (m : vmm) : option vmm :=
    let m' := vmm_pad_to index m in
    if Nat.ltb index (length m') then Some (update index f m') else None.

  (* lib.rs:64-67 *)
  Definition vmm_into_vec_with_size (size : nat) (m : vmm) : list (list T) := resize size m.

  (* iter().enumerate().rfind(|(_, v)| v.len() > 0).map(|(i, _)| i) *)
  Fixpoint last_filled (m : vmm) : option nat :=
    match m with
    | [] => None
    | v :: r => match last_filled r with
                | Some i => Some (S i)
                | None => if Nat.ltb 0 (length v) then Some 0 else None
                end
    end.

  (* lib.rs:76-86  Into<Vec<Vec<T>>> *)
  Definition vmm_into_vec (m : vmm) : list (list T) :=
    match last_filled m with
    | Some i => vmm_into_vec_with_size (i + 1) m
    | None => []
    end.

  (* lib.rs:88-94  Index of the adapter; None = panic "immutable index out of bounds" *)
  Definition vmm_index (index : nat) (m : vmm) : option (list T) := vmm_get_or_fail index m.
End VecMultiMap.
Arguments vmm : clear implicits.

(* ---- src/util/partition.rs -------------------------------------------------------------------------------------- *)
Section Partition.
  Context {T : Type} (cmp : T -> T -> comparison).

  (* partition.rs:12  BTreeMap<T, Rc<BTreeSet<T>>>; sharing through Rc is not observable *)
  Definition partition := list (T * list T).

  (* partition.rs:24-28  inner loop over the symbols of one cell; None = the early `return None` *)
  Fixpoint part_insert_cell (cell : list T) (symbols : list T) (p : partition) : option partition :=
    match symbols with
    | [] => Some p
    | s :: r => match bm_get cmp s p with
                | Some _ => None
                | None => part_insert_cell cell r (bm_insert cmp s cell p)
                end
    end.

  Fixpoint part_insert_cells (cells : list (list T)) (p : partition) : option partition :=
    match cells with
    | [] => Some p
    | c :: r => match part_insert_cell c c p with
                | None => None
                | Some p' => part_insert_cells r p'
                end
    end.

  (* partition.rs:19-32  (cells are BTreeSets: strictly increasing lists) *)
  Definition part_new (cells : list (list T)) : option partition := part_insert_cells cells [].

  (* partition.rs:37-44 *)
  Definition part_get_cell (elem : T) (p : partition) : option (list T) := bm_get cmp elem p.

  (* partition.rs:52-57  loop of collapse over the map, in key order *)
  Fixpoint part_collapse_loop (entries : list (T * list T)) (alphabet : list T) : list (list T) :=
    match entries with
    | [] => []
    | (sigma, cell) :: r =>
        if existsb (fun x => match cmp sigma x with Eq => true | _ => false end) alphabet
        then part_collapse_loop r alphabet
        else cell :: part_collapse_loop r (alphabet ++ cell)
    end.

  (* partition.rs:47-60 *)
  Definition part_collapse (p : partition) : list (list T) := part_collapse_loop p [].

  (* partition.rs:63-67 *)
  Definition part_alphabet (p : partition) : list T := map fst p.
End Partition.

(* ---- src/util/push_down.rs -------------------------------------------------------------------------------------- *)
(* push_down.rs:9-13 *)
Inductive pushdown (A : Type) := Empty | Cons (value : A) (below : pushdown A).
Arguments Empty {A}. Arguments Cons {A}.

(* Result<T, E> *)
Inductive result (T E : Type) := Ok (t : T) | Err (e : E).
Arguments Ok {T E}. Arguments Err {T E}.

Section Pushdown.
  Context {A : Type}.

  (* push_down.rs:15-32  PartialEq (the Rc::ptr_eq short cut is not observable for an equivalence) *)
  Fixpoint pd_eqb (eqb : A -> A -> bool) (p q : pushdown A) : bool :=
    match p, q with
    | Empty, Empty => true
    | Cons a1 b1, Cons a2 b2 => eqb a1 a2 && pd_eqb eqb b1 b2
    | _, _ => false
    end.

  (* push_down.rs:38-40 *)
  Definition pd_new : pushdown A := Empty.
  (* push_down.rs:43-48 *)
  Definition pd_push (p : pushdown A) (a : A) : pushdown A := Cons a p.
  (* push_down.rs:52-57 *)
  Definition pd_set (p : pushdown A) (a : A) : result (pushdown A) (pushdown A) :=
    match p with Empty => Err Empty | Cons _ below => Ok (Cons a below) end.
  (* push_down.rs:60-65 *)
  Definition pd_is_empty (p : pushdown A) : bool := match p with Empty => true | _ => false end.
  (* push_down.rs:88-93 *)
  Definition pd_pop (p : pushdown A) : result (pushdown A * A) (pushdown A) :=
    match p with Empty => Err Empty | Cons value below => Ok (below, value) end.
  (* push_down.rs:95-108 *)
  Definition pd_peek (p : pushdown A) : option A := match p with Empty => None | Cons value _ => Some value end.

  (* the loop of to_vec/into: push the values top to bottom onto res *)
  Fixpoint pd_collect (p : pushdown A) (res : list A) : list A :=
    match p with Empty => res | Cons value below => pd_collect below (res ++ [value]) end.
  (* push_down.rs:110-127 (and Into<Vec<A>>, 150-166) *)
  Definition pd_to_vec (p : pushdown A) : list A := rev (pd_collect p []).
  (* push_down.rs:129-131 *)
  Definition pd_iter (p : pushdown A) : list A := pd_to_vec p.
  (* push_down.rs:140-148 *)
  Definition pd_from (v : list A) : pushdown A := fold_left pd_push v pd_new.
End Pushdown.

(* push_down.rs:68-82  map with a stateful closure FnMut: the state is threaded top to bottom *)
Fixpoint pd_map {A B S : Type} (f : S -> A -> S * B) (s : S) (p : pushdown A) : S * pushdown B :=
  match p with
  | Empty => (s, Empty)
  | Cons value below =>
      let '(s1, b) := f s value in
      let '(s2, r) := pd_map f s1 below in (s2, Cons b r)
  end.

(* integeriser::HashIntegeriser<A>: values in order of their first integerisation *)
Section Integeriser.
  Context {A : Type} (eqb : A -> A -> bool).

  Fixpoint find_index (x : A) (l : list A) : option nat :=
    match l with
    | [] => None
    | y :: r => if eqb x y then Some 0 else option_map S (find_index x r)
    end.

  (* HashIntegeriser::integerise: existing key or the next fresh one *)
  Definition int_integerise (l : list A) (x : A) : list A * nat :=
    match find_index x l with
    | Some k => (l, k)
    | None => (l ++ [x], length l)
    end.

  (* find_key / find_value *)
  Definition int_find_key (l : list A) (x : A) : option nat := find_index x l.
  Definition int_find_value (l : list A) (k : nat) : option A := nth_error l k.

  (* push_down.rs:172-174 *)
  Definition pd_integerise (l : list A) (p : pushdown A) : list A * pushdown nat := pd_map int_integerise l p.

  (* push_down.rs:176-178; None = unwrap() of an unknown key (panic) *)
  Fixpoint pd_un_integerise (l : list A) (p : pushdown nat) : option (pushdown A) :=
    match p with
    | Empty => Some Empty
    | Cons k below =>
        match int_find_value l k, pd_un_integerise l below with
        | Some v, Some b => Some (Cons v b)
        | _, _ => None
        end
    end.
End Integeriser.

(* ---- src/dyck/mod.rs -------------------------------------------------------------------------------------------- *)
(* dyck/mod.rs:6-9 *)
Inductive bracket (A : Type) := Open (a : A) | Close (a : A).
Arguments Open {A}. Arguments Close {A}.

(* dyck/mod.rs:13-33; stack with its top at the head *)
Fixpoint dyck_loop {A : Type} (eqb : A -> A -> bool) (word : list (bracket A)) (stack : list A) : bool :=
  match word with
  | [] => match stack with [] => true | _ => false end
  | Open symbol :: r => dyck_loop eqb r (symbol :: stack)
  | Close symbol :: r => match stack with
                         | [] => false
                         | symbol_ :: st => if eqb symbol symbol_ then dyck_loop eqb r st else false
                         end
  end.
Definition dyck_recognize {A : Type} (eqb : A -> A -> bool) (word : list (bracket A)) : bool := dyck_loop eqb word [].
