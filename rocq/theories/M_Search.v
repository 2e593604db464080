(* Model of search/src/search.rs. *)
From Verif Require Import Base M_Agenda.

Section Search.
  Context {I : Type} (A : agenda I) (succs : I -> list I).

  (* search.rs:80-94  Iterator::next of Search.  `successors` is FnMut in the code; here a function of its argument. *)
  Definition search_next (a : ag_T A) : option I * ag_T A :=
    match ag_pop A a with
    | Some (item, a') => (Some item, ag_extend A (succs item) a')
    | None => (None, a)
    end.

  (* n calls of next(): the values returned and the final state *)
  Fixpoint search_calls (n : nat) (a : ag_T A) : list (option I) * ag_T A :=
    match n with
    | 0 => ([], a)
    | S n => let '(o, a1) := search_next a in
             let '(os, a2) := search_calls n a1 in (o :: os, a2)
    end.

  Context (eqb : I -> I -> bool).

  (* search.rs:101-109  unique::Search: agenda and the BTreeSet of visited elements *)
  Definition unique_state : Type := ag_T A * list I.

  (* search.rs:119-124  from_search *)
  Definition unique_from (a : ag_T A) : unique_state := (a, []).

  (* search.rs:136-156  Iterator::next of unique::Search *)
  Definition unique_next (s : unique_state) : option I * unique_state :=
    let '(a, elements) := s in
    match ag_pop A a with
    | Some (item, a') =>
        if memb eqb item elements
        then (None, (a', elements))
        else let elements' := item :: elements in
             (Some item, (ag_extend A (filter (fun i => negb (memb eqb i elements')) (succs item)) a', elements'))
    | None => (None, s)
    end.

  Fixpoint unique_calls (n : nat) (s : unique_state) : list (option I) * unique_state :=
    match n with
    | 0 => ([], s)
    | S n => let '(o, s1) := unique_next s in
             let '(os, s2) := unique_calls n s1 in (o :: os, s2)
    end.
End Search.

(* search.rs:51-53  Search::dfs: initials collected into a Vec *)
Definition dfs_init {I : Type} (initials : list I) : ag_T (vec_agenda I) := initials.
(* search.rs:62-64  Search::bfs: initials collected into a VecDeque (front = first, so pop_back starts with the last) *)
Definition bfs_init {I : Type} (initials : list I) : ag_T (deque_agenda I) := initials.

(* The values an iterator has produced: what a `for` loop or collect() sees, i.e. up to the first None. *)
Fixpoint until_none {I : Type} (os : list (option I)) : list I :=
  match os with
  | Some x :: r => x :: until_none r
  | _ => []
  end.
(* All values returned by next(), also after a None. *)
Definition returned {I : Type} (os : list (option I)) : list I :=
  flat_map (fun o => match o with Some x => [x] | None => [] end) os.
