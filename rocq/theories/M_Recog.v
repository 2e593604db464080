(* Model of src/recognisable/{mod,transition,configuration,automaton}.rs. *)
From Verif Require Import Base M_Agenda M_Search M_Util.

(* transition.rs:14-18 *)
Record transition (I T : Type) (K : Weight) := Trans { t_word : list T; t_weight : K; t_ins : I }.
Arguments Trans {I T K}. Arguments t_word {I T K}. Arguments t_weight {I T K}. Arguments t_ins {I T K}.

(* configuration.rs:6-11 *)
Record configuration (S T : Type) (K : Weight) := Conf { c_word : list T; c_storage : S; c_weight : K }.
Arguments Conf {S T K}. Arguments c_word {S T K}. Arguments c_storage {S T K}. Arguments c_weight {S T K}.

(* mod.rs:25-30  Item(configuration, run) *)
Definition item (S I T : Type) (K : Weight) : Type := configuration S T K * pushdown (transition I T K).

(* mod.rs:33-39  Weighted for Item *)
Definition item_weight {S I T : Type} {K : Weight} (i : item S I T K) : K := c_weight (fst i).

(* slice::starts_with *)
Fixpoint starts_with {T : Type} (eqb : T -> T -> bool) (w p : list T) : bool :=
  match p, w with
  | [], _ => true
  | a :: p, b :: w => eqb b a && starts_with eqb w p
  | _ :: _, [] => false
  end.

(* transition.rs:90-108  Transition::apply, for Instruction::apply = [apply] *)
Definition tr_apply {S I T : Type} {K : Weight} (teqb : T -> T -> bool) (apply : I -> S -> list S)
           (t : transition I T K) (c : configuration S T K) : list (configuration S T K) :=
  if negb (starts_with teqb (c_word c) (t_word t)) then []
  else map (fun s1 => Conf (skipn (length (t_word t)) (c_word c)) s1 (wmul (c_weight c) (t_weight t)))
           (apply (t_ins t) (c_storage c)).

(* automaton.rs:26-80  what `recognise` uses of the trait Automaton, in the internal representation.
   [au_key] = extract_key, None = it panics; [au_tmap k] = the transitions of transition_map().get(k) in the order in
   which the heap iterates over them ([] if there is no entry). *)
Record automaton := Automaton {
  au_S : Type; au_I : Type; au_T : Type; au_K : Weight; au_Key : Type;
  au_teqb : au_T -> au_T -> bool;
  au_apply : au_I -> au_S -> list au_S;
  au_key : configuration au_S au_T au_K -> option au_Key;
  au_terminal : configuration au_S au_T au_K -> bool;
  au_tmap : au_Key -> list (transition au_I au_T au_K);
  au_init : au_S
}.

(* n calls of Search::next (search.rs:80-94) when the successor function may panic; None = panic *)
Definition search_next_p {I : Type} (A : agenda I) (succs : I -> option (list I)) (a : ag_T A) : option (option I * ag_T A) :=
  match ag_pop A a with
  | Some (item, a') => match succs item with
                       | Some l => Some (Some item, ag_extend A l a')
                       | None => None
                       end
  | None => Some (None, a)
  end.
Fixpoint search_calls_p {I : Type} (A : agenda I) (succs : I -> option (list I)) (n : nat) (a : ag_T A)
  : option (list (option I) * ag_T A) :=
  match n with
  | 0 => Some ([], a)
  | S n => match search_next_p A succs a with
           | None => None
           | Some (o, a1) => match search_calls_p A succs n a1 with
                             | None => None
                             | Some (os, a2) => Some (o :: os, a2)
                             end
           end
  end.

(* collect::<Option<Vec<_>>>() *)
Fixpoint opt_all {A B : Type} (f : A -> option B) (l : list A) : option (list B) :=
  match l with
  | [] => Some []
  | x :: r => match f x, opt_all f r with
              | Some y, Some ys => Some (y :: ys)
              | _, _ => None
              end
  end.

Section Recognise.
  Context (a : automaton).
  Notation AItem := (item (au_S a) (au_I a) (au_T a) (au_K a)).

  (* automaton.rs:142-155  the successor function: all transitions found under the key of the configuration *)
  Definition item_succs (i : AItem) : option (list AItem) :=
    let '(conf, run) := i in
    match au_key a conf with
    | None => None
    | Some key => Some (flat_map (fun r => map (fun conf1 => (conf1, pd_push run r))
                                              (tr_apply (au_teqb a) (au_apply a) r conf)) (au_tmap a key))
    end.

  (* automaton.rs:129-140  the initial item; None = some symbol of the word is unknown to the automaton *)
  Definition init_items (the_word : option (list (au_T a))) : list AItem :=
    match the_word with
    | Some w => [(Conf w (au_init a) wone, pd_new)]
    | None => []
    end.

  (* automaton.rs:142-157  what the iterator `recognise` has yielded after n calls of next() on the search it filters
     (before item_map); None = panic *)
  Definition recognise_int (H : max_heap (AItem * au_K a) (wi_leb wleb)) (the_word : option (list (au_T a))) (n : nat)
    : option (list AItem) :=
    match search_calls_p (heap_agenda item_weight wleb H) item_succs n
                         (heap_collect item_weight wleb H (init_items the_word)) with
    | None => None
    | Some (os, _) => Some (filter (fun i => au_terminal a (fst i)) (until_none os))
    end.
  (* did the underlying search end within n calls? *)
  Definition recognise_ended (H : max_heap (AItem * au_K a) (wi_leb wleb)) (the_word : option (list (au_T a))) (n : nat)
    : Prop :=
    exists os h, search_calls_p (heap_agenda item_weight wleb H) item_succs n
                         (heap_collect item_weight wleb H (init_items the_word)) = Some (os, h) /\ In None os.

  (* automaton.rs:160-207  recognise_beam, likewise, with a LimitedHeap of capacity beam *)
  Definition recognise_beam_int (H : minmax_heap (AItem * au_K a) (wi_leb wleb)) (beam : nat)
             (the_word : option (list (au_T a))) (n : nat) : option (list AItem) :=
    match search_calls_p (limited_agenda H item_weight) item_succs n
                         (ag_extend (limited_agenda H item_weight) (init_items the_word) (lh_with_capacity H beam)) with
    | None => None
    | Some (os, _) => Some (filter (fun i => au_terminal a (fst i)) (until_none os))
    end.
  (* did the underlying beam search end within n calls? *)
  Definition recognise_beam_ended (H : minmax_heap (AItem * au_K a) (wi_leb wleb)) (beam : nat)
             (the_word : option (list (au_T a))) (n : nat) : Prop :=
    exists os h, search_calls_p (limited_agenda H item_weight) item_succs n
                         (ag_extend (limited_agenda H item_weight) (init_items the_word) (lh_with_capacity H beam)) = Some (os, h) /\ In None os.
End Recognise.

(* automaton.rs:84-112  check_run (in the outer representation: [apply], [initial]) *)
Definition check_run_loop {S I T : Type} {K : Weight} (apply : I -> S -> list S)
           (r : list S * K) (t : transition I T K) : list S * K :=
  let '(result, weight) := r in
  (flat_map (fun s => apply (t_ins t) s) result, wmul weight (t_weight t)).

Definition check_run {S I T : Type} {K : Weight} (apply : I -> S -> list S) (initial : S)
           (run : pushdown (transition I T K)) : list (item S I T K) :=
  let '(result, weight) := fold_left (check_run_loop apply) (pd_iter run) ([initial], wone) in
  map (fun s => (Conf [] s weight, run)) result.
