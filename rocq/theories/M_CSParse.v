(* Model of src/grammars/lcfrs/csparsing/mod.rs: the parser as its users see it.  The module puts together the automaton,
   the estimates, the rule mask, the chart, the enumeration of bracket words and the two ways to read them. *)
From Verif Require Import Base BMap M_Util M_Recog M_Agenda M_TreeStack M_Grammar M_Chart M_CSAuto M_Estimates M_RuleMask M_ToDeriv M_KBest M_Cow.

(* ---- the adaptors of std::iter that the parser uses ---- *)
(* An iterator with state S: a call to next gives an item or the end, and the new state; None = panic (or not enough
   fuel, see M_KBest). *)
Definition iter (St X : Type) := St -> option (option X * St).
(* the results of the first m calls to next *)
Fixpoint run {St X} (next : iter St X) (m : nat) (s : St) : option (list (option X)) :=
  match m with
  | 0 => Some []
  | S m => let? (x, s) := next s in let? xs := run next m s in Some (x :: xs)
  end.
(* Peekable: an item (or the end) that was peeked at, if any *)
Definition peekable_next {St X} (next : iter St X) : iter (option (option X) * St) X := fun s =>
  match fst s with
  | Some x => Some (x, (None, snd s))
  | None => let? (x, s') := next (snd s) in Some (x, (None, s'))
  end.
Definition peek {St X} (next : iter St X) : iter (option (option X) * St) X := fun s =>
  match fst s with
  | Some x => Some (x, s)
  | None => let? (x, s') := next (snd s) in Some (x, (Some x, s'))
  end.
(* TakeWhile with a predicate that has a state P: the flag is set once the predicate fails *)
Definition take_while_next {St P X} (pred : P -> X -> bool * P) (next : iter St X) : iter (bool * P * St) X := fun s =>
  let '(done, p, s) := s in
  if done : bool then Some (None, (done, p, s))
  else
    let? (x, s) := next s in
    match x with
    | None => Some (None, (done, p, s))
    | Some x => let (b, p) := pred p x in if b then Some (Some x, (done, p, s)) else Some (None, (true, p, s))
    end.
(* FilterMap: searches on as long as f gives nothing.  The search is bounded by fuel.  The number of items inspected is
   returned too (debug counts it in the closure, mod.rs:170-175). *)
Fixpoint filter_map_search {St X Y} (f : X -> option (option Y)) (next : iter St X) (fuel : nat) (s : St) : option (option Y * nat * St) :=
  match fuel with
  | 0 => None
  | S fuel =>
      let? (x, s) := next s in
      match x with
      | None => Some (None, 0, s)
      | Some x =>
          let? y := f x in
          match y with
          | Some y => Some (Some y, 1, s)
          | None => let? (y, n, s) := filter_map_search f next fuel s in Some (y, S n, s)
          end
      end
  end.
Definition filter_map_next {St X Y} (f : X -> option (option Y)) (next : iter St X) (fuel : nat) : iter St Y := fun s =>
  let? (y, _, s) := filter_map_search f next fuel s in Some (y, s).

Section CSParse.
  Context {N T : Type} {K : ZWeight} (neqb : N -> N -> bool) (teqb : T -> T -> bool) (factorize : K -> nat -> list K).
  (* the BinaryHeaps of fill_chart and of the estimates, the one of the enumeration, and HashSet iteration in the rule mask *)
  Context (H : max_heap (K * nat) (@item_leb K)) (H2 : max_heap (K * bt K) (@kb_leb K)) (distinct : list nat -> list nat).
  Notation rule := (prule N T K).
  Notation bword := (list (bracket bcontent)).

  (* mod.rs:58-67 *)
  Record cs_rep := CSRep { rep_generator : automaton T K; rep_estimates : @sx_outside K; rep_mask : @rule_mask_builder T; rep_rules : list rule }.
  (* mod.rs:207-231, for a grammar that is an Lcfrs with these rules and this initial nonterminal (the conversions into
     Lcfrs are in M_Grammar); the two asserts panic *)
  Definition cs_new (rules : list rule) (init : N) (width : nat) : option cs_rep :=
    if Nat.ltb 255 width then None
    else if negb (in_normal_form rules) then None
    else
      let? a := from_grammar neqb teqb factorize rules init in
      let? m := rm_new neqb teqb distinct rules init in
      let? s := outside_from_automaton H a width in
      Some (CSRep a s m rules).

  (* mod.rs:69-75; root_prediction is never read *)
  Record settings := Settings { s_candidates : option nat; s_beam : option nat; s_delta : K }.
  (* mod.rs:233-244 *)
  Definition build_generator : settings := Settings None None wzero.
  (* mod.rs:83-91 *)
  Definition set_candidates (c : nat) (s : settings) : settings := Settings (Some c) (s_beam s) (s_delta s).
  Definition set_beam (b : nat) (s : settings) : settings := Settings (s_candidates s) (Some b) (s_delta s).
  Definition set_delta (d : K) (s : settings) : settings := Settings (s_candidates s) (s_beam s) d.

  (* mod.rs:119-128 and 152-161: the counter the closure owns *)
  Definition count_candidates (c : option nat) (_ : bword) : bool * option nat :=
    match c with None => (true, None) | Some 0 => (false, Some 0) | Some (S c) => (true, Some c) end.
  (* mod.rs:111-117 and 147-148, automaton/mod.rs:247-260: the chart and the mask that the iterator over bracket words is
     built from *)
  Definition generate (rep : cs_rep) (st : settings) (word : list T) : option (chart K * list bool) :=
    let realbeam := match s_beam st with Some b => b | None => states (rep_generator rep) end in
    let? mask := rm_build teqb (rep_mask rep) word in
    let? c := fill_chart teqb H (rep_generator rep) word realbeam (s_delta st) (so_get (rep_estimates rep)) mask in
    Some (c, mask).
  Section Iterators.
    Context (fuel : nat) (rep : cs_rep) (c : chart K) (mask : list bool).
    Definition words_next : iter (kiter H2) bword := kiter_next H2 (rep_generator rep) c mask fuel.
    Definition read_fallback (w : bword) : option (gorn rule) := let? t := cow_new w in fallback (rep_rules rep) t.
    (* mod.rs:130-135 *)
    Definition trees_state := (bool * option nat * (option (option bword) * kiter H2))%type.
    Definition trees_next : iter trees_state (gorn rule) :=
      filter_map_next (toderiv (rep_rules rep)) (take_while_next count_candidates (peekable_next words_next)) fuel.
  End Iterators.
  (* mod.rs:96-137: the state of the iterator over trees, and the fallback *)
  Definition with_fallback (fuel : nat) (rep : cs_rep) (st : settings) (word : list T) : option (chart K * list bool * trees_state * option (gorn rule)) :=
    let? (c, mask) := generate rep st word in
    let? (first, ws) := peek (words_next fuel rep c mask) (None, kiter_new H2) in
    let? fb := match first with None => Some None | Some w => option_map Some (read_fallback rep w) end in
    Some (c, mask, (false, s_candidates st, ws), fb).
  (* what its user observes: the fallback and the results of the first m calls to next of the iterator *)
  Definition parse (fuel : nat) (rep : cs_rep) (st : settings) (word : list T) (m : nat) : option (list (option (gorn rule)) * option (gorn rule)) :=
    let? (c, mask, s, fb) := with_fallback fuel rep st word in
    let? ts := run (trees_next fuel rep c mask) m s in
    Some (ts, fb).

  (* mod.rs:194-198 *)
  Inductive debug_result := DParse (t : gorn rule) (n : nat) | DFallback (t : gorn rule) (n : nat) | DNoparse.
  (* mod.rs:139-191, without the time *)
  Definition debug (fuel : nat) (rep : cs_rep) (st : settings) (word : list T) : option (nat * nat * debug_result) :=
    let? (c, mask) := generate rep st word in
    let next := take_while_next count_candidates (words_next fuel rep c mask) in
    let? (o_fallback_word, s) := peek next (None, (false, s_candidates st, kiter_new H2)) in
    let? (o_parse_tree, enumerated_words, _) := filter_map_search (toderiv (rep_rules rep)) (peekable_next next) fuel s in
    let? result :=
      match o_parse_tree, o_fallback_word with
      | Some t, _ => Some (DParse t enumerated_words)
      | None, Some w => let? tree := read_fallback rep w in Some (DFallback tree enumerated_words)
      | None, None => Some DNoparse
      end in
    Some (length (rep_rules rep), length word, result).
End CSParse.
