(* Model of the command tsa recognise (src/bin/tree_stack_automata.rs) and of mcfg automaton (src/bin/pmcfg.rs), which prints an
   automaton.  The options are the names and values that clap hands over; files and the command line are in M_Main. *)
From Verif Require Import M_Nom Base M_Util M_Recog M_Agenda M_Automata M_CFG M_TreeStack M_Grammar M_Chart M_FromPmcfg M_Text M_AutText M_Negra M_Command M_Mcfg M_CfgCommand.

(* ---- derive(Debug) for runs ---- *)
(* tree_stack_instruction.rs:11-30 *)
Definition debug_ts_instruction (debug_string : bytes -> bytes) (i : ts_instr bytes) : bytes :=
  match i with
  | IUp n c o v => «"Up { n: "» ++ usize_text n ++ «", current_val: "» ++ debug_string c ++ «", old_val: "» ++ debug_string o ++ «", new_val: "» ++ debug_string v ++ «" }"»
  | IPush n c v => «"Push { n: "» ++ usize_text n ++ «", current_val: "» ++ debug_string c ++ «", new_val: "» ++ debug_string v ++ «" }"»
  | IDown c o v => «"Down { current_val: "» ++ debug_string c ++ «", old_val: "» ++ debug_string o ++ «", new_val: "» ++ debug_string v ++ «" }"»
  end.
(* recognisable/transition.rs:10-15 *)
Definition debug_transition {I T : Type} {K : Weight} (debug_instruction : I -> bytes) (debug_symbol : T -> bytes) (debug_weight : K -> bytes) (t : transition I T K) : bytes :=
  «"Transition { word: "» ++ debug_vec debug_symbol (t_word t) ++ «", weight: "» ++ debug_weight (t_weight t) ++ «", instruction: "» ++ debug_instruction (t_ins t) ++ «" }"».
(* util/push_down.rs:9-13 *)
Fixpoint debug_pushdown_list {X : Type} (debug : X -> bytes) (p : pushdown X) : bytes :=
  match p with
  | Empty => «"Empty"»
  | Cons value below => «"Cons { value: "» ++ debug value ++ «", below: "» ++ debug_pushdown_list debug below ++ «" }"»
  end.

(* clap's ArgMatches::value_of: the value of an argument, if it is there *)
Definition value_of (matches : list (bytes * bytes)) (name : bytes) : option bytes :=
  option_map snd (find (fun m => word_eqb (fst m) name) matches).

Section Search.
  Context {A : Type} {K : Weight} (teqb : bytes -> bytes -> bool).
  Notation code := (item (tstack nat) (ts_instr nat) nat K).
  Context (H : max_heap (code * K) (wi_leb wleb)) (Hb : minmax_heap (code * K) (wi_leb wleb))
          (shuffle : list (transition (ts_instr nat) nat K) -> list (transition (ts_instr nat) nat K)).
  (* tree_stack_automata.rs:108, 113: the search behind the iterator after [calls] calls of next(): the runs found, and whether
     the search has ended *)
  Definition tsa_found (M : tsa A bytes K) (beam : option nat) (word : list bytes) (calls : nat) : option (list (item (tstack A) (ts_instr A) bytes K)) * bool :=
    let a := tsa_automaton shuffle M in
    let the_word := opt_all (int_find_key teqb (ta_t M)) word in
    match beam with
    | Some b => (tsa_recognise_beam teqb shuffle M Hb b word calls,
                 ended_calls (search_calls_p (limited_agenda Hb item_weight) (item_succs a) calls
                                (ag_extend (limited_agenda Hb item_weight) (init_items a the_word) (lh_with_capacity Hb b))))
    | None => (tsa_recognise teqb shuffle M H word calls,
               ended_calls (search_calls_p (heap_agenda item_weight wleb H) (item_succs a) calls (heap_collect item_weight wleb H (init_items a the_word))))
    end.
End Search.

Section TsaCommand.
  Context {K : ZWeight} (aeqb teqb : bytes -> bytes -> bool).
  Notation code := (item (tstack nat) (ts_instr nat) nat K).
  Context (H : max_heap (code * K) (wi_leb wleb)) (Hb : minmax_heap (code * K) (wi_leb wleb))
          (shuffle : list (transition (ts_instr nat) nat K) -> list (transition (ts_instr nat) nat K)).
  Context (iow : text_io K) (debug_string : bytes -> bytes) (debug_weight : K -> bytes).  (* Debug for String and for the weights *)

  Definition debug_run (run : pushdown (transition (ts_instr bytes) bytes K)) : bytes :=
    debug_pushdown_list (debug_transition (debug_ts_instruction debug_string) debug_string debug_weight) run.
  (* tree_stack_automata.rs:103-119: one turn of the loop.  The inner loop takes n runs; it is running if the search has neither
     found that many nor ended. *)
  Definition tsa_line (M : tsa bytes bytes K) (n : nat) (beam : option nat) (calls : nat) (sentence : list bytes) : outcome bytes :=
    let '(runs, ended) := tsa_found teqb H Hb shuffle M beam sentence calls in
    and_then (or_panic runs) (fun runs =>
      if Nat.leb n (length runs) || ended
      then Done (debug_vec debug_string sentence ++ «":"» ++ newline ++
                 List.concat (map (fun run => «"  "» ++ debug_run (snd run) ++ newline) (firstn n runs)) ++ newline)
      else Running).
  (* tree_stack_automata.rs:95-121 *)
  Fixpoint recognise_corpus (M : tsa bytes bytes K) (n : nat) (beam : option nat) (calls : nat) (corpus : list (list bytes)) : outcome bytes :=
    match corpus with
    | [] => Done []
    | s :: corpus => and_then (tsa_line M n beam calls s) (fun out => and_then (recognise_corpus M n beam calls corpus) (fun outs => Done (out ++ outs)))
    end.
  (* tree_stack_automata.rs:57-93: every search makes at most [calls] calls.  [with_tts] stands for what coarse-to-fine
     recognition prints (:77-81). *)
  Definition tsa_command (with_tts : tsa bytes bytes K -> nat -> option nat -> list (list bytes) -> outcome bytes)
             (matches : list (bytes * bytes)) (automaton_string : bytes) (calls : nat) (corpus_raw : bytes) : outcome bytes :=
    match tsa_of_text aeqb teqb string_io string_io iow automaton_string with
    | FOk automaton =>
        let corpus := map (split_whitespace []) (lines [] corpus_raw) in
        and_then (or_panic (match value_of matches «"number-of-runs"» with Some n => usize_of_text n | None => None end)) (fun n =>
          and_then (match value_of matches «"beam-width"» with Some b => and_then (or_panic (usize_of_text b)) (fun b => Done (Some b)) | None => Done None end) (fun beam =>
            match value_of matches «"strategies"» with
            | Some e => if word_eqb e «"tts"» then with_tts automaton n beam corpus else Panics
            | None => recognise_corpus automaton n beam calls corpus
            end))
    | _ => Panics
    end.
End TsaCommand.
(* tree_stack_automata.rs:22-53: the names of the arguments that clap knows *)
Definition tsa_arguments : list bytes := [«"automaton"»; «"beam-width"»; «"number-of-runs"»; «"coarse-to-fine"»].

(* ---- mcfg automaton ---- *)
(* from_pmcfg.rs:38-46 *)
Definition posstate_text {X : Type} (show : X -> bytes) (p : posstate X) : bytes :=
  match p with
  | M_FromPmcfg.Designated => «"@"»
  | M_FromPmcfg.Initial => «"I"»
  | Position x i j => «"("» ++ show x ++ «", "» ++ usize_text i ++ «", "» ++ usize_text j ++ «")"»
  end.
Section McfgAutomaton.
  Context {K : Weight} (neqb teqb : bytes -> bytes -> bool) (reqb : prule bytes bytes K -> prule bytes bytes K -> bool) (iow : text_io K) (debug_string : bytes -> bytes)
          (order : list (transition (ts_instr (posstate (prule bytes bytes K))) bytes K) -> list (transition (ts_instr (posstate (prule bytes bytes K))) bytes K)).
  (* only the writing direction is used *)
  Definition posstate_io : text_io (posstate (prule bytes bytes K)) := TextIO _ (posstate_text (pmcfg_rule_text string_io string_io iow)) (fun _ => None).
  (* pmcfg.rs:109-117; the order of the hash map is [order].  None = panic *)
  Definition mcfg_automaton (grammar_string : bytes) : option bytes :=
    match pmcfg_of_text string_io string_io iow grammar_string with
    | FOk g => match tsa_from_pmcfg neqb reqb teqb g with
               | Some automaton => match tsa_list_transitions automaton with
                                   | Some ts => Some (tsa_text posstate_io iow debug_string (order ts) automaton ++ newline)
                                   | None => None
                                   end
               | None => None
               end
    | _ => None
    end.
End McfgAutomaton.
