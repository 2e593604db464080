(* Model of the command mcfg parse (src/bin/pmcfg.rs).  Reading the options and the files is in M_Main: here the options are
   given as values.  What the command prints is the text on the standard output. *)
From Verif Require Import M_Nom Base BMap M_Util M_Recog M_Agenda M_Automata M_CFG M_TreeStack M_Grammar M_Chart M_FromPmcfg M_Negra M_Text M_Command.

(* what is known about a computation after a bounded number of steps *)
Inductive outcome (X : Type) := Done (x : X) | Running | Panics.
Arguments Done {X}. Arguments Running {X}. Arguments Panics {X}.
Definition and_then {X Y : Type} (o : outcome X) (f : X -> outcome Y) : outcome Y :=
  match o with Done x => f x | Running => Running | Panics => Panics end.
Definition or_panic {X : Type} (o : option X) : outcome X := match o with Some x => Done x | None => Panics end.

(* did the search return None within n calls of next()?  (search.rs:80-94 under automaton.rs:142-157 and 160-207) *)
Definition ended_calls {X Y : Type} (calls : option (list (option X) * Y)) : bool :=
  match calls with Some (os, _) => existsb (fun o => match o with None => true | Some _ => false end) os | None => false end.

Section Mcfg.
  Context {K : ZWeight} (neqb teqb : bytes -> bytes -> bool) (reqb : prule bytes bytes K -> prule bytes bytes K -> bool).
  Notation rule := (prule bytes bytes K).
  Notation code := (item (tstack nat) (ts_instr nat) nat K).
  Notation parse := (item (tstack (posstate rule)) (ts_instr (posstate rule)) bytes K).
  Context (H : max_heap (code * K) (wi_leb wleb)) (Hb : minmax_heap (code * K) (wi_leb wleb))
          (shuffle : list (transition (ts_instr nat) nat K) -> list (transition (ts_instr nat) nat K)).
  Context (iow : text_io K) (display : configuration (tstack (posstate rule)) bytes K -> bytes).  (* Display for Configuration *)

  (* pmcfg.rs:82-88 and 95: the search behind the iterator after [calls] calls of next(): the parses found, and whether the
     search has ended *)
  Definition found (M : tsa (posstate rule) bytes K) (beam : option nat) (word : list bytes) (calls : nat) : option (list parse) * bool :=
    let a := tsa_automaton shuffle M in
    let the_word := opt_all (int_find_key teqb (ta_t M)) word in
    match beam with
    | Some b => (tsa_recognise_beam teqb shuffle M Hb b word calls,
                 ended_calls (search_calls_p (limited_agenda Hb item_weight) (item_succs a) calls
                                (ag_extend (limited_agenda Hb item_weight) (init_items a the_word) (lh_with_capacity Hb b))))
    | None => (tsa_recognise teqb shuffle M H word calls,
               ended_calls (search_calls_p (heap_agenda item_weight wleb H) (item_succs a) calls (heap_collect item_weight wleb H (init_items a the_word))))
    end.
  (* pmcfg.rs:86-91 and 96-101: one turn of the loop.  to_negra_text is None if it panics or has not enough fuel. *)
  Definition print_parse (fuel : nat) (negra : bool) (i : nat) (p : parse) : outcome bytes :=
    and_then (or_panic (to_abstract_syntax_tree (ts_to_tree (c_storage (fst p))))) (fun ast =>
      if negra then or_panic (print_tree fuel (i + 1) Default ast) else Done (display (fst p) ++ newline)).
  Fixpoint print_parses (fuel : nat) (negra : bool) (i : nat) (ps : list parse) : outcome bytes :=
    match ps with
    | [] => Done []
    | p :: ps => and_then (print_parse fuel negra i p) (fun t => and_then (print_parses fuel negra i ps) (fun ts => Done (t ++ ts)))
    end.
  (* pmcfg.rs:78-106: one line.  The loop takes n parses; it is running if the search has neither found that many nor ended. *)
  Definition mcfg_line (M : tsa (posstate rule) bytes K) (n : nat) (beam : option nat) (negra : bool) (calls fuel i : nat) (sentence : bytes) : outcome bytes :=
    let '(parses, ended) := found M beam (split_whitespace [] sentence) calls in
    and_then (or_panic parses) (fun parses =>
      and_then (print_parses fuel negra i (firstn n parses)) (fun out =>
        if Nat.leb n (length parses) || ended then Done (out ++ newline) else Running)).
  Fixpoint mcfg_lines (M : tsa (posstate rule) bytes K) (n : nat) (beam : option nat) (negra : bool) (calls fuel i : nat) (ls : list bytes) : outcome bytes :=
    match ls with
    | [] => Done []
    | l :: ls => and_then (mcfg_line M n beam negra calls fuel i l) (fun out => and_then (mcfg_lines M n beam negra calls fuel (S i) ls) (fun outs => Done (out ++ outs)))
    end.
  (* pmcfg.rs:62-107: every search makes at most [calls] calls *)
  Definition mcfg_parse (grammar_string : bytes) (n : nat) (beam : option nat) (negra : bool) (calls fuel : nat) (corpus : bytes) : outcome bytes :=
    match pmcfg_of_text string_io string_io iow grammar_string with
    | FOk g => and_then (or_panic (tsa_from_pmcfg neqb reqb teqb g)) (fun automaton => mcfg_lines automaton n beam negra calls fuel 0 (lines [] corpus))
    | _ => Panics
    end.
End Mcfg.
