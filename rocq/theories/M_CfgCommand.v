(* Model of the command cfg parse (src/bin/cfg.rs).  Reading the options and the files is in M_Main: here the options are given as
   values.  What the command prints is the text on the standard output. *)
From Verif Require Import M_Nom Base M_Util M_Recog M_Agenda M_Automata M_CFG M_Chart M_Text M_Negra M_Command M_Mcfg.

(* what derive(Debug) makes of a vector *)
Fixpoint debug_items {X : Type} (debug : X -> bytes) (l : list X) : bytes :=
  match l with [] => [] | [x] => debug x | x :: l => debug x ++ «", "» ++ debug_items debug l end.
Definition debug_vec {X : Type} (debug : X -> bytes) (l : list X) : bytes := «"["» ++ debug_items debug l ++ «"]"».
(* from_cfg.rs:16-22 *)
Definition debug_push_state (debug_string : bytes -> bytes) (s : push_state bytes bytes) : bytes :=
  match s with
  | Designated => «"Designated"»
  | Initial => «"Initial"»
  | PNt x => «"Nt("» ++ debug_string x ++ «")"»
  | PT x => «"T("» ++ debug_string x ++ «")"»
  end.
(* push_down_automaton/mod.rs:124-127 *)
Definition debug_pushdown (debug_string : bytes -> bytes) (s : list (push_state bytes bytes)) : bytes :=
  «"PushDown { elements: "» ++ debug_vec (debug_push_state debug_string) s ++ «" }"».
(* recognisable/configuration.rs:6-11 *)
Definition debug_configuration {K : Weight} (debug_string : bytes -> bytes) (debug_weight : K -> bytes) (c : configuration (list (push_state bytes bytes)) bytes K) : bytes :=
  «"Configuration { word: "» ++ debug_vec debug_string (c_word c) ++ «", storage: "» ++ debug_pushdown debug_string (c_storage c) ++
  «", weight: "» ++ debug_weight (c_weight c) ++ «" }"».

Section CfgCommand.
  Context {K : ZWeight} (neqb teqb : bytes -> bytes -> bool) (wadd : K -> K -> K).
  Notation code := (item (list nat) (pd_instr nat) nat K).
  Notation parse := (item (list (push_state bytes bytes)) (pd_instr (push_state bytes bytes)) bytes K).
  Context (H : max_heap (code * K) (wi_leb wleb)) (Hb : minmax_heap (code * K) (wi_leb wleb))
          (shuffle : list (transition (pd_instr nat) nat K) -> list (transition (pd_instr nat) nat K)) (order : list bytes -> list bytes).
  Context (iow : text_io K) (debug_string : bytes -> bytes) (debug_weight : K -> bytes).  (* Debug for String and for the weights *)

  (* cfg.rs:77-79 and 85: the search behind the iterator after [calls] calls of next(): the parses found, and whether the search
     has ended *)
  Definition cfg_found (M : pda (push_state bytes bytes) bytes K) (beam : option nat) (word : list bytes) (calls : nat) : option (list parse) * bool :=
    let a := pda_automaton shuffle M in
    let the_word := opt_all (int_find_key teqb (pa_t M)) word in
    match beam with
    | Some b => (pda_recognise_beam teqb shuffle M Hb b word calls,
                 ended_calls (search_calls_p (limited_agenda Hb item_weight) (item_succs a) calls
                                (ag_extend (limited_agenda Hb item_weight) (init_items a the_word) (lh_with_capacity Hb b))))
    | None => (pda_recognise teqb shuffle M H word calls,
               ended_calls (search_calls_p (heap_agenda item_weight wleb H) (item_succs a) calls (heap_collect item_weight wleb H (init_items a the_word))))
    end.
  (* cfg.rs:73-91: one line.  The loop takes n parses; it is running if the search has neither found that many nor ended. *)
  Definition cfg_line (M : pda (push_state bytes bytes) bytes K) (n : nat) (beam : option nat) (calls : nat) (sentence : bytes) : outcome bytes :=
    let '(parses, ended) := cfg_found M beam (split_whitespace [] sentence) calls in
    and_then (or_panic parses) (fun parses =>
      if Nat.leb n (length parses) || ended
      then Done (List.concat (map (fun p => debug_configuration debug_string debug_weight (fst p) ++ newline) (firstn n parses)) ++ newline)
      else Running).
  Fixpoint cfg_lines (M : pda (push_state bytes bytes) bytes K) (n : nat) (beam : option nat) (calls : nat) (ls : list bytes) : outcome bytes :=
    match ls with
    | [] => Done []
    | l :: ls => and_then (cfg_line M n beam calls l) (fun out => and_then (cfg_lines M n beam calls ls) (fun outs => Done (out ++ outs)))
    end.
  (* cfg.rs:56-92: every search makes at most [calls] calls *)
  Definition cfg_parse (grammar_string : bytes) (n : nat) (beam : option nat) (calls : nat) (corpus : bytes) : outcome bytes :=
    match cfg_of_text string_io string_io iow grammar_string with
    | FOk g => and_then (or_panic (pda_from_cfg teqb wadd wzero neqb order g)) (fun automaton => cfg_lines automaton n beam calls (lines [] corpus))
    | _ => Panics
    end.
End CfgCommand.
