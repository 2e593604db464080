(* Model of src/bin/approximation.rs: the commands approximation relabel parse and approximation tts parse, with the texts of
   equivalence relations (src/approximation/equivalence_classes.rs:137-218).  Reading the options and the files is in M_Main.
   The commands that print an automaton are in M_PdaText. *)
From Verif Require Import M_Nom Base M_Util M_Recog M_Agenda M_Automata M_CFG M_TreeStack M_Grammar M_Chart M_FromPmcfg M_CSAuto M_CSParse M_Approx M_Text M_AutText M_Negra M_Command M_Mcfg M_CfgCommand M_TsaCommand.

(* ---- the text of an equivalence relation ---- *)
Section Classes.
  Context {A B : Type} (aeqb : A -> A -> bool) (beqb : B -> B -> bool) (ioa : text_io A) (iob : text_io B)
          (set_order : list A -> list A) (order : list (B * list A) -> list (B * list A)).
  (* HashSet::from_iter; [set_order] is the order in which the set is iterated over *)
  Fixpoint distinct (l : list A) : list A :=
    match l with [] => [] | x :: l => if memb aeqb x l then distinct l else x :: distinct l end.
  Definition hash_set (l : list A) : list A := set_order (distinct l).
  (* equivalence_classes.rs:207-218 *)
  Definition parse_set : parser (list A) := do output <- parse_vec (parse_token ioa) «"["» «"]"» «","»; pret (hash_set output).
  (* equivalence_classes.rs:188-205 *)
  Definition parse_class : parser (eqclass A B) :=
    do label <- parse_token iob; skip take_while is_space;
    do set <- alt (skip tag «"*"»; pret None) (do the_set <- parse_set; pret (Some the_set));
    pret (EqClass label set).
  (* equivalence_classes.rs:171-186 *)
  Definition class_of_text (s : bytes) : from_str (eqclass A B) := run_parser parse_class s.
  (* equivalence_classes.rs:140-158: the lines; what is done with the classes is er_from_str of M_Approx *)
  Fixpoint class_lines (ls : list bytes) : from_str (list (eqclass A B)) :=
    match ls with
    | [] => FOk []
    | [] :: ls => class_lines ls
    | l :: ls => match class_of_text (trim l) with
                 | FOk c => match class_lines ls with FOk cs => FOk (c :: cs) | e => e end
                 | FErr => FErr
                 | FPanic => FPanic
                 end
    end.
  (* equivalence_classes.rs:140-168 *)
  Definition eqrel_of_text (s : bytes) : from_str (eqrel A B) :=
    match class_lines (lines [] s) with
    | FOk cs => match er_from_str aeqb beqb order cs with Ok r => FOk r | Err _ => FErr end
    | FErr => FErr
    | FPanic => FPanic
    end.
End Classes.

(* from_cfg.rs:24-40  PushState::map *)
Definition ps_map {A B Y : Type} (f : A -> B) (s : push_state A Y) : push_state B Y :=
  match s with M_CFG.Designated => M_CFG.Designated | M_CFG.Initial => M_CFG.Initial | PNt a => PNt (f a) | PT x => PT x end.

(* ---- what is printed for a sentence ---- *)
(* push_down_automaton/mod.rs:59-65 *)
Definition debug_pd_instruction {A : Type} (debug : A -> bytes) (i : pd_instr A) : bytes :=
  «"Replace { current_val: "» ++ debug_vec debug (pi_current i) ++ «", new_val: "» ++ debug_vec debug (pi_new i) ++ «" }"».
(* recognisable/mod.rs:22-28, recognisable/configuration.rs:6-11, push_down_automaton/mod.rs:124-127: derive(Debug) *)
Definition debug_pda_item {A : Type} {K : Weight} (debug : A -> bytes) (debug_string : bytes -> bytes) (debug_weight : K -> bytes) (x : item (list A) (pd_instr A) bytes K) : bytes :=
  «"Item(Configuration { word: "» ++ debug_vec debug_string (c_word (fst x)) ++ «", storage: PushDown { elements: "» ++ debug_vec debug (c_storage (fst x)) ++
  «" }, weight: "» ++ debug_weight (c_weight (fst x)) ++ «" }, "» ++ debug_pushdown_list (debug_transition (debug_pd_instruction debug) debug_string debug_weight) (snd x) ++ «")"».
Definition debug_option {X : Type} (debug : X -> bytes) (o : option X) : bytes := match o with Some x => «"Some("» ++ debug x ++ «")"» | None => «"None"» end.

Section Search.
  Context {A : Type} {K : Weight} (teqb : bytes -> bytes -> bool).
  Notation code := (item (list nat) (pd_instr nat) nat K).
  Context (H : max_heap (code * K) (wi_leb wleb)) (shuffle : list (transition (pd_instr nat) nat K) -> list (transition (pd_instr nat) nat K)).
  Context (debug : A -> bytes) (debug_string : bytes -> bytes) (debug_weight : K -> bytes).
  (* approximation.rs:139-140: recognise(...).next(), after at most [calls] turns of the search.  A panic after the first run has
     been found would not be noticed by the code; it does not occur in the automata below (C47). *)
  Definition first_run (M : pda A bytes K) (word : list bytes) (calls : nat) : outcome (option (item (list A) (pd_instr A) bytes K)) :=
    match pda_recognise teqb shuffle M H word calls with
    | None => Panics
    | Some (x :: _) => Done (Some x)
    | Some [] => if ended_calls (search_calls_p (heap_agenda item_weight wleb H) (item_succs (pda_automaton shuffle M)) calls
                       (heap_collect item_weight wleb H (init_items (pda_automaton shuffle M) (opt_all (int_find_key teqb (pa_t M)) word))))
                 then Done None else Running
    end.
  (* approximation.rs:135-142, 182-189 *)
  Fixpoint approx_lines (M : pda A bytes K) (calls : nat) (ls : list bytes) : outcome bytes :=
    match ls with
    | [] => Done []
    | sentence :: ls =>
        and_then (first_run M (split_whitespace [] sentence) calls) (fun parse =>
          and_then (approx_lines M calls ls) (fun outs =>
            Done ((debug_option (debug_pda_item debug debug_string debug_weight) parse ++ «": "» ++ sentence ++ newline) ++ outs)))
    end.
End Search.

(* ---- the commands ---- *)
Section Commands.
  Context {K : ZWeight} (neqb teqb : bytes -> bytes -> bool) (wadd : K -> K -> K).
  Notation code := (item (list nat) (pd_instr nat) nat K).
  Context (H : max_heap (code * K) (wi_leb wleb)) (shuffle : list (transition (pd_instr nat) nat K) -> list (transition (pd_instr nat) nat K)).
  Context (iow : text_io K) (debug_string : bytes -> bytes) (debug_weight : K -> bytes).

  (* approximation.rs:112-143: terminals are iterated over in [order], transitions listed in [tr_order], classes in [cl_order],
     the members of a class in [set_order] *)
  Definition relabel_parse (order : list bytes -> list bytes)
             (tr_order : list (transition (pd_instr (push_state bytes bytes)) bytes K) -> list (transition (pd_instr (push_state bytes bytes)) bytes K))
             (set_order : list bytes -> list bytes) (cl_order : list (bytes * list bytes) -> list (bytes * list bytes))
             (grammar_string classes_string : bytes) (calls : nat) (corpus : bytes) : outcome bytes :=
    match cfg_of_text string_io string_io iow grammar_string with
    | FOk g =>
        and_then (or_panic (pda_from_cfg teqb wadd wzero neqb order g)) (fun a =>
          match eqrel_of_text neqb neqb string_io string_io set_order cl_order classes_string with
          | FOk e => and_then (or_panic (rlb_approximate wadd wzero (ps_eqb neqb teqb) teqb tr_order (ps_map (er_project neqb e)) a)) (fun b =>
                       approx_lines teqb H shuffle (debug_push_state debug_string) debug_string debug_weight (fst b) calls (lines [] corpus))
          | _ => Panics
          end)
    | _ => Panics
    end.
  (* approximation.rs:168-191; [debug_rule] is Debug for rules *)
  Definition debug_posstate (debug_rule : prule bytes bytes K -> bytes) (p : posstate (prule bytes bytes K)) : bytes :=
    match p with
    | M_FromPmcfg.Designated => «"Designated"»
    | M_FromPmcfg.Initial => «"Initial"»
    | Position r i j => «"Position("» ++ debug_rule r ++ «", "» ++ usize_text i ++ «", "» ++ usize_text j ++ «")"»
    end.
  Definition tts_parse (reqb : prule bytes bytes K -> prule bytes bytes K -> bool) (debug_rule : prule bytes bytes K -> bytes)
             (tr_order : list (transition (ts_instr (posstate (prule bytes bytes K))) bytes K) -> list (transition (ts_instr (posstate (prule bytes bytes K))) bytes K))
             (grammar_string : bytes) (calls : nat) (corpus : bytes) : outcome bytes :=
    match pmcfg_of_text string_io string_io iow grammar_string with
    | FOk g =>
        and_then (or_panic (tsa_from_pmcfg neqb reqb teqb g)) (fun a =>
          and_then (or_panic (tts_approximate wadd wzero (posstate_eqb reqb) teqb tr_order a)) (fun b =>
            approx_lines teqb H shuffle (debug_posstate debug_rule) debug_string debug_weight (fst b) calls (lines [] corpus)))
    | _ => Panics
    end.
  (* approximation.rs:109-211: which subcommand does something; the commands named automaton are in M_PdaText *)
  Definition handle (subcommand : bytes) (relabel tts : outcome bytes) : outcome bytes :=
    if word_eqb subcommand «"relabel"» then relabel else if word_eqb subcommand «"tts"» then tts else Done [].
End Commands.
