(* Model of the commands cfg automaton (src/bin/cfg.rs:93-103), approximation relabel automaton and approximation tts automaton
   (src/bin/approximation.rs:145-167, 192-206), with the texts of pushdown automata (src/automata/push_down_automaton/mod.rs:409-481).
   Reading the options and the files is not modelled.  None = panic. *)
From Verif Require Import M_Nom Base M_Util M_Recog M_Agenda M_Automata M_CFG M_TreeStack M_Grammar M_Chart M_FromPmcfg M_CSAuto M_Approx M_Text M_AutText M_Command M_TsaCommand M_ApproxCommand.

(* from_cfg.rs:41-50 *)
Definition push_state_text {X Y : Type} (showx : X -> bytes) (showy : Y -> bytes) (s : push_state X Y) : bytes :=
  match s with
  | M_CFG.Designated => «"@"»
  | M_CFG.Initial => «"I"»
  | PNt x => «"("» ++ showx x ++ «")"»
  | PT y => «"("» ++ showy y ++ «")"»
  end.

Section PdaText.
  Context {A T : Type} {K : Weight} (show : A -> bytes) (iow : text_io K) (debug : T -> bytes).
  (* push_down_automaton/mod.rs:413-424  the loop *)
  Fixpoint spaced (l : list A) : bytes :=
    match l with
    | [] => []
    | [x] => show x
    | x :: l => show x ++ «" "» ++ spaced l
    end.
  (* push_down_automaton/mod.rs:409-425, with empty() of :323-325 *)
  Definition pushdown_text (s : list A) : option bytes :=
    match s with
    | [] => None
    | bottom :: _ => Some («"stack: ["» ++ spaced s ++ «"], empty:"» ++ show bottom)
    end.
  (* push_down_automaton/mod.rs:427-460 *)
  Definition pdi_text (i : pd_instr A) : bytes :=
    «"(Replace "» ++ commas (map (fun x => in_quotes (show x)) (pi_current i)) ++ «" // "» ++ commas (map (fun x => in_quotes (show x)) (pi_new i)) ++ «")"».
  (* push_down_automaton/mod.rs:462-481; the hash map is iterated over in [order] *)
  Definition pda_text (order : list (transition (pd_instr A) T K) -> list (transition (pd_instr A) T K)) (a : pda A T K) : option bytes :=
    let? ts := pda_list_transitions a in
    let? initial := pda_initial a in
    let? stack := pushdown_text initial in
    Some («"initial: "» ++ stack ++ newline ++ newline ++ List.concat (map (fun t => transition_text iow debug pdi_text t ++ newline) (order ts))).
End PdaText.

Section Commands.
  Context {K : ZWeight} (neqb teqb : bytes -> bytes -> bool) (wadd : K -> K -> K) (iow : text_io K) (debug_string : bytes -> bytes).
  Notation stack_text := (push_state_text (fun x => x) (fun x => x)).
  (* cfg.rs:93-103: terminals are iterated over in [order], the transitions of the printed automaton in [show_order] *)
  Definition cfg_automaton (order : list bytes -> list bytes)
             (show_order : list (transition (pd_instr (push_state bytes bytes)) bytes K) -> list (transition (pd_instr (push_state bytes bytes)) bytes K))
             (grammar_string : bytes) : option bytes :=
    match cfg_of_text string_io string_io iow grammar_string with
    | FOk g => let? automaton := pda_from_cfg teqb wadd wzero neqb order g in
               let? text := pda_text stack_text iow debug_string show_order automaton in
               Some (text ++ newline)
    | _ => None
    end.
  (* approximation.rs:145-165; the other orders as in relabel_parse *)
  Definition relabel_automaton (order : list bytes -> list bytes)
             (tr_order show_order : list (transition (pd_instr (push_state bytes bytes)) bytes K) -> list (transition (pd_instr (push_state bytes bytes)) bytes K))
             (set_order : list bytes -> list bytes) (cl_order : list (bytes * list bytes) -> list (bytes * list bytes))
             (grammar_string classes_string : bytes) : option bytes :=
    match cfg_of_text string_io string_io iow grammar_string with
    | FOk g =>
        let? a := pda_from_cfg teqb wadd wzero neqb order g in
        match eqrel_of_text neqb neqb string_io string_io set_order cl_order classes_string with
        | FOk e => let? b := rlb_approximate wadd wzero (ps_eqb neqb teqb) teqb tr_order (ps_map (er_project neqb e)) a in
                   let? text := pda_text stack_text iow debug_string show_order (fst b) in
                   Some (text ++ newline)
        | _ => None
        end
    | _ => None
    end.
  (* approximation.rs:192-204 *)
  Definition tts_automaton (reqb : prule bytes bytes K -> prule bytes bytes K -> bool)
             (tr_order : list (transition (ts_instr (posstate (prule bytes bytes K))) bytes K) -> list (transition (ts_instr (posstate (prule bytes bytes K))) bytes K))
             (show_order : list (transition (pd_instr (posstate (prule bytes bytes K))) bytes K) -> list (transition (pd_instr (posstate (prule bytes bytes K))) bytes K))
             (grammar_string : bytes) : option bytes :=
    match pmcfg_of_text string_io string_io iow grammar_string with
    | FOk g => let? a := tsa_from_pmcfg neqb reqb teqb g in
               let? b := tts_approximate wadd wzero (posstate_eqb reqb) teqb tr_order a in
               let? text := pda_text (to_text (posstate_io iow)) iow debug_string show_order (fst b) in
               Some (text ++ newline)
    | _ => None
    end.
End Commands.
