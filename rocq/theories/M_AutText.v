(* Model of the text of transitions and automata: src/recognisable/from_str.rs, src/automata/finite_state_automaton/from_str.rs,
   src/automata/tree_stack_automaton/from_str.rs and the Display instances they belong to. *)
From Verif Require Import M_Nom Base M_Recog M_CFG M_Grammar M_Automata M_TreeStack M_Text.

(* the value of a from_str that is unwrapped: an error panics *)
Definition unwrap_str {X : Type} (r : from_str X) : parser X := fun i => match r with FOk x => Done i x | _ => Panic end.

Section Transition.
  Context {I T : Type} {K : Weight} (instr : bytes -> from_str I) (iot : text_io T) (iow : text_io K).
  (* recognisable/from_str.rs:66-73 *)
  Definition parse_word : parser (list T) := parse_vec (parse_token iot) «"["» «"]"» «","».
  (* recognisable/from_str.rs:29-64  weight_s.parse().unwrap() and instruction.parse().unwrap() panic *)
  Definition parse_transition : parser (transition I T K) :=
    skip tag «"Transition"»; skip take_while is_space;
    do word <- parse_word; skip take_while is_space;
    skip tag «"("»; do instruction <- take_until ")"%char; skip tag «")"»; skip take_while is_space;
    do weight_o <- opt (complete (skip tag «"#"»; skip take_while is_space; do weight_s <- is_not (one_of «" "»); unwrap (of_text iow weight_s)));
    skip take_while is_space;
    skip opt (complete parse_comment);
    do i <- unwrap_str (instr instruction);
    pret (Trans word (match weight_o with Some w => w | None => wone end) i).
  (* recognisable/from_str.rs:10-27 *)
  Definition transition_of_text (s : bytes) : from_str (transition I T K) := run_parser parse_transition s.
  (* recognisable/transition.rs:145-158; [debug] is the Debug instance of the terminals, [show] the Display instance of the instructions *)
  Context (debug : T -> bytes) (show : I -> bytes).
  Definition transition_text (t : transition I T K) : bytes :=
    «"Transition "» ++ («"["» ++ commas (map debug (t_word t)) ++ «"]"») ++ «" "» ++ show (t_ins t) ++ «"  # "» ++ to_text iow (t_weight t).
End Transition.

Definition word_eqb (a b : bytes) : bool := list_eqb beqb a b.
Definition or_err {X Y : Type} (o : option X) (f : X -> from_str Y) : from_str Y := match o with Some x => f x | None => FErr end.

(* finite_state_automaton/from_str.rs:57-79 *)
Definition fsi_of_text {Q : Type} (io : text_io Q) (s : bytes) : from_str (fs_instr Q) :=
  match split_whitespace [] s with
  | [p; a; q] => if word_eqb a «"->"» || word_eqb a «"→"»
                 then or_err (of_text io p) (fun p => or_err (of_text io q) (fun q => FOk (FSI p q)))
                 else FErr
  | _ => FErr
  end.
(* finite_state_automaton/mod.rs:208-215 *)
Definition fsi_text {Q : Type} (io : text_io Q) (i : fs_instr Q) : bytes := to_text io (fs_source i) ++ «" → "» ++ to_text io (fs_target i).

(* tree_stack_automaton/from_str.rs:50-90  v[0] panics if there is no word *)
Definition tsi_of_text {A : Type} (io : text_io A) (s : bytes) : from_str (ts_instr A) :=
  match split_whitespace [] s with
  | [] => FPanic
  | k :: v =>
      if word_eqb k «"Up"» then
        match v with
        | [n; c; o; v] => or_err (usize_of_text n) (fun n => or_err (of_text io c) (fun c => or_err (of_text io o) (fun o => or_err (of_text io v) (fun v => FOk (IUp n c o v)))))
        | _ => FErr
        end
      else if word_eqb k «"Push"» then
        match v with
        | [n; c; v] => or_err (usize_of_text n) (fun n => or_err (of_text io c) (fun c => or_err (of_text io v) (fun v => FOk (IPush n c v))))
        | _ => FErr
        end
      else if word_eqb k «"Down"» then
        match v with
        | [c; o; v] => or_err (of_text io c) (fun c => or_err (of_text io o) (fun o => or_err (of_text io v) (fun v => FOk (IDown c o v))))
        | _ => FErr
        end
      else FErr
  end.
(* tree_stack_automaton/tree_stack_instruction.rs:144-165 *)
Definition tsi_text {A : Type} (io : text_io A) (i : ts_instr A) : bytes :=
  match i with
  | IUp n c o v => «"(Up "» ++ usize_text n ++ «" "» ++ to_text io c ++ «" "» ++ to_text io o ++ «" "» ++ to_text io v ++ «")"»
  | IPush n c v => «"(Push "» ++ usize_text n ++ «" "» ++ to_text io c ++ «" "» ++ to_text io v ++ «")"»
  | IDown c o v => «"(Down "» ++ to_text io c ++ «" "» ++ to_text io o ++ «" "» ++ to_text io v ++ «")"»
  end.

(* a line that is neither empty nor a comment (both from_str.rs) *)
Definition has_content (l : bytes) : bool := negb (match l with [] => true | _ => false end) && negb (text_starts_with «"%"» (trim_start l)).

Section FSA.
  Context {Q T : Type} {K : Weight} (qeqb : Q -> Q -> bool) (teqb : T -> T -> bool) (ioq : text_io Q) (iot : text_io T) (iow : text_io K).
  (* finite_state_automaton/from_str.rs:29-46  the loop, with its three variables *)
  Fixpoint fsa_lines (ls : list bytes) (init : option Q) (fin : list Q) (ts : list (transition (fs_instr Q) T K))
    : from_str (option Q * list Q * list (transition (fs_instr Q) T K)) :=
    match ls with
    | [] => FOk (init, fin, ts)
    | l :: ls =>
        if text_starts_with «"initial:"» (trim_start l) then
          match parse_initial ioq (trim_start l) with Done _ q => fsa_lines ls (Some q) fin ts | Panic => FPanic | _ => FErr end
        else if text_starts_with «"final:"» (trim_start l) then
          match parse_finals ioq (trim_start l) with Done _ qs => fsa_lines ls init qs ts | Panic => FPanic | _ => FErr end
        else if has_content l then
          match transition_of_text (fsi_of_text ioq) iot iow (trim l) with FOk t => fsa_lines ls init fin (ts ++ [t]) | FErr => FErr | FPanic => FPanic end
        else fsa_lines ls init fin ts
    end.
  (* finite_state_automaton/from_str.rs:22-56 *)
  Definition fsa_of_text (s : bytes) : from_str (fsa Q T K) :=
    match fsa_lines (lines [] s) None [] [] with
    | FOk (Some i, (_ :: _) as r, ts) => FOk (fsa_new qeqb teqb ts i r)
    | FOk _ => FErr
    | FErr => FErr
    | FPanic => FPanic
    end.
  (* finite_state_automaton/mod.rs:217-245; [ts] is list_transitions in the order of the hash map.  final_states is a bit set, its
     length is the number of its elements. *)
  Definition fsa_text (debug : T -> bytes) (ts : list (transition (fs_instr Q) T K)) (a : fsa Q T K) : bytes :=
    let fin := filter (fun i => memb Nat.eqb i (fa_final a)) (seq 0 (length (nodup Nat.eq_dec (fa_final a)))) in
    «"initial: "» ++ usize_text (fa_init a) ++ newline ++
    «"final: ["» ++ (match fin with [] => [] | _ => «", "» end) ++ concat (map (fun i => in_quotes (usize_text i)) fin) ++ «"]"» ++ newline ++ newline ++
    concat (map (fun t => transition_text iow debug (fsi_text ioq) t ++ newline) ts).
End FSA.

Section TSA.
  Context {A T : Type} {K : Weight} (aeqb : A -> A -> bool) (teqb : T -> T -> bool) (ioa : text_io A) (iot : text_io T) (iow : text_io K).
  (* tree_stack_automaton/from_str.rs:30-41 *)
  Fixpoint tsa_lines (ls : list bytes) (init : option A) (ts : list (transition (ts_instr A) T K)) : from_str (option A * list (transition (ts_instr A) T K)) :=
    match ls with
    | [] => FOk (init, ts)
    | l :: ls =>
        if text_starts_with «"initial:"» (trim_start l) then
          match parse_initial ioa (trim_start l) with Done _ q => tsa_lines ls (Some q) ts | Panic => FPanic | _ => FErr end
        else if has_content l then
          match transition_of_text (tsi_of_text ioa) iot iow (trim l) with FOk t => tsa_lines ls init (ts ++ [t]) | FErr => FErr | FPanic => FPanic end
        else tsa_lines ls init ts
    end.
  (* tree_stack_automaton/from_str.rs:24-47 *)
  Definition tsa_of_text (s : bytes) : from_str (tsa A T K) :=
    match tsa_lines (lines [] s) None [] with
    | FOk (Some i, ts) => FOk (tsa_new aeqb teqb ts (ts_new i))
    | FOk (None, _) => FErr
    | FErr => FErr
    | FPanic => FPanic
    end.
  (* tree_stack_automaton/mod.rs:234-253; self.initial is the tree stack of numbers *)
  Definition tsa_text (debug : T -> bytes) (ts : list (transition (ts_instr A) T K)) (a : tsa A T K) : bytes :=
    «"initial: "» ++ usize_text (ts_current_symbol (ta_init a)) ++ newline ++ newline ++
    concat (map (fun t => transition_text iow debug (tsi_text ioa) t ++ newline) ts).
End TSA.
