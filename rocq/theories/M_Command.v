(* Model of the text that to_negra and noparse write (src/grammars/pmcfg/negra.rs) and of the command csparsing parse
   (src/bin/csparsing.rs).  Options and files are in M_Main, bincode is not modelled: here the options are given as values
   and the representation as the result of CSRepresentation::new.  What the command prints is the text on the standard
   output; the timings and counts that debug mode prints on the standard error are not modelled.  None = panic (or not
   enough fuel); what was printed before a panic is not modelled. *)
From Verif Require Import M_Nom Base BMap M_Util M_Recog M_Agenda M_TreeStack M_Grammar M_Chart M_CSAuto M_Estimates M_RuleMask M_ToDeriv M_KBest M_Cow M_CSParse M_Negra M_Text.

Section NegraText.
  Context {N T W : Type} (shown : N -> bytes) (showt : T -> bytes).      (* ToString *)
  (* negra.rs:186-190 and 223: the first column *)
  Definition column_text (c : ncol T) : bytes := match c with NWord t => showt t | NNode n => «"#"» ++ usize_text n end.
  Definition tab : bytes := ["009"%char].
  (* negra.rs:99 *)
  Definition line_text (l : ncol T * N * nat) : bytes :=
    let '(word, tag, parent) := l in
    column_text word ++ tab ++ shown tag ++ tab ++ «"--"» ++ tab ++ «"--"» ++ tab ++ usize_text parent ++ newline.
  (* negra.rs:78-104 *)
  Definition to_negra_text (fuel : nat) (tree_map : gorn (prule N T W)) (sentence_id : nat) (mode : dump_mode T) : option bytes :=
    option_map (fun lines => «"#BOS "» ++ usize_text sentence_id ++ newline ++ concat (map line_text lines) ++ «"#EOS "» ++ usize_text sentence_id)
      (to_negra fuel tree_map mode).
  (* negra.rs:106-125 *)
  Definition noparse (sentence : list T) (sentence_id : nat) (mode : dump_mode T) : bytes :=
    «"#BOS "» ++ usize_text sentence_id ++ newline ++
    match mode with
    | FromPos poss => concat (map (fun p => showt (snd p) ++ tab ++ showt (fst p) ++ tab ++ «"--"» ++ tab ++ «"--"» ++ tab ++ «"500"» ++ newline) (combine sentence poss))
    | Default => concat (map (fun word => showt word ++ tab ++ «"--"» ++ tab ++ «"--"» ++ tab ++ «"--"» ++ tab ++ «"500"» ++ newline) sentence)
    end ++
    «"#500"» ++ tab ++ «"NOPARSE"» ++ tab ++ «"--"» ++ tab ++ «"--"» ++ tab ++ «"0"» ++ newline ++ «"#EOS "» ++ usize_text sentence_id.
End NegraText.

(* csparsing.rs:295-313 *)
Definition split_line (line : bytes) (with_line_number : bool) (default_line_number : nat) : option (nat * list bytes) :=
  let word_iterator := split_whitespace [] line in
  if with_line_number then
    match word_iterator with
    | [] => None
    | n :: word_iterator => let? line_number := usize_of_text n in Some (line_number, word_iterator)
    end
  else Some (default_line_number, word_iterator).
(* str::rsplitn(2, '/'): the part after the last separator, and the part before it if there is one; [acc] is what was read
   so far, reversed *)
Fixpoint rsplit2 (sep : ascii) (acc s : bytes) : bytes * option bytes :=
  match s with
  | [] => (rev acc, None)
  | a :: s =>
      if beqb a sep then
        match rsplit2 sep [] s with
        | (last, None) => (last, Some (rev acc))
        | (last, Some front) => (last, Some (rev acc ++ a :: front))
        end
      else rsplit2 sep (a :: acc) s
  end.
(* csparsing.rs:315-334 *)
Definition split_pos (words : list bytes) (with_pos : bool) : option (list bytes * dump_mode bytes) :=
  if with_pos then
    let? pairs := opt_all (fun wp => let '(pos, w) := rsplit2 "/" [] wp in option_map (pair pos) w) words in
    Some (map fst pairs, FromPos (map snd pairs))
  else Some (words, Default).

Section Command.
  Context {K : ZWeight} (H : max_heap (K * nat) (@item_leb K)) (H2 : max_heap (K * bt K) (@kb_leb K)) (teqb : bytes -> bytes -> bool).
  Notation rule := (prule bytes bytes K).
  (* the flags of the command and the number k (default 1) *)
  Record options := Options { o_k : nat; o_lines : bool; o_pos : bool; o_debug : bool; o_fallback : bool }.
  Context (fuel : nat) (rep : @cs_rep bytes bytes K) (st : @settings K) (o : options).
  (* println!("{}", to_negra(..)) *)
  Definition print_tree (i : nat) (mode : dump_mode bytes) (t : gorn rule) : option bytes :=
    option_map (fun s => s ++ newline) (to_negra_text (fun x => x) (fun x => x) fuel t i mode).
  Definition print_noparse (i : nat) (mode : dump_mode bytes) (words : list bytes) : bytes := noparse (fun x => x) words i mode ++ newline.
  (* csparsing.rs:262-278: the loop over iterator.take(k); what is printed, and whether a tree was found *)
  Fixpoint print_trees {St} (next : iter St (gorn rule)) (i : nat) (mode : dump_mode bytes) (k : nat) (s : St) : option (bytes * bool) :=
    match k with
    | 0 => Some ([], false)
    | S k =>
        let? (x, s) := next s in
        match x with
        | None => Some ([], false)
        | Some t => let? p := print_tree i mode t in let? (ps, _) := print_trees next i mode k s in Some (p ++ ps, true)
        end
    end.
  (* csparsing.rs:236-289: one line of the input *)
  Definition parse_line (i : nat) (sentence : bytes) : option bytes :=
    let? (i, words) := split_line sentence (o_lines o) i in
    let? (words, mode) := split_pos words (o_pos o) in
    if o_debug o then
      let? (_, _, result) := debug teqb H H2 fuel rep st words in
      match result with
      | DParse t _ | DFallback t _ => print_tree i mode t
      | DNoparse => Some (print_noparse i mode words)
      end
    else
      let? (c, mask, iterator, fb) := with_fallback teqb H H2 fuel rep st words in
      let? (printed, found_trees) := print_trees (trees_next H2 fuel rep c mask) i mode (o_k o) iterator in
      if negb found_trees && o_fallback o then
        match fb with
        | Some tree => let? p := print_tree i mode tree in Some (printed ++ p)
        | None => Some (printed ++ print_noparse i mode words)
        end
      else if negb found_trees then Some (printed ++ print_noparse i mode words)
      else Some printed.
  (* csparsing.rs:235: the lines, enumerated from 0 *)
  Fixpoint parse_lines (i : nat) (ls : list bytes) : option bytes :=
    match ls with
    | [] => Some []
    | l :: ls => let? p := parse_line i l in let? ps := parse_lines (S i) ls in Some (p ++ ps)
    end.
  Definition parse_command (word_strings : bytes) : option bytes := parse_lines 0 (lines [] word_strings).
End Command.

(* csparsing.rs:219-233: the settings that the options ask for *)
Definition command_settings {K : ZWeight} (beam_width : option nat) (beam_threshold : option K) (candidates : option nat) : @settings K :=
  let parser := build_generator in
  let parser := match beam_width with Some beam => set_beam beam parser | None => parser end in
  let parser := match beam_threshold with Some delta => set_delta delta parser | None => parser end in
  match candidates with Some candidates => set_candidates candidates parser | None => parser end.

(* FromStr and ToString for String *)
Definition string_io : text_io bytes := TextIO _ (fun x => x) (fun x => Some x).
(* csparsing.rs:162-206 for a grammar in the format of this project (without disco-grammar, see M_Import for that): what is
   written is the representation; gzip and bincode are parameters in M_Main *)
Definition extract_command {K : ZWeight} (neqb teqb : bytes -> bytes -> bool) (factorize : K -> nat -> list K) (H : max_heap (K * nat) (@item_leb K))
  (distinct : list nat -> list nat) (iow : text_io K) (grammar_string : bytes) (sxlen : nat) : option (@cs_rep bytes bytes K) :=
  match lcfrs_of_text string_io string_io iow grammar_string with
  | FOk g => cs_new neqb teqb factorize H distinct (mg_rules g) (mg_initial g) sxlen
  | _ => None
  end.
