(* Model of the command line of the program (src/bin/main.rs and the functions handle_sub_matches of src/bin): which options,
   files and inputs reach the commands.  Reading the arguments is done by the crate clap: its result, the names of the
   subcommands, the flags and the values of the options (defaults included), is the input of the model.  What a command prints is
   the text on the standard output.  gzip and bincode are parameters. *)
From Verif Require Import M_Nom Base BMap M_Util M_Recog M_Agenda M_Automata M_CFG M_TreeStack M_Grammar M_Chart M_CSAuto M_ToDeriv M_KBest M_Cow M_CSParse M_FromPmcfg M_Negra M_Text M_AutText M_Command M_Mcfg M_CfgCommand M_TsaCommand M_Approx M_ApproxCommand M_PdaText M_Import M_Disco.

(* ---- text from the outside ---- *)
Definition byte_in (lo hi : N) (a : ascii) : bool := ((lo <=? N_of_ascii a) && (N_of_ascii a <=? hi))%N.
(* core::str::from_utf8 (core/src/str/validations.rs): is this UTF-8?  The ranges of the second byte depend on the first. *)
Fixpoint utf8 (s : bytes) : bool :=
  match s with
  | [] => true
  | a :: s =>
      if byte_in 0 127 a then utf8 s
      else if byte_in 194 223 a then match s with b :: s => byte_in 128 191 b && utf8 s | _ => false end
      else if byte_in 224 239 a then
        match s with
        | b :: c :: s => byte_in (if byte_in 224 224 a then 160 else 128)%N (if byte_in 237 237 a then 159 else 191)%N b && byte_in 128 191 c && utf8 s
        | _ => false
        end
      else if byte_in 240 244 a then
        match s with
        | b :: c :: d :: s => byte_in (if byte_in 240 240 a then 144 else 128)%N (if byte_in 244 244 a then 143 else 191)%N b && byte_in 128 191 c && byte_in 128 191 d && utf8 s
        | _ => false
        end
      else false
  end.
(* Read::read_to_string: an error if the bytes are not UTF-8; then the string is left as it was *)
Definition read_to_string (s : bytes) : option bytes := if utf8 s then Some s else None.
(* let mut x = String::new(); let _ = f.read_to_string(&mut x);  (e.g. pmcfg.rs:70-71): the error is not looked at *)
Definition read_ignoring (s : bytes) : bytes := match read_to_string s with Some t => t | None => [] end.

(* str::split_whitespace splits at all white space of Unicode, split_whitespace (M_Nom) at that of ASCII.  Where a text is only cut
   into lines and words, writing a space for the other white space characters comes to the same (C57_sentences).  These are
   U+0085, U+00A0, U+1680, U+2000 to U+200A, U+2028, U+2029, U+202F, U+205F and U+3000. *)
Fixpoint plain_white (s : bytes) : bytes :=
  match s with
  | [] => []
  | a :: s1 =>
      match s1 with
      | b :: s2 =>
          if byte_in 194 194 a && (byte_in 133 133 b || byte_in 160 160 b) then " "%char :: plain_white s2
          else match s2 with
               | c :: s3 =>
                   if byte_in 225 225 a && byte_in 154 154 b && byte_in 128 128 c
                      || byte_in 226 226 a && byte_in 128 128 b && (byte_in 128 138 c || byte_in 168 169 c || byte_in 175 175 c)
                      || byte_in 226 226 a && byte_in 129 129 b && byte_in 159 159 c
                      || byte_in 227 227 a && byte_in 128 128 b && byte_in 128 128 c
                   then " "%char :: plain_white s3
                   else a :: plain_white s1
               | [] => a :: plain_white s1
               end
      | [] => [a]
      end
  end.

(* ---- clap ---- *)
(* the values of the options and arguments, with defaults, and the flags *)
Record arg_matches := ArgMatches { am_values : list (bytes * bytes); am_flags : list bytes }.
Definition arg_value (m : arg_matches) (name : bytes) : option bytes := value_of (am_values m) name.
Definition is_present (m : arg_matches) (name : bytes) : bool :=
  existsb (word_eqb name) (am_flags m) || match arg_value m name with Some _ => true | None => false end.

Section Main.
  Context {K : ZWeight} (neqb teqb : bytes -> bytes -> bool) (reqb : prule bytes bytes K -> prule bytes bytes K -> bool) (wadd : K -> K -> K).
  Notation rule := (prule bytes bytes K).
  Notation ts_code := (item (tstack nat) (ts_instr nat) nat K).
  Notation pd_code := (item (list nat) (pd_instr nat) nat K).
  (* the heaps, and the orders in which hash containers are iterated over *)
  Context (H_ts : max_heap (ts_code * K) (wi_leb wleb)) (Hb_ts : minmax_heap (ts_code * K) (wi_leb wleb))
          (H_pd : max_heap (pd_code * K) (wi_leb wleb)) (Hb_pd : minmax_heap (pd_code * K) (wi_leb wleb))
          (H_cs : max_heap (K * nat) (@item_leb K)) (H_kb : max_heap (K * bt K) (@kb_leb K))
          (shuffle_ts : list (transition (ts_instr nat) nat K) -> list (transition (ts_instr nat) nat K))
          (shuffle_pd : list (transition (pd_instr nat) nat K) -> list (transition (pd_instr nat) nat K))
          (order set_order : list bytes -> list bytes) (cl_order : list (bytes * list bytes) -> list (bytes * list bytes))
          (ts_order : list (transition (ts_instr (posstate rule)) bytes K) -> list (transition (ts_instr (posstate rule)) bytes K))
          (pd_order : list (transition (pd_instr (push_state bytes bytes)) bytes K) -> list (transition (pd_instr (push_state bytes bytes)) bytes K))
          (pp_order : list (transition (pd_instr (posstate rule)) bytes K) -> list (transition (pd_instr (posstate rule)) bytes K))
          (distinct : list nat -> list nat) (iterate : list (bytes * bool) -> list (bytes * bool)).
  (* text and arithmetic of weights, Debug and Display *)
  Context (iow : text_io K) (factorize : K -> nat -> list K) (ops : num_ops K) (checked : bool)
          (debug_string : bytes -> bytes) (debug_weight : K -> bytes) (debug_rule : rule -> bytes)
          (display : configuration (tstack (posstate rule)) bytes K -> bytes)
          (with_tts : tsa bytes bytes K -> nat -> option nat -> list (list bytes) -> outcome bytes).
  (* flate2 and bincode *)
  Context (gzip : bytes -> bytes) (gunzip : bytes -> option bytes)
          (serialize : @cs_rep bytes bytes K -> bytes) (deserialize : bytes -> option (@cs_rep bytes bytes K)).
  (* the files that can be opened, the standard input, and how long we watch *)
  Context (files : bytes -> option bytes) (stdin : bytes) (calls fuel : nat).

  (* File::open(m.value_of(name).unwrap()).unwrap(), and reading it without looking at errors *)
  Definition file_argument (m : arg_matches) (name : bytes) : outcome bytes :=
    and_then (or_panic (arg_value m name)) (fun path => and_then (or_panic (files path)) (fun content => Done (read_ignoring content))).
  (* m.value_of(name).unwrap().parse().unwrap() *)
  Definition number_argument (m : arg_matches) (name : bytes) : outcome nat :=
    and_then (or_panic (arg_value m name)) (fun s => or_panic (usize_of_text s)).
  (* pmcfg.rs:80-82, cfg.rs:75-77: b.parse().unwrap(), for every sentence *)
  Definition beam_argument (m : arg_matches) : outcome (option nat) :=
    match arg_value m «"beam-width"» with
    | Some b => and_then (or_panic (usize_of_text b)) (fun b => Done (Some b))
    | None => Done None
    end.

  (* pmcfg.rs:78-106: the loop, in which the beam width is read *)
  Fixpoint mcfg_main_lines (m : arg_matches) (M : tsa (posstate rule) bytes K) (n i : nat) (ls : list bytes) : outcome bytes :=
    match ls with
    | [] => Done []
    | l :: ls =>
        and_then (beam_argument m) (fun beam =>
          and_then (mcfg_line teqb H_ts Hb_ts shuffle_ts display M n beam (is_present m «"negra"») calls fuel i l) (fun out =>
            and_then (mcfg_main_lines m M n (S i) ls) (fun outs => Done (out ++ outs))))
    end.
  (* pmcfg.rs:60-122 *)
  Definition mcfg_main (subcommand : bytes) (m : arg_matches) : outcome bytes :=
    if word_eqb subcommand «"parse"» then
      and_then (file_argument m «"grammar"») (fun grammar_string =>
        and_then (number_argument m «"number-of-parses"») (fun n =>
          match pmcfg_of_text string_io string_io iow grammar_string with
          | FOk g => and_then (or_panic (tsa_from_pmcfg neqb reqb teqb g)) (fun automaton => mcfg_main_lines m automaton n 0 (lines [] (plain_white (read_ignoring stdin))))
          | _ => Panics
          end))
    else if word_eqb subcommand «"automaton"» then
      and_then (file_argument m «"grammar"») (fun grammar_string => or_panic (mcfg_automaton neqb teqb reqb iow debug_string ts_order grammar_string))
    else Done [].

  (* cfg.rs:73-91 *)
  Fixpoint cfg_main_lines (m : arg_matches) (M : pda (push_state bytes bytes) bytes K) (n : nat) (ls : list bytes) : outcome bytes :=
    match ls with
    | [] => Done []
    | l :: ls =>
        and_then (beam_argument m) (fun beam =>
          and_then (cfg_line teqb H_pd Hb_pd shuffle_pd debug_string debug_weight M n beam calls l) (fun out =>
            and_then (cfg_main_lines m M n ls) (fun outs => Done (out ++ outs))))
    end.
  (* cfg.rs:53-105 *)
  Definition cfg_main (subcommand : bytes) (m : arg_matches) : outcome bytes :=
    if word_eqb subcommand «"parse"» then
      and_then (file_argument m «"grammar"») (fun grammar_string =>
        and_then (number_argument m «"number-of-parses"») (fun n =>
          match cfg_of_text string_io string_io iow grammar_string with
          | FOk g => and_then (or_panic (pda_from_cfg teqb wadd wzero neqb order g)) (fun automaton => cfg_main_lines m automaton n (lines [] (plain_white (read_ignoring stdin))))
          | _ => Panics
          end))
    else if word_eqb subcommand «"automaton"» then
      and_then (file_argument m «"grammar"») (fun grammar_string => or_panic (cfg_automaton neqb teqb wadd iow debug_string order pd_order grammar_string))
    else Done [].

  (* tree_stack_automata.rs:55-93: numbers are read before the loop *)
  Definition tsa_main (subcommand : bytes) (m : arg_matches) : outcome bytes :=
    if word_eqb subcommand «"recognise"» then
      and_then (file_argument m «"automaton"») (fun automaton_string =>
        tsa_command neqb teqb H_ts Hb_ts shuffle_ts iow debug_string debug_weight with_tts (am_values m) automaton_string calls (plain_white (read_ignoring stdin)))
    else Done [].

  (* approximation.rs:109-211; the subcommand has a subcommand.  Here the line itself is printed: white space outside ASCII is not
     modelled. *)
  Definition approximation_main (strategy subcommand : bytes) (m : arg_matches) : outcome bytes :=
    handle strategy
      (if word_eqb subcommand «"parse"» then
         and_then (file_argument m «"grammar"») (fun g => and_then (file_argument m «"classes"») (fun cl =>
           relabel_parse neqb teqb wadd H_pd shuffle_pd iow debug_string debug_weight order pd_order set_order cl_order g cl calls (read_ignoring stdin)))
       else if word_eqb subcommand «"automaton"» then
         and_then (file_argument m «"grammar"») (fun g => and_then (file_argument m «"classes"») (fun cl =>
           or_panic (relabel_automaton neqb teqb wadd iow debug_string order pd_order pd_order set_order cl_order g cl)))
       else Done [])
      (if word_eqb subcommand «"parse"» then
         and_then (file_argument m «"grammar"») (fun g =>
           tts_parse neqb teqb wadd H_pd shuffle_pd iow debug_string debug_weight reqb debug_rule ts_order g calls (read_ignoring stdin))
       else if word_eqb subcommand «"automaton"» then
         and_then (file_argument m «"grammar"») (fun g => or_panic (tts_automaton neqb teqb wadd iow debug_string reqb ts_order pp_order g))
       else Done []).

  (* csparsing.rs:129-155: FileReader; None = error *)
  Definition file_reader (zipped : bool) (content : bytes) : option bytes :=
    if zipped then let? content := gunzip content in read_to_string content else read_to_string content.
  (* csparsing.rs:159-162 *)
  Definition grammar_is_gzipped (m : arg_matches) : bool :=
    (is_present m «"gzipped"» || is_present m «"disco-grammar"») && negb (is_present m «"ungzipped"»).
  (* csparsing.rs:163-175: from the file, or from the standard input *)
  Definition grammar_argument (m : arg_matches) : option bytes :=
    match arg_value m «"grammar"» with
    | Some path => let? content := files path in file_reader (grammar_is_gzipped m) content
    | None => file_reader (grammar_is_gzipped m) stdin
    end.
  (* csparsing.rs:158-214: what is written; None = panic *)
  Definition csparsing_extract (m : arg_matches) : option bytes :=
    let? grammar_string := grammar_argument m in
    let? sxlen := match arg_value m «"sxlen"» with Some s => usize_of_text s | None => Some 0 end in
    let? rep :=
      (if is_present m «"disco-grammar"» then
         match arg_value m «"disco-lexer"» with
         | Some path => let? content := files path in
                        let? lexer_string := file_reader (grammar_is_gzipped m) content in
                        extract_disco neqb teqb factorize H_cs distinct ops iow checked iterate grammar_string (Some lexer_string) sxlen
         | None => extract_disco neqb teqb factorize H_cs distinct ops iow checked iterate grammar_string None sxlen
         end
       else extract_command neqb teqb factorize H_cs distinct iow grammar_string sxlen) in
    Some (gzip (serialize rep)).
  (* an option that may be missing: value_of(name).map(|s| s.parse().unwrap()) *)
  Definition optional_argument {X : Type} (parse : bytes -> option X) (m : arg_matches) (name : bytes) : option (option X) :=
    match arg_value m name with Some s => let? x := parse s in Some (Some x) | None => Some None end.
  (* csparsing.rs:216-291; None = panic or not enough fuel *)
  Definition csparsing_parse (m : arg_matches) : option bytes :=
    let? word_strings := read_to_string stdin in
    let? k := match arg_value m «"k"» with Some n => usize_of_text n | None => Some 1 end in
    let? beam_width := optional_argument usize_of_text m «"beam"» in
    let? beam_threshold := optional_argument (of_text iow) m «"threshold"» in
    let? candidates := optional_argument usize_of_text m «"candidates"» in
    let? path := arg_value m «"csfile"» in
    let? csfile := files path in
    let? unzipped := gunzip csfile in
    let? csrep := deserialize unzipped in
    parse_command H_cs H_kb teqb fuel csrep (command_settings beam_width beam_threshold candidates)
      (Options k (is_present m «"with-lines"») (is_present m «"with-pos"») (is_present m «"debugmode"») (is_present m «"fallback"»)) (plain_white word_strings).
  (* csparsing.rs:157-293; a panic is not told apart from too little fuel *)
  Definition csparsing_main (subcommand : bytes) (m : arg_matches) : outcome bytes :=
    if word_eqb subcommand «"extract"» then or_panic (csparsing_extract m)
    else if word_eqb subcommand «"parse"» then or_panic (csparsing_parse m)
    else Done [].

  (* main.rs:28-35: the names of the subcommands, from the outermost *)
  Definition main (commands : list bytes) (m : arg_matches) : outcome bytes :=
    match commands with
    | command :: rest =>
        let subcommand := match rest with s :: _ => s | [] => [] end in
        if word_eqb command «"mcfg"» then mcfg_main subcommand m
        else if word_eqb command «"cfg"» then cfg_main subcommand m
        else if word_eqb command «"tsa"» then tsa_main subcommand m
        else if word_eqb command «"approximation"» then approximation_main subcommand (match rest with _ :: s :: _ => s | _ => [] end) m
        else if word_eqb command «"csparsing"» then csparsing_main subcommand m
        else Done []
    | [] => Done []
    end.
End Main.
