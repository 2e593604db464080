(* Model of the declarations of subcommands and options (get_sub_command of src/bin), and of how the crate clap (version 2) reads a
   command line with them, as its documentation says.  Simplified: an error, a help text or a version text are the same (the
   program ends with a message before any command runs); words are texts; a value for an option that has none is an error. *)
From Verif Require Import M_Nom Base M_CSAuto M_AutText M_Main.

(* clap::Arg.  Arguments with an index have no spelling; default_value and value_name imply that there is a value. *)
Record arg := Arg { a_name : bytes; a_index : bool; a_short : option ascii; a_long : option bytes; a_value : bool;
                    a_default : option bytes; a_required : bool; a_conflicts : list bytes }.
Definition index_arg (name : bytes) (required : bool) : arg := Arg name true None None true None required [].
Definition value_arg (name : bytes) (short : option ascii) (long : option bytes) (default : option bytes) : arg := Arg name false short long true default false [].
Definition flag_arg (name : bytes) (short : option ascii) (long : option bytes) (conflicts : list bytes) : arg := Arg name false short long false None false conflicts.
(* clap::App and SubCommand *)
Inductive clap_app := App (name : bytes) (args : list arg) (subcommands : list clap_app).
Definition app_name (a : clap_app) : bytes := match a with App n _ _ => n end.
Definition app_args (a : clap_app) : list arg := match a with App _ l _ => l end.
Definition app_subcommands (a : clap_app) : list clap_app := match a with App _ _ l => l end.

(* pmcfg.rs:12-60 *)
Definition mcfg_app : clap_app :=
  App «"mcfg"» []
    [App «"parse"» [index_arg «"grammar"» true; value_arg «"number-of-parses"» (Some "n"%char) (Some «"number"») (Some «"1"»);
                    value_arg «"beam-width"» (Some "b"%char) (Some «"beam"») None; flag_arg «"negra"» None (Some «"negra"») []] [];
     App «"automaton"» [index_arg «"grammar"» true] []].
(* cfg.rs:10-52 *)
Definition cfg_app : clap_app :=
  App «"cfg"» []
    [App «"parse"» [index_arg «"grammar"» true; value_arg «"number-of-parses"» (Some "n"%char) (Some «"number"») (Some «"1"»);
                    value_arg «"beam-width"» (Some "b"%char) (Some «"beam"») None] [];
     App «"automaton"» [index_arg «"grammar"» true] []].
(* tree_stack_automata.rs:15-55; of short("ctf") clap takes the first letter *)
Definition tsa_app : clap_app :=
  App «"tsa"» []
    [App «"recognise"» [index_arg «"automaton"» true; value_arg «"beam-width"» (Some "b"%char) (Some «"beam"») None;
                        value_arg «"number-of-runs"» (Some "n"%char) (Some «"number"») (Some «"1"»);
                        value_arg «"coarse-to-fine"» (Some "c"%char) (Some «"coarse-to-fine"») (Some [])] []].
(* approximation.rs:16-109 *)
Definition approximation_app : clap_app :=
  App «"approximation"» []
    [App «"relabel"» [] [App «"parse"» [index_arg «"classes"» true; index_arg «"grammar"» true] []; App «"automaton"» [index_arg «"classes"» true; index_arg «"grammar"» true] []];
     App «"topk"» [] [App «"parse"» [index_arg «"grammar"» true; index_arg «"size"» true] []; App «"automaton"» [index_arg «"grammar"» true; index_arg «"size"» true] []];
     App «"tts"» [] [App «"parse"» [index_arg «"grammar"» true] []; App «"automaton"» [index_arg «"grammar"» true] []]].
(* csparsing.rs:18-130 *)
Definition csparsing_app : clap_app :=
  App «"csparsing"» []
    [App «"extract"» [value_arg «"sxlen"» (Some "s"%char) (Some «"sxlen"») None; flag_arg «"disco-grammar"» (Some "d"%char) (Some «"disco"») [];
                      value_arg «"disco-lexer"» (Some "l"%char) (Some «"lexer"») None; flag_arg «"gzipped"» (Some "z"%char) (Some «"zipped"») [«"ungzipped"»];
                      flag_arg «"ungzipped"» None (Some «"unzipped"») [«"gzipped"»]; index_arg «"grammar"» false] [];
     App «"parse"» [index_arg «"csfile"» true; value_arg «"k"» (Some "k"%char) None None; value_arg «"beam"» (Some "b"%char) (Some «"beam"») None;
                    value_arg «"threshold"» (Some "t"%char) (Some «"threshold"») None; value_arg «"candidates"» (Some "c"%char) (Some «"candidates"») None;
                    flag_arg «"with-lines"» (Some "l"%char) (Some «"with-lines"») []; flag_arg «"with-pos"» (Some "p"%char) (Some «"with-pos"») [];
                    flag_arg «"debugmode"» (Some "d"%char) (Some «"debug"») []; flag_arg «"fallback"» (Some "f"%char) (Some «"with-fallback"») []] []].
(* main.rs:17-26 *)
Definition rustomata_app : clap_app := App «"rustomata"» [] [mcfg_app; cfg_app; tsa_app; approximation_app; csparsing_app].

(* ---- clap: reading the words of a command line ---- *)
Definition use := (bytes * option bytes)%type.
(* the argument with this spelling *)
Definition by_long (args : list arg) (l : bytes) : option arg := find (fun a => match a_long a with Some l' => word_eqb l' l | None => false end) args.
Definition by_short (args : list arg) (c : ascii) : option arg := find (fun a => match a_short a with Some c' => Ascii.eqb c' c | None => false end) args.
(* the text before the first equals sign, and that behind it *)
Fixpoint split_equals (s : bytes) : bytes * option bytes :=
  match s with
  | [] => ([], None)
  | c :: s => if Ascii.eqb c "="%char then ([], Some s) else let (n, v) := split_equals s in (c :: n, v)
  end.
Fixpoint trim_equals (s : bytes) : bytes := match s with c :: s' => if Ascii.eqb c "="%char then trim_equals s' else s | [] => [] end.
(* a word that is an option, and not a value *)
Definition is_option (w : bytes) : bool := match w with c :: _ :: _ => Ascii.eqb c "-"%char | _ => false end.
(* the letters behind one hyphen: what they set, and the option that takes the next word as its value *)
Fixpoint short_options (args : list arg) (s : bytes) : option (list use * option bytes) :=
  match s with
  | [] => Some ([], None)
  | c :: s =>
      let? a := by_short args c in
      if a_value a then match s with [] => Some ([], Some (a_name a)) | _ => Some ([(a_name a, Some (trim_equals s))], None) end
      else let? r := short_options args s in Some ((a_name a, None) :: fst r, snd r)
  end.
(* indices: the arguments with an index that are still to come; only: behind two hyphens.  None = message *)
Fixpoint read_words (args indices : list arg) (only : bool) (words : list bytes) : option (list use) :=
  match words with
  | [] => Some []
  | w :: words =>
      if negb only && is_option w then
        match w with
        | _ :: c :: name =>
            if Ascii.eqb c "-"%char then
              match name with
              | [] => read_words args indices true words
              | _ =>
                  let (l, v) := split_equals name in
                  let? a := by_long args l in
                  match a_value a, v with
                  | true, Some v => let? uses := read_words args indices only words in Some ((a_name a, Some (trim_equals v)) :: uses)
                  | true, None =>
                      match words with
                      | v :: words => if is_option v then None else let? uses := read_words args indices only words in Some ((a_name a, Some v) :: uses)
                      | [] => None
                      end
                  | false, Some _ => None
                  | false, None => let? uses := read_words args indices only words in Some ((a_name a, None) :: uses)
                  end
              end
            else
              let? r := short_options args (c :: name) in
              match snd r with
              | None => let? uses := read_words args indices only words in Some (fst r ++ uses)
              | Some n =>
                  match words with
                  | v :: words => if is_option v then None else let? uses := read_words args indices only words in Some (fst r ++ (n, Some v) :: uses)
                  | [] => None
                  end
              end
        | _ => None
        end
      else
        match indices with
        | a :: indices => let? uses := read_words args indices only words in Some ((a_name a, Some w) :: uses)
        | [] => None
        end
  end.
(* was the argument given? *)
Definition used (uses : list use) (name : bytes) : bool := existsb (fun u => word_eqb (fst u) name) uses.
Fixpoint all_different (names : list bytes) : bool := match names with [] => true | n :: ns => negb (existsb (word_eqb n) ns) && all_different ns end.
(* checks at the end (nothing twice, required arguments, conflicts), and defaults *)
Definition checked_matches (args : list arg) (uses : list use) : option arg_matches :=
  if all_different (map fst uses) && forallb (fun a => implb (a_required a) (used uses (a_name a))) args
     && forallb (fun a => implb (used uses (a_name a)) (negb (existsb (used uses) (a_conflicts a)))) args
  then Some (ArgMatches (flat_map (fun u => match snd u with Some v => [(fst u, v)] | None => [] end) uses
                         ++ flat_map (fun a => match a_default a with Some d => if used uses (a_name a) then [] else [(a_name a, d)] | None => [] end) args)
                        (flat_map (fun u => match snd u with Some _ => [] | None => [fst u] end) uses))
  else None.
(* App::get_matches: the names of the subcommands and what was given to the innermost; None = message *)
Fixpoint get_matches (a : clap_app) (words : list bytes) : option (list bytes * arg_matches) :=
  let here := let? uses := read_words (app_args a) (filter a_index (app_args a)) false words in
              let? m := checked_matches (app_args a) uses in Some ([], m) in
  match words with
  | w :: words =>
      match find (fun s => word_eqb (app_name s) w) (app_subcommands a) with
      | Some s => let? r := get_matches s words in Some (w :: fst r, snd r)
      | None => here
      end
  | [] => here
  end.
