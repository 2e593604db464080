(* How command lines are written: what the help texts of the subcommands say.  Nothing of the model is used here. *)
From Coq Require Import List Ascii String.
Import ListNotations.
Local Notation bytes := (list ascii).
Local Notation "« s »" := (list_ascii_of_string s).
Local Open Scope list_scope.

(* an option: the name by which the program knows it, its spellings, and whether it has a value *)
Record opt := Opt { o_name : bytes; o_short : option ascii; o_long : option bytes; o_value : bool }.

(* what does not look like an option: it does not begin with a hyphen, or it is one *)
Definition plain (v : bytes) : Prop := match v with "-"%char :: _ :: _ => False | _ => True end.
Definition begins_with_equals (v : bytes) : Prop := match v with "="%char :: _ => True | _ => False end.

(* options without values, written by their letters *)
Definition letters (opts : list opt) : list opt -> bytes -> Prop := Forall2 (fun o c => In o opts /\ o_value o = false /\ o_short o = Some c).
Definition switched (os : list opt) : list (bytes * option bytes) := map (fun o => (o_name o, None)) os.

(* written opts arguments words uses: the words of a command line set the arguments (in this order) and the options as in uses *)
Inductive written (opts : list opt) : list bytes -> list bytes -> list (bytes * option bytes) -> Prop :=
| written_end : forall arguments, written opts arguments [] []
| written_argument : forall a arguments v words uses, plain v -> written opts arguments words uses -> written opts (a :: arguments) (v :: words) ((a, Some v) :: uses)
  (* --negra *)
| written_long : forall o l arguments words uses, In o opts -> o_value o = false -> o_long o = Some l -> written opts arguments words uses ->
    written opts arguments ((«"--"» ++ l) :: words) ((o_name o, None) :: uses)
  (* --number 5 *)
| written_long_value : forall o l v arguments words uses, In o opts -> o_value o = true -> o_long o = Some l -> plain v -> written opts arguments words uses ->
    written opts arguments ((«"--"» ++ l) :: v :: words) ((o_name o, Some v) :: uses)
  (* --number=5 (further equals signs are skipped) *)
| written_long_equals : forall o l n v arguments words uses, In o opts -> o_value o = true -> o_long o = Some l -> ~ begins_with_equals v -> written opts arguments words uses ->
    written opts arguments ((«"--"» ++ l ++ repeat "="%char (S n) ++ v) :: words) ((o_name o, Some v) :: uses)
  (* -lp *)
| written_short : forall os cs arguments words uses, os <> [] -> letters opts os cs -> written opts arguments words uses ->
    written opts arguments ((«"-"» ++ cs) :: words) (switched os ++ uses)
  (* -n 5, -lpk 5 *)
| written_short_value : forall os cs o c v arguments words uses, letters opts os cs -> In o opts -> o_value o = true -> o_short o = Some c -> plain v -> written opts arguments words uses ->
    written opts arguments ((«"-"» ++ cs ++ [c]) :: v :: words) (switched os ++ (o_name o, Some v) :: uses)
  (* -n5, -n=5 *)
| written_short_now : forall os cs o c n v arguments words uses, letters opts os cs -> In o opts -> o_value o = true -> o_short o = Some c -> ~ begins_with_equals v -> n <> 0 \/ v <> [] ->
    written opts arguments words uses ->
    written opts arguments ((«"-"» ++ cs ++ [c] ++ repeat "="%char n ++ v) :: words) (switched os ++ (o_name o, Some v) :: uses)
  (* behind -- there are only arguments *)
| written_rest : forall arguments more vs, List.length arguments = List.length vs ->
    written opts (arguments ++ more) («"--"» :: vs) (combine arguments (map Some vs)).

(* a subcommand: its names, its arguments, its options; what must be given, what is taken if nothing is given, what excludes another *)
Record usage := Usage { u_path : list bytes; u_arguments : list bytes; u_options : list opt; u_required : list bytes; u_defaults : list (bytes * bytes); u_conflicts : list (bytes * bytes) }.
Definition grammar_only (path : list bytes) : usage := Usage path [«"grammar"»] [] [«"grammar"»] [] [].
Definition number_option (name : bytes) : opt := Opt name (Some "n"%char) (Some «"number"») true.
Definition beam_option (name : bytes) : opt := Opt name (Some "b"%char) (Some «"beam"») true.
Definition usages : list usage :=
  [ Usage [«"mcfg"»; «"parse"»] [«"grammar"»] [number_option «"number-of-parses"»; beam_option «"beam-width"»; Opt «"negra"» None (Some «"negra"») false]
      [«"grammar"»] [(«"number-of-parses"», «"1"»)] [];
    grammar_only [«"mcfg"»; «"automaton"»];
    Usage [«"cfg"»; «"parse"»] [«"grammar"»] [number_option «"number-of-parses"»; beam_option «"beam-width"»] [«"grammar"»] [(«"number-of-parses"», «"1"»)] [];
    grammar_only [«"cfg"»; «"automaton"»];
    Usage [«"tsa"»; «"recognise"»] [«"automaton"»] [beam_option «"beam-width"»; number_option «"number-of-runs"»; Opt «"coarse-to-fine"» (Some "c"%char) (Some «"coarse-to-fine"») true]
      [«"automaton"»] [(«"number-of-runs"», «"1"»); («"coarse-to-fine"», [])] [];
    Usage [«"approximation"»; «"relabel"»; «"parse"»] [«"classes"»; «"grammar"»] [] [«"classes"»; «"grammar"»] [] [];
    Usage [«"approximation"»; «"relabel"»; «"automaton"»] [«"classes"»; «"grammar"»] [] [«"classes"»; «"grammar"»] [] [];
    Usage [«"approximation"»; «"topk"»; «"parse"»] [«"grammar"»; «"size"»] [] [«"grammar"»; «"size"»] [] [];
    Usage [«"approximation"»; «"topk"»; «"automaton"»] [«"grammar"»; «"size"»] [] [«"grammar"»; «"size"»] [] [];
    grammar_only [«"approximation"»; «"tts"»; «"parse"»];
    grammar_only [«"approximation"»; «"tts"»; «"automaton"»];
    Usage [«"csparsing"»; «"extract"»] [«"grammar"»]
      [Opt «"sxlen"» (Some "s"%char) (Some «"sxlen"») true; Opt «"disco-grammar"» (Some "d"%char) (Some «"disco"») false; Opt «"disco-lexer"» (Some "l"%char) (Some «"lexer"») true;
       Opt «"gzipped"» (Some "z"%char) (Some «"zipped"») false; Opt «"ungzipped"» None (Some «"unzipped"») false] [] [] [(«"gzipped"», «"ungzipped"»)];
    Usage [«"csparsing"»; «"parse"»] [«"csfile"»]
      [Opt «"k"» (Some "k"%char) None true; beam_option «"beam"»; Opt «"threshold"» (Some "t"%char) (Some «"threshold"») true; Opt «"candidates"» (Some "c"%char) (Some «"candidates"») true;
       Opt «"with-lines"» (Some "l"%char) (Some «"with-lines"») false; Opt «"with-pos"» (Some "p"%char) (Some «"with-pos"») false;
       Opt «"debugmode"» (Some "d"%char) (Some «"debug"») false; Opt «"fallback"» (Some "f"%char) (Some «"with-fallback"») false] [«"csfile"»] [] [] ].

(* what may be given together: nothing twice, everything that is required, nothing that excludes another *)
Definition allowed (u : usage) (uses : list (bytes * option bytes)) : Prop :=
  NoDup (map fst uses) /\ (forall n, In n (u_required u) -> In n (map fst uses)) /\
  (forall a b, In (a, b) (u_conflicts u) -> ~ (In a (map fst uses) /\ In b (map fst uses))).

(* what the program is told: the values that were given and the defaults of the options that were not, each name once, and the options without values *)
Definition told (u : usage) (uses : list (bytes * option bytes)) (values : list (bytes * bytes)) (flags : list bytes) : Prop :=
  NoDup (map fst values) /\
  (forall n v, In (n, v) values <-> In (n, Some v) uses \/ In (n, v) (u_defaults u) /\ ~ In n (map fst uses)) /\
  (forall n, In n flags <-> In (n, None) uses).
