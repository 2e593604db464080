(* Model of the command csparsing extract for grammars of disco-dop, src/bin/csparsing.rs. *)
From Verif Require Import M_Nom Base M_Util M_Recog M_Agenda M_Grammar M_Chart M_CSAuto M_RuleMask M_CSParse M_Text M_Import M_Command.

Section Extract.
  Context {K : ZWeight} (neqb teqb : bytes -> bytes -> bool) (factorize : K -> nat -> list K) (H : max_heap (K * nat) (@item_leb K)) (distinct : list nat -> list nat).
  Context (ops : num_ops K) (iow : text_io K) (checked : bool) (iterate : list (bytes * bool) -> list (bytes * bool)).
  (* csparsing.rs:182-201  with_default_lexer().into() *)
  Definition disco_default (grammar_string : bytes) : option (mcfg bytes bytes K) :=
    match discodop_of_text ops string_io iow checked grammar_string with
    | FOk dgmr => lcfrs_of_discodop ops string_io neqb checked dgmr (Some (default_lexer ops neqb iterate dgmr))
    | _ => None
    end.
  (* csparsing.rs:182-199  with_lexer(..).into() *)
  Definition disco_lexed (grammar_string lexer_string : bytes) : option (mcfg bytes bytes K) :=
    match discodop_of_text ops string_io iow checked grammar_string with
    | FOk dgmr =>
        match lexer_of_text ops string_io string_io iow lexer_string with
        | FOk lexer => lcfrs_of_discodop ops string_io neqb checked dgmr (Some lexer)
        | _ => None
        end
    | _ => None
    end.
  (* csparsing.rs:162-213 with --disco-grammar: lexer_string is the file given by --disco-lexer, if there is one.  None: the
     command panics and writes nothing.  gzip and bincode are parameters in M_Main. *)
  Definition extract_disco (grammar_string : bytes) (lexer_string : option bytes) (sxlen : nat) : option (@cs_rep bytes bytes K) :=
    match (match lexer_string with Some l => disco_lexed grammar_string l | None => disco_default grammar_string end) with
    | Some gmr => cs_new neqb teqb factorize H distinct (mg_rules gmr) (mg_initial gmr) sxlen
    | None => None
    end.
End Extract.
