(* Model of the text formats: src/util/parsing.rs, src/grammars/{cfg,pmcfg,lcfrs}/from_str.rs, the Display instances of
   src/grammars/{cfg,pmcfg}/mod.rs. *)
From Verif Require Import M_Nom Base M_Recog M_CFG M_Grammar.

(* A type with Display and FromStr, on bytes.  [of_text] is from_utf8 followed by str::parse: None if either fails. *)
Record text_io (X : Type) := TextIO { to_text : X -> bytes; of_text : bytes -> option X }.
Arguments to_text {X}. Arguments of_text {X}.

Definition one_of (s : bytes) (a : ascii) : bool := existsb (beqb a) s.
Definition quote : bytes := """"%char :: [].

(* parsing.rs:22-26  the first alternative *)
Definition quoted : parser bytes :=
  skip tag quote; do x <- escaped (one_of «"""\"») "\"%char (one_of «"\"""»); skip tag quote; pret x.
(* parsing.rs:26  the bytes of the arrow are excluded one by one *)
Definition token_stop : ascii -> bool := one_of « " \""-→,;)]%#" ».
(* parsing.rs:10-35 *)
Definition parse_token {X : Type} (io : text_io X) : parser X :=
  map_opt (alt quoted (is_not token_stop)) (of_text io).

(* parsing.rs:37-62 *)
Definition parse_vec {X : Type} (inner : parser X) (opening closing separator : bytes) : parser (list X) :=
  skip tag opening; skip take_while is_space;
  do result <- many0 (skip opt (tag separator); skip take_while is_space; do the_token <- inner; skip take_while is_space; pret the_token);
  skip tag closing; pret result.
(* parsing.rs:64-78 *)
Definition parse_initial {X : Type} (io : text_io X) : parser X :=
  skip tag «"initial:"»; skip take_while is_space; do result <- parse_token io; skip take_while (fun _ => true); pret result.
(* parsing.rs:80-93 *)
Definition parse_finals {X : Type} (io : text_io X) : parser (list X) :=
  skip tag «"final:"»; skip take_while is_space; parse_vec (parse_token io) «"["» «"]"» «","».
(* parsing.rs:95-108 *)
Definition parse_initials {X : Type} (io : text_io X) : parser (list X) :=
  skip tag «"initial:"»; skip take_while is_space; parse_vec (parse_token io) «"["» «"]"» «","».
(* parsing.rs:110-113 *)
Definition parse_comment : parser unit := skip tag «"%"»; skip take_while (fun _ => true); pret tt.

(* parsing.rs:115-150 *)
Section Lines.
  Context {I R : Type} (io : text_io I) (rule : bytes -> from_str R).
  Fixpoint grammar_lines (ls : list bytes) : from_str (list I * list R) :=
    match ls with
    | [] => FOk ([], [])
    | l :: ls =>
        if text_starts_with «"initial:"» (trim_start l) then
          match parse_initials io l with
          | Done _ result => match grammar_lines ls with FOk (i, r) => FOk (result ++ i, r) | e => e end
          | Panic => FPanic
          | _ => FErr
          end
        else if negb (match l with [] => true | _ => false end) && negb (text_starts_with «"%"» (trim_start l)) then
          match rule (trim l) with
          | FOk x => match grammar_lines ls with FOk (i, r) => FOk (i, x :: r) | e => e end
          | FErr => FErr
          | FPanic => FPanic
          end
        else grammar_lines ls
    end.
  Definition grammar_of_text (s : bytes) : from_str (list I * list R) := grammar_lines (lines [] s).
End Lines.

(* the result of from_str: leftover input is ignored *)
Definition run_parser {X : Type} (p : parser X) (s : bytes) : from_str X :=
  match p s with Done _ x => FOk x | Panic => FPanic | _ => FErr end.

Section Rules.
  Context {N T : Type} {K : Weight} (ion : text_io N) (iot : text_io T) (iow : text_io K).

  (* alt!(tag!("→") | tag!("->") | tag!("=>")) *)
  Definition arrow : parser unit := alt (tag «"→"») (alt (tag «"->"») (tag «"=>"»)).

  (* ---- cfg/from_str.rs ---- *)
  (* cfg/from_str.rs:81-106 *)
  Definition parse_letter_t : parser (lettert N T) :=
    alt (skip tag «"Nt"»; skip take_while is_space; do token <- parse_token ion; pret (Label token))
        (skip tag «"T"»; skip take_while is_space; do token <- parse_token iot; pret (Value token)).
  (* cfg/from_str.rs:108-116 *)
  Definition parse_cfg_composition : parser (list (lettert N T)) := parse_vec parse_letter_t «"["» «"]"» «","».
  (* cfg/from_str.rs:45-79 *)
  Definition parse_cfg_rule : parser (cfg_rule N T K) :=
    do head <- parse_token ion; skip take_while is_space; skip arrow; skip take_while is_space;
    do composition <- parse_cfg_composition; skip take_while is_space;
    do weight_o <- opt (complete (skip tag «"#"»; skip take_while is_space; do weight_s <- is_not (one_of «" "»); expr_res (of_text iow weight_s)));
    skip take_while is_space;
    skip alt eof (skip tag «"%"»; skip take_while (fun _ => true); pret tt);
    pret (CFGRule head composition (match weight_o with Some w => w | None => wone end)).
  (* cfg/from_str.rs:24-43 *)
  Definition cfg_rule_of_text (s : bytes) : from_str (cfg_rule N T K) := run_parser parse_cfg_rule s.
  (* cfg/from_str.rs:9-22 *)
  Definition cfg_of_text (s : bytes) : from_str (cfg N T K) :=
    match grammar_of_text ion cfg_rule_of_text s with FOk (i, r) => FOk (CFG i r) | FErr => FErr | FPanic => FPanic end.

  (* ---- pmcfg/from_str.rs ---- *)
  (* pmcfg/from_str.rs:92-117  the unwraps panic if a number is not a usize *)
  Definition parse_var_t : parser (vart T) :=
    alt (skip tag «"Var"»; skip take_while is_space; do i <- digit; skip take_while is_space; do j <- digit;
         do i <- unwrap (usize_of_text i); do j <- unwrap (usize_of_text j); pret (Var i j))
        (skip tag «"T"»; skip take_while is_space; do token <- parse_token iot; pret (Tm token)).
  (* pmcfg/from_str.rs:119-133 *)
  Definition parse_projection : parser (list (vart T)) := parse_vec parse_var_t «"["» «"]"» «","».
  Definition parse_composition : parser (list (list (vart T))) := parse_vec parse_projection «"["» «"]"» «","».
  (* pmcfg/from_str.rs:46-52 *)
  Definition parse_successors : parser (list N) := parse_vec (parse_token ion) «"("» «")"» «","».
  (* pmcfg/from_str.rs:54-90  weight_s.parse().unwrap() panics *)
  Definition parse_pmcfg_rule : parser (prule N T K) :=
    do head <- parse_token ion; skip take_while is_space; skip arrow; skip take_while is_space;
    do composition <- parse_composition; skip take_while is_space;
    do tail <- parse_successors; skip take_while is_space;
    do weight_o <- opt (complete (skip tag «"#"»; skip take_while is_space; do weight_s <- is_not (one_of «" "»); unwrap (of_text iow weight_s)));
    skip take_while is_space; skip many0 (tag «"%"»); skip take_while (fun _ => true);
    pret (PRule head tail composition (match weight_o with Some w => w | None => wone end)).
  (* pmcfg/from_str.rs:27-44 *)
  Definition pmcfg_rule_of_text (s : bytes) : from_str (prule N T K) := run_parser parse_pmcfg_rule s.
  (* pmcfg/from_str.rs:9-25 *)
  Definition pmcfg_of_text (s : bytes) : from_str (pmcfg N T K) :=
    match grammar_of_text ion pmcfg_rule_of_text s with FOk (i, r) => FOk (PMCFG i r) | FErr => FErr | FPanic => FPanic end.
  (* lcfrs/from_str.rs:8-31 *)
  Definition lcfrs_of_text (s : bytes) : from_str (mcfg N T K) :=
    match grammar_of_text ion pmcfg_rule_of_text s with
    | FOk ([i], r) => FOk (MCFG r i)
    | FOk _ => FErr
    | FErr => FErr
    | FPanic => FPanic
    end.

  (* ---- Display ---- *)
  (* the loops with peekable: items separated by ", " *)
  Fixpoint commas (l : list bytes) : bytes :=
    match l with
    | [] => []
    | [x] => x
    | x :: l => x ++ «", "» ++ commas l
    end.
  Definition in_quotes (x : bytes) : bytes := quote ++ x ++ quote.
  (* cfg/mod.rs:108-115 *)
  Definition letter_text (x : lettert N T) : bytes :=
    match x with Value t => «"T "» ++ in_quotes (to_text iot t) | Label n => «"Nt "» ++ in_quotes (to_text ion n) end.
  (* cfg/mod.rs:88-106, 117-125 *)
  Definition cfg_rule_text (r : cfg_rule N T K) : bytes :=
    in_quotes (to_text ion (cr_head r)) ++ «" → "» ++ «"["» ++ commas (map letter_text (cr_rhs r)) ++ «"]"» ++ «"  # "» ++ to_text iow (cr_weight r).
  (* pmcfg/mod.rs:242-249 *)
  Definition vart_text (x : vart T) : bytes :=
    match x with Var i j => «"Var "» ++ usize_text i ++ «" "» ++ usize_text j | Tm t => «"T "» ++ in_quotes (to_text iot t) end.
  (* pmcfg/mod.rs:214-240 *)
  Definition composition_text (c : composition T) : bytes :=
    «"["» ++ commas (map (fun proj => «"["» ++ commas (map vart_text proj) ++ «"]"») c) ++ «"]"».
  (* pmcfg/mod.rs:251-273 *)
  Definition pmcfg_rule_text (r : prule N T K) : bytes :=
    in_quotes (to_text ion (pr_head r)) ++ «" → "» ++ composition_text (pr_comp r) ++ «" "» ++
    («"("» ++ commas (map (fun nt => in_quotes (to_text ion nt)) (pr_tail r)) ++ «")"») ++ «"  # "» ++ to_text iow (pr_weight r).
  (* pmcfg/mod.rs:275-296 *)
  Definition newline : bytes := ["010"%char].
  Definition pmcfg_text (g : pmcfg N T K) : bytes :=
    «"initial: ["» ++ commas (map (fun nt => in_quotes (to_text ion nt)) (pg_initial g)) ++ «"]"» ++ newline ++ newline ++
    concat (map (fun r => pmcfg_rule_text r ++ newline) (pg_rules g)).
  (* lcfrs/mod.rs:75-87  without quotation marks around the initial nonterminal *)
  Definition lcfrs_text (g : mcfg N T K) : bytes :=
    «"initial: ["» ++ to_text ion (mg_initial g) ++ «"]"» ++ newline ++ newline ++
    concat (map (fun r => pmcfg_rule_text r ++ newline) (mg_rules g)).
End Rules.
