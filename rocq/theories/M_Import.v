(* Model of src/grammars/lcfrs/from_discodop.rs and src/grammars/lcfrs/from_rparse.rs. *)
From Verif Require Import M_Nom Base M_Recog M_CFG M_Grammar M_Text.

(* The operations on weights: AddAssign, Div and DivAssign, One. *)
Record num_ops (W : Type) := NumOps { n_add : W -> W -> W; n_div : W -> W -> W; n_one : W }.
Arguments n_add {W}. Arguments n_div {W}. Arguments n_one {W}.

(* from_discodop.rs:27-32, from_rparse.rs:16-18  simplified: the code asks whether the character is white space in Unicode,
   the model whether the byte is white space in ASCII *)
Definition is_token (a : ascii) : bool := negb (is_white a).
Definition is_binary_digit (a : ascii) : bool := beqb a "0" || beqb a "1".

(* 2u64.pow(i): with overflow checks (debug builds) it panics from i = 64 on, without them it wraps to 0 *)
Definition u64_pow (checked : bool) (i : nat) : option N :=
  if Nat.ltb i 64 then Some (2 ^ N.of_nat i)%N else if checked then None else Some 0%N.
(* from_discodop.rs:35-46  the sum is one of distinct powers of two and does not overflow *)
Fixpoint from_binary (checked : bool) (i : nat) (acc : option N) (s : bytes) : from_str N :=
  match s with
  | [] => match acc with Some n => FOk n | None => FErr end
  | a :: s =>
      if beqb a "0" then from_binary checked (S i) acc s
      else if beqb a "1" then
        match u64_pow checked i with
        | Some v => from_binary checked (S i) (option_map (N.add v) acc) s
        | None => FPanic
        end
      else from_binary checked (S i) None s
  end.

(* from_discodop.rs:61-72  bs.len() as u8 *)
Definition parse_yield_component (checked : bool) : parser (nat * N) :=
  do bs <- take_while is_binary_digit;
  fun i => match from_binary checked 0 (Some 0%N) bs with FOk p => Done i (length bs mod 256, p) | FErr => Error | FPanic => Panic end.
Definition parse_yield (checked : bool) : parser (list (nat * N)) := separated_nonempty_list (tag «","») (parse_yield_component checked).

(* to_result: Incomplete is an error *)
Definition to_result {X : Type} (r : presult X) : from_str X := match r with Done _ x => FOk x | Panic => FPanic | _ => FErr end.

Section Disco.
  Context {N T W : Type} (ops : num_ops W) (ion : text_io N) (iot : text_io T) (iow : text_io W) (neq : N -> N -> bool) (checked : bool).

  (* from_discodop.rs:10-14 *)
  Inductive disco_deriv := Chain (lhs rhs : N) | Binary (lhs rhs1 rhs2 : N).
  (* from_discodop.rs:15-24 *)
  Definition disco_constituents := list (disco_deriv * list (nat * BinNums.N) * W).
  Definition disco_lexer := list (T * N * W).

  (* from_discodop.rs:48-55 *)
  Definition get_lhs (d : disco_deriv) : N := match d with Chain lhs _ => lhs | Binary lhs _ _ => lhs end.

  (* from_discodop.rs:77-94 *)
  Definition parse_pseudocount : parser W :=
    map_opt (do num <- digit; do denom <- opt (complete (skip tag «"/"»; digit)); pret (num, denom))
      (fun '(num, denom) =>
        match denom with
        | Some denominator =>
            match of_text iow num, of_text iow denominator with Some n, Some d => Some (n_div ops n d) | _, _ => None end
        | None => of_text iow num
        end).

  (* from_discodop.rs:102-131 *)
  Definition parse_lexer_line : parser (bytes * list (bytes * W)) :=
    do word <- take_while is_token; skip space;
    do pws <- separated_nonempty_list (skip space; pret tt) (do pos <- take_while is_token; skip space; do w <- parse_pseudocount; pret (pos, w));
    pret (word, pws).
  (* the loops in lines 119-128: an error as soon as one symbol cannot be parsed *)
  Fixpoint lexer_entries (word : bytes) (pws : list (bytes * W)) : option disco_lexer :=
    match pws with
    | [] => Some []
    | (pos, w) :: pws =>
        match of_text iot word, of_text ion pos with
        | Some t, Some p => match lexer_entries word pws with Some l => Some ((t, p, w) :: l) | None => None end
        | _, _ => None
        end
    end.
  Fixpoint lexer_all (v : list (bytes * list (bytes * W))) : option disco_lexer :=
    match v with
    | [] => Some []
    | (word, pws) :: v =>
        match lexer_entries word pws, lexer_all v with Some l, Some l' => Some (l ++ l') | _, _ => None end
    end.
  Definition parse_discodop_lexer : parser disco_lexer := map_opt (separated_list (tag newline) parse_lexer_line) lexer_all.

  (* from_discodop.rs:154-162  the fields of a line *)
  Definition parse_field : parser bytes := skip space; take_while1 is_token.
  (* from_discodop.rs:154-178  a panic of parse_yield is one of the line *)
  Definition parse_constituent : parser (disco_deriv * list (nat * BinNums.N) * W) :=
    do s_lhs <- take_while1 is_token;
    do s_rhs <- parse_field; do s_rhs_or_y <- parse_field; do s_y_or_w <- parse_field;
    do s_ow <- opt (complete parse_field);
    do lhs <- expr_res (of_text ion s_lhs);
    do rhs <- expr_res (of_text ion s_rhs);
    do dyw <- match s_ow with
              | Some s_weight => do rhs2 <- expr_res (of_text ion s_rhs_or_y); pret (Binary lhs rhs rhs2, s_y_or_w, s_weight)
              | None => pret (Chain lhs rhs, s_rhs_or_y, s_y_or_w)
              end;
    let '(deriv, y, w) := dyw in
    fun i => match to_result (parse_yield checked y) with
             | FPanic => Panic
             | FErr => Error
             | FOk ys => match to_result (parse_pseudocount w) with
                         | FOk weight => Done i (deriv, ys, weight)
                         | FErr => Error
                         | FPanic => Panic
                         end
             end.
  (* from_discodop.rs:146-183 *)
  Definition parse_discodop_constituents : parser disco_constituents := separated_list (tag newline) parse_constituent.

  (* from_discodop.rs:323-337, 339-352  leftover input is dropped *)
  Definition discodop_of_text (s : bytes) : from_str disco_constituents := to_result (parse_discodop_constituents s).
  Definition lexer_of_text (s : bytes) : from_str disco_lexer := to_result (parse_discodop_lexer s).

  (* from_discodop.rs:197-218  the map normalization_denominators: += or insert *)
  Fixpoint add_weight (m : list (N * W)) (lhs : N) (w : W) : list (N * W) :=
    match m with
    | [] => [(lhs, w)]
    | (l, v) :: m => if neq l lhs then (l, n_add ops v w) :: m else (l, v) :: add_weight m lhs w
    end.
  Definition denominators (cs : disco_constituents) (lex : option disco_lexer) : list (N * W) :=
    fold_left (fun m lw => add_weight m (fst lw) (snd lw))
      (map (fun '(d, _, w) => (get_lhs d, w)) cs ++ match lex with Some l => map (fun '(_, lhs, w) => (lhs, w)) l | None => [] end) [].
  (* indexing panics if the key is missing *)
  Fixpoint denominator (m : list (N * W)) (lhs : N) : option W :=
    match m with [] => None | (l, v) :: m => if neq l lhs then Some v else denominator m lhs end.

  (* from_discodop.rs:227-238  None: panic *)
  Fixpoint read_component (n i : nat) (c : BinNums.N) (sind1 sind2 : nat) : option (list (vart T) * nat * nat) :=
    match n with
    | 0 => Some ([], sind1, sind2)
    | S n =>
        match u64_pow checked i with
        | None => None
        | Some p =>
            if (N.land p c =? 0)%N then
              match read_component n (S i) c (S sind1) sind2 with Some (l, a, b) => Some (Var 0 sind1 :: l, a, b) | None => None end
            else
              match read_component n (S i) c sind1 (S sind2) with Some (l, a, b) => Some (Var 1 sind2 :: l, a, b) | None => None end
        end
    end.
  (* from_discodop.rs:226-241 *)
  Fixpoint read_yield (y : list (nat * BinNums.N)) (sind1 sind2 : nat) : option (composition T) :=
    match y with
    | [] => Some []
    | (clen, c) :: y =>
        match read_component clen 0 c sind1 sind2 with
        | None => None
        | Some (component, a, b) => match read_yield y a b with Some cs => Some (component :: cs) | None => None end
        end
    end.
  (* from_discodop.rs:220-262 *)
  Definition disco_rule (m : list (N * W)) (x : disco_deriv * list (nat * BinNums.N) * W) : option (prule N T W) :=
    let '(nts, y, weight) := x in
    match denominator m (get_lhs nts) with
    | None => None
    | Some d =>
        match read_yield y 0 0 with
        | None => None
        | Some c => Some (match nts with
                          | Chain lhs rhs => PRule lhs [rhs] c (n_div ops weight d)
                          | Binary lhs rhs1 rhs2 => PRule lhs [rhs1; rhs2] c (n_div ops weight d)
                          end)
        end
    end.
  (* from_discodop.rs:264-272 *)
  Definition lexer_rule (m : list (N * W)) (x : T * N * W) : option (prule N T W) :=
    let '(word, pos, weight) := x in
    match denominator m pos with None => None | Some d => Some (PRule pos [] [[Tm word]] (n_div ops weight d)) end.
  Fixpoint all_some {X Y : Type} (f : X -> option Y) (l : list X) : option (list Y) :=
    match l with [] => Some [] | x :: l => match f x, all_some f l with Some y, Some ys => Some (y :: ys) | _, _ => None end end.
  (* from_discodop.rs:185-279 *)
  Definition lcfrs_of_discodop (cs : disco_constituents) (lex : option disco_lexer) : option (mcfg N T W) :=
    let m := denominators cs lex in
    match all_some (disco_rule m) cs, all_some (lexer_rule m) (match lex with Some l => l | None => [] end), of_text ion «"ROOT"» with
    | Some rs, Some ls, Some i => Some (MCFG (rs ++ ls) i)
    | _, _, _ => None
    end.

  (* from_discodop.rs:290-312  the entries of the hash map is_only_on_rhs *)
  Fixpoint set_lhs (m : list (N * bool)) (n : N) : list (N * bool) :=
    match m with [] => [(n, false)] | (x, b) :: m => if neq x n then (x, false) :: m else (x, b) :: set_lhs m n end.
  Fixpoint or_insert_rhs (m : list (N * bool)) (n : N) : list (N * bool) :=
    match m with [] => [(n, true)] | (x, b) :: m => if neq x n then (x, b) :: m else (x, b) :: or_insert_rhs m n end.
  Definition only_on_rhs (cs : disco_constituents) : list (N * bool) :=
    fold_left (fun m '(d, _, _) =>
      match d with
      | Chain lhs rhs => or_insert_rhs (set_lhs m lhs) rhs
      | Binary lhs rhs1 rhs2 => or_insert_rhs (or_insert_rhs (set_lhs m lhs) rhs1) rhs2
      end) cs [].
End Disco.
Arguments Chain {N}. Arguments Binary {N}.

(* from_discodop.rs:281-325  iterate: the order in which the hash map returns its entries *)
Definition default_lexer {N W : Type} (ops : num_ops W) (neq : N -> N -> bool) (iterate : list (N * bool) -> list (N * bool))
    (cs : disco_constituents (N := N) (W := W)) : disco_lexer (N := N) (T := N) (W := W) :=
  flat_map (fun '(n, b) => if (b : bool) then [(n, n, n_one ops)] else []) (iterate (only_on_rhs neq cs)).

Section Rparse.
  Context {N W : Type} (ion : text_io N) (iow : text_io W).
  (* from_rparse.rs:6-10 *)
  Inductive rparse_rhs := RBinary (a b : N) | RChain (a : N).
  (* from_rparse.rs:20-40 *)
  Definition parse_bool : parser bool := alt (skip tag «"true"»; pret true) (skip tag «"false"»; pret false).
  Definition parse_rparse_component : parser (list bool) :=
    skip tag «"["»; do l <- separated_list (tag «", "») parse_bool; skip tag «"]"»; pret l.
  Definition parse_rparse_yield : parser (list (list bool)) :=
    skip tag «"[["»; do l <- separated_list (tag «", "») parse_rparse_component; skip tag «"]]"»; pret l.
  (* from_rparse.rs:52-74 *)
  Definition parse_rparse_clause : parser (W * N * rparse_rhs * list (list bool)) :=
    skip digit; skip space;
    do weight <- take_while1 (fun a => is_token a && negb (beqb a ":")); skip tag «":"»;
    do lhs <- take_while1 is_token; skip space; skip tag «"-->"»; skip space;
    do rhs1 <- take_while1 is_token; skip space;
    do o_rhs2 <- opt (skip pnot (tag «"[[["»); do t <- take_while1 is_token; skip space; pret t);
    do y <- complete parse_rparse_yield;
    do weight <- unwrap (of_text iow weight); do lhs <- unwrap (of_text ion lhs);
    do rhs <- match o_rhs2 with
              | Some rhs2 => do a <- unwrap (of_text ion rhs1); do b <- unwrap (of_text ion rhs2); pret (RBinary a b)
              | None => do a <- unwrap (of_text ion rhs1); pret (RChain a)
              end;
    pret (weight, lhs, rhs, y).
  (* from_rparse.rs:42-92 *)
  Definition rparse_of_text (s : bytes) : from_str (list (W * N * rparse_rhs * list (list bool))) :=
    to_result (separated_nonempty_list (tag newline) parse_rparse_clause s).

  (* from_rparse.rs:110-120 *)
  Fixpoint rparse_component {T : Type} (ycomp : list bool) (ind1 ind2 : nat) : list (vart T) * nat * nat :=
    match ycomp with
    | [] => ([], ind1, ind2)
    | true :: l => let '(c, a, b) := rparse_component l ind1 (S ind2) in (Var 1 ind2 :: c, a, b)
    | false :: l => let '(c, a, b) := rparse_component l (S ind1) ind2 in (Var 0 ind1 :: c, a, b)
    end.
  Fixpoint rparse_composition {T : Type} (y : list (list bool)) (ind1 ind2 : nat) : composition T :=
    match y with
    | [] => []
    | ycomp :: y => let '(c, a, b) := rparse_component ycomp ind1 ind2 in c :: rparse_composition y a b
    end.
  (* from_rparse.rs:94-137  the initial nonterminal unwraps *)
  Definition lcfrs_of_rparse (cs : list (W * N * rparse_rhs * list (list bool))) : option (mcfg N unit W) :=
    match of_text ion «"VROOT1"» with
    | Some i => Some (MCFG (map (fun '(weight, lhs, rhs, y) =>
                  PRule lhs (match rhs with RChain a => [a] | RBinary a b => [a; b] end) (rparse_composition y 0 0) weight) cs) i)
    | None => None
    end.
End Rparse.
Arguments RBinary {N}. Arguments RChain {N}.
