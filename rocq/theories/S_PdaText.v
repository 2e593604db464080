(* Specification of the commands that print pushdown automata. *)
From Verif Require Import M_Nom Base M_Util M_Recog M_Automata M_CFG M_TreeStack M_Grammar M_Chart M_FromPmcfg M_Text S_Recog S_Automata S_Approx S_TsaCommand.

(* addition of weights is associative and commutative, and zero is neutral *)
Definition sum_laws {K : Weight} (wadd : K -> K -> K) (wzero : K) : Prop :=
  (forall x y, wadd x y = wadd y x) /\ (forall x y z, wadd x (wadd y z) = wadd (wadd x y) z) /\ (forall x, wadd wzero x = x).

(* the line of a transition that reads [word] and replaces [current] on top of the stack by [new]; the top is on the right *)
Definition replace_line (shown_symbol : bytes -> bytes) (word current new : list bytes) (weight : bytes) : bytes :=
  «"Transition "» ++ list_text shown_symbol word ++ «" (Replace "» ++ commas (map (fun s => quote ++ s ++ quote) current) ++ «" // "» ++
  commas (map (fun s => quote ++ s ++ quote) new) ++ «")  # "» ++ weight ++ newline.

(* ---- the automaton of a context-free grammar ---- *)
Section Grammar.
  Context {K : ZWeight} (neqb teqb : bytes -> bytes -> bool) (wadd : K -> K -> K) (shown_symbol : bytes -> bytes) (shown_weight : K -> bytes).
  Notation line := (fun word current new weight => replace_line shown_symbol word current new (shown_weight weight)).
  Definition in_parentheses (x : bytes) : bytes := «"("» ++ x ++ «")"».
  Definition letter_name (x : lettert bytes bytes) : bytes := match x with Label n => n | Value t => t end.
  Definition letter_eqb (x y : lettert bytes bytes) : bool :=
    match x, y with Label a, Label b => neqb a b | Value a, Value b => teqb a b | _, _ => false end.
  (* rules that differ at most in their weights are one rule, with the sum of their weights *)
  Definition same_rule (r r' : cfg_rule bytes bytes K) : bool := neqb (cr_head r) (cr_head r') && M_Automata.list_eqb letter_eqb (cr_rhs r) (cr_rhs r').
  Definition joined (rules : list (cfg_rule bytes bytes K)) (r : cfg_rule bytes bytes K) : Prop :=
    (exists r0, In r0 rules /\ cr_head r0 = cr_head r /\ cr_rhs r0 = cr_rhs r) /\
    cr_weight r = wsum wadd wzero (map cr_weight (filter (same_rule r) rules)).
  (* a rule replaces its left-hand side by its right-hand side, the first symbol on top *)
  Definition rule_line (r : cfg_rule bytes bytes K) : bytes :=
    line [] [in_parentheses (cr_head r)] (rev (map (fun x => in_parentheses (letter_name x)) (cr_rhs r))) (cr_weight r).
  (* a terminal on top of the stack is read *)
  Definition read_line (x : bytes) : bytes := line [x] [in_parentheses x] [] wone.
  (* I is replaced by an initial nonterminal, once for each time it is listed *)
  Definition init_line (init : list bytes) (s : bytes) : bytes :=
    line [] [«"I"»] [in_parentheses s] (wsum wadd wzero (map (fun _ => wone) (filter (neqb s) init))).
  (* the initial stack, and in some order one line for each rule, for each terminal and for each initial nonterminal *)
  Definition cfg_automaton_printed (init : list bytes) (rules : list (cfg_rule bytes bytes K)) (out : bytes) : Prop :=
    exists rs xs ss ls,
      NoDup (map (fun r => (cr_head r, cr_rhs r)) rs) /\ (forall r, In r rs <-> joined rules r) /\
      NoDup xs /\ (forall x, In x xs <-> exists r, In r rules /\ In (Value x) (cr_rhs r)) /\
      NoDup ss /\ (forall s, In s ss <-> In s init) /\
      Permutation ls (map rule_line rs ++ map read_line xs ++ map (init_line init) ss) /\
      out = «"initial: stack: [@ I], empty:@"» ++ newline ++ newline ++ List.concat ls ++ newline.
End Grammar.

(* ---- the automaton that keeps only the path from the root to the stack pointer ---- *)
Section Path.
  Context {A T : Type} {K : Weight} (aeqb : A -> A -> bool) (teqb : T -> T -> bool) (wadd : K -> K -> K) (wzero : K)
          (shown : A -> bytes) (shown_terminal : T -> bytes) (shown_weight : K -> bytes).
  Definition path_step (t : transition (ts_instr A) T K) : transition (pd_instr A) T K := Trans (t_word t) (t_weight t) (path_instr (t_ins t)).
  Definition step_line (t : transition (pd_instr A) T K) : bytes :=
    «"Transition "» ++ list_text shown_terminal (t_word t) ++ «" (Replace "» ++ commas (map (fun s => quote ++ shown s ++ quote) (pi_current (t_ins t))) ++ «" // "» ++
    commas (map (fun s => quote ++ shown s ++ quote) (pi_new (t_ins t))) ++ «")  # "» ++ shown_weight (t_weight t) ++ newline.
  (* the initial stack, and in some order one line for each word and instruction, with the sum of the weights *)
  Definition path_automaton_printed (initial : bytes) (ts : list (transition (ts_instr A) T K)) (out : bytes) : Prop :=
    exists us ls,
      NoDup (map (fun u => (t_word u, t_ins u)) us) /\ (forall u, In u us <-> merged wadd wzero aeqb teqb (map path_step ts) u) /\
      Permutation ls (map step_line us) /\
      out = «"initial: stack: ["» ++ initial ++ «"], empty:"» ++ initial ++ newline ++ newline ++ List.concat ls ++ newline.
End Path.
