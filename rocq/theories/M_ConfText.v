(* Model of the text of configurations and tree stacks (Display), which mcfg parse prints if the export format is not asked for. *)
From Verif Require Import M_Nom Base M_Util M_Recog M_TreeStack M_Grammar M_Chart M_FromPmcfg M_Text M_Command M_TsaCommand.

Section TreeStackText.
  Context {A : Type} (show : A -> bytes).
  (* tree_stack.rs:156-159: the loop that indents both lines *)
  Fixpoint bars (n : nat) : bytes := match n with 0 => [] | S n => «"| "» ++ bars n end.
  (* tree_stack.rs:149-168: one turn of the loop; path.last() is the head of the reversed path *)
  Definition entry_text (pointer : list nat) (e : list nat * A) : bytes :=
    let '(path, value) := e in
    let line1 := «" "» in
    let line2 := if list_eqb path pointer then «"*"» else «" "» in
    match rev path with
    | child_num :: _ =>
        (line1 ++ bars (length path - 1) ++ «"|"») ++ newline ++
        (line2 ++ bars (length path - 1) ++ «"+-"» ++ usize_text child_num ++ «": "» ++ show value) ++ newline
    | [] => line1 ++ newline ++ (line2 ++ show value) ++ newline
    end.
  (* tree_stack.rs:145-172 *)
  Definition tree_stack_text (s : tstack A) : bytes :=
    let '(tree, pointer) := ts_to_tree s in concat (map (entry_text pointer) tree).
End TreeStackText.

(* configuration.rs:71-79: the loop with peekable *)
Fixpoint spaces (l : list bytes) : bytes :=
  match l with
  | [] => []
  | [x] => x
  | x :: l => x ++ «" "» ++ spaces l
  end.
(* configuration.rs:69-86 *)
Definition configuration_text {S T : Type} {W : Weight} (show_s : S -> bytes) (show_t : T -> bytes) (show_w : W -> bytes) (c : configuration S T W) : bytes :=
  «"Configuration:"» ++ newline ++ «"word:["» ++ spaces (map show_t (c_word c)) ++ «"]"» ++ newline ++
  «"weight:"» ++ show_w (c_weight c) ++ newline ++ show_s (c_storage c) ++ newline.

(* push_down_automaton/mod.rs:409-425, the vector bottom first; empty(), :323-325, panics if there is no element *)
Definition pushdown_text {A : Type} (show : A -> bytes) (elements : list A) : option bytes :=
  match elements with
  | [] => None
  | b :: _ => Some («"stack: ["» ++ spaces (map show elements) ++ «"], empty:"» ++ show b)
  end.

(* the text of parse.0 in pmcfg.rs:93 and 103: from_pmcfg.rs:38-46 for the nodes, pmcfg/mod.rs:251-273 for the rules *)
Definition parse_text {K : ZWeight} (iow : text_io K) (c : configuration (tstack (posstate (prule bytes bytes K))) bytes K) : bytes :=
  configuration_text (tree_stack_text (posstate_text (pmcfg_rule_text string_io string_io iow))) (fun t => t) (to_text iow) c.
