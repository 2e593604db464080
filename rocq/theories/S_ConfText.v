(* Specification of the text that shows a derivation without the export format. *)
From Verif Require Import M_Nom Base M_Util M_Recog M_TreeStack M_Grammar M_FromPmcfg M_Text S_Grammar.

(* a rule at its end: its last component, after all variables of that component *)
Definition at_end {N T W} (r : prule N T W) : posstate (prule N T W) :=
  Position r (length (pr_comp r) - 1) (length (variables [last (pr_comp r) []])).
(* the tree stack s holds the derivation d below its root and points to the root *)
Definition holds_tree {N T W} (s : tstack (posstate (prule N T W))) (d : dtree N T W) : Prop :=
  snd (ts_to_tree s) = [] /\
  forall addr, gt_get addr (fst (ts_to_tree s)) = match addr with
    | [] => Some M_FromPmcfg.Designated
    | 0 :: a => option_map at_end (rule_at d a)
    | _ => None
    end.

Section Shown.
  Context {N T W : Type} (show : prule N T W -> bytes) (show_w : W -> bytes).
  Definition indent (depth : nat) : bytes := «" "» ++ List.concat (repeat «"| "» depth).
  (* the lines for a derivation whose root is child number [child] of a node at depth [depth]: a rule with the number of its
     last component and the number of variables in it, then its children, one level deeper *)
  Fixpoint node_lines (depth child : nat) (d : dtree N T W) : list bytes :=
    match d with
    | DNode r ts =>
        (indent depth ++ «"|"») ::
        (indent depth ++ «"+-"» ++ usize_text child ++ «": ("» ++ show r ++ «", "» ++ usize_text (length (pr_comp r) - 1) ++ «", "» ++
         usize_text (length (variables [last (pr_comp r) []])) ++ «")"») ::
        (fix children (i : nat) (l : list (dtree N T W)) : list bytes :=
           match l with [] => [] | t :: l => node_lines (S depth) i t ++ children (S i) l end) 0 ts
    end.
  Definition shown_lines (w : W) (d : dtree N T W) : list bytes :=
    [«"Configuration:"»; «"word:[]"»; «"weight:"» ++ show_w w; «" "»; «"*@"»] ++ node_lines 0 0 d ++ [[]].
  Definition unlines (ls : list bytes) : bytes := List.concat (map (fun l => l ++ newline) ls).
  Definition shown_tree (w : W) (d : dtree N T W) : bytes := unlines (shown_lines w d).
End Shown.
