(* Specification: what a NEGRA export of a derivation has to say. *)
From Verif Require Import Base M_Util M_Recog M_Automata M_CFG M_Grammar M_Negra S_Recog S_Grammar.

(* the derivation with every terminal paired with the address of the rule it stands in; d itself is at addr *)
Fixpoint located {N T W} (addr : list nat) (d : dtree N T W) : dtree N (list nat * T) W :=
  match d with
  | DNode r ts =>
      DNode (PRule (pr_head r) (pr_tail r) (map (map (fun x => match x with Var i j => Var i j | Tm t => Tm (addr, t) end)) (pr_comp r)) (pr_weight r))
        ((fix go (i : nat) (ts : list (dtree N T W)) := match ts with [] => [] | t :: ts => located (addr ++ [i]) t :: go (S i) ts end) 0 ts)
  end.
(* the leaves in sentence order: for each word its pre-terminal node's address and the word; None as for yield *)
Definition leaves {N T W} (d : dtree N T W) : option (list (list nat * T)) := option_map (@concat _) (yield (located [] d)).

(* the address a is strictly above b *)
Definition above (a b : list nat) : Prop := exists c, c <> [] /\ b = a ++ c.
(* nodes lists the numbered inner nodes: the root has number 0, the k-th of the others 500 + k *)
Definition has_number (nodes : list (list nat)) (a : list nat) (n : nat) : Prop :=
  (a = [] /\ n = 0) \/ exists k, nth_error nodes k = Some a /\ n = 500 + k.
(* the line of a word at the pre-terminal node a *)
Definition word_line {N T W} (d : dtree N T W) (nodes : list (list nat)) (leaf : list nat) (w : T) (l : ncol T * N * nat) : Prop :=
  exists r p i n, rule_at d leaf = Some r /\ leaf = p ++ [i] /\ has_number nodes p n /\ l = (NWord w, pr_head r, n).
(* the line of the inner node a *)
Definition node_line {N T W} (d : dtree N T W) (nodes : list (list nat)) (a : list nat) (l : ncol T * N * nat) : Prop :=
  exists r p i n m, rule_at d a = Some r /\ a = p ++ [i] /\ has_number nodes a m /\ has_number nodes p n /\ l = (NNode m, pr_head r, n).
(* words ws above the leaves ls *)
Inductive word_lines {N T W} (d : dtree N T W) (nodes : list (list nat)) : list (list nat) -> list T -> list (ncol T * N * nat) -> Prop :=
| wl_nil : word_lines d nodes [] [] []
| wl_cons a l w ws x xs : word_line d nodes a w x -> word_lines d nodes l ws xs -> word_lines d nodes (a :: l) (w :: ws) (x :: xs).

(* the export: first the words in order, then one line for every inner node above a word *)
Definition negra_export {N T W} (d : dtree N T W) (ls : list (list nat)) (ws : list T) (lines : list (ncol T * N * nat)) : Prop :=
  exists nodes wl nl, NoDup nodes /\ (forall a, In a nodes <-> a <> [] /\ exists b, In b ls /\ above a b) /\
    word_lines d nodes ls ws wl /\ Forall2 (node_line d nodes) nodes nl /\ lines = wl ++ nl.

(* the first column of the word lines: the sentence's own words, or those given by the caller *)
Definition mode_words {T} (mode : dump_mode T) (own : list T) : list T :=
  match mode with FromPos ws => firstn (length own) ws | Default => own end.
(* a composition in the normal form that the export needs: only variables, or nothing but one terminal *)
Definition negra_normal {T} (c : composition T) : Prop :=
  (forall x, In x (concat c) -> exists i j, x = Var i j) \/ exists t, concat c = [Tm t].
