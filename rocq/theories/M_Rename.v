(* Renaming of nonterminals in rules of PMCFGs. *)
From Verif Require Import Base M_Grammar.

(* pmcfg/mod.rs:146-156  PMCFGRule::map_nonterminals *)
Definition map_nonterminals {N M T W} (f : N -> M) (r : prule N T W) : prule M T W :=
  PRule (f (pr_head r)) (map f (pr_tail r)) (pr_comp r) (pr_weight r).
