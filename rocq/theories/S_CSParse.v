(* Specification for the parser: what a parse is, and the conditions on a grammar under which the parser finds them. *)
From Verif Require Import Base BMap M_Util M_Recog M_TreeStack M_Grammar M_Chart S_Grammar S_Cow P_TreeStack.

Section Spec.
  Context {N T : Type} {K : ZWeight} (rules : list (prule N T K)) (init : N).
  (* the tree, a map from addresses to rules, is a derivation of the word by rules of the grammar, of weight w *)
  Definition is_parse (word : list T) (tree : gorn (prule N T K)) (w : K) : Prop :=
    exists d, deriv (fun r => In r rules) init d /\ yield d = Some [word] /\ d_weight d = w /\
      sorted_keys addr_cmp (map fst tree) /\ forall addr, gt_get addr tree = rule_at d addr.
  (* the tree is one derivation of the word, by rules that are put together from components of rules of the grammar for the
     same nonterminal; all of weight zero *)
  Definition is_fallback (word : list T) (tree : gorn (prule N T K)) : Prop :=
    exists d, deriv (fun r => merged rules r /\ pr_weight r = wzero) init d /\ yield d = Some [word] /\
      sorted_keys addr_cmp (map fst tree) /\ forall addr, gt_get addr tree = rule_at d addr.
  (* no cycles of components that consist of a single component of a successor *)
  Definition chain_free : Prop :=
    exists rank : N -> nat -> nat, forall r k i j B, In r rules ->
      nth_error (pr_comp r) k = Some [Var i j] -> nth_error (pr_tail r) i = Some B -> rank B j < rank (pr_head r) k.
  (* a nonterminal with a rule for the token t derives no other single token *)
  Definition tokens_apart : Prop :=
    forall r t d t', In r rules -> pr_comp r = [[Tm t]] -> deriv (fun r => In r rules) (pr_head r) d -> yield d = Some [[t']] -> t' = t.
  (* if the word is a single token, the initial nonterminal has no rule for another one *)
  Definition root_token (word : list T) : Prop :=
    forall r t t', In r rules -> pr_head r = init -> pr_comp r = [[Tm t]] -> word = [t'] -> t' = t.
End Spec.
