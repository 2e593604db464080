(* Specification for what the parser returns without conditions on the tokens of the grammar. *)
From Verif Require Import Base M_Grammar M_Chart S_Grammar.

Section Spec.
  Context {N T : Type} {K : ZWeight} (rules : list (prule N T K)) (init : N).
  (* some nonterminal has a rule for t' and derives t *)
  Definition taken_for (t t' : T) : Prop :=
    exists r d, In r rules /\ pr_comp r = [[Tm t']] /\ deriv (fun r => In r rules) (pr_head r) d /\ yield d = Some [[t]].
  (* word' is as long as word, and differs from it only in tokens that one nonterminal derives besides each other; a single
     token may also be taken for any token that the initial nonterminal has a rule for *)
  Definition near (word word' : list T) : Prop :=
    Forall2 taken_for word word' \/ exists t t' r, word = [t] /\ word' = [t'] /\ In r rules /\ pr_head r = init /\ pr_comp r = [[Tm t']].
End Spec.
