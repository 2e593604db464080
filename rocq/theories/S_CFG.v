(* Specification: derivations of context-free grammars. *)
From Verif Require Import Base M_Util M_Recog M_Automata M_CFG S_Recog S_Automata.

Section Derivations.
  Context {N T : Type} {K : Weight} (R : cfg_rule N T K -> Prop).

  (* rewriting sentential forms *)
  Definition rewrites (u v : list (lettert N T)) : Prop :=
    exists l r rule, R rule /\ u = l ++ Label (cr_head rule) :: r /\ v = l ++ cr_rhs rule ++ r.
  Inductive derives : list (lettert N T) -> list (lettert N T) -> Prop :=
  | der_refl u : derives u u
  | der_step u v w : rewrites u v -> derives v w -> derives u w.

  (* leftmost derivation of the terminal word w from alpha, applying the rules ds in this order *)
  Inductive leftmost : list (lettert N T) -> list (cfg_rule N T K) -> list T -> Prop :=
  | lm_nil : leftmost [] [] []
  | lm_value x alpha ds w : leftmost alpha ds w -> leftmost (Value x :: alpha) ds (x :: w)
  | lm_label r alpha ds w : R r -> leftmost (cr_rhs r ++ alpha) ds w -> leftmost (Label (cr_head r) :: alpha) (r :: ds) w.
End Derivations.

(* the language of a grammar *)
Definition cfg_language {N T : Type} {K : Weight} (g : cfg N T K) (w : list T) : Prop :=
  exists s, In s (cg_initial g) /\ derives (fun r => In r (cg_rules g)) [Label s] (map Value w).

(* weight of a derivation: the weights of its rules, multiplied from left to right *)
Definition derivation_weight {N T : Type} {K : Weight} (ds : list (cfg_rule N T K)) : K := lprod (map cr_weight ds).

(* no two rules coincide up to weight, no initial nonterminal is listed twice *)
Definition cfg_distinct {N T : Type} {K : Weight} (g : cfg N T K) : Prop :=
  NoDup (map (fun r => (cr_head r, cr_rhs r)) (cg_rules g)) /\ NoDup (cg_initial g).

(* no left recursion: a nonterminal that can come first in a sentential form derived from A has a smaller rank than A; what is
   before it in a rule must be able to vanish *)
Definition cfg_no_left_recursion {N T : Type} {K : Weight} (rules : list (cfg_rule N T K)) (rank : N -> nat) : Prop :=
  forall r before B after, In r rules -> cr_rhs r = before ++ Label B :: after ->
    (exists ds, leftmost (fun r => In r rules) before ds []) -> rank B < rank (cr_head r).

(* B can come first in a sentential form derived from A, in k steps of this kind *)
Inductive leads {N T : Type} {K : Weight} (rules : list (cfg_rule N T K)) : N -> nat -> N -> Prop :=
| leads_none A : leads rules A 0 A
| leads_rule r before B after k C : In r rules -> cr_rhs r = before ++ Label B :: after ->
    (exists ds, leftmost (fun r => In r rules) before ds []) -> leads rules B k C -> leads rules (cr_head r) (S k) C.

(* the run of the pushdown automaton that simulates a leftmost derivation *)
Section Simulation.
  Context {N T : Type} {K : Weight}.
  Definition sym (x : lettert N T) : push_state N T := match x with Label n => PNt n | Value t => PT t end.
  Definition rule_trans (r : cfg_rule N T K) : transition (pd_instr (push_state N T)) T K :=
    Trans [] (cr_weight r) (Replace [PNt (cr_head r)] (rev (map sym (cr_rhs r)))).
  Definition read_trans (x : T) : transition (pd_instr (push_state N T)) T K := Trans [x] wone (Replace [PT x] []).
  Definition init_trans (s : N) : transition (pd_instr (push_state N T)) T K := Trans [] wone (Replace [Initial] [PNt s]).

  Fixpoint derivation_run (ds : list (cfg_rule N T K)) : list (lettert N T) -> list (transition (pd_instr (push_state N T)) T K) :=
    fix reads (alpha : list (lettert N T)) :=
      match alpha with
      | [] => []
      | Value x :: beta => read_trans x :: reads beta
      | Label _ :: beta => match ds with
                           | [] => []
                           | r :: ds' => rule_trans r :: derivation_run ds' (cr_rhs r ++ beta)
                           end
      end.
End Simulation.
