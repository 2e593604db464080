(* Specification of coarse-to-fine recognition with several strategies. *)
From Verif Require Import Base M_Agenda M_Util M_Recog M_Automata M_CSAuto M_CSParse M_Approx M_Stacked S_Recog S_Approx.

(* us is an accepting run on the word and no accepting run on it weighs more *)
Definition best_run {S I T : Type} {K : Weight} (apply : I -> S -> list S) (init : S) (tr : transition I T K -> Prop) (final : S -> Prop)
           (word : list T) (us : list (transition I T K)) (s : S) : Prop :=
  accepting_run apply init tr final word us s /\
  forall us' s', accepting_run apply init tr final word us' s' -> wleb (run_weight us') (run_weight us) = true.

(* adding weights never yields less than a summand, as for probabilities and for maxima *)
Definition sum_dominates {K : Weight} (wadd : K -> K -> K) : Prop :=
  forall a b, wleb a (wadd a b) = true /\ wleb b (wadd a b) = true.

(* a level whose equality test is one, whose iteration orders are permutations, and whose heap compares weights first *)
Definition proper_level {A B T : Type} {K : Weight} (lv : rlb_level A B T K) : Prop :=
  EqbSpec (lv_eqb lv) /\ (forall l, Permutation (lv_order lv l) l) /\ (forall l, Permutation (lv_heap_order lv l) l) /\
  (forall a b, lv_leb lv a b = true -> wleb (item_weight a) (item_weight b) = true).
Fixpoint proper_levels {A T : Type} {K : Weight} (L : levels T K A) : Prop :=
  match L with
  | Coarsest => True
  | Finer lv L' => proper_level lv /\ proper_levels L'
  end.

(* P holds of the automaton that all strategies together make of M *)
Section AtCoarsest.
  Context {T : Type} {K : Weight} (wadd : K -> K -> K) (wzero : K) (teqb : T -> T -> bool) (P : forall Z : Type, pda Z T K -> Prop).
  Fixpoint at_coarsest {A : Type} (L : levels T K A) {struct L} : pda A T K -> Prop :=
    match L in levels _ _ X return pda X T K -> Prop with
    | Coarsest => fun M => P _ M
    | Finer lv L' => fun M => forall M2 m, rlb_approximate wadd wzero (lv_eqb lv) teqb (lv_order lv) (lv_map lv) M = Some (M2, m) -> at_coarsest L' M2
    end.
End AtCoarsest.
