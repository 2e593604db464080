(* Specification of the languages of finite state and pushdown automata. *)
From Verif Require Import Base M_Util M_Recog M_Automata S_Recog.

(* paths of a finite state automaton with transitions trs *)
Section Paths.
  Context {Q T : Type} {K : Weight} (trs : list (transition (fs_instr Q) T K)).
  Inductive fs_path : Q -> list T -> list (transition (fs_instr Q) T K) -> Q -> Prop :=
  | path_nil q : fs_path q [] [] q
  | path_cons p q w v wt ts r : In (Trans w wt (FSI p q)) trs -> fs_path q v ts r ->
      fs_path p (w ++ v) (Trans w wt (FSI p q) :: ts) r.
End Paths.

(* the transitions of the pushdown automaton built from trs: one for every (word, instruction) that occurs, weighted with
   the sum of the weights of all its occurrences *)
Section Merged.
  Context {A T : Type} {K : Weight} (wadd : K -> K -> K) (wzero : K) (aeqb : A -> A -> bool) (teqb : T -> T -> bool).
  Definition wsum (ws : list K) : K := fold_left wadd ws wzero.
  Definition same_trans (t t0 : transition (pd_instr A) T K) : bool :=
    list_eqb teqb (t_word t) (t_word t0) && list_eqb aeqb (pi_current (t_ins t)) (pi_current (t_ins t0)) &&
    list_eqb aeqb (pi_new (t_ins t)) (pi_new (t_ins t0)).
  Definition merged (trs : list (transition (pd_instr A) T K)) (t : transition (pd_instr A) T K) : Prop :=
    (exists t0, In t0 trs /\ t_word t0 = t_word t /\ t_ins t0 = t_ins t) /\
    t_weight t = wsum (map t_weight (filter (same_trans t) trs)).
End Merged.
