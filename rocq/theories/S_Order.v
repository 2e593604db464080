(* What the comparisons of configurations, transitions and items should mean; nothing here refers to how they are computed. *)
From Verif Require Import Base BMap M_Util M_Recog.

(* the configuration a is to be explored before b *)
Definition before {S T} {K : Weight} (wlt : K -> K -> Prop) (wordlt : list T -> list T -> Prop) (slt : S -> S -> Prop) (a b : configuration S T K) : Prop :=
  wlt (c_weight b) (c_weight a) \/
  (c_weight a = c_weight b /\
    (length (c_word a) < length (c_word b) \/
     (length (c_word a) = length (c_word b) /\
       (wordlt (c_word b) (c_word a) \/ (c_word a = c_word b /\ slt (c_storage b) (c_storage a)))))).

(* the order of words: the first position where they differ, or a proper prefix *)
Definition word_less {T} (lt : T -> T -> Prop) (u v : list T) : Prop :=
  (exists x r, v = u ++ x :: r) \/ exists p x y u' v', u = p ++ x :: u' /\ v = p ++ y :: v' /\ lt x y.

(* a transition is greater *)
Definition tr_greater {I T} {K : Weight} (wlt : K -> K -> Prop) (wordlt : list T -> list T -> Prop) (ilt : I -> I -> Prop) (a b : transition I T K) : Prop :=
  wlt (t_weight b) (t_weight a) \/
  (t_weight a = t_weight b /\ (wordlt (t_word b) (t_word a) \/ (t_word a = t_word b /\ ilt (t_ins b) (t_ins a)))).

(* no later element of the list is less than an earlier one *)
Definition ascending {X} (lt : X -> X -> Prop) (l : list X) : Prop := ForallOrdPairs (fun x y => ~ lt y x) l.
