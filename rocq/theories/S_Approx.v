(* Specification of approximation: runs mapped instruction by instruction, the path of a tree stack, families of classes. *)
From Verif Require Import Base M_Util M_Recog M_Automata M_TreeStack S_Recog S_Automata S_TreeStack.

(* us2 has the same words as us and the instructions of us mapped by ins, in the same order *)
Definition image_run {I1 I2 T : Type} {K : Weight} (ins : I1 -> I2) (us : list (transition I1 T K)) (us2 : list (transition I2 T K)) : Prop :=
  Forall2 (fun t1 t2 => t_word t2 = t_word t1 /\ t_ins t2 = ins (t_ins t1)) us us2.
(* the same, and the weights too *)
Definition exact_image {I1 I2 T : Type} {K : Weight} (ins : I1 -> I2) (us : list (transition I1 T K)) (us2 : list (transition I2 T K)) : Prop :=
  us2 = map (fun t => Trans (t_word t) (t_weight t) (ins (t_ins t))) us.

(* t is a transition of the pushdown automaton M *)
Definition pda_has {A T : Type} {K : Weight} (M : pda A T K) (t : transition (pd_instr A) T K) : Prop :=
  exists l, pda_list_transitions M = Some l /\ In t l.

(* pd lists the symbols from the root of the tree stack t up to the pointer *)
Definition path_of {A : Type} (t : tstack A) (pd : list A) : Prop :=
  length pd = S (length (pointer t)) /\
  forall i, i <= length (pointer t) -> nth_error pd i = node t (firstn i (pointer t)).

(* x belongs to the class labelled l *)
Definition in_class {A B : Type} (classes : list (B * list A)) (x : A) (l : B) : Prop := exists ms, In (l, ms) classes /\ In x ms.
Definition disjoint_classes {A B : Type} (classes : list (B * list A)) : Prop :=
  forall x l l', in_class classes x l -> in_class classes x l' -> l = l'.
(* a map from labels to sets *)
Definition family {A B : Type} (classes : list (B * list A)) : Prop :=
  NoDup (map fst classes) /\ forall l ms, In (l, ms) classes -> NoDup ms.

(* what relabelling and following the path of a tree stack do to an instruction *)
Definition relabelled {A B : Type} (f : A -> B) (i : pd_instr A) : pd_instr B := Replace (map f (pi_current i)) (map f (pi_new i)).
Definition path_instr {A : Type} (i : ts_instr A) : pd_instr A :=
  match i with
  | IUp _ c _ v | IPush _ c v => Replace [c] [c; v]
  | IDown c o v => Replace [c; o] [v]
  end.
