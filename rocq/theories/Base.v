(* Shared vocabulary: orders and weights. *)
From Coq Require Export List Arith Lia Bool Permutation.
Export ListNotations.

(* The contract of Rust's `Ord` that the proofs use: a total preorder.  [leb a b] stands for `a <= b`. *)
Record TotalOrder {W : Type} (leb : W -> W -> bool) : Prop := {
  to_total : forall a b, leb a b = true \/ leb b a = true;
  to_trans : forall a b c, leb a b = true -> leb b c = true -> leb a c = true
}.

(* Antisymmetry (`Ord` agrees with `Eq`), only where a theorem needs it. *)
Definition Antisym {W : Type} (leb : W -> W -> bool) : Prop :=
  forall a b, leb a b = true -> leb b a = true -> a = b.

(* Boolean equality that decides Leibniz equality (`Eq`). *)
Definition EqbSpec {A : Type} (eqb : A -> A -> bool) : Prop := forall a b, eqb a b = true <-> a = b.

(* Membership test in a list standing for a `HashSet`/`BTreeSet`. *)
Definition memb {A : Type} (eqb : A -> A -> bool) (x : A) (l : list A) : bool := existsb (eqb x) l.

(* Weights: the operations of `LogDomain<f64>` (or any `W: Ord + One + Mul`) the code uses.
   Rounding of floating point numbers: see [RoundLaws] below and M_Float.v. *)
Record Weight := mkWeight {
  wt :> Type;
  wmul : wt -> wt -> wt;
  wone : wt;
  wleb : wt -> wt -> bool
}.
Arguments wmul {_} _ _. Arguments wone {_}. Arguments wleb {_} _ _.

Record WeightLaws (K : Weight) : Prop := {
  wl_order : TotalOrder (@wleb K);
  wl_anti : Antisym (@wleb K);
  wl_assoc : forall a b c : K, wmul a (wmul b c) = wmul (wmul a b) c;
  wl_comm : forall a b : K, wmul a b = wmul b a;
  wl_one_l : forall a : K, wmul wone a = a;
  wl_mono : forall a b c : K, wleb a b = true -> wleb (wmul a c) (wmul b c) = true
}.

(* The laws that remain when products are rounded: everything but associativity.  (The sum of two `f64`, which is what
   the product of two `LogDomain<f64>` is, is commutative and monotone but not associative.) *)
Record RoundLaws (K : Weight) : Prop := {
  rl_order : TotalOrder (@wleb K);
  rl_anti : Antisym (@wleb K);
  rl_comm : forall a b : K, wmul a b = wmul b a;
  rl_one_l : forall a : K, wmul wone a = a;
  rl_mono : forall a b c : K, wleb a b = true -> wleb (wmul a c) (wmul b c) = true
}.
Lemma wl_round (K : Weight) : WeightLaws K -> RoundLaws K.
Proof. intros [A B _ C D E]. now constructor. Qed.
Coercion wl_round : WeightLaws >-> RoundLaws.

(* Product of a list of weights. *)
Definition wprod {K : Weight} (l : list K) : K := fold_right wmul wone l.
(* Product of a list of weights in the order in which the code multiplies them: one, times the first, times the second, ... *)
Definition lprod {K : Weight} (l : list K) : K := fold_left wmul l wone.

(* A concrete weight structure: costs, i.e. negative logarithms of probabilities; smaller cost = larger weight. *)
Definition CostWeight : Weight := mkWeight nat Nat.add 0 (fun a b => Nat.leb b a).
