(* Weights as the commands of the program use them: `LogDomain<f64>`, i.e. an IEEE 754 double holding the natural logarithm of
   a probability.  The IEEE arithmetic is that of the library Flocq.  The wrapper is the crate log_domain 0.4 (Cargo.toml:23),
   whose source is not in /repo; it is modelled from its documentation: the product is the sum of the logarithms, one is the
   logarithm 0.0, zero is -inf, and the order is that of the logarithms. *)
From Coq Require Import ZArith Eqdep_dec.
From Flocq Require Import BinarySingleNaN.
From Verif Require Import Base.

Definition f64 : Type := binary_float 53 1024.
Definition fprec : FLX.Prec_gt_0 53 := eq_refl.
Definition femax : Prec_lt_emax 53 1024 := eq_refl.

(* `+` on f64: rounded to nearest, ties to even *)
Definition fadd (x y : f64) : f64 := @Bplus 53 1024 fprec femax mode_NE x y.
(* `<=` on f64 *)
Definition fle (x y : f64) : bool := Bleb x y.

(* the logarithms of probabilities: -inf, the negative numbers and +0.0; no NaN, no positive number, no -0.0 *)
Definition is_log (x : f64) : bool :=
  match x with B754_zero s => negb s | B754_infinity s => s | B754_nan => false | B754_finite s _ _ _ => s end.
Definition log_prob : Type := {x : f64 | is_log x = true}.

(* src/util/factorizable.rs:11-16: pow multiplies the logarithm, here by 1.0 / n *)
Definition f64_of_usize (n : nat) : f64 := binary_normalize 53 1024 fprec femax mode_NE (Z.of_nat n) 0 false.
Definition fmul (x y : f64) : f64 := @Bmult 53 1024 fprec femax mode_NE x y.
Definition fdiv (x y : f64) : f64 := @Bdiv 53 1024 fprec femax mode_NE x y.
Definition log_factorize (w : f64) (n : nat) : list f64 := repeat (fmul w (fdiv (f64_of_usize 1) (f64_of_usize n))) n.
