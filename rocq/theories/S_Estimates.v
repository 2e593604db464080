(* Specification of the estimates: contexts of a state in a derivation and their weights. *)
From Verif Require Import Base M_Chart S_CS.

(* q occurs in a partial derivation from init with words of i and k tokens to its left and right, the weight of the
   rest of the derivation being w *)
Inductive context {Q T} {K : ZWeight} (R : list (crule Q T K)) (init : Q) : Q -> nat -> nat -> K -> Prop :=
| cx_root : context R init init 0 0 wone
| cx_un r q q1 w b i k c : nth_error R r = Some (CRule q (RU q1) w b) -> context R init q i k c -> context R init q1 i k (wmul w c)
| cx_left r q q1 q2 w b i k c t u : nth_error R r = Some (CRule q (RB q1 q2) w b) -> context R init q i k c -> cderiv R q2 t u ->
    context R init q1 i (length u + k) (wmul (wmul w (ct_weight R t)) c)
| cx_right r q q1 q2 w b i k c t u : nth_error R r = Some (CRule q (RB q1 q2) w b) -> context R init q i k c -> cderiv R q1 t u ->
    context R init q2 (i + length u) k (wmul (wmul (ct_weight R t) w) c).
