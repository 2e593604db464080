(* What the command line means: UTF-8 and the reading of input.  Nothing of the model is used here. *)
From Coq Require Import NArith List Ascii.
Import ListNotations.
Open Scope N_scope.

(* Unicode scalar values, and their codes (RFC 3629, section 3) *)
Definition scalar (c : N) : Prop := c < 55296 \/ 57343 < c /\ c < 1114112.
Definition continuation (n : N) : ascii := ascii_of_N (128 + n mod 64).
Definition encode (c : N) : list ascii :=
  if c <? 128 then [ascii_of_N c]
  else if c <? 2048 then [ascii_of_N (192 + c / 64); continuation c]
  else if c <? 65536 then [ascii_of_N (224 + c / 4096); continuation (c / 64); continuation c]
  else [ascii_of_N (240 + c / 262144); continuation (c / 4096); continuation (c / 64); continuation c].
(* a text: the codes of scalar values, one after the other *)
Definition is_text (s : list ascii) : Prop := exists cs, Forall scalar cs /\ s = concat (map encode cs).
(* what a command sees of an input whose reading errors it does not look at *)
Definition seen (s t : list ascii) : Prop := is_text s /\ t = s \/ ~ is_text s /\ t = [].
Close Scope N_scope.
