(* White space, lines and words of a text as the documentation of Rust's str has them: by characters (Unicode scalar values), not
   by bytes.  Nothing of the model is used here but the codes of characters (S_Main). *)
From Coq Require Import NArith List Ascii.
From Verif Require Import S_Main.
Import ListNotations.
Open Scope N_scope.

Definition text (cs : list N) : list ascii := concat (map encode cs).
(* char::is_whitespace: the Unicode property White_Space *)
Definition white (c : N) : bool :=
  (9 <=? c) && (c <=? 13) || (c =? 32) || (c =? 133) || (c =? 160) || (c =? 5760) || (8192 <=? c) && (c <=? 8202) ||
  (c =? 8232) || (c =? 8233) || (c =? 8239) || (c =? 8287) || (c =? 12288).
(* white space outside ASCII *)
Definition exotic (c : N) : Prop := white c = true /\ 128 <= c.

(* str::trim_start, str::trim *)
Fixpoint chars_trim_start (cs : list N) : list N := match cs with c :: cs' => if white c then chars_trim_start cs' else cs | [] => [] end.
Definition chars_trim (cs : list N) : list N := rev (chars_trim_start (rev (chars_trim_start cs))).
(* str::split_whitespace: the nonempty pieces between white space.  [w] is what was read of the current piece. *)
Fixpoint chars_words (w cs : list N) : list (list N) :=
  match cs with
  | [] => match w with [] => [] | _ => [w] end
  | c :: cs => if white c then (match w with [] => [] | _ => [w] end) ++ chars_words [] cs else chars_words (w ++ [c]) cs
  end.
(* str::lines: ended by a line feed, or a carriage return and a line feed; the last one may be ended by the end of the text *)
Definition without_cr (l : list N) : list N := match rev l with 13 :: l' => rev l' | _ => l end.
Fixpoint chars_lines (l cs : list N) : list (list N) :=
  match cs with
  | [] => match l with [] => [] | _ => [l] end
  | c :: cs => if c =? 10 then without_cr l :: chars_lines [] cs else chars_lines (l ++ [c]) cs
  end.
(* str::starts_with *)
Fixpoint chars_start (p cs : list N) : bool :=
  match p, cs with
  | [], _ => true
  | c :: p, d :: cs => (c =? d) && chars_start p cs
  | _ :: _, [] => false
  end.
(* with a space for white space outside ASCII *)
Definition spaced (c : N) : N := if (white c && (128 <=? c))%bool then 32 else c.
(* what a command that ignores reading errors, and only cuts its input into lines and words, makes of it *)
Definition heard (s t : list ascii) : Prop := (exists cs, Forall scalar cs /\ s = text cs /\ t = text (map spaced cs)) \/ ~ is_text s /\ t = [].
Close Scope N_scope.
