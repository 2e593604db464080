(* C57: texts are read by characters.  The code calls str::lines, str::split_whitespace, str::trim and str::starts_with, which are
   about characters; the model has them on bytes (M_Nom).  On UTF-8 both do the same. *)
From Coq Require Import NArith.
From Verif Require Import M_Nom Base M_Main S_Main P_Main S_Chars P_Chars.

(* a text is the code of one sequence of characters only: words are equal as bytes exactly if they are equal as characters *)
Theorem C57_characters : forall s, is_text s -> exists cs, Forall scalar cs /\ s = text cs /\ forall cs', Forall scalar cs' -> s = text cs' -> cs' = cs.
Proof. intros s (cs & HS & ->). exists cs. split; [exact HS|]. split; [reflexivity|]. intros cs' HS' E. symmetry. now apply text_inj. Qed.
Print Assumptions C57_characters.

(* the lines of an input, for every input *)
Theorem C57_lines : forall cs, Forall scalar cs -> lines [] (text cs) = map text (chars_lines [] cs).
Proof. intros cs HS. exact (lines_text cs HS [] (Forall_nil _)). Qed.
Print Assumptions C57_lines.

(* the sentences of an input: the words of its lines, for every input.  plain_white stands for the white space outside ASCII that
   split_whitespace (M_Nom) does not know; it is applied to the standard input by the commands (M_Main). *)
Theorem C57_sentences : forall cs, Forall scalar cs ->
  map (split_whitespace []) (lines [] (plain_white (text cs))) = map (fun l => map text (chars_words [] l)) (chars_lines [] cs).
Proof. exact all_sentences. Qed.
Print Assumptions C57_sentences.
(* what the commands read (C56) is defined for every input, text or not, and only once *)
Theorem C57_input : forall s, exists t, heard s t /\ forall t', heard s t' -> t' = t.
Proof.
  intros s. assert (X : exists t, heard s t).
  { destruct (utf8 s) eqn:E; [apply utf8_text in E; destruct E as (cs & HS & ->); exists (text (map spaced cs)); left; now exists cs|].
    exists []. right. split; [|reflexivity]. intros X. apply utf8_text in X. congruence. }
  destruct X as (t & HT). exists t. split; [exact HT|]. intros t' HT'. rewrite <- (heard_text _ _ HT). symmetry. now apply heard_text.
Qed.
Print Assumptions C57_input.
(* without such white space it is not needed *)
Theorem C57_words : forall cs, Forall scalar cs -> (forall c, In c cs -> ~ exotic c) ->
  plain_white (text cs) = text cs /\ split_whitespace [] (text cs) = map text (chars_words [] cs).
Proof.
  intros cs HS HX. split; [|exact (words_text cs HS HX [] (Forall_nil _))]. rewrite plain_text by assumption. f_equal. rewrite <- (map_id cs) at 2. apply map_ext_in. intros c Hc.
  unfold spaced. destruct (white c) eqn:EW; [|reflexivity]. destruct (N.leb_spec 128 c) as [L|L]; [|reflexivity]. exfalso. apply (HX c Hc). now split.
Qed.
Print Assumptions C57_words.

(* trimmed lines, and how they start (with ASCII) *)
Theorem C57_trim_partial : forall cs, Forall scalar cs -> (forall c, In c cs -> ~ exotic c) -> trim (text cs) = text (chars_trim cs).
Proof. exact trim_text. Qed.
Print Assumptions C57_trim_partial.
Theorem C57_starts : forall p cs, Forall (fun c => (c < 128)%N) p -> Forall scalar cs -> text_starts_with (text p) (text cs) = chars_start p cs.
Proof. exact starts_text. Qed.
Print Assumptions C57_starts.

(* "ein Bär", carriage return, line feed, tab, an arrow, a space, a smiley: two sentences.  Its bytes contain 160 and 133 (in à and ą),
   which are the codes of white space, but not as characters. *)
Definition ex_chars : list N := [101; 105; 110; 32; 66; 228; 114; 224; 13; 10; 9; 8594; 261; 32; 32; 128512]%N.
Example C57_example :
  Forall scalar ex_chars /\ (forall c, In c ex_chars -> ~ exotic c) /\ is_text (text ex_chars) /\ In (ascii_of_N 160) (text ex_chars) /\ In (ascii_of_N 133) (text ex_chars) /\
  chars_lines [] ex_chars = [[101; 105; 110; 32; 66; 228; 114; 224]; [9; 8594; 261; 32; 32; 128512]]%N /\
  map (chars_words []) (chars_lines [] ex_chars) = [[[101; 105; 110]; [66; 228; 114; 224]]; [[8594; 261]; [128512]]]%N /\
  chars_trim [9; 8594; 261; 32; 32]%N = [8594; 261]%N /\
  map (split_whitespace []) (lines [] (text ex_chars)) = [[«"ein"»; text [66; 228; 114; 224]%N]; [«"→"» ++ text [261]%N; text [128512]%N]] /\
  (* a no-break space and an ideographic space *)
  white 160 = true /\ chars_words [] [97; 160; 98; 12288; 99]%N = [[97]; [98]; [99]]%N /\
  split_whitespace [] (plain_white (text [97; 160; 98; 12288; 99]%N)) = [«"a"»; «"b"»; «"c"»].
Proof.
  assert (HS : Forall scalar ex_chars) by (repeat constructor; unfold scalar; lia).
  split; [exact HS|]. split.
  { intros c Hc [HW HB]. unfold ex_chars in Hc. cbn [In] in Hc. repeat (destruct Hc as [<-|Hc]; [revert HW HB; vm_compute; congruence|]). destruct Hc. }
  split; [now exists ex_chars|]. split; [vm_compute; tauto|]. split; [vm_compute; tauto|]. repeat split; vm_compute; reflexivity.
Qed.
