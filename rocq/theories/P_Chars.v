From Coq Require Import NArith.
From Verif Require Import M_Nom Base M_Main S_Main P_Main S_Chars.
From Coq Require Import Lia ZArith.
Local Open Scope N_scope.
Ltac Zify.zify_post_hook ::= Z.to_euclidean_division_equations.

(* the bytes of a character outside ASCII are outside ASCII *)
Lemma encode_high c : scalar c -> 128 <= c -> (exists a s, encode c = a :: s) /\ forall a, In a (encode c) -> 128 <= N_of_ascii a.
Proof.
  intros HS HC. unfold scalar in HS. unfold encode, continuation. destruct (N.ltb_spec c 128); [lia|].
  destruct (N.ltb_spec c 2048); [|destruct (N.ltb_spec c 65536)]; (split; [eauto|]); intros a HA; cbn [In] in HA;
    repeat (destruct HA as [<-|HA]; [rewrite code_of by lia; lia|]); destruct HA.
Qed.
Ltac Zify.zify_post_hook ::= idtac.
Lemma encode_low c : c < 128 -> encode c = [ascii_of_N c].
Proof. intros H. unfold encode. apply N.ltb_lt in H. now rewrite H. Qed.
Lemma encode_nonempty c : scalar c -> exists a s, encode c = a :: s.
Proof. intros HS. destruct (N.ltb_spec c 128) as [L|L]; [rewrite encode_low by assumption; eauto|]. now apply encode_high. Qed.

Lemma is_white_code a : is_white a = (N_of_ascii a =? 32) || (9 <=? N_of_ascii a) && (N_of_ascii a <=? 13).
Proof. destruct a as [[] [] [] [] [] [] [] []]; reflexivity. Qed.
Lemma high_not_white a : 128 <= N_of_ascii a -> is_white a = false.
Proof. intros H. rewrite is_white_code. destruct (N.eqb_spec (N_of_ascii a) 32); [lia|]. destruct (N.leb_spec (N_of_ascii a) 13); [lia|]. now rewrite andb_false_r. Qed.
Lemma low_white c : c < 128 -> is_white (ascii_of_N c) = white c.
Proof.
  intros H. rewrite is_white_code, code_of by lia. unfold white.
  repeat match goal with |- context [N.eqb c ?k] => destruct (N.eqb_spec c k); try lia end;
  repeat match goal with |- context [N.leb ?a ?b] => destruct (N.leb_spec a b); try lia end; reflexivity.
Qed.

Lemma text_cons c cs : text (c :: cs) = encode c ++ text cs.
Proof. reflexivity. Qed.
Lemma text_app a b : text (a ++ b) = text a ++ text b.
Proof. unfold text. now rewrite map_app, concat_app. Qed.
Lemma text_one c : text [c] = encode c.
Proof. unfold text. cbn. apply app_nil_r. Qed.
Lemma text_nil l : Forall scalar l -> text l = [] -> l = [].
Proof. destruct l as [|c l]; [reflexivity|]. intros H E. inversion_clear H. destruct (encode_nonempty c) as (a & s & EE); [assumption|]. rewrite text_cons, EE in E. discriminate. Qed.

(* words *)
Lemma split_high w t : (forall a, In a w -> is_white a = false) -> forall acc, split_whitespace acc (w ++ t) = split_whitespace (rev w ++ acc) t.
Proof. induction w as [|a w IH]; intros H acc; [reflexivity|]. cbn [app split_whitespace]. rewrite (H a (or_introl eq_refl)), IH by (intros b Hb; apply H; now right). cbn [rev]. now rewrite <- app_assoc. Qed.
Lemma char_bytes c : scalar c -> ~ exotic c -> white c = false -> forall a, In a (encode c) -> is_white a = false.
Proof.
  intros HC HX HW a HA. destruct (N.ltb_spec c 128) as [L|L].
  - rewrite encode_low in HA by assumption. destruct HA as [<-|[]]. now rewrite low_white.
  - apply high_not_white. now apply (proj2 (encode_high c HC L)).
Qed.
Lemma white_bytes c : ~ exotic c -> white c = true -> c < 128 /\ encode c = [ascii_of_N c] /\ is_white (ascii_of_N c) = true.
Proof. intros HX HW. destruct (N.ltb_spec c 128) as [L|L]; [|exfalso; apply HX; now split]. split; [exact L|]. split; [now apply encode_low|now rewrite low_white]. Qed.
Lemma words_text cs : Forall scalar cs -> (forall c, In c cs -> ~ exotic c) -> forall w, Forall scalar w -> split_whitespace (rev (text w)) (text cs) = map text (chars_words w cs).
Proof.
  induction cs as [|c cs IH]; intros HS HX w HW.
  - cbn [text map concat split_whitespace chars_words]. destruct w as [|d w]; [reflexivity|]. inversion_clear HW. destruct (encode_nonempty d) as (a & s & E); [assumption|].
    destruct (rev (text (d :: w))) as [|x y] eqn:ER; [apply (f_equal (@rev _)) in ER; rewrite rev_involutive, text_cons, E in ER; discriminate|]. cbn [map]. now rewrite <- ER, rev_involutive.
  - inversion_clear HS as [|? ? HC HS']. rewrite text_cons. cbn [chars_words].
    assert (HX' : forall d, In d cs -> ~ exotic d) by (intros d Hd; apply HX; now right). specialize (HX c (or_introl eq_refl)).
    destruct (white c) eqn:EW.
    + destruct (white_bytes c HX EW) as (_ & -> & EB). cbn [app split_whitespace]. rewrite EB. rewrite map_app, <- (IH HS' HX' [] (Forall_nil _)).
      destruct w as [|d w]; [reflexivity|]. inversion_clear HW. destruct (encode_nonempty d) as (a & s & E); [assumption|].
      destruct (rev (text (d :: w))) as [|x y] eqn:ER; [apply (f_equal (@rev _)) in ER; rewrite rev_involutive, text_cons, E in ER; discriminate|]. cbn [map app]. now rewrite <- ER, rev_involutive.
    + rewrite split_high by (now apply char_bytes). rewrite <- rev_app_distr. rewrite <- (text_one c) at 1. rewrite <- text_app. apply IH; auto. apply Forall_app. split; [assumption|]. now constructor.
Qed.

(* trim *)
Lemma span_head (l : bytes) : snd (span is_white l) = match l with a :: l' => if is_white a then snd (span is_white l') else l | [] => [] end.
Proof. destruct l as [|a l]; [reflexivity|]. cbn [span]. destruct (is_white a); [|reflexivity]. destruct (span is_white l). reflexivity. Qed.
Lemma trim_start_text cs : Forall scalar cs -> (forall c, In c cs -> ~ exotic c) -> trim_start (text cs) = text (chars_trim_start cs).
Proof.
  unfold trim_start. induction cs as [|c cs IH]; intros HS HX; [reflexivity|]. inversion_clear HS as [|? ? HC HS']. cbn [chars_trim_start].
  assert (HX' : forall d, In d cs -> ~ exotic d) by (intros d Hd; apply HX; now right). specialize (HX c (or_introl eq_refl)).
  destruct (white c) eqn:EW.
  - rewrite text_cons. destruct (white_bytes c HX EW) as (_ & -> & EB). cbn [app]. rewrite span_head, EB. now apply IH.
  - rewrite text_cons. destruct (encode_nonempty c HC) as (a & s & E). pose proof (char_bytes c HC HX EW a) as EB. rewrite E in *. cbn [app]. rewrite span_head, EB by (now left). reflexivity.
Qed.
Lemma trim_start_rev cs : Forall scalar cs -> (forall c, In c cs -> ~ exotic c) -> trim_start (rev (text cs)) = rev (text (rev (chars_trim_start (rev cs)))).
Proof.
  unfold trim_start. induction cs as [|c cs IH] using rev_ind; intros HS HX; [reflexivity|]. apply Forall_app in HS. destruct HS as [HS' HC']. inversion_clear HC' as [|? ? HC _].
  rewrite rev_app_distr. cbn [rev app chars_trim_start].
  assert (HX' : forall d, In d cs -> ~ exotic d) by (intros d Hd; apply HX; apply in_app_iff; now left). assert (HXc : ~ exotic c) by (apply HX; apply in_app_iff; right; now left).
  destruct (white c) eqn:EW.
  - rewrite text_app, text_one. destruct (white_bytes c HXc EW) as (_ & -> & EB). rewrite rev_app_distr. cbn [rev app]. rewrite span_head, EB. now apply IH.
  - cbn [rev]. rewrite rev_involutive, text_app, text_one, rev_app_distr. destruct (encode_nonempty c HC) as (a & s & E).
    destruct (rev (encode c)) as [|x y] eqn:ER; [apply (f_equal (@rev _)) in ER; rewrite rev_involutive, E in ER; discriminate|].
    assert (EB : is_white x = false) by (apply (char_bytes c HC HXc EW); apply in_rev; rewrite ER; now left). cbn [app]. rewrite span_head, EB. reflexivity.
Qed.
Lemma trim_start_sub cs c : In c (chars_trim_start cs) -> In c cs.
Proof. induction cs as [|d cs IH]; [auto|]. cbn. destruct (white d); [intros H; right; now apply IH|auto]. Qed.
Lemma trim_text cs : Forall scalar cs -> (forall c, In c cs -> ~ exotic c) -> trim (text cs) = text (chars_trim cs).
Proof.
  intros HS HX. unfold trim, chars_trim. rewrite trim_start_text by assumption. rewrite trim_start_rev.
  - apply rev_involutive.
  - rewrite Forall_forall in *. intros c Hc. apply HS. now apply trim_start_sub.
  - intros c Hc. apply HX. now apply trim_start_sub.
Qed.

(* lines *)
Lemma lines_one a acc s : a <> "010"%char -> lines acc (a :: s) = lines (a :: acc) s.
Proof. intros H. destruct a as [[] [] [] [] [] [] [] []]; (reflexivity || exfalso; now apply H). Qed.
Lemma lines_high w t : (forall a, In a w -> a <> "010"%char) -> forall acc, lines acc (w ++ t) = lines (rev w ++ acc) t.
Proof. induction w as [|a w IH]; intros H acc; [reflexivity|]. cbn [app]. rewrite lines_one by (apply H; now left). rewrite IH by (intros b Hb; apply H; now right). cbn [rev]. now rewrite <- app_assoc. Qed.
Lemma strip_cr_cons l a : strip_cr (l ++ [a]) = if Ascii.eqb a "013"%char then l else l ++ [a].
Proof. unfold strip_cr. rewrite rev_app_distr. cbn [rev app]. destruct a as [[] [] [] [] [] [] [] []]; try reflexivity. apply rev_involutive. Qed.
Lemma without_cr_cons l c : without_cr (l ++ [c]) = if c =? 13 then l else l ++ [c].
Proof.
  unfold without_cr. rewrite rev_app_distr. cbn [rev app]. destruct (N.eqb_spec c 13) as [->|NE]; [apply rev_involutive|].
  destruct c as [|[[[[p|p|]|[p|p|]|]|[[p|p|]|[p|p|]|]|]|[[[p|p|]|[p|p|]|]|[[p|p|]|[p|p|]|]|]|]]; try reflexivity; now elim NE.
Qed.
Lemma strip_text l : Forall scalar l -> strip_cr (text l) = text (without_cr l).
Proof.
  destruct l as [|c l] using rev_ind; intros HS; [reflexivity|]. clear IHl. apply Forall_app in HS. destruct HS as [HS' HC']. inversion_clear HC' as [|? ? HC _].
  rewrite without_cr_cons, text_app, text_one. destruct (N.ltb_spec c 128) as [L|L].
  - rewrite encode_low by assumption. rewrite strip_cr_cons. destruct (N.eqb_spec c 13) as [->|NE]; [reflexivity|].
    destruct (Ascii.eqb_spec (ascii_of_N c) "013"%char) as [E|_]; [|now rewrite text_app, text_one, encode_low].
    exfalso. apply NE. apply (f_equal N_of_ascii) in E. rewrite code_of in E by lia. exact E.
  - destruct (encode_high c HC L) as [(a & s & E) HB]. destruct (encode c) as [|x y] eqn:EE using rev_ind; [discriminate|]. clear IHy. rewrite app_assoc, strip_cr_cons.
    assert (HX : 128 <= N_of_ascii x) by (apply HB; apply in_app_iff; right; now left).
    destruct (N.eqb_spec c 13) as [->|_]; [lia|]. destruct (Ascii.eqb_spec x "013"%char) as [->|_]; [exfalso; revert HX; cbn; lia|]. now rewrite text_app, text_one, EE, app_assoc.
Qed.
Lemma lines_text cs : Forall scalar cs -> forall l, Forall scalar l -> lines (rev (text l)) (text cs) = map text (chars_lines l cs).
Proof.
  induction cs as [|c cs IH]; intros HS l HL.
  - cbn [text map concat lines chars_lines]. destruct l as [|d l]; [reflexivity|]. inversion_clear HL. destruct (encode_nonempty d) as (a & s & E); [assumption|].
    destruct (rev (text (d :: l))) as [|x y] eqn:ER; [apply (f_equal (@rev _)) in ER; rewrite rev_involutive, text_cons, E in ER; discriminate|]. cbn [map]. now rewrite <- ER, rev_involutive.
  - inversion_clear HS as [|? ? HC HS']. rewrite text_cons. cbn [chars_lines]. destruct (N.eqb_spec c 10) as [->|NE].
    + change (encode 10) with ["010"%char]. cbn [app lines map]. rewrite rev_involutive, strip_text by assumption. f_equal. now apply (IH HS' []).
    + rewrite lines_high.
      * rewrite <- rev_app_distr. rewrite <- (text_one c) at 1. rewrite <- text_app. apply IH; [assumption|]. apply Forall_app. split; [assumption|]. now constructor.
      * intros a HA ->. destruct (N.ltb_spec c 128) as [L|L].
        -- rewrite encode_low in HA by assumption. destruct HA as [E|[]]. apply NE. apply (f_equal N_of_ascii) in E. rewrite code_of in E by lia. exact E.
        -- apply (proj2 (encode_high c HC L)) in HA. revert HA. cbn. lia.
Qed.
Lemma lines_chars cs : forall l x, In x (chars_lines l cs) -> forall c, In c x -> In c l \/ In c cs.
Proof.
  induction cs as [|c cs IH]; intros l x Hx d Hd.
  - destruct l; [destruct Hx|]. destruct Hx as [<-|[]]. now left.
  - cbn [chars_lines] in Hx. destruct (c =? 10).
    + destruct Hx as [<-|Hx].
      * left. revert Hd. destruct l as [|e l] using rev_ind; [auto|]. rewrite without_cr_cons. destruct (e =? 13); [intros H; apply in_app_iff; now left|auto].
      * destruct (IH _ _ Hx d Hd) as [[]|H]. right. now right.
    + destruct (IH _ _ Hx d Hd) as [H|H]; [|right; now right]. apply in_app_iff in H. destruct H as [H|[<-|[]]]; [now left|right; now left].
Qed.
Lemma sentences_text cs : Forall scalar cs -> (forall c, In c cs -> ~ exotic c) ->
  map (split_whitespace []) (lines [] (text cs)) = map (fun l => map text (chars_words [] l)) (chars_lines [] cs).
Proof.
  intros HS HX. pose proof (lines_text cs HS [] (Forall_nil _)) as E. cbn [text map concat rev] in E. rewrite E, map_map. apply map_ext_in. intros l Hl.
  refine (words_text l _ _ [] (Forall_nil _)); [|intros c Hc; apply HX; now destruct (lines_chars cs [] l Hl c Hc) as [[]|H]].
  apply Forall_forall. intros c Hc. rewrite Forall_forall in HS. apply HS. now destruct (lines_chars cs [] l Hl c Hc) as [[]|H].
Qed.

Lemma starts_text p cs : Forall (fun c => c < 128) p -> Forall scalar cs -> text_starts_with (text p) (text cs) = chars_start p cs.
Proof.
  unfold text_starts_with. revert cs. induction p as [|c p IH]; intros cs HP HS; [reflexivity|]. inversion_clear HP as [|? ? HC HP']. rewrite text_cons, encode_low by assumption. cbn [app tag chars_start].
  destruct HS as [|d cs HD HS]; [reflexivity|]. rewrite text_cons. destruct (N.ltb_spec d 128) as [L|L].
  - rewrite (encode_low d) by assumption. cbn [app]. destruct (beqb (ascii_of_N d) (ascii_of_N c)) eqn:E.
    + apply Ascii.eqb_eq in E. apply (f_equal N_of_ascii) in E. rewrite !code_of in E by lia. subst. rewrite N.eqb_refl. now apply IH.
    + destruct (N.eqb_spec c d) as [->|_]; [|reflexivity]. exfalso. assert (X : beqb (ascii_of_N d) (ascii_of_N d) = true) by (now apply Ascii.eqb_eq). congruence.
  - destruct (encode_high d HD L) as [(a & s & E) HB]. rewrite E in *. cbn [app]. specialize (HB a (or_introl eq_refl)).
    destruct (beqb a (ascii_of_N c)) eqn:EB; [|destruct (N.eqb_spec c d); [lia|reflexivity]].
    apply Ascii.eqb_eq in EB. subst a. rewrite code_of in HB by lia. lia.
Qed.
(* no code is a prefix of another one *)
Ltac Zify.zify_post_hook ::= Z.to_euclidean_division_equations.
Definition decode (s : bytes) : option (N * bytes) :=
  let v := fun a => N_of_ascii a - 128 in
  match s with
  | [] => None
  | a :: s =>
      if N_of_ascii a <? 128 then Some (N_of_ascii a, s)
      else if N_of_ascii a <? 224 then match s with b :: s => Some ((N_of_ascii a - 192) * 64 + v b, s) | _ => None end
      else if N_of_ascii a <? 240 then match s with b :: c :: s => Some ((N_of_ascii a - 224) * 4096 + v b * 64 + v c, s) | _ => None end
      else match s with b :: c :: d :: s => Some ((N_of_ascii a - 240) * 262144 + v b * 4096 + v c * 64 + v d, s) | _ => None end
  end.
Lemma decode_encode c s : scalar c -> decode (encode c ++ s) = Some (c, s).
Proof.
  intros HC. unfold scalar in HC. unfold encode, continuation, decode.
  destruct (N.ltb_spec c 128); [|destruct (N.ltb_spec c 2048); [|destruct (N.ltb_spec c 65536)]]; cbn [app]; rewrite !code_of by lia;
    repeat match goal with |- context [N.ltb ?a ?b] => destruct (N.ltb_spec a b); try lia end; do 2 f_equal; lia.
Qed.
Lemma encode_prefix c d s t : scalar c -> scalar d -> encode c ++ s = encode d ++ t -> c = d /\ s = t.
Proof. intros HC HD E. pose proof (decode_encode c s HC) as E1. rewrite E, (decode_encode d t HD) in E1. injection E1 as <- <-. auto. Qed.
Ltac Zify.zify_post_hook ::= idtac.
Lemma text_inj a b : Forall scalar a -> Forall scalar b -> text a = text b -> a = b.
Proof.
  intros HA. revert b. induction HA as [|c a HC HA IH]; intros b HB E.
  - symmetry. now apply text_nil.
  - destruct HB as [|d b HD HB]; [now apply (text_nil (c :: a)) in E; [|constructor]|]. rewrite !text_cons in E. apply encode_prefix in E; [|assumption|assumption]. destruct E as [-> E]. f_equal. now apply IH.
Qed.

(* white space outside ASCII *)
Lemma plain_step a s1 : plain_white (a :: s1) =
      match s1 with
      | b :: s2 =>
          if byte_in 194 194 a && (byte_in 133 133 b || byte_in 160 160 b) then " "%char :: plain_white s2
          else match s2 with
               | c :: s3 =>
                   if byte_in 225 225 a && byte_in 154 154 b && byte_in 128 128 c
                      || byte_in 226 226 a && byte_in 128 128 b && (byte_in 128 138 c || byte_in 168 169 c || byte_in 175 175 c)
                      || byte_in 226 226 a && byte_in 129 129 b && byte_in 159 159 c
                      || byte_in 227 227 a && byte_in 128 128 b && byte_in 128 128 c
                   then " "%char :: plain_white s3
                   else a :: plain_white s1
               | [] => a :: plain_white s1
               end
      | [] => [a]
      end.
Proof. reflexivity. Qed.
Lemma plain_keep a s : N_of_ascii a < 194 \/ 227 < N_of_ascii a -> plain_white (a :: s) = a :: plain_white s.
Proof.
  intros H. rewrite plain_step. assert (E : forall k, 194 <= k <= 227 -> byte_in k k a = false) by (intros k Hk; apply byte_out_spec; lia).
  rewrite !E by lia. cbn [andb orb]. destruct s as [|b [|c s]]; reflexivity.
Qed.
Ltac Zify.zify_post_hook ::= Z.to_euclidean_division_equations.
Lemma cont_keep n s : plain_white (continuation n :: s) = continuation n :: plain_white s.
Proof. apply plain_keep. unfold continuation. rewrite code_of; lia. Qed.
Lemma plain_char c s : scalar c -> plain_white (encode c ++ s) = encode (spaced c) ++ plain_white s.
Proof.
  intros HC. unfold scalar in HC. unfold spaced. destruct (white c && (128 <=? c)) eqn:EX.
  - apply andb_true_iff in EX. destruct EX as [EW EL]. apply N.leb_le in EL. change (encode 32) with [" "%char]. cbn [app].
    unfold white in EW. repeat rewrite orb_true_iff in EW. repeat rewrite andb_true_iff in EW. rewrite !N.leb_le, !N.eqb_eq in EW.
    assert (HE : c = 133 \/ c = 160 \/ c = 5760 \/ (exists k, k < 11 /\ c = 8192 + k) \/ c = 8232 \/ c = 8233 \/ c = 8239 \/ c = 8287 \/ c = 12288).
    { assert (X : 8192 <= c <= 8202 -> exists k, k < 11 /\ c = 8192 + k) by (intros; exists (c - 8192); lia).
      assert (Y : c = 133 \/ c = 160 \/ c = 5760 \/ 8192 <= c <= 8202 \/ c = 8232 \/ c = 8233 \/ c = 8239 \/ c = 8287 \/ c = 12288) by lia. clear - X Y. tauto. }
    clear -HE. decompose [or ex and] HE; subst; try reflexivity.
    assert (HK : x = 0 \/ x = 1 \/ x = 2 \/ x = 3 \/ x = 4 \/ x = 5 \/ x = 6 \/ x = 7 \/ x = 8 \/ x = 9 \/ x = 10) by lia. decompose [or] HK; subst; reflexivity.
  - assert (NE : c <> 133 /\ c <> 160 /\ c <> 5760 /\ ~ (8192 <= c <= 8202) /\ c <> 8232 /\ c <> 8233 /\ c <> 8239 /\ c <> 8287 /\ c <> 12288).
    { repeat split; intros X; try (subst c; discriminate EX). apply andb_false_iff in EX. rewrite N.leb_gt in EX. destruct EX as [EX|EX]; [|lia].
      assert (Y : (8192 <=? c) && (c <=? 8202) = true) by (apply andb_true_iff; rewrite !N.leb_le; lia). unfold white in EX. rewrite Y in EX. rewrite !orb_true_r in EX. discriminate. }
    clear EX. unfold encode. destruct (N.ltb_spec c 128); [|destruct (N.ltb_spec c 2048); [|destruct (N.ltb_spec c 65536)]]; cbn [app].
    + apply plain_keep. rewrite code_of; lia.
    + rewrite plain_step. replace (byte_in 194 194 (ascii_of_N (192 + c / 64)) && (byte_in 133 133 (continuation c) || byte_in 160 160 (continuation c))) with false.
      * rewrite cont_keep. assert (E : forall k, 225 <= k -> byte_in k k (ascii_of_N (192 + c / 64)) = false) by (intros k Hk; apply byte_out_spec; rewrite code_of; lia). rewrite !E by lia. cbn [andb orb]. destruct s; reflexivity.
      * symmetry. apply andb_false_iff. rewrite orb_false_iff, cont_byte, cont_byte, byte_code by lia. rewrite !andb_false_iff, !N.leb_gt.
        assert (D : c = c / 64 * 64 + c mod 64) by lia. assert (D1 : c mod 64 < 64) by lia. revert D D1. generalize (c / 64) (c mod 64). intros x y D D1. clear - NE D D1. lia.
    + rewrite plain_step. replace (byte_in 194 194 (ascii_of_N (224 + c / 4096))) with false by (symmetry; apply byte_out_spec; rewrite code_of; lia). cbn [andb].
      match goal with |- (if ?b then _ else _) = _ => replace b with false end; [now rewrite !cont_keep|].
      symmetry. rewrite !orb_false_iff, !andb_false_iff, !orb_false_iff. rewrite !cont_byte, !byte_code by lia. rewrite !andb_false_iff, !N.leb_gt.
      assert (D : c = c / 4096 * 4096 + (c / 64) mod 64 * 64 + c mod 64) by lia. assert (D1 : c / 4096 < 16) by lia. assert (D2 : (c / 64) mod 64 < 64) by lia. assert (D3 : c mod 64 < 64) by lia.
      revert D D1 D2 D3. generalize (c / 4096) ((c / 64) mod 64) (c mod 64). intros x y z D D1 D2 D3. repeat split; lia.
    + rewrite plain_keep by (rewrite code_of; lia). now rewrite !cont_keep.
Qed.
Ltac Zify.zify_post_hook ::= idtac.
Lemma plain_text cs : Forall scalar cs -> plain_white (text cs) = text (map spaced cs).
Proof. induction 1 as [|c cs HC HS IH]; [reflexivity|]. cbn [map]. rewrite !text_cons, plain_char, IH by assumption. reflexivity. Qed.
Lemma heard_text s t : heard s t -> plain_white (read_ignoring s) = t.
Proof.
  intros [(cs & HS & -> & ->)|[HT ->]].
  - rewrite (read_text (text cs) (text cs)) by (left; split; [now exists cs|reflexivity]). now apply plain_text.
  - now rewrite (read_text s []) by (right; now split).
Qed.
Lemma spaced_scalar c : scalar c -> scalar (spaced c).
Proof. intros H. unfold spaced. destruct (white c && (128 <=? c)); [left; lia|exact H]. Qed.
Lemma spaced_white c : white (spaced c) = white c /\ ~ exotic (spaced c) /\ (white c = false -> spaced c = c).
Proof.
  unfold spaced, exotic. destruct (white c) eqn:EW; cbn [andb]; [|rewrite EW; split; [reflexivity|]; split; [intros [X _]; discriminate|reflexivity]].
  destruct (N.leb_spec 128 c); [split; [reflexivity|]; split; [intros [_ X]; lia|discriminate]|rewrite EW; split; [reflexivity|]; split; [intros [_ X]; lia|discriminate]].
Qed.
Lemma spaced_words cs : forall w, chars_words w (map spaced cs) = chars_words w cs.
Proof. induction cs as [|c cs IH]; intros w; [reflexivity|]. cbn [map chars_words]. destruct (spaced_white c) as (-> & _ & E). destruct (white c); [now rewrite IH|]. now rewrite E. Qed.
Lemma spaced_low c k : k < 128 -> k <> 32 -> (spaced c =? k) = (c =? k).
Proof. intros H1 H2. unfold spaced. destruct (N.leb_spec 128 c); [|now rewrite andb_false_r]. rewrite andb_true_r. destruct (white c); [|reflexivity]. destruct (N.eqb_spec c k), (N.eqb_spec 32 k); (reflexivity || lia). Qed.
Lemma spaced_strip l : without_cr (map spaced l) = map spaced (without_cr l).
Proof. destruct l as [|c l] using rev_ind; [reflexivity|]. rewrite map_app. cbn [map]. rewrite !without_cr_cons, spaced_low by lia. destruct (c =? 13); [reflexivity|]. now rewrite map_app. Qed.
Lemma spaced_lines cs : forall l, chars_lines (map spaced l) (map spaced cs) = map (map spaced) (chars_lines l cs).
Proof.
  induction cs as [|c cs IH]; intros l; [destruct l; reflexivity|]. cbn [map chars_lines]. rewrite spaced_low by lia. destruct (c =? 10).
  - cbn [map]. rewrite spaced_strip. f_equal. apply (IH []).
  - rewrite <- IH, map_app. reflexivity.
Qed.
(* the sentences of any text *)
Lemma all_sentences cs : Forall scalar cs -> map (split_whitespace []) (lines [] (plain_white (text cs))) = map (fun l => map text (chars_words [] l)) (chars_lines [] cs).
Proof.
  intros HS. rewrite plain_text, sentences_text by (assumption || (apply Forall_forall; intros c Hc; apply in_map_iff in Hc; destruct Hc as (d & <- & Hd); rewrite Forall_forall in HS; apply spaced_scalar; now apply HS) || (intros c Hc; apply in_map_iff in Hc; destruct Hc as (d & <- & Hd); now apply spaced_white)).
  pose proof (spaced_lines cs []) as E. cbn [map] in E. rewrite E, map_map. apply map_ext. intros l. now rewrite spaced_words.
Qed.
