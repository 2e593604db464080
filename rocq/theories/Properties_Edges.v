(* C57: for which lines of grammar, class and automaton files trimming by bytes (M_Nom) is trimming by characters, exactly. *)
From Coq Require Import NArith Lia.
From Verif Require Import M_Nom Base M_Main S_Main P_Main S_Chars P_Chars Properties_Chars.

(* white space of ASCII *)
Definition plain_blank (c : N) : Prop := white c = true /\ (c < 128)%N.
Definition plain_blankb (c : N) : bool := (white c && (c <? 128)%N)%bool.
Lemma plain_blankb_spec c : plain_blankb c = true <-> plain_blank c.
Proof. unfold plain_blankb, plain_blank. now rewrite andb_true_iff, N.ltb_lt. Qed.
(* nothing but white space of ASCII stands before or behind the character at an end of the line *)
Definition at_edge (cs : list N) (c : N) : Prop := exists a b, cs = a ++ c :: b /\ (Forall plain_blank a \/ Forall plain_blank b).

Section Strip.
  Context (p : N -> bool).
  Fixpoint strip (cs : list N) : list N := match cs with c :: cs' => if p c then strip cs' else cs | [] => [] end.
  Definition strip_both (cs : list N) : list N := rev (strip (rev (strip cs))).
  Lemma strip_split cs : exists a, cs = a ++ strip cs /\ forall c, In c a -> p c = true.
  Proof.
    induction cs as [|c cs (a & E & HA)]; [exists []; split; [reflexivity|intros c []]|]. cbn [strip]. destruct (p c) eqn:EP; [|exists []; split; [reflexivity|intros d []]].
    exists (c :: a). split; [cbn; now rewrite <- E|]. intros d [<-|HD]; auto.
  Qed.
  Lemma strip_first cs c t : strip cs = c :: t -> p c = false.
  Proof. induction cs as [|d cs IH]; cbn [strip]; [discriminate|]. destruct (p d) eqn:EP; [exact IH|]. intros E. injection E as <- _. exact EP. Qed.
  Lemma strip_keeps a cs : (forall c, In c a -> p c = true) -> (forall c t, cs = c :: t -> p c = false) -> strip (a ++ cs) = cs.
  Proof. induction a as [|c a IH]; intros HA HC; cbn [app strip]; [destruct cs as [|c cs]; [reflexivity|]; cbn [strip]; now rewrite (HC c cs eq_refl)|]. rewrite (HA c (or_introl eq_refl)). apply IH; [intros d Hd; apply HA; now right|exact HC]. Qed.
  Lemma strip_both_split cs : exists a b, cs = a ++ strip_both cs ++ b /\ (forall c, In c a -> p c = true) /\ (forall c, In c b -> p c = true) /\
    (forall c t, strip_both cs = c :: t -> p c = false) /\ (forall c t, strip_both cs = t ++ [c] -> p c = false).
  Proof.
    unfold strip_both. destruct (strip_split cs) as (a & EA & HA). destruct (strip_split (rev (strip cs))) as (b & EB & HB). exists a, (rev b).
    assert (ES : strip cs = rev (strip (rev (strip cs))) ++ rev b) by (rewrite <- rev_app_distr, <- EB, rev_involutive; reflexivity).
    split; [rewrite <- ES; exact EA|]. split; [exact HA|]. split; [intros c Hc; apply HB; now apply in_rev|]. split.
    - intros c t E. rewrite E in ES. exact (strip_first cs c _ ES).
    - intros c t E. apply (f_equal (@rev _)) in E. rewrite rev_involutive, rev_app_distr in E. exact (strip_first _ c _ E).
  Qed.
  Lemma strip_both_unique a m b : (forall c, In c a -> p c = true) -> (forall c, In c b -> p c = true) -> (forall c t, m = c :: t -> p c = false) -> (forall c t, m = t ++ [c] -> p c = false) ->
    m <> [] -> strip_both (a ++ m ++ b) = m.
  Proof.
    intros HA HB H1 H2 NE. unfold strip_both. rewrite strip_keeps; [|exact HA|intros c t E; destruct m as [|d m]; [congruence|]; injection E as <- _; exact (H1 d m eq_refl)].
    rewrite rev_app_distr, strip_keeps, rev_involutive; [reflexivity|intros c Hc; apply HB; now apply in_rev|]. intros c t E. apply (H2 c (rev t)). apply (f_equal (@rev _)) in E. rewrite rev_involutive in E. exact E.
  Qed.
End Strip.
Lemma chars_strip cs : chars_trim_start cs = strip white cs.
Proof. induction cs as [|c cs IH]; [reflexivity|]. cbn. now destruct (white c). Qed.
Lemma chars_trim_strip cs : chars_trim cs = strip_both white cs.
Proof. unfold chars_trim, strip_both. now rewrite !chars_strip. Qed.

(* the bytes of a character that is no white space of ASCII *)
Lemma other_bytes c : scalar c -> plain_blankb c = false -> forall a, In a (encode c) -> is_white a = false.
Proof.
  intros HC HB a HA. destruct (N.ltb_spec c 128) as [L|L].
  - rewrite encode_low in HA by assumption. destruct HA as [<-|[]]. rewrite low_white by assumption. unfold plain_blankb in HB. apply N.ltb_lt in L. rewrite L, andb_true_r in HB. exact HB.
  - apply high_not_white. now apply (proj2 (encode_high c HC L)).
Qed.
Lemma blank_bytes a : (forall c, In c a -> plain_blankb c = true) -> forall x, In x (text a) -> is_white x = true.
Proof.
  induction a as [|c a IH]; intros HA x Hx; [destruct Hx|]. rewrite text_cons in Hx. apply in_app_iff in Hx. destruct Hx as [Hx|Hx]; [|apply IH; [intros d Hd; apply HA; now right|exact Hx]].
  destruct (proj1 (plain_blankb_spec c) (HA c (or_introl eq_refl))) as [HW HL]. rewrite encode_low in Hx by assumption. destruct Hx as [<-|[]]. now rewrite low_white.
Qed.
Lemma span_skip a s : (forall x, In x a -> is_white x = true) -> trim_start (a ++ s) = trim_start s.
Proof. unfold trim_start. induction a as [|x a IH]; intros HA; [reflexivity|]. cbn [app]. rewrite span_head, (HA x (or_introl eq_refl)). apply IH. intros y Hy. apply HA. now right. Qed.
Lemma span_stop s : (forall x t, s = x :: t -> is_white x = false) -> trim_start s = s.
Proof. unfold trim_start. destruct s as [|x s]; intros HS; [reflexivity|]. rewrite span_head. now rewrite (HS x s eq_refl). Qed.
(* the model removes white space of ASCII *)
Lemma trim_blanks cs : Forall scalar cs -> trim (text cs) = text (strip_both plain_blankb cs).
Proof.
  intros HS. destruct (strip_both_split plain_blankb cs) as (a & b & E & HA & HB & H1 & H2). set (m := strip_both plain_blankb cs) in *. clearbody m.
  assert (HM : Forall scalar m) by (rewrite E in HS; apply Forall_app in HS; destruct HS as [_ HS]; apply Forall_app in HS; tauto). rewrite E, !text_app. unfold trim.
  rewrite (span_skip (text a)) by (now apply blank_bytes). destruct m as [|c m'] eqn:EM.
  - cbn [text map concat app]. rewrite <- (app_nil_r (text b)) at 1. rewrite (span_skip (text b)) by (now apply blank_bytes). reflexivity.
  - rewrite <- EM in *. rewrite (span_stop (text m ++ text b)).
    + rewrite rev_app_distr, span_skip; [|intros x Hx; apply in_rev in Hx; exact (blank_bytes b HB x Hx)]. rewrite span_stop; [apply rev_involutive|].
      intros x t EX. assert (LM : exists m1 d, m = m1 ++ [d]) by (clear -EM; destruct m as [|d m1 _] using rev_ind; [discriminate|eauto]). destruct LM as (m1 & d & LM). rewrite LM, text_app, text_one, rev_app_distr in EX.
      assert (HC : scalar d) by (rewrite LM in HM; apply Forall_app in HM; destruct HM as [_ HM]; now inversion_clear HM).
      apply (other_bytes d HC (H2 d m1 LM)). destruct (encode_nonempty d HC) as (y & s & EE). destruct (rev (encode d)) as [|z r] eqn:ER; [apply (f_equal (@rev _)) in ER; rewrite rev_involutive, EE in ER; discriminate|].
      injection EX as -> _. apply in_rev. rewrite ER. now left.
    + intros x t EX. assert (HC : scalar c) by (rewrite EM in HM; now inversion_clear HM). rewrite EM, text_cons in EX. destruct (encode_nonempty c HC) as (y & s & EE). apply (other_bytes c HC (H1 c m' EM)). rewrite EE in *. injection EX as -> _. now left.
Qed.

(* C57: the model trims a line as str::trim does if and only if the line has no white space outside ASCII at its edges. *)
Theorem C57_trim_exactly : forall cs, Forall scalar cs -> (trim (text cs) = text (chars_trim cs) <-> forall c, at_edge cs c -> ~ exotic c).
Proof.
  intros cs HS. rewrite trim_blanks, chars_trim_strip by assumption.
  destruct (strip_both_split plain_blankb cs) as (a & b & E & HA & HB & H1 & H2). set (m := strip_both plain_blankb cs) in *. clearbody m.
  assert (HM : Forall scalar m) by (rewrite E in HS; apply Forall_app in HS; destruct HS as [_ HS]; apply Forall_app in HS; tauto).
  assert (BL : forall l, (forall c, In c l -> plain_blankb c = true) -> Forall plain_blank l) by (intros l HL; apply Forall_forall; intros c Hc; now apply plain_blankb_spec, HL).
  assert (BW : forall l, (forall c, In c l -> plain_blankb c = true) -> forall c, In c l -> white c = true) by (intros l HL c Hc; apply HL, plain_blankb_spec in Hc; apply Hc).
  assert (EX : forall c, plain_blankb c = false -> white c = true -> exotic c).
  { intros c HP HW. split; [exact HW|]. destruct (N.ltb_spec c 128) as [L|L]; [|exact L]. unfold plain_blankb in HP. apply N.ltb_lt in L. rewrite HW, L in HP. discriminate. }
  assert (XB : forall c, exotic c -> plain_blankb c = false).
  { intros c [HW HL]. destruct (plain_blankb c) eqn:X; [|reflexivity]. apply plain_blankb_spec in X. destruct X as [_ X]. lia. }
  split.
  - intros ET. assert (HC : Forall scalar (strip_both white cs)).
    { destruct (strip_both_split white cs) as (a' & b' & E' & _). rewrite E' in HS. apply Forall_app in HS. destruct HS as [_ HS]. apply Forall_app in HS. tauto. }
    assert (EM : m = strip_both white cs) by now apply text_inj. clear ET HC.
    destruct (strip_both_split white cs) as (a' & b' & E' & HA' & HB' & H1' & H2'). rewrite <- EM in E', H1', H2'.
    intros c (u & v & EU & HU) HE. rewrite E in EU.
    assert (NB : ~ plain_blank c) by (intros X; apply plain_blankb_spec in X; rewrite (XB c HE) in X; discriminate).
    assert (FIRST : forall (a u m v : list N), (forall c, In c a -> plain_blankb c = true) -> Forall plain_blank u -> ~ plain_blank c -> (forall c t, m = c :: t -> plain_blankb c = false) -> m <> [] -> a ++ m = u ++ c :: v -> exists t, m = c :: t).
    { clear. induction a as [|x a IH]; intros u m v HA HU NB H1 NE EE.
      - cbn [app] in EE. destruct u as [|y u]; [now exists v|]. cbn [app] in EE. inversion_clear HU as [|? ? HY _]. apply plain_blankb_spec in HY. rewrite (H1 y _ EE) in HY. discriminate.
      - cbn [app] in EE. destruct u as [|y u]; cbn [app] in EE; injection EE as -> EE; [elim NB; apply plain_blankb_spec, HA; now left|]. inversion_clear HU. apply (IH u m v); auto. intros d Hd. apply HA. now right. }
    destruct m as [|c0 m0] eqn:Em.
    + cbn [app] in EU. assert (IN : In c (a ++ b)) by (rewrite EU; apply in_app_iff; right; now left). apply in_app_iff in IN. apply NB, plain_blankb_spec. destruct IN; auto.
    + rewrite <- Em in *. assert (NM : m <> []) by congruence. destruct HU as [HU|HV].
      * destruct (FIRST a u (m ++ b) v HA HU NB) as (t & Et); [|rewrite Em; discriminate|exact EU|].
        { intros d t Ed. rewrite Em in Ed. injection Ed as -> _. now apply (H1 d m0). }
        rewrite Em in Et. injection Et as -> _. pose proof (H1' c m0 Em) as X. destruct HE as [HE _]. congruence.
      * assert (EU' : rev b ++ rev m ++ rev a = rev v ++ c :: rev u) by (apply (f_equal (@rev _)) in EU; rewrite !rev_app_distr in EU; cbn [rev] in EU; rewrite <- !app_assoc in EU; exact EU).
        assert (LM : exists m1 d, m = m1 ++ [d]) by (destruct m as [|d m1 _] using rev_ind; [congruence|eauto]). destruct LM as (m1 & d & LM).
        assert (Er : rev m = d :: rev m1) by (rewrite LM, rev_app_distr; reflexivity).
        destruct (FIRST (rev b) (rev v) (rev m ++ rev a) (rev u)) as (t & Et); [intros e He; apply HB; now apply in_rev|apply Forall_rev; exact HV|exact NB| |rewrite Er; discriminate|exact EU'|].
        { intros e t Ee. rewrite Er in Ee. injection Ee as -> _. exact (H2 e m1 LM). }
        rewrite Er in Et. injection Et as -> _. pose proof (H2' c m1 LM) as X. destruct HE as [HE _]. congruence.
  - intros HE. f_equal. destruct m as [|c0 m0] eqn:Em.
    + cbn [app] in E. assert (AW : forall c, In c cs -> white c = true) by (intros c Hc; rewrite E in Hc; apply in_app_iff in Hc; destruct Hc; [now apply (BW a)|now apply (BW b)]).
      destruct (strip_both_split white cs) as (a' & b' & E' & _ & _ & H1' & _). destruct (strip_both white cs) as [|d t]; [reflexivity|]. pose proof (H1' d t eq_refl) as X. rewrite (AW d) in X; [discriminate|]. rewrite E'. apply in_app_iff. right. now left.
    + rewrite <- Em in *. symmetry. rewrite E. apply strip_both_unique; [now apply BW|now apply BW| | |congruence].
      * intros c t Ec. destruct (white c) eqn:EW; [|reflexivity]. exfalso. apply (HE c); [|apply EX; [exact (H1 c t Ec)|exact EW]]. exists a, (t ++ b). split; [rewrite E, Ec; reflexivity|]. left. now apply BL.
      * intros c t Ec. destruct (white c) eqn:EW; [|reflexivity]. exfalso. apply (HE c); [|apply EX; [exact (H2 c t Ec)|exact EW]]. exists (a ++ t), b. split; [rewrite E, Ec, <- !app_assoc; reflexivity|]. right. now apply BL.
Qed.
Print Assumptions C57_trim_exactly.

(* C57: the words of a text by bytes are its words by characters if and only if it has no white space outside ASCII. *)
Theorem C57_words_exactly : forall cs, Forall scalar cs -> (split_whitespace [] (text cs) = map text (chars_words [] cs) <-> forall c, In c cs -> ~ exotic c).
Proof.
  intros cs HS. split; [|intros HX; now apply C57_words]. intros E c Hc [HW HL].
  assert (HI : exists a, In a (encode c)) by (rewrite Forall_forall in HS; destruct (encode_nonempty c (HS c Hc)) as (a & s & ->); exists a; now left).
  (* nothing but white space is lost *)
  assert (LEN : forall s acc, length (concat (split_whitespace acc s)) = (length acc + length (filter (fun a => negb (is_white a)) s))%nat).
  { induction s as [|a s IH]; intros acc; cbn [split_whitespace filter].
    - destruct acc as [|x acc]; [reflexivity|]. cbn [concat]. now rewrite app_nil_r, rev_length, Nat.add_0_r.
    - destruct (is_white a); cbn [negb]; [destruct acc as [|x acc]; [apply IH|cbn [concat]; now rewrite app_length, rev_length, IH]|rewrite IH; cbn [length]; lia]. }
  assert (CHW : forall cs w, concat (chars_words w cs) = w ++ filter (fun c => negb (white c)) cs).
  { clear. induction cs as [|c cs IH]; intros w; cbn [chars_words filter].
    - destruct w; cbn; now rewrite ?app_nil_r.
    - destruct (white c); cbn [negb]; [rewrite concat_app, IH; destruct w; cbn; now rewrite ?app_nil_r|rewrite IH, <- app_assoc; reflexivity]. }
  assert (FT : forall l, Forall scalar l -> (length (text (filter (fun c => negb (white c)) l)) <= length (filter (fun a => negb (is_white a)) (text l)))%nat /\
                 (In c l -> (length (text (filter (fun c => negb (white c)) l)) < length (filter (fun a => negb (is_white a)) (text l)))%nat)).
  { induction l as [|d l IH]; intros HF; [split; [apply le_n|intros []]|]. inversion_clear HF as [|? ? HD HF']. destruct (IH HF') as [IH1 IH2]. cbn [filter]. rewrite text_cons, filter_app, app_length.
    assert (ALL : plain_blankb d = false -> filter (fun a => negb (is_white a)) (encode d) = encode d).
    { intros HP. pose proof (other_bytes d HD HP) as HB. induction (encode d) as [|x s IHs]; [reflexivity|]. cbn [filter]. rewrite (HB x (or_introl eq_refl)). cbn [negb]. f_equal. apply IHs. intros y Hy. apply HB. now right. }
    destruct (encode_nonempty d HD) as (x & s & EE). assert (POS : (0 < length (encode d))%nat) by (rewrite EE; cbn; lia).
    destruct (white d) eqn:EW; cbn [negb].
    - split; [lia|]. intros [->|HIN]; [|specialize (IH2 HIN); lia]. rewrite ALL; [lia|]. destruct (plain_blankb c) eqn:X; [|reflexivity]. apply plain_blankb_spec in X. destruct X as [_ X]. lia.
    - rewrite text_cons, app_length, ALL by (unfold plain_blankb; now rewrite EW). split; [lia|]. intros [->|HIN]; [congruence|]. specialize (IH2 HIN). lia. }
  apply (f_equal (fun l => length (concat l))) in E. rewrite LEN in E. cbn [length] in E.
  assert (CM : forall ws, concat (map text ws) = text (concat ws)) by (induction ws as [|w ws IHw]; [reflexivity|]; cbn [map concat]; now rewrite text_app, IHw).
  rewrite CM, CHW in E. cbn [app] in E. destruct (FT cs HS) as [_ X]. specialize (X Hc). lia.
Qed.
Print Assumptions C57_words_exactly.
(* a no-break space inside of a line does no harm to trimming, at its edges it does *)
Example C57_edges_example :
  (forall c, at_edge [32; 97; 160; 98; 9]%N c -> ~ exotic c) /\ chars_trim [32; 97; 160; 98; 9]%N = [97; 160; 98]%N /\
  at_edge [32; 160; 97; 98]%N 160%N /\ exotic 160%N /\ chars_trim [32; 160; 97; 98]%N = [97; 98]%N.
Proof.
  split.
  { assert (HS : Forall scalar [32; 97; 160; 98; 9]%N) by (repeat constructor; unfold scalar; lia). apply (C57_trim_exactly _ HS). vm_compute. reflexivity. }
  split; [reflexivity|]. split; [exists [32]%N, [97; 98]%N; split; [reflexivity|left; repeat constructor]|]. split; [split; [reflexivity|lia]|reflexivity].
Qed.
