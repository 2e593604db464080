(* Proofs about the text of automata. *)
From Verif Require Import M_Nom Base M_Recog M_CFG M_Grammar M_Automata M_TreeStack M_Text M_AutText S_Text S_AutText P_Text.

Lemma word_eqb_refl w : word_eqb w w = true.
Proof. unfold word_eqb. induction w as [|a w IH]; [reflexivity|]. cbn. now rewrite beqb_refl, IH. Qed.
Lemma split_white s t : whites s -> split_whitespace [] (s ++ t) = split_whitespace [] t.
Proof. induction s as [|a s IH]; intros W; [reflexivity|]. cbn. rewrite (W a (or_introl eq_refl)). apply IH. intros b Hb. apply W. now right. Qed.
Lemma split_word w t : (forall a, In a w -> is_white a = false) -> forall acc, split_whitespace acc (w ++ t) = split_whitespace (rev w ++ acc) t.
Proof.
  induction w as [|a w IH]; intros H acc; [reflexivity|]. cbn [app split_whitespace]. rewrite (H a (or_introl eq_refl)). rewrite IH by (intros b Hb; apply H; now right).
  cbn [rev]. now rewrite <- app_assoc.
Qed.
Lemma words_split t ws : words t ws -> split_whitespace [] t = ws.
Proof.
  intros H. induction H as [s W|s w t ws W NE HW HT _ IH].
  - rewrite <- (app_nil_r s), split_white by assumption. reflexivity.
  - rewrite split_white, split_word by assumption. rewrite app_nil_r.
    assert (NR : rev w <> []) by (intros C; apply NE; rewrite <- (rev_involutive w), C; reflexivity).
    destruct HT as [->|(a & t' & -> & E)]; cbn [split_whitespace].
    + destruct (rev w) as [|b l] eqn:ER; [congruence|]. rewrite <- ER, rev_involutive. cbn in IH. now rewrite <- IH.
    + rewrite E. destruct (rev w) as [|b l] eqn:ER; [congruence|]. rewrite <- ER, rev_involutive. cbn in IH. rewrite E in IH. now rewrite <- IH.
Qed.
Lemma fsi_app {Q} (io : text_io Q) t i : fs_syntax io t i -> fsi_of_text io t = FOk i.
Proof.
  intros (p & a & q & HW & HA & HP & HQ). unfold fsi_of_text. rewrite (words_split _ _ HW). replace (word_eqb a «"->"» || word_eqb a «"→"») with true by (destruct HA as [->| ->]; reflexivity).
  rewrite HP, HQ. now destruct i.
Qed.
Lemma tsi_app {A} (io : text_io A) t i : ts_syntax io t i -> tsi_of_text io t = FOk i.
Proof.
  destruct i as [n c o v|n c v|c o v]; cbn [ts_syntax].
  - intros (n' & c' & o' & v' & HW & Hn & Hc & Ho & Hv). unfold tsi_of_text. rewrite (words_split _ _ HW). cbn -[of_text usize_of_text]. now rewrite Hn, Hc, Ho, Hv.
  - intros (n' & c' & v' & HW & Hn & Hc & Hv). unfold tsi_of_text. rewrite (words_split _ _ HW). cbn -[of_text usize_of_text]. now rewrite Hn, Hc, Hv.
  - intros (c' & o' & v' & HW & Hc & Ho & Hv). unfold tsi_of_text. rewrite (words_split _ _ HW). cbn -[of_text usize_of_text]. now rewrite Hc, Ho, Hv.
Qed.

Section Transition.
  Context {I T : Type} {K : Weight} (instr : bytes -> from_str I) (isyn : bytes -> I -> Prop) (iot : text_io T) (iow : text_io K).
  Context (HI : forall t i, isyn t i -> instr t = FOk i).
  Lemma take_until_app b i rest : ~ In b i -> take_until b (i ++ b :: rest) = Done (b :: rest) i.
  Proof.
    intros NI. unfold take_until. rewrite span_app; [reflexivity| |].
    - intros a Ha. apply negb_true_iff, beqb_false. intros ->. contradiction.
    - intros a r E. injection E as <- <-. now rewrite beqb_refl.
  Qed.
  Lemma transition_app text t : transition_syntax isyn iot iow text t -> exists rest, parse_transition instr iot iow text = Done rest t.
  Proof.
    intros (sp1 & v & sp2 & i & sp3 & w & sp4 & z & S1 & S2 & S3 & S4 & -> & HV & NI & Hi & HW & HC). unfold parse_transition.
    rewrite (pb _ _ _ _ _ (tag_app _ _)), (pb _ _ _ _ _ (skip_spaces _ _ S1 (vec_ends _ "["%char _ _ _ _ _ _ eq_refl ltac:(discriminate) HV))).
    assert (EV : parse_word iot (v ++ sp2 ++ «"("» ++ i ++ «")"» ++ sp3 ++ w ++ sp4 ++ z) = Done (sp2 ++ «"("» ++ i ++ «")"» ++ sp3 ++ w ++ sp4 ++ z) (t_word t))
      by (apply (tokens_app iot "["%char "]"%char); [reflexivity|discriminate|discriminate|cbn; tauto|exact HV]).
    rewrite (pb _ _ _ _ _ EV), (pb _ _ _ _ _ (skip_spaces sp2 («"("» ++ _) S2 (ends_first is_space "("%char [] _ eq_refl))), (pb _ _ _ _ _ (tag_app _ _)).
    rewrite (pb _ _ _ _ _ (take_until_app ")"%char i (sp3 ++ w ++ sp4 ++ z) NI)). change (")"%char :: sp3 ++ w ++ sp4 ++ z) with («")"» ++ sp3 ++ w ++ sp4 ++ z). rewrite (pb _ _ _ _ _ (tag_app _ _)).
    match goal with |- exists _, pbind _ (fun _ => pbind _ (fun weight_o => pbind _ (fun _ => @?q weight_o))) _ = _ => destruct (weight_app iow (fun o => unwrap o) q sp3 w sp4 z _ (fun w i => eq_refl) S3 S4 HW HC) as (o & EO & E) end.
    assert (EC : exists r u, opt (complete parse_comment) z = Done r u).
    { destruct HC as [->|[s ->]]; [eexists _, _; reflexivity|]. exists [], (Some tt). unfold opt, complete, parse_comment. rewrite (pb _ _ _ _ _ (tag_app _ _)), (pb _ _ _ _ _ (take_all s)). reflexivity. }
    destruct EC as (r & u & EC). exists r. etransitivity; [exact E|]. cbn beta. rewrite (pb _ _ _ _ _ EC), EO. unfold unwrap_str, pbind. rewrite (HI _ _ Hi). now destruct t.
  Qed.
  Lemma transition_text_app text t : transition_syntax isyn iot iow text t -> transition_of_text instr iot iow text = FOk t.
  Proof. intros H. destruct (transition_app text t H) as [r E]. unfold transition_of_text, run_parser. now rewrite E. Qed.
  Lemma transition_first text t : transition_syntax isyn iot iow text t -> exists u, text = «"Transition"» ++ u.
  Proof. intros (sp1 & v & sp2 & i & sp3 & w & sp4 & z & _ & _ & _ & _ & -> & _). eauto. Qed.
End Transition.

(* ---- lines ---- *)
Lemma initial_line {Q} (io : text_io Q) sp e z q : spaces sp -> token io z e q -> exists r, parse_initial io («"initial:"» ++ sp ++ e ++ z) = Done r q.
Proof.
  intros S1 HT. exists []. unfold parse_initial. rewrite (pb _ _ _ _ _ (tag_app _ _)), (pb _ _ _ _ _ (skip_spaces _ _ S1 (token_ends _ _ _ _ _ HT))), (pb _ _ _ _ _ (token_app _ _ _ _ HT)), (pb _ _ _ _ _ (take_all z)). reflexivity.
Qed.
Lemma final_line {Q} (io : text_io Q) sp v z qs : spaces sp -> vec (token io) «"["» «"]"» «","» z v qs -> exists r, parse_finals io («"final:"» ++ sp ++ v ++ z) = Done r qs.
Proof.
  intros S1 HV. exists z. unfold parse_finals. rewrite (pb _ _ _ _ _ (tag_app _ _)). rewrite (pb _ _ _ _ _ (skip_spaces _ _ S1 (vec_ends (token io) "["%char _ _ _ _ _ _ eq_refl ltac:(discriminate) HV))).
  apply (tokens_app io "["%char "]"%char); [reflexivity|discriminate|discriminate|cbn; tauto|exact HV].
Qed.
(* how a line is classified by the loops *)
Lemma trim_start_first b a t : whites b -> is_white a = false -> trim_start (b ++ a :: t) = a :: t.
Proof. intros W E. apply trim_start_app; [assumption|]. intros c r H. now injection H as <- <-. Qed.
Lemma transition_line b u b' : whites b -> whites b' -> (forall a t', «"Transition"» ++ u = t' ++ [a] -> is_white a = false) ->
  trim_start (b ++ («"Transition"» ++ u) ++ b') = («"Transition"» ++ u) ++ b' /\ trim (b ++ («"Transition"» ++ u) ++ b') = «"Transition"» ++ u /\ has_content (b ++ («"Transition"» ++ u) ++ b') = true.
Proof.
  intros W W' HL. assert (ET : trim_start (b ++ («"Transition"» ++ u) ++ b') = («"Transition"» ++ u) ++ b') by now apply trim_start_first.
  split; [exact ET|]. split; [apply trim_app; auto; [|discriminate]; intros a t' E; injection E as <- _; reflexivity|].
  unfold has_content. rewrite ET. destruct b; reflexivity.
Qed.

Lemma last_snoc {X} (l : list X) x : last_of (l ++ [x]) = Some x.
Proof. unfold last_of. now rewrite rev_app_distr. Qed.
Lemma last_app {X} (l l' : list X) : last_of (l ++ l') = match last_of l' with Some x => Some x | None => last_of l end.
Proof. unfold last_of. rewrite rev_app_distr. now destruct (rev l'). Qed.
Definition later {X} (o : option X) (l : list X) : option X := match last_of l with Some x => Some x | None => o end.
Lemma later_app {X} (o : option X) l l' : later o (l ++ l') = later (later o l) l'.
Proof. unfold later. rewrite last_app. now destruct (last_of l'). Qed.
Definition laterl {X} (o : list X) (l : list (list X)) : list X := match last_of l with Some x => x | None => o end.
Lemma laterl_app {X} (o : list X) l l' : laterl o (l ++ l') = laterl (laterl o l) l'.
Proof. unfold laterl. rewrite last_app. now destruct (last_of l'). Qed.

Section FSA.
  Context {Q T : Type} {K : Weight} (qeqb : Q -> Q -> bool) (teqb : T -> T -> bool) (ioq : text_io Q) (iot : text_io T) (iow : text_io K).
  Notation tsyn := (transition_syntax (fs_syntax ioq) iot iow).
  Lemma fsa_line_app l is fs ts : automaton_line True ioq tsyn l is fs ts -> forall ls i f acc,
    fsa_lines ioq iot iow (l :: ls) i f acc = fsa_lines ioq iot iow ls (later i is) (laterl f fs) (acc ++ ts).
  Proof.
    intros H ls i f acc. destruct H as [b sp e z q W S1 HT|b sp v z qs _ W S1 HV| |b z W|b t b' r W W' HT HL].
    - cbn [fsa_lines]. rewrite (trim_start_first b "i"%char («"nitial:"» ++ sp ++ e ++ z) W eq_refl : trim_start (b ++ «"initial:"» ++ sp ++ e ++ z) = «"initial:"» ++ sp ++ e ++ z), starts_with_app.
      destruct (initial_line ioq sp e z q S1 HT) as [r ->]. now rewrite app_nil_r.
    - cbn [fsa_lines]. rewrite (trim_start_first b "f"%char («"inal:"» ++ sp ++ v ++ z) W eq_refl : trim_start (b ++ «"final:"» ++ sp ++ v ++ z) = «"final:"» ++ sp ++ v ++ z), starts_with_app.
      change (text_starts_with «"initial:"» («"final:"» ++ sp ++ v ++ z)) with false. destruct (final_line ioq sp v z qs S1 HV) as [r ->]. now rewrite app_nil_r.
    - cbn. now rewrite app_nil_r.
    - cbn [fsa_lines]. unfold has_content. rewrite (trim_start_first b "%"%char z W eq_refl : trim_start (b ++ «"%"» ++ z) = «"%"» ++ z). rewrite andb_false_r. cbn. now rewrite app_nil_r.
    - pose proof (transition_text_app _ _ iot iow (fsi_app ioq) t r HT) as EP. destruct (transition_first _ _ _ t r HT) as [u ->].
      destruct (transition_line b u b' W W' HL) as (E1 & E2 & E3). cbn [fsa_lines]. rewrite E1, E2, E3. change (text_starts_with «"initial:"» ((«"Transition"» ++ u) ++ b')) with false. change (text_starts_with «"final:"» ((«"Transition"» ++ u) ++ b')) with false.
      rewrite EP. reflexivity.
  Qed.
  Lemma fsa_text_app text is fs ts : automaton_text True ioq tsyn text is fs ts -> forall i f acc,
    fsa_lines ioq iot iow (lines [] text) i f acc = FOk (later i is, laterl f fs, acc ++ ts).
  Proof.
    intros H. induction H as [|l is fs ts NE NI HL|l is fs ts s is' fs' ts' NI NC HL _ IH]; intros i f acc.
    - cbn. now rewrite app_nil_r.
    - rewrite lines_last by assumption. now rewrite (fsa_line_app _ _ _ _ HL).
    - rewrite lines_app by assumption. cbn [rev app]. rewrite strip_cr_id by assumption. rewrite (fsa_line_app _ _ _ _ HL), IH, later_app, laterl_app, <- app_assoc. reflexivity.
  Qed.
End FSA.

Section TSA.
  Context {A T : Type} {K : Weight} (ioa : text_io A) (iot : text_io T) (iow : text_io K).
  Notation tsyn := (transition_syntax (ts_syntax ioa) iot iow).
  Lemma tsa_line_app l is fs ts : automaton_line False ioa tsyn l is fs ts -> forall ls i acc,
    tsa_lines ioa iot iow (l :: ls) i acc = tsa_lines ioa iot iow ls (later i is) (acc ++ ts).
  Proof.
    intros H ls i acc. destruct H as [b sp e z q W S1 HT|b sp v z qs []| |b z W|b t b' r W W' HT HL].
    - cbn [tsa_lines]. rewrite (trim_start_first b "i"%char («"nitial:"» ++ sp ++ e ++ z) W eq_refl : trim_start (b ++ «"initial:"» ++ sp ++ e ++ z) = «"initial:"» ++ sp ++ e ++ z), starts_with_app.
      destruct (initial_line ioa sp e z q S1 HT) as [r ->]. now rewrite app_nil_r.
    - cbn. now rewrite app_nil_r.
    - cbn [tsa_lines]. unfold has_content. rewrite (trim_start_first b "%"%char z W eq_refl : trim_start (b ++ «"%"» ++ z) = «"%"» ++ z). rewrite andb_false_r. cbn. now rewrite app_nil_r.
    - pose proof (transition_text_app _ _ iot iow (tsi_app ioa) t r HT) as EP. destruct (transition_first _ _ _ t r HT) as [u ->].
      destruct (transition_line b u b' W W' HL) as (E1 & E2 & E3). cbn [tsa_lines]. rewrite E1, E2, E3. change (text_starts_with «"initial:"» ((«"Transition"» ++ u) ++ b')) with false.
      rewrite EP. reflexivity.
  Qed.
  Lemma tsa_text_app text is fs ts : automaton_text False ioa tsyn text is fs ts -> forall i acc,
    tsa_lines ioa iot iow (lines [] text) i acc = FOk (later i is, acc ++ ts).
  Proof.
    intros H. induction H as [|l is fs ts NE NI HL|l is fs ts s is' fs' ts' NI NC HL _ IH]; intros i acc.
    - cbn. now rewrite app_nil_r.
    - rewrite lines_last by assumption. now rewrite (tsa_line_app _ _ _ _ HL).
    - rewrite lines_app by assumption. cbn [rev app]. rewrite strip_cr_id by assumption. rewrite (tsa_line_app _ _ _ _ HL), IH, later_app, <- app_assoc. reflexivity.
  Qed.
End TSA.

(* ---- Display writes texts of the syntax ---- *)
Section Commas.
  Context {X : Type} (P : syntax X) (f : X -> bytes) (c : ascii) (Cs : In c stops).
  Lemma stop_tail l rest : at_stop (comma_tail l ++ c :: rest).
  Proof. right. destruct l; eexists _, _; split; try reflexivity; [assumption|cbn; tauto]. Qed.
  Lemma stop_more rest xs : (forall x, In x xs -> forall rest, at_stop rest -> P rest (f x) x) -> more_items P [","%char] (c :: rest) (comma_tail (map f xs)) xs.
  Proof.
    induction xs as [|x xs IH]; intros H; [constructor|]. cbn [map]. change (comma_tail (f x :: map f xs)) with ((«", "» ++ f x) ++ comma_tail (map f xs)).
    rewrite <- app_assoc. change («", "» ++ f x ++ comma_tail (map f xs)) with ([","%char] ++ [" "%char] ++ f x ++ [] ++ comma_tail (map f xs)).
    constructor; [intros a [<-|[]]; now left|intros a []| |]; [|apply IH; intros y Hy; apply H; now right]. apply H; [now left|]. apply stop_tail.
  Qed.
  Lemma stop_vec o rest xs : (forall x, In x xs -> forall rest, at_stop rest -> P rest (f x) x) -> vec P [o] [c] [","%char] rest ([o] ++ commas (map f xs) ++ [c]) xs.
  Proof.
    intros H. exists [], (commas (map f xs)). split; [intros a []|]. split; [|reflexivity].
    destruct xs as [|x xs]; [constructor|]. cbn [map]. rewrite commas_cons. change (f x ++ comma_tail (map f xs)) with (f x ++ [] ++ comma_tail (map f xs)).
    constructor; [intros a []| |]; [|apply stop_more; intros y Hy; apply H; now right]. apply H; [now left|]. apply stop_tail.
  Qed.
End Commas.

Lemma words1 w : w <> [] -> (forall a, In a w -> is_white a = false) -> words w [w].
Proof. intros NE H. replace w with ([] ++ w ++ []) at 1 by (cbn; apply app_nil_r). constructor; auto; [intros a []|]. constructor. intros a []. Qed.
Lemma words2 w t ws : w <> [] -> (forall a, In a w -> is_white a = false) -> words t ws -> words (w ++ «" "» ++ t) (w :: ws).
Proof.
  intros NE H HT. change (w ++ «" "» ++ t) with ([] ++ w ++ «" "» ++ t). constructor; auto; [intros a []|right; eexists _, _; split; reflexivity|].
  inversion HT as [s W|s v u vs W NV HV HU HR]; subst.
  - constructor. intros a [<-|Ha]; [reflexivity|now apply W].
  - change («" "» ++ s ++ v ++ u) with ((" "%char :: s) ++ v ++ u). constructor; auto. intros a [<-|Ha]; [reflexivity|now apply W].
Qed.
Lemma digit_white a : is_digit a = true -> is_white a = false /\ a <> ")"%char /\ a <> "010"%char.
Proof. destruct a as [[] [] [] [] [] [] [] []]; cbn; intros H; try discriminate; (split; [reflexivity|split; discriminate]). Qed.
Lemma usize_label n : usize_text n <> [] /\ (forall a, In a (usize_text n) -> is_white a = false) /\ ~ In ")"%char (usize_text n) /\ ~ In "010"%char (usize_text n).
Proof.
  split; [apply usize_text_nonempty|]. split; [intros a Ha; apply (digit_white a), (uint_text_digits _ _ Ha)|].
  split; intros C; apply uint_text_digits, digit_white in C; destruct C as (_ & C1 & C2); congruence.
Qed.
Lemma label_parts {X} (io : text_io X) x : showable_label io x -> of_text io (to_text io x) = Some x /\ to_text io x <> [] /\ (forall a, In a (to_text io x) -> is_white a = false) /\ ~ In ")"%char (to_text io x) /\ ~ In "010"%char (to_text io x).
Proof.
  intros (HR & NE & H). split; [exact HR|]. split; [exact NE|]. split; [intros a Ha; now apply H|]. split; intros C; destruct (H _ C) as [C1 C2]; [congruence|discriminate].
Qed.
Lemma not_in_app {X} (x : X) a b : ~ In x a -> ~ In x b -> ~ In x (a ++ b).
Proof. rewrite in_app_iff. tauto. Qed.
Ltac notin := repeat match goal with |- ~ In _ (_ ++ _) => apply not_in_app end; try assumption; try (cbn; intuition discriminate).
(* the instruction between the parentheses *)
Definition tsi_body {A} (io : text_io A) (i : ts_instr A) : bytes :=
  match i with
  | IUp n c o v => «"Up"» ++ «" "» ++ usize_text n ++ «" "» ++ to_text io c ++ «" "» ++ to_text io o ++ «" "» ++ to_text io v
  | IPush n c v => «"Push"» ++ «" "» ++ usize_text n ++ «" "» ++ to_text io c ++ «" "» ++ to_text io v
  | IDown c o v => «"Down"» ++ «" "» ++ to_text io c ++ «" "» ++ to_text io o ++ «" "» ++ to_text io v
  end.
Lemma tsi_text_body {A} (io : text_io A) i : tsi_text io i = «"("» ++ tsi_body io i ++ «")"».
Proof. destruct i; cbn; rewrite <- ?app_assoc; cbn; rewrite <- ?app_assoc; cbn; rewrite <- ?app_assoc; cbn; rewrite <- ?app_assoc; reflexivity. Qed.
Lemma tsi_shown {A} (io : text_io A) i : (forall x, In x (labels i) -> showable_label io x) -> (forall n, child i = Some n -> (N.of_nat n < usize_bound)%N) ->
  ts_syntax io (tsi_body io i) i /\ ~ In ")"%char (tsi_body io i) /\ ~ In "010"%char (tsi_body io i).
Proof.
  intros HL HN. assert (KW : forall w : bytes, In w [«"Up"»; «"Push"»; «"Down"»] -> w <> [] /\ forall a, In a w -> is_white a = false).
  { intros w [<-|[<-|[<-|[]]]]; (split; [discriminate|]); intros a Ha; cbn in Ha; repeat (destruct Ha as [<-|Ha]; [reflexivity|]); destruct Ha. }
  destruct i as [n c o v|n c v|c o v]; cbn [labels child] in *.
  - specialize (HN n eq_refl). destruct (usize_label n) as (N1 & N2 & N3 & N4). destruct (label_parts io c (HL c ltac:(cbn; tauto))) as (C0 & C1 & C2 & C3 & C4). destruct (label_parts io o (HL o ltac:(cbn; tauto))) as (O0 & O1 & O2 & O3 & O4). destruct (label_parts io v (HL v ltac:(cbn; tauto))) as (V0 & V1 & V2 & V3 & V4).
    split; [|split; unfold tsi_body; notin]. exists (usize_text n), (to_text io c), (to_text io o), (to_text io v). rewrite usize_text_back by assumption.
    split; [|auto]. destruct (KW «"Up"») as [K1 K2]; [cbn; tauto|]. apply words2; auto. apply words2; auto. apply words2; auto. apply words2; auto. now apply words1.
  - specialize (HN n eq_refl). destruct (usize_label n) as (N1 & N2 & N3 & N4). destruct (label_parts io c (HL c ltac:(cbn; tauto))) as (C0 & C1 & C2 & C3 & C4). destruct (label_parts io v (HL v ltac:(cbn; tauto))) as (V0 & V1 & V2 & V3 & V4).
    split; [|split; unfold tsi_body; notin]. exists (usize_text n), (to_text io c), (to_text io v). rewrite usize_text_back by assumption.
    split; [|auto]. destruct (KW «"Push"») as [K1 K2]; [cbn; tauto|]. apply words2; auto. apply words2; auto. apply words2; auto. now apply words1.
  - destruct (label_parts io c (HL c ltac:(cbn; tauto))) as (C0 & C1 & C2 & C3 & C4). destruct (label_parts io o (HL o ltac:(cbn; tauto))) as (O0 & O1 & O2 & O3 & O4). destruct (label_parts io v (HL v ltac:(cbn; tauto))) as (V0 & V1 & V2 & V3 & V4).
    split; [|split; unfold tsi_body; notin]. exists (to_text io c), (to_text io o), (to_text io v).
    split; [|auto]. destruct (KW «"Down"») as [K1 K2]; [cbn; tauto|]. apply words2; auto. apply words2; auto. apply words2; auto. now apply words1.
Qed.

Lemma weight_shown {K : Weight} (io : text_io K) (w : K) : showable_weight io w -> weight_part io ([] ++ []) («"# "» ++ to_text io w) w.
Proof.
  intros (HR & NE & HS). right. exists [" "%char], (to_text io w). split; [intros a [<-|[]]; now left|]. split; [assumption|]. split; [intros a Ha; specialize (HS a Ha); split; intros ->; discriminate|].
  split; [assumption|]. split; [reflexivity|now left].
Qed.
Lemma commas_no x l : x <> ","%char -> x <> " "%char -> (forall y, In y l -> ~ In x y) -> ~ In x (commas l).
Proof.
  intros N1 N2 H. destruct l as [|y l]; [intros []|]. rewrite commas_cons. apply not_in_app; [apply H; now left|]. unfold comma_tail. intros C. apply in_flat_map in C. destruct C as (z & Hz & C).
  apply in_app_iff in C. destruct C as [C|C]; [destruct C as [C|[C|[]]]; congruence|]. apply (H z); [now right|assumption].
Qed.
Section Shown.
  Context {A T : Type} {K : Weight} (ioa : text_io A) (iot : text_io T) (iow : text_io K) (debug : T -> bytes).
  Lemma transition_shown t : showable_ts_transition ioa iot iow debug t -> transition_syntax (ts_syntax ioa) iot iow (transition_text iow debug (tsi_text ioa) t) t.
  Proof.
    intros (HL & HN & HT & HW). destruct (tsi_shown ioa (t_ins t) HL HN) as (I1 & I2 & I3).
    exists [" "%char], («"["» ++ commas (map debug (t_word t)) ++ «"]"»), [" "%char], (tsi_body ioa (t_ins t)), [" "; " "]%char, («"# "» ++ to_text iow (t_weight t)), [], [].
    split; [intros a [<-|[]]; now left|]. split; [intros a [<-|[]]; now left|]. split; [intros a [<-|[<-|[]]]; now left|]. split; [intros a []|].
    split; [unfold transition_text; rewrite tsi_text_body, app_nil_r; rewrite <- !app_assoc; reflexivity|].
    split; [|split; [exact I2|split; [exact I1|split; [now apply weight_shown|now left]]]].
    apply (stop_vec (token iot) debug "]"%char ltac:(cbn; tauto) "["%char). intros x Hx. apply HT, Hx.
  Qed.
  Lemma transition_one_line t : showable_ts_transition ioa iot iow debug t -> ~ In "010"%char (transition_text iow debug (tsi_text ioa) t) /\
    (forall a t', transition_text iow debug (tsi_text ioa) t = t' ++ [a] -> is_white a = false).
  Proof.
    intros (HL & HN & HT & (_ & NE & HW)). destruct (tsi_shown ioa (t_ins t) HL HN) as (I1 & I2 & I3). split.
    - unfold transition_text. rewrite tsi_text_body. assert (NW : ~ In "010"%char (to_text iow (t_weight t))) by (intros C; apply HW in C; discriminate).
      assert (NC : ~ In "010"%char (commas (map debug (t_word t)))) by (apply commas_no; [discriminate|discriminate|]; intros y Hy; apply in_map_iff in Hy; destruct Hy as (x & <- & Hx); apply HT, Hx).
      notin.
    - intros a t' E. unfold transition_text in E. rewrite !app_assoc in E. destruct (exists_last NE) as (l & b & EL). rewrite EL, app_assoc in E. apply app_inj_tail in E. destruct E as [_ <-].
      apply HW. rewrite EL. apply in_app_iff. right. now left.
  Qed.
  Lemma shown_text ts : (forall t, In t ts -> showable_ts_transition ioa iot iow debug t) ->
    automaton_text False ioa (transition_syntax (ts_syntax ioa) iot iow) (concat (map (fun t => transition_text iow debug (tsi_text ioa) t ++ newline) ts)) [] [] ts.
  Proof.
    induction ts as [|t ts IH]; intros H; [constructor|]. cbn [map List.concat]. rewrite <- app_assoc. destruct (transition_one_line t (H t (or_introl eq_refl))) as [N1 N2].
    change (automaton_text False ioa (transition_syntax (ts_syntax ioa) iot iow) (transition_text iow debug (tsi_text ioa) t ++ newline ++ concat (map (fun t => transition_text iow debug (tsi_text ioa) t ++ newline) ts)) ([] ++ []) ([] ++ []) ([t] ++ ts)).
    constructor; [exact N1| | |apply IH; intros u Hu; apply H; now right].
    - intros l' E. specialize (N2 _ _ E). discriminate.
    - replace (transition_text iow debug (tsi_text ioa) t) with ([] ++ transition_text iow debug (tsi_text ioa) t ++ []) by (cbn [app]; apply app_nil_r).
      constructor; [intros a []|intros a []|apply transition_shown, H; now left|exact N2].
  Qed.
  Lemma shown_automaton a ts x : (forall t, In t ts -> showable_ts_transition ioa iot iow debug t) -> of_text ioa (usize_text (ts_current_symbol (ta_init a))) = Some x ->
    automaton_text False ioa (transition_syntax (ts_syntax ioa) iot iow) (tsa_text (T := T) ioa iow debug ts a) [x] [] ts.
  Proof.
    intros H HO. unfold tsa_text. destruct (usize_label (ts_current_symbol (ta_init a))) as (N1 & N2 & N3 & N4).
    rewrite app_assoc.
    change (automaton_text False ioa (transition_syntax (ts_syntax ioa) iot iow) ((«"initial: "» ++ usize_text (ts_current_symbol (ta_init a))) ++ newline ++ [] ++ newline ++ concat (map (fun t => transition_text iow debug (tsi_text ioa) t ++ newline) ts)) ([x] ++ ([] ++ [])) ([] ++ ([] ++ [])) ([] ++ ([] ++ ts))).
    constructor; [| | |constructor; [intros []|intros l' E; destruct l'; discriminate|constructor|now apply shown_text]].
    - notin.
    - intros l' E. destruct (exists_last N1) as (l & b & EL). rewrite EL, app_assoc in E. apply app_inj_tail in E. destruct E as [_ ->].
      assert (C : is_white "013" = false) by (apply N2; rewrite EL; apply in_app_iff; right; now left). discriminate.
    - assert (NT : forall b, In b (usize_text (ts_current_symbol (ta_init a))) -> ~ In b stops) by (intros b Hb C; apply uint_text_digits in Hb; cbn in C; repeat (destruct C as [C|C]; [subst b; discriminate|]); destruct C).
      replace («"initial: "» ++ usize_text (ts_current_symbol (ta_init a))) with ([] ++ «"initial:"» ++ [" "%char] ++ usize_text (ts_current_symbol (ta_init a)) ++ []) by (rewrite app_nil_r; reflexivity).
      constructor; [intros b []|intros b [<-|[]]; now left|]. exists (usize_text (ts_current_symbol (ta_init a))). split; [exact HO|]. right. split; [reflexivity|]. split; [|now left].
      split; [exact N1|]. intros b Hb. split; [now apply NT|]. intros ->. apply N2 in Hb. discriminate.
  Qed.
End Shown.

(* ---- no panic before the transitions ---- *)
Lemma token_no_panic {X} (io : text_io X) i : parse_token io i <> Panic.
Proof.
  unfold parse_token, map_opt, alt. assert (HQ : quoted i <> Panic).
  { unfold quoted, pbind. destruct (tag quote i) as [r u| | |] eqn:E; try discriminate; [|destruct i as [|a i]; [discriminate|cbn in E; destruct (beqb a _); discriminate]].
    assert (HE : forall fuel r, escaped_loop (one_of «"""\"») "\"%char (one_of «"\"""») fuel r <> Panic).
    { clear. induction fuel as [|fuel IH]; intros [|a r]; cbn [escaped_loop]; try discriminate. destruct (is_not (one_of «"""\"») (a :: r)) as [r' x| | |] eqn:EI; try discriminate.
      - specialize (IH r'). destruct (escaped_loop _ _ _ fuel r'); congruence.
      - destruct (beqb a "\"); [|discriminate]. destruct r as [|b r]; [discriminate|]. destruct (one_of «"\"""» b); [|discriminate]. specialize (IH r). destruct (escaped_loop _ _ _ fuel r); congruence.
      - unfold is_not in EI. destruct (span _ _) as [[|] ?]; discriminate. }
    specialize (HE (length r) r). unfold escaped. destruct (escaped_loop _ _ _ (length r) r) as [r' x| | |]; try congruence. destruct (tag quote r') as [? ?| | |] eqn:E'; try discriminate. destruct r' as [|b r']; [discriminate|cbn in E'; destruct (beqb b _); discriminate]. }
  destruct (quoted i) as [r x| | |]; try discriminate; [destruct (of_text io x); discriminate| |contradiction].
  unfold is_not. destruct i as [|a i]; [destruct (of_text io []); discriminate|]. destruct (span _ _) as [[|b x] r]; [discriminate|]. destruct (of_text io (b :: x)); discriminate.
Qed.
Lemma tag_no_panic t i : tag t i <> Panic.
Proof. revert i. induction t as [|b t IH]; intros i; [discriminate|]. destruct i as [|a i]; [discriminate|]. cbn. destruct (beqb a b); [apply IH|discriminate]. Qed.
Lemma bind_no_panic {X Y} (p : parser X) (q : X -> parser Y) i : p i <> Panic -> (forall x r, q x r <> Panic) -> pbind p q i <> Panic.
Proof. intros H1 H2. unfold pbind. destruct (p i); try discriminate; [apply H2|contradiction]. Qed.
Lemma take_no_panic f i : take_while f i <> Panic.
Proof. unfold take_while. destruct (span f i). discriminate. Qed.
Lemma vec_no_panic {X} (p : parser X) o c s i : (forall i, p i <> Panic) -> parse_vec p o c s i <> Panic.
Proof.
  intros HP. unfold parse_vec. apply bind_no_panic; [apply tag_no_panic|]. intros _ r. apply bind_no_panic; [apply take_no_panic|]. intros _ r'. apply bind_no_panic; [|intros x r''; apply bind_no_panic; [apply tag_no_panic|discriminate]].
  unfold many0. generalize (length r'). intros n. revert r'. induction n as [|n IH]; intros [|a r']; try discriminate. cbn [many0_loop].
  match goal with |- match ?p (a :: r') with _ => _ end <> _ => assert (HE : p (a :: r') <> Panic); [|destruct (p (a :: r')) as [r2 x| | |]; try congruence] end.
  - apply bind_no_panic; [unfold opt; pose proof (tag_no_panic s (a :: r')) as HT; destruct (tag s (a :: r')); congruence|]. intros _ r1. apply bind_no_panic; [apply take_no_panic|]. intros _ r2. apply bind_no_panic; [apply HP|]. intros x r3. apply bind_no_panic; [apply take_no_panic|discriminate].
  - destruct (Nat.eqb _ _); [discriminate|]. specialize (IH r2). destruct (many0_loop _ n r2); congruence.
Qed.
Lemma initial_no_panic {X} (io : text_io X) i : parse_initial io i <> Panic.
Proof. unfold parse_initial. apply bind_no_panic; [apply tag_no_panic|intros _ r1]. apply bind_no_panic; [apply take_no_panic|intros _ r2]. apply bind_no_panic; [apply token_no_panic|intros x r3]. apply bind_no_panic; [apply take_no_panic|discriminate]. Qed.
Lemma finals_no_panic {X} (io : text_io X) i : parse_finals io i <> Panic.
Proof. unfold parse_finals. apply bind_no_panic; [apply tag_no_panic|intros _ r1]. apply bind_no_panic; [apply take_no_panic|intros _ r2]. apply vec_no_panic, token_no_panic. Qed.

Section Unreadable.
  Context {Q T : Type} {K : Weight} (qeqb : Q -> Q -> bool) (teqb : T -> T -> bool) (ioq : text_io Q) (iot : text_io T) (iow : text_io K) (debug : T -> bytes).
  Lemma initial_or ls l i f acc : text_starts_with «"initial:"» (trim_start l) = true ->
    fsa_lines ioq iot iow (l :: ls) i f acc = FErr \/ exists q, fsa_lines ioq iot iow (l :: ls) i f acc = fsa_lines ioq iot iow ls (Some q) f acc.
  Proof. intros E. cbn [fsa_lines]. rewrite E. pose proof (initial_no_panic ioq (trim_start l)) as HP. destruct (parse_initial ioq (trim_start l)) as [r q| | |]; [right; now exists q|now left|now left|congruence]. Qed.
  Lemma final_or ls l i f acc : text_starts_with «"initial:"» (trim_start l) = false -> text_starts_with «"final:"» (trim_start l) = true ->
    fsa_lines ioq iot iow (l :: ls) i f acc = FErr \/ exists qs, fsa_lines ioq iot iow (l :: ls) i f acc = fsa_lines ioq iot iow ls i qs acc.
  Proof. intros E E'. cbn [fsa_lines]. rewrite E, E'. pose proof (finals_no_panic ioq (trim_start l)) as HP. destruct (parse_finals ioq (trim_start l)) as [r q| | |]; [right; now exists q|now left|now left|congruence]. Qed.
  (* an instruction that does not start with a parenthesis *)
  Lemma no_parenthesis (t : transition (fs_instr Q) T K) b p : to_text ioq (fs_source (t_ins t)) = b :: p -> is_space b = false -> b <> "("%char ->
    (forall x, In x (t_word t) -> showable_terminal iot debug x) ->
    transition_of_text (fsi_of_text ioq) iot iow (transition_text iow debug (fsi_text ioq) t) = FErr.
  Proof.
    intros E SB NB HT. unfold transition_of_text, run_parser, parse_transition, transition_text. unfold fsi_text. rewrite E. change «"Transition "» with («"Transition"» ++ [" "%char]). rewrite <- !app_assoc.
    rewrite (pb _ _ _ _ _ (tag_app _ _)). set (R := «" "» ++ (b :: p) ++ «" → "» ++ to_text ioq (fs_target (t_ins t)) ++ «"  # "» ++ to_text iow (t_weight t)).
    assert (HV : vec (token iot) «"["» «"]"» «","» R («"["» ++ commas (map debug (t_word t)) ++ «"]"») (t_word t)) by (apply (stop_vec (token iot) debug "]"%char ltac:(cbn; tauto) "["%char); intros x Hx; apply HT, Hx).
    match goal with |- match pbind _ _ ?i with _ => _ end = _ => replace i with ([" "%char] ++ («"["» ++ commas (map debug (t_word t)) ++ «"]"») ++ R) by (rewrite <- !app_assoc; reflexivity) end.
    rewrite (pb _ _ _ _ _ (skip_spaces [" "%char] _ ltac:(intros a [<-|[]]; now left) (vec_ends _ "["%char _ _ _ _ _ _ eq_refl ltac:(discriminate) HV))).
    assert (EV : parse_word iot ((«"["» ++ commas (map debug (t_word t)) ++ «"]"») ++ R) = Done R (t_word t)) by (apply (tokens_app iot "["%char "]"%char); [reflexivity|discriminate|discriminate|cbn; tauto|exact HV]).
    rewrite (pb _ _ _ _ _ EV). unfold R. rewrite (pb _ _ _ _ _ (skip_spaces [" "%char] _ ltac:(intros a [<-|[]]; now left) (ends_first is_space b p _ SB))).
    cbn [app]. rewrite pb_error by (now apply tag1_error). reflexivity.
  Qed.
  Lemma fsa_unreadable (a : fsa Q T K) t ts b p : to_text ioq (fs_source (t_ins t)) = b :: p -> is_space b = false -> b <> "("%char ->
    ~ In "010"%char (to_text ioq (fs_source (t_ins t))) -> ~ In "010"%char (to_text ioq (fs_target (t_ins t))) ->
    (forall x, In x (t_word t) -> showable_terminal iot debug x) -> showable_weight iow (t_weight t) ->
    fsa_of_text qeqb teqb ioq iot iow (fsa_text ioq iow debug (t :: ts) a) = FErr.
  Proof.
    intros E SB NB N1 N2 HT (_ & NE & HW). pose proof (no_parenthesis t b p E SB NB HT) as EN. unfold fsa_of_text, fsa_text.
    set (fin := filter _ _). set (fl := match fin with [] => [] | _ => «", "» end ++ concat (map (fun i => in_quotes (usize_text i)) fin) ++ «"]"»).
    assert (NF : ~ In "010"%char fl).
    { unfold fl. assert (NC : ~ In "010"%char (concat (map (fun i => in_quotes (usize_text i)) fin))).
      { intros C. apply in_concat in C. destruct C as (y & Hy & C). apply in_map_iff in Hy. destruct Hy as (n & <- & _). destruct (usize_label n) as (_ & _ & _ & N4). revert C. change (~ In "010"%char (quote ++ usize_text n ++ quote)). notin. }
      destruct fin; notin. }
    assert (NL : ~ In "010"%char (transition_text iow debug (fsi_text ioq) t)).
    { unfold transition_text, fsi_text. assert (NW : ~ In "010"%char (to_text iow (t_weight t))) by (intros C; apply HW in C; discriminate).
      assert (NC : ~ In "010"%char (commas (map debug (t_word t)))) by (apply commas_no; [discriminate|discriminate|]; intros y Hy; apply in_map_iff in Hy; destruct Hy as (x & <- & Hx); apply HT, Hx). notin. }
    assert (LW : forall a t', transition_text iow debug (fsi_text ioq) t = t' ++ [a] -> is_white a = false).
    { intros c t' EL. unfold transition_text in EL. rewrite !app_assoc in EL. destruct (exists_last NE) as (l & d & EX). rewrite EX, app_assoc in EL. apply app_inj_tail in EL. destruct EL as [_ <-]. apply HW. rewrite EX. apply in_app_iff. right. now left. }
    set (rest := concat (map (fun t => transition_text iow debug (fsi_text ioq) t ++ newline) ts)).
    match goal with |- context [lines [] ?x] => replace x with ((«"initial: "» ++ usize_text (fa_init a)) ++ newline ++ («"final: ["» ++ fl) ++ newline ++ [] ++ newline ++ transition_text iow debug (fsi_text ioq) t ++ newline ++ rest) by (unfold fl, rest; cbn [map List.concat]; rewrite <- !app_assoc; reflexivity) end.
    destruct (usize_label (fa_init a)) as (_ & _ & _ & N4).
    rewrite lines_app by notin. rewrite lines_app by notin. rewrite lines_app by (intros []). rewrite lines_app by assumption. cbn [rev]. change (strip_cr ([] ++ [])) with (@nil ascii). change (@nil ascii ++ transition_text iow debug (fsi_text ioq) t) with (transition_text iow debug (fsi_text ioq) t).
    rewrite (strip_cr_id (transition_text _ _ _ _)) by (intros l' EL; specialize (LW _ _ EL); discriminate).
    assert (EB : forall i f ls, fsa_lines ioq iot iow ([] :: transition_text iow debug (fsi_text ioq) t :: ls) i f [] = FErr).
    { intros i f ls. change (fsa_lines ioq iot iow ([] :: transition_text iow debug (fsi_text ioq) t :: ls) i f []) with (fsa_lines ioq iot iow (transition_text iow debug (fsi_text ioq) t :: ls) i f []).
      assert (EU : exists u, transition_text iow debug (fsi_text ioq) t = «"Transition"» ++ u) by (unfold transition_text; change «"Transition "» with («"Transition"» ++ [" "%char]); rewrite <- !app_assoc; eauto).
      destruct EU as (u & EU). rewrite EU in *. destruct (transition_line [] u [] ltac:(intros ? []) ltac:(intros ? []) LW) as (E1 & E2 & E3). rewrite !app_nil_r in E1, E2, E3. cbn [app] in E1, E2, E3.
      cbn [fsa_lines]. cbn [app] in EN |- *. cbn [list_ascii_of_string app] in E1, E2, E3, EN |- *. rewrite E1, E2, E3. rewrite EN. reflexivity. }
    assert (T1 : text_starts_with «"initial:"» (trim_start (strip_cr ([] ++ «"initial: "» ++ usize_text (fa_init a)))) = true).
    { rewrite strip_cr_id; [reflexivity|]. intros l' EL. cbn [app] in EL. destruct (exists_last (usize_text_nonempty (fa_init a))) as (l & d & EX). rewrite EX, app_assoc in EL. apply app_inj_tail in EL. destruct EL as [_ ->].
      destruct (usize_label (fa_init a)) as (_ & U2 & _). assert (C : is_white "013" = false) by (apply U2; rewrite EX; apply in_app_iff; right; now left). discriminate. }
    assert (E2 : strip_cr ([] ++ «"final: ["» ++ fl) = «"final: ["» ++ fl).
    { apply strip_cr_id. intros l' EL. cbn [app] in EL. unfold fl in EL. rewrite !app_assoc in EL. change «"]"» with ["]"%char] in EL. apply app_inj_tail in EL. destruct EL as [_ C]. discriminate. }
    rewrite E2. match goal with |- match fsa_lines _ _ _ (?l1 :: ?l2 :: ?ls) ?i ?f ?acc with _ => _ end = _ => destruct (initial_or (l2 :: ls) l1 i f acc T1) as [->|(q & ->)]; [reflexivity|]; destruct (final_or ls l2 (Some q) f acc eq_refl eq_refl) as [->|(qs & ->)]; [reflexivity|] end.
    now rewrite EB.
  Qed.
End Unreadable.
