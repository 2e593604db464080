(* Proofs about the reading of command lines: C58 *)
From Verif Require Import M_Nom Base M_CSAuto M_AutText M_Main M_Clap.
From Verif Require Import S_Clap P_Main.

Definition opt_of (a : arg) : opt := Opt (a_name a) (a_short a) (a_long a) (a_value a).
Definition options (args : list arg) : list opt := map opt_of (filter (fun a => negb (a_index a)) args).
(* spellings belong to one option *)
Definition clean (args : list arg) : Prop :=
  forall a, In a args ->
    (forall l, a_long a = Some l -> by_long args l = Some a /\ l <> [] /\ split_equals l = (l, None)) /\
    (forall c, a_short a = Some c -> by_short args c = Some a /\ c <> "-"%char) /\
    (a_index a = true -> a_short a = None /\ a_long a = None).

Lemma plain_option v : plain v <-> is_option v = false.
Proof.
  destruct v as [|c [|d v]]; cbn; [tauto| |].
  - destruct c as [[|] [|] [|] [|] [|] [|] [|] [|]]; tauto.
  - destruct (Ascii.eqb_spec c "-"%char) as [->|N]; [split; [tauto|discriminate]|].
    split; [reflexivity|intros _]. destruct c as [[|] [|] [|] [|] [|] [|] [|] [|]]; try exact I. now elim N.
Qed.
Lemma begins_spec v : begins_with_equals v <-> exists w, v = "="%char :: w.
Proof.
  destruct v as [|c v]; cbn; [split; [tauto|intros (w & E); discriminate]|]. split.
  - intros HB. exists v. destruct c as [[|] [|] [|] [|] [|] [|] [|] [|]]; tauto || reflexivity.
  - intros (w & E). injection E as -> _. exact I.
Qed.
Lemma split_equals_none s l : split_equals s = (l, None) -> s = l.
Proof.
  revert l. induction s as [|c s IH]; intros l; cbn; [congruence|]. destruct (Ascii.eqb c "="%char); [discriminate|].
  destruct (split_equals s) as [n v]. intros E. injection E as <- ->. f_equal. now apply IH.
Qed.
Lemma split_equals_some s l v : split_equals s = (l, Some v) -> s = l ++ "="%char :: v.
Proof.
  revert l v. induction s as [|c s IH]; intros l v; cbn; [discriminate|]. destruct (Ascii.eqb_spec c "="%char) as [->|N].
  - intros E. injection E as <- <-. reflexivity.
  - destruct (split_equals s) as [n w]. intros E. injection E as <- ->. cbn. f_equal. now apply IH.
Qed.
Lemma split_equals_app l v : split_equals l = (l, None) -> split_equals (l ++ "="%char :: v) = (l, Some v).
Proof.
  induction l as [|c l IH]; cbn; [reflexivity|]. destruct (Ascii.eqb c "="%char); [discriminate|]. destruct (split_equals l) as [n w] eqn:E. intros X. injection X as -> ->.
  now rewrite (IH eq_refl).
Qed.
Lemma trim_equals_app n v : ~ begins_with_equals v -> trim_equals (repeat "="%char n ++ v) = v.
Proof.
  intros HN. induction n as [|n IH]; cbn; [|exact IH]. destruct v as [|c v]; [reflexivity|]. cbn. destruct (Ascii.eqb_spec c "="%char) as [->|_]; [|reflexivity]. now elim HN.
Qed.
Lemma trim_equals_inv s : exists n, s = repeat "="%char n ++ trim_equals s /\ ~ begins_with_equals (trim_equals s).
Proof.
  induction s as [|c s (n & E & HN)]; cbn; [exists 0; split; [reflexivity|tauto]|]. destruct (Ascii.eqb_spec c "="%char) as [->|N].
  - exists (S n). split; [cbn; now rewrite <- E|exact HN].
  - exists 0. split; [reflexivity|]. intros HB. apply begins_spec in HB. destruct HB as (w & X). congruence.
Qed.

Section Words.
  Context (args : list arg) (CL : clean args).
  Notation opts := (options args).
  Lemma by_long_in l a : by_long args l = Some a -> In a args /\ a_long a = Some l.
  Proof.
    unfold by_long. intros E. apply find_some in E. destruct E as [HI E]. split; [exact HI|]. destruct (a_long a); [|discriminate]. apply same_word in E. now subst.
  Qed.
  Lemma by_short_in c a : by_short args c = Some a -> In a args /\ a_short a = Some c.
  Proof.
    unfold by_short. intros E. apply find_some in E. destruct E as [HI E]. split; [exact HI|]. destruct (a_short a); [|discriminate]. apply Ascii.eqb_eq in E. now subst.
  Qed.
  Lemma opt_in a : In a args -> a_index a = false -> In (opt_of a) opts.
  Proof. intros HI HX. apply in_map, filter_In. split; [exact HI|now rewrite HX]. Qed.
  Lemma opt_inv o : In o opts -> exists a, In a args /\ o = opt_of a.
  Proof. intros HI. apply in_map_iff in HI. destruct HI as (a & <- & HI). apply filter_In in HI. exists a. tauto. Qed.
  Lemma long_opt l a : by_long args l = Some a -> In (opt_of a) opts /\ o_long (opt_of a) = Some l.
  Proof.
    intros E. apply by_long_in in E. destruct E as [HI E]. split; [|exact E]. apply opt_in; [exact HI|]. destruct (a_index a) eqn:X; [|reflexivity].
    destruct (proj2 (proj2 (CL a HI)) X) as [_ Y]. congruence.
  Qed.
  Lemma short_opt c a : by_short args c = Some a -> In (opt_of a) opts /\ o_short (opt_of a) = Some c.
  Proof.
    intros E. apply by_short_in in E. destruct E as [HI E]. split; [|exact E]. apply opt_in; [exact HI|]. destruct (a_index a) eqn:X; [|reflexivity].
    destruct (proj2 (proj2 (CL a HI)) X) as [Y _]. congruence.
  Qed.
  Lemma opt_long o l : In o opts -> o_long o = Some l -> exists a, o = opt_of a /\ by_long args l = Some a /\ l <> [] /\ split_equals l = (l, None).
  Proof. intros HI E. apply opt_inv in HI. destruct HI as (a & HI & ->). exists a. split; [reflexivity|]. now apply (proj1 (CL a HI)). Qed.
  Lemma opt_short o c : In o opts -> o_short o = Some c -> exists a, o = opt_of a /\ by_short args c = Some a /\ c <> "-"%char.
  Proof. intros HI E. apply opt_inv in HI. destruct HI as (a & HI & ->). exists a. split; [reflexivity|]. now apply (proj1 (proj2 (CL a HI))). Qed.

  (* letters *)
  Lemma short_letters os cs s : letters opts os cs ->
    short_options args (cs ++ s) = let? r := short_options args s in Some (switched os ++ fst r, snd r).
  Proof.
    induction 1 as [|o c os cs (HI & HV & E) HL IH]; cbn [app].
    - cbn. destruct (short_options args s) as [[us w]|]; reflexivity.
    - destruct (opt_short o c HI E) as (a & -> & EB & _). cbn [short_options]. rewrite EB. cbn in HV. rewrite HV, IH. destruct (short_options args s) as [[us w]|]; reflexivity.
  Qed.
  Lemma letters_hyphen os c cs : letters opts os (c :: cs) -> Ascii.eqb c "-"%char = false.
  Proof. intros HL. inversion_clear HL as [|o ? os' ? (HI & _ & E) _]. destruct (opt_short o c HI E) as (_ & _ & _ & HN). now apply Ascii.eqb_neq. Qed.
  Lemma short_inv s us w : short_options args s = Some (us, w) ->
    match w with
    | None => (exists os, letters opts os s /\ us = switched os) \/
              (exists os cs o c n v, letters opts os cs /\ In o opts /\ o_value o = true /\ o_short o = Some c /\ ~ begins_with_equals v /\ (n <> 0 \/ v <> []) /\
                 s = cs ++ [c] ++ repeat "="%char n ++ v /\ us = switched os ++ [(o_name o, Some v)])
    | Some name => exists os cs o c, letters opts os cs /\ In o opts /\ o_value o = true /\ o_short o = Some c /\ s = cs ++ [c] /\ us = switched os /\ name = o_name o
    end.
  Proof.
    revert us w. induction s as [|c s IH]; intros us w.
    - cbn. intros E. injection E as <- <-. left. exists []. split; [constructor|reflexivity].
    - cbn [short_options]. destruct (by_short args c) as [a|] eqn:EB; [|discriminate]. destruct (short_opt c a EB) as [HI ES].
      destruct (a_value a) eqn:EV.
      + destruct s as [|d s].
        * intros E. injection E as <- <-. exists [], [], (opt_of a), c. repeat split; [constructor|exact HI|exact EV|exact ES].
        * intros E. remember (d :: s) as s' eqn:Es. assert (NE : s' <> []) by (subst; discriminate). clear Es.
          injection E as <- <-. right. destruct (trim_equals_inv s') as (n & Es & HB).
          exists [], [], (opt_of a), c, n, (trim_equals s'). split; [constructor|]. split; [exact HI|]. split; [exact EV|]. split; [exact ES|]. split; [exact HB|]. split; [|split; [|reflexivity]].
          -- destruct n as [|n]; [right|left; discriminate]. cbn in Es. congruence.
          -- cbn. now rewrite <- Es.
      + destruct (short_options args s) as [[us' w']|] eqn:ER; [|discriminate]. intros E. cbn in E. injection E as <- <-. specialize (IH us' w' eq_refl).
        assert (HL : In (opt_of a) opts /\ o_value (opt_of a) = false /\ o_short (opt_of a) = Some c) by (now split).
        destruct w' as [name|].
        * destruct IH as (os & cs & o & d & H1 & H2 & H3 & H4 & -> & -> & ->). exists (opt_of a :: os), (c :: cs), o, d. repeat split; try assumption. constructor; assumption.
        * destruct IH as [(os & H1 & ->)|(os & cs & o & d & n & v & H1 & H2 & H3 & H4 & H5 & H6 & -> & ->)].
          -- left. exists (opt_of a :: os). split; [constructor; assumption|reflexivity].
          -- right. exists (opt_of a :: os), (c :: cs), o, d, n, v. repeat split; try assumption. constructor; assumption.
  Qed.

  (* behind -- *)
  Lemma rest_iff indices words uses : read_words args indices true words = Some uses <->
    exists now later, map a_name indices = now ++ later /\ List.length now = List.length words /\ uses = combine now (map Some words).
  Proof.
    revert indices uses. induction words as [|w words IH]; intros indices uses; cbn [read_words negb andb].
    - split.
      + intros E. injection E as <-. exists [], (map a_name indices). now split.
      + intros (now & later & _ & HL & ->). destruct now; [reflexivity|discriminate].
    - destruct indices as [|a indices].
      + split; [discriminate|]. intros (now & later & E & HL & _). destruct now; discriminate.
      + specialize (IH indices). split.
        * destruct (read_words args indices true words) as [us|]; [|discriminate]. intros E. injection E as <-. destruct (proj1 (IH us) eq_refl) as (now & later & E & HL & ->).
          exists (a_name a :: now), later. cbn. now rewrite E, HL.
        * intros (now & later & E & HL & ->). destruct now as [|b now]; [discriminate|]. cbn in E, HL. injection E as <- E. injection HL as HL.
          rewrite (proj2 (IH (combine now (map Some words)))); [reflexivity|]. exists now, later. now split.
  Qed.

  (* a command line is read as it is written *)
  Lemma read_written indices words uses : written opts (map a_name indices) words uses -> read_words args indices false words = Some uses.
  Proof.
    intros HW. remember (map a_name indices) as names eqn:EN. revert indices EN. induction HW; intros indices EN.
    - reflexivity.
    - destruct indices as [|b indices]; [discriminate|]. cbn in EN. injection EN as -> ->. cbn [read_words]. rewrite (proj1 (plain_option v) H). cbn [negb andb]. now rewrite (IHHW indices eq_refl).
    - destruct (opt_long o l H H1) as (a & -> & EB & NE & ES). destruct l as [|c l]; [now elim NE|]. cbn [read_words app list_ascii_of_string String.append]. cbn [list_ascii_of_string app is_option negb andb Ascii.eqb Bool.eqb].
      rewrite ES, EB. cbn in H0. rewrite H0. now rewrite (IHHW indices EN).
    - destruct (opt_long o l H H1) as (a & -> & EB & NE & ES). destruct l as [|c l]; [now elim NE|]. cbn [read_words list_ascii_of_string app is_option negb andb Ascii.eqb Bool.eqb].
      rewrite ES, EB. cbn in H0. rewrite H0, (proj1 (plain_option v) H2). now rewrite (IHHW indices EN).
    - destruct (opt_long o l H H1) as (a & -> & EB & NE & ES). pose proof (split_equals_app l (repeat "="%char n ++ v) ES) as EQ.
      destruct l as [|c l]; [now elim NE|]. cbn [read_words list_ascii_of_string app is_option negb andb Ascii.eqb Bool.eqb repeat].
      cbn [app] in EQ. rewrite EQ, EB. cbn in H0. rewrite H0, (trim_equals_app n v H2). now rewrite (IHHW indices EN).
    - pose proof (short_letters os cs [] H0) as ES. rewrite app_nil_r in ES. cbn [short_options fst snd] in ES. rewrite app_nil_r in ES.
      destruct cs as [|c cs]; [inversion H0; subst; now elim H|]. cbn [read_words list_ascii_of_string app is_option negb andb Ascii.eqb Bool.eqb].
      rewrite (letters_hyphen _ _ _ H0), ES. cbn [fst snd]. now rewrite (IHHW indices EN).
    - pose proof (short_letters os cs [c] H) as ES. destruct (opt_short o c H0 H2) as (a & -> & EB & NC). cbn [short_options] in ES. rewrite EB in ES. cbn in H1. rewrite H1 in ES. cbn [fst snd] in ES. rewrite app_nil_r in ES.
      assert (EH : exists d ds, cs ++ [c] = d :: ds /\ Ascii.eqb d "-"%char = false).
      { destruct cs as [|d cs]; [exists c, []; split; [reflexivity|now apply Ascii.eqb_neq]|exists d, (cs ++ [c]); split; [reflexivity|exact (letters_hyphen _ _ _ H)]]. }
      destruct EH as (d & ds & ED & EH). rewrite ED in *. cbn [read_words list_ascii_of_string app is_option negb andb Ascii.eqb Bool.eqb].
      rewrite EH, ES. cbn [fst snd]. rewrite (proj1 (plain_option v) H3). now rewrite (IHHW indices EN).
    - pose proof (short_letters os cs ([c] ++ repeat "="%char n ++ v) H) as ES. destruct (opt_short o c H0 H2) as (a & -> & EB & NC). cbn [short_options app] in ES. rewrite EB in ES. cbn in H1. rewrite H1 in ES.
      assert (NV : repeat "="%char n ++ v <> []) by (destruct n; [destruct H4; [congruence|assumption]|discriminate]).
      assert (EH : exists d ds, cs ++ [c] ++ repeat "="%char n ++ v = d :: ds /\ Ascii.eqb d "-"%char = false).
      { destruct cs as [|d cs]; [exists c, (repeat "="%char n ++ v); split; [reflexivity|now apply Ascii.eqb_neq]|exists d, (cs ++ [c] ++ repeat "="%char n ++ v); split; [reflexivity|exact (letters_hyphen _ _ _ H)]]. }
      pose proof (trim_equals_app n v H3) as ET. destruct (repeat "="%char n ++ v) as [|e es]; [now elim NV|]. rewrite ET in ES.
      destruct EH as (d & ds & ED & EH). cbn [app] in ED. cbn [fst snd] in ES. cbn [app]. rewrite ED in *.
      cbn [read_words list_ascii_of_string app is_option negb andb Ascii.eqb Bool.eqb].
      rewrite EH, ES. cbn [fst snd]. rewrite (IHHW indices EN). now rewrite <- app_assoc.
    - cbn [read_words list_ascii_of_string is_option negb andb Ascii.eqb Bool.eqb]. apply rest_iff. exists arguments, more. now rewrite EN.
  Qed.
  Lemma written_read words : forall indices uses, read_words args indices false words = Some uses -> written opts (map a_name indices) words uses.
  Proof.
    remember (List.length words) as n eqn:En. assert (HN : List.length words <= n) by lia. clear En. revert words HN.
    induction n as [|n IH]; intros words HN indices uses.
    - destruct words; [|cbn in HN; lia]. cbn. intros E. injection E as <-. constructor.
    - destruct words as [|w words]; [cbn; intros E; injection E as <-; constructor|]. cbn in HN. cbn [read_words negb andb].
      destruct (is_option w) eqn:EO.
      + destruct w as [|h [|c name]]; [discriminate..|]. cbn in EO. apply Ascii.eqb_eq in EO. subst h.
        destruct (Ascii.eqb_spec c "-"%char) as [->|NC].
        * destruct name as [|d name'] eqn:EN.
          -- intros E. apply rest_iff in E. destruct E as (now & later & -> & HL & ->). now apply written_rest.
          -- rewrite <- EN. clear EN d name'. destruct (split_equals name) as [l v] eqn:ES. destruct (by_long args l) as [a|] eqn:EB; [|discriminate]. destruct (long_opt l a EB) as [HI EL].
             destruct (a_value a) eqn:EV; destruct v as [v|].
             ++ destruct (read_words args indices false words) as [us|] eqn:ER; [|discriminate]. intros E. injection E as <-. apply split_equals_some in ES.
                destruct (trim_equals_inv v) as (k & Ek & HB). rewrite ES. pose proof (written_long_equals opts (opt_of a) l k (trim_equals v) (map a_name indices) words us HI EV EL HB) as X.
                cbn [repeat app list_ascii_of_string] in X. rewrite <- Ek in X. apply X. apply IH; [lia|exact ER].
             ++ apply split_equals_none in ES. subst name. destruct words as [|v words]; [discriminate|]. destruct (is_option v) eqn:EP; [discriminate|].
                destruct (read_words args indices false words) as [us|] eqn:ER; [|discriminate]. intros E. injection E as <-.
                apply (written_long_value opts (opt_of a) l v); [exact HI|exact EV|exact EL|now apply plain_option|]. apply IH; [cbn in HN; lia|exact ER].
             ++ discriminate.
             ++ apply split_equals_none in ES. subst name. destruct (read_words args indices false words) as [us|] eqn:ER; [|discriminate]. intros E. injection E as <-.
                apply (written_long opts (opt_of a) l); [exact HI|exact EV|exact EL|]. apply IH; [lia|exact ER].
        * destruct (short_options args (c :: name)) as [[us w]|] eqn:ES; [|discriminate]. cbn [fst snd]. pose proof (short_inv _ _ _ ES) as HS. destruct w as [m|].
          -- destruct words as [|v words]; [discriminate|]. destruct (is_option v) eqn:EP; [discriminate|]. destruct (read_words args indices false words) as [vs|] eqn:ER; [|discriminate]. intros E. injection E as <-.
             destruct HS as (os & cs & o & d & H1 & H2 & H3 & H4 & -> & -> & ->).
             apply (written_short_value opts os cs o d v); try assumption; [now apply plain_option|]. apply IH; [cbn in HN; lia|exact ER].
          -- destruct (read_words args indices false words) as [vs|] eqn:ER; [|discriminate]. intros E. injection E as <-. assert (HW : written opts (map a_name indices) words vs) by (apply IH; [lia|exact ER]).
             destruct HS as [(os & H1 & ->)|(os & cs & o & d & k & v & H1 & H2 & H3 & H4 & H5 & H6 & -> & ->)].
             ++ apply (written_short opts os (c :: name)); [|exact H1|exact HW]. intros ->. inversion H1.
             ++ rewrite <- app_assoc. apply (written_short_now opts os cs o d k v); assumption.
      + destruct indices as [|a indices]; [discriminate|]. destruct (read_words args indices false words) as [us|] eqn:ER; [|discriminate]. intros E. injection E as <-.
        cbn [map]. constructor; [now apply plain_option|]. apply IH; [lia|exact ER].
  Qed.
End Words.

(* ---- the checks at the end ---- *)
Lemma NoDup_app_both {X : Type} (a b : list X) : NoDup a -> NoDup b -> (forall x, In x a -> ~ In x b) -> NoDup (a ++ b).
Proof.
  induction a as [|x a IH]; intros HA HB HD; [exact HB|]. inversion_clear HA as [|? ? NI HA']. cbn. constructor.
  - intros HI. apply in_app_or in HI. destruct HI as [HI|HI]; [now apply NI|]. apply (HD x); [now left|exact HI].
  - apply IH; [exact HA'|exact HB|]. intros y HY. apply HD. now right.
Qed.
Lemma used_iff uses n : used uses n = true <-> In n (map fst uses).
Proof.
  unfold used. rewrite existsb_exists, in_map_iff. split; intros (u & H1 & H2); exists u; [apply same_word in H2|]; split; try assumption. now apply same_word.
Qed.
Lemma all_different_iff ns : all_different ns = true <-> NoDup ns.
Proof.
  induction ns as [|n ns IH]; cbn; [split; [constructor|reflexivity]|]. rewrite andb_true_iff, negb_true_iff, IH. split.
  - intros [HN HD]. constructor; [|exact HD]. intros HI. assert (X : existsb (word_eqb n) ns = true) by (apply existsb_exists; exists n; split; [exact HI|now apply same_word]). congruence.
  - intros HD. inversion_clear HD as [|? ? HN HD']. split; [|exact HD']. destruct (existsb (word_eqb n) ns) eqn:E; [|reflexivity]. exfalso. apply HN.
    apply existsb_exists in E. destruct E as (x & HI & E). apply same_word in E. now subst.
Qed.

(* the declarations agree with the usage *)
Record fits (args : list arg) (u : usage) : Prop := Fits {
  f_clean : clean args;
  f_names : NoDup (map a_name args);
  f_options : options args = u_options u;
  f_arguments : map a_name (filter a_index args) = u_arguments u;
  f_required : map a_name (filter a_required args) = u_required u;
  f_defaults : flat_map (fun a => match a_default a with Some d => [(a_name a, d)] | None => [] end) args = u_defaults u;
  f_conflicts : forall x y, (exists a, In a args /\ a_name a = x /\ In y (a_conflicts a)) <-> In (x, y) (u_conflicts u) \/ In (y, x) (u_conflicts u) }.

Lemma written_names opts arguments words uses : written opts arguments words uses ->
  forall n w, In (n, w) uses -> match w with Some _ => In n arguments \/ exists o, In o opts /\ o_name o = n /\ o_value o = true | None => exists o, In o opts /\ o_name o = n /\ o_value o = false end.
Proof.
  assert (SW : forall os cs n w, letters opts os cs -> In (n, w) (switched os) -> w = None /\ exists o, In o opts /\ o_name o = n /\ o_value o = false).
  { intros os cs n w HL. induction HL as [|o c os cs (HI & HV & _) HL IH]; cbn; [tauto|]. intros [E|HX]; [|auto]. injection E as <- <-. split; [reflexivity|]. now exists o. }
  induction 1; intros m w HI.
  - destruct HI.
  - destruct HI as [E|HI]; [injection E as <- <-; left; now left|]. apply IHwritten in HI. destruct w; [|exact HI]. destruct HI as [HI|HI]; [left; now right|now right].
  - destruct HI as [E|HI]; [injection E as <- <-; now exists o|]. now apply IHwritten.
  - destruct HI as [E|HI]; [injection E as <- <-; right; now exists o|]. now apply IHwritten.
  - destruct HI as [E|HI]; [injection E as <- <-; right; now exists o|]. now apply IHwritten.
  - apply in_app_or in HI. destruct HI as [HI|HI]; [destruct (SW _ _ _ _ H0 HI) as [-> X]; exact X|now apply IHwritten].
  - apply in_app_or in HI. destruct HI as [HI|[E|HI]]; [destruct (SW _ _ _ _ H HI) as [-> X]; exact X|injection E as <- <-; right; now exists o|now apply IHwritten].
  - apply in_app_or in HI. destruct HI as [HI|[E|HI]]; [destruct (SW _ _ _ _ H HI) as [-> X]; exact X|injection E as <- <-; right; now exists o|now apply IHwritten].
  - pose proof (in_combine_l _ _ _ _ HI) as HL. pose proof (in_combine_r _ _ _ _ HI) as HR. apply in_map_iff in HR. destruct HR as (x & <- & _). left. apply in_or_app. now left.
Qed.

Section Leaf.
  Context (args : list arg) (u : usage) (F : fits args u).
  Lemma checked_iff uses : (exists m, checked_matches args uses = Some m) <-> allowed u uses.
  Proof.
    unfold checked_matches, allowed. destruct F as [_ _ _ _ HR _ HC].
    assert (R : forallb (fun a => implb (a_required a) (used uses (a_name a))) args = true <-> (forall n, In n (u_required u) -> In n (map fst uses))).
    { rewrite forallb_forall, <- HR. split.
      - intros HA n HI. apply in_map_iff in HI. destruct HI as (a & <- & HI). apply filter_In in HI. destruct HI as [HI E]. specialize (HA a HI). rewrite E in HA. now apply used_iff.
      - intros HA a HI. destruct (a_required a) eqn:E; [|reflexivity]. cbn. apply used_iff, HA, in_map, filter_In. now split. }
    assert (C : forallb (fun a => implb (used uses (a_name a)) (negb (existsb (used uses) (a_conflicts a)))) args = true <->
                (forall a b, In (a, b) (u_conflicts u) -> ~ (In a (map fst uses) /\ In b (map fst uses)))).
    { rewrite forallb_forall. split.
      - intros HA x y HI [H1 H2]. destruct (proj2 (HC x y) (or_introl HI)) as (a & Ha & <- & Hy). specialize (HA a Ha). rewrite (proj2 (used_iff _ _) H1) in HA. cbn in HA.
        apply negb_true_iff in HA. assert (X : existsb (used uses) (a_conflicts a) = true) by (apply existsb_exists; exists y; split; [exact Hy|now apply used_iff]). congruence.
      - intros HA a Ha. destruct (used uses (a_name a)) eqn:E1; [|reflexivity]. cbn. apply negb_true_iff. destruct (existsb (used uses) (a_conflicts a)) eqn:E2; [|reflexivity]. exfalso.
        apply existsb_exists in E2. destruct E2 as (y & Hy & E2). apply used_iff in E1, E2. destruct (proj1 (HC (a_name a) y) (ex_intro _ a (conj Ha (conj eq_refl Hy)))) as [X|X]; apply (HA _ _ X); now split. }
    rewrite <- all_different_iff, <- R, <- C.
    destruct (all_different (map fst uses)); [|cbn; split; [intros (m & E); discriminate|intuition discriminate]].
    destruct (forallb (fun a => implb (a_required a) (used uses (a_name a))) args); [|cbn; split; [intros (m & E); discriminate|intuition discriminate]].
    destruct (forallb (fun a => implb (used uses (a_name a)) (negb (existsb (used uses) (a_conflicts a)))) args); [|cbn; split; [intros (m & E); discriminate|intuition discriminate]].
    cbn. split; [auto|intros _; eexists; reflexivity].
  Qed.
  Lemma checked_told uses m : checked_matches args uses = Some m -> told u uses (am_values m) (am_flags m).
  Proof.
    intros E. pose proof (proj1 (checked_iff uses) (ex_intro _ m E)) as (ND & _ & _). unfold checked_matches in E.
    match type of E with (if ?b then _ else _) = _ => destruct b; [|discriminate] end. injection E as <-. destruct F as [_ HN _ _ _ HD _]. unfold told. cbn [am_values am_flags].
    assert (G : forall n v, In (n, v) (flat_map (fun u : use => match snd u with Some v => [(fst u, v)] | None => [] end) uses) <-> In (n, Some v) uses).
    { intros n v. rewrite in_flat_map. split.
      - intros ([k [w|]] & HI & HX); cbn in HX; [|tauto]. destruct HX as [X|[]]. now injection X as -> ->.
      - intros HI. exists (n, Some v). split; [exact HI|now left]. }
    assert (D : forall n v, In (n, v) (flat_map (fun a => match a_default a with Some d => if used uses (a_name a) then [] else [(a_name a, d)] | None => [] end) args) <->
                            In (n, v) (u_defaults u) /\ ~ In n (map fst uses)).
    { intros n v. rewrite <- HD, !in_flat_map. split.
      - intros (a & HI & HX). destruct (a_default a) as [d|] eqn:Ed; [|destruct HX]. destruct (used uses (a_name a)) eqn:EU; [destruct HX|]. destruct HX as [X|[]]. injection X as <- <-. split.
        + exists a. split; [exact HI|]. rewrite Ed. now left.
        + intros X. apply used_iff in X. congruence.
      - intros ((a & HI & HX) & NI). destruct (a_default a) as [d|] eqn:Ed; [|destruct HX]. destruct HX as [X|[]]. injection X as <- <-. exists a. split; [exact HI|]. rewrite Ed.
        destruct (used uses (a_name a)) eqn:EU; [now apply used_iff in EU|now left]. }
    split; [|split].
    - rewrite map_app. apply NoDup_app_both.
      + clear - ND. induction uses as [|[k [w|]] uses IH]; cbn in *; [constructor| |]; inversion_clear ND as [|? ? HN ND']; auto. constructor; [|auto]. intros HI. apply HN. apply in_map_iff in HI. destruct HI as ([x y] & E & HI). cbn in E. subst.
        apply in_flat_map in HI. destruct HI as ([x' [w'|]] & HI & HX); cbn in HX; [|destruct HX]. destruct HX as [X|[]]. injection X as -> ->. apply in_map_iff. now exists (k, Some y).
      + clear - HN. induction args as [|a l IH]; cbn in *; [constructor|]. inversion_clear HN as [|? ? NI HN']. destruct (a_default a) as [d|]; [|auto]. destruct (used uses (a_name a)); [auto|]. cbn. constructor; [|auto].
        intros HI. apply NI. apply in_map_iff in HI. destruct HI as ([x y] & E & HI). cbn in E. subst. apply in_flat_map in HI. destruct HI as (b & HI & HX). destruct (a_default b); [|destruct HX]. destruct (used uses (a_name b)); [destruct HX|]. destruct HX as [X|[]].
        injection X as X _. rewrite <- X. now apply in_map.
      + intros n H1 H2. apply in_map_iff in H1, H2. destruct H1 as ([x v] & E1 & H1). destruct H2 as ([y w] & E2 & H2). cbn in *. subst. apply G in H1. apply D in H2. destruct H2 as [_ H2]. apply H2. apply in_map_iff. now exists (n, Some v).
    - intros n v. rewrite in_app_iff, G, D. tauto.
    - intros n. rewrite in_flat_map. split.
      + intros ([k [w|]] & HI & HX); cbn in HX; [tauto|]. destruct HX as [->|[]]. exact HI.
      + intros HI. exists (n, None). split; [exact HI|now left].
  Qed.
  Definition leaf (words : list bytes) : option arg_matches := let? uses := read_words args (filter a_index args) false words in checked_matches args uses.
  Lemma leaf_told words m : leaf words = Some m -> exists uses, written (u_options u) (u_arguments u) words uses /\ allowed u uses /\ told u uses (am_values m) (am_flags m).
  Proof.
    unfold leaf. destruct (read_words args (filter a_index args) false words) as [uses|] eqn:ER; [|discriminate]. intros E. exists uses. split; [|split].
    - rewrite <- (f_options _ _ F), <- (f_arguments _ _ F). apply written_read; [exact (f_clean _ _ F)|exact ER].
    - apply checked_iff. now exists m.
    - now apply checked_told.
  Qed.
  Lemma told_leaf words uses : written (u_options u) (u_arguments u) words uses -> allowed u uses -> exists m, leaf words = Some m /\ told u uses (am_values m) (am_flags m).
  Proof.
    rewrite <- (f_options _ _ F), <- (f_arguments _ _ F). intros HW HA. apply (read_written args (f_clean _ _ F)) in HW. unfold leaf. rewrite HW.
    destruct (proj2 (checked_iff uses) HA) as (m & E). exists m. split; [exact E|now apply checked_told].
  Qed.
End Leaf.

(* ---- the subcommands ---- *)
Fixpoint leaf_of (a : clap_app) (path : list bytes) : option (list arg) :=
  match path with
  | [] => match app_subcommands a with [] => Some (app_args a) | _ => None end
  | w :: path => match find (fun s => word_eqb (app_name s) w) (app_subcommands a) with Some s => leaf_of s path | None => None end
  end.
Lemma get_leaf path : forall a args words, leaf_of a path = Some args -> get_matches a (path ++ words) = let? m := leaf args words in Some (path, m).
Proof.
  induction path as [|w path IH]; intros a args words; cbn [leaf_of app].
  - destruct (app_subcommands a) eqn:ES; [|discriminate]. intros E. injection E as <-. unfold leaf. destruct words as [|w words]; cbn [get_matches]; [|rewrite ES; cbn [find]];
      destruct (read_words (app_args a) (filter a_index (app_args a)) false _); reflexivity.
  - cbn [get_matches]. destruct (find (fun s => word_eqb (app_name s) w) (app_subcommands a)) as [s|]; [|discriminate]. intros E. rewrite (IH s args words E). destruct (leaf args words); reflexivity.
Qed.
Ltac conflicts_none := intros x y; split; [intros (a & HI & _ & HX); repeat (destruct HI as [<-|HI]; [destruct HX|]); destruct HI|intros [HX|HX]; destruct HX].
Ltac fits_tac :=
  split;
  [intros a HI; repeat (destruct HI as [<-|HI]; [split; [intros l E; first [discriminate E|injection E as <-; split; [vm_compute; reflexivity|split; [discriminate|vm_compute; reflexivity]]]|
      split; [intros c E; first [discriminate E|injection E as <-; split; [vm_compute; reflexivity|discriminate]]|intros E; first [discriminate E|split; reflexivity]]]|]); destruct HI
  |cbn; repeat (constructor; [cbn; intuition discriminate|]); constructor
  |vm_compute; reflexivity|vm_compute; reflexivity|vm_compute; reflexivity|vm_compute; reflexivity|].
Lemma usages_fit u : In u usages -> exists args, leaf_of rustomata_app (u_path u) = Some args /\ fits args u.
Proof.
  intros HI. unfold usages in HI. repeat (destruct HI as [<-|HI]; [eexists; split; [vm_compute; reflexivity|fits_tac; try conflicts_none]|]); [|destruct HI].
  intros x y. split.
  - intros (a & HI & <- & HX). repeat (destruct HI as [<-|HI]; [cbn in HX; try tauto; destruct HX as [<-|[]]; cbn; tauto|]). destruct HI.
  - cbn [u_conflicts In]. intros [[HX|HX]|[HX|HX]]; try contradiction; injection HX as <- <-; eexists; split;
      [do 3 right; left; reflexivity|split; [reflexivity|left; reflexivity]|do 4 right; left; reflexivity|split; [reflexivity|left; reflexivity]].
Qed.
