From Coq Require Import QArith.
From Verif Require Import M_Nom Base M_Recog M_CFG M_Grammar M_Text S_Text P_Text M_Import S_Import.
Open Scope nat_scope.

(* ---- separated lists ---- *)
Section Sep.
  Context {X : Type} (sep : parser unit) (p : parser X) (Sep : bytes -> Prop) (E : bytes -> X -> Prop) (After : bytes -> Prop) (stop : bytes)
    (Hsep : forall s e x t, Sep s -> E e x -> sep (s ++ e ++ t) = Done (e ++ t) tt)
    (Hp : forall e x rest, E e x -> After rest -> p (e ++ rest) = Done rest x)
    (HA1 : forall s t, Sep s -> After (s ++ t)) (HA2 : After stop)
    (NS : forall s, Sep s -> s <> []) (NE : forall e x, E e x -> e <> [])
    (Hstop : (sep stop = Error \/ sep stop = Incomplete) \/ exists i2, sep stop = Done i2 tt /\ length i2 <> length stop /\ (p i2 = Error \/ p i2 = Incomplete)).
  Lemma shorter (s t : bytes) : s <> [] -> Nat.eqb (length t) (length (s ++ t)) = false.
  Proof. intros H. apply Nat.eqb_neq. rewrite app_length. destruct s; [congruence|cbn; lia]. Qed.
  Lemma listing_first t xs : listing Sep E t xs -> exists e x u, E e x /\ t = e ++ u.
  Proof. intros H. inversion H as [e x He|e s u x xs' He Hs Hu]; subst; [exists t, x, []; now rewrite app_nil_r|eauto]. Qed.
  Lemma loop_stop fuel : sep_loop sep p fuel stop = Done stop [].
  Proof.
    destruct fuel as [|fuel]; [reflexivity|]. cbn. destruct Hstop as [[H|H]|(i2 & H & L & H2)]; rewrite H; try reflexivity. apply Nat.eqb_neq in L. rewrite L. destruct H2 as [-> | ->]; reflexivity.
  Qed.
  Lemma loop_app t xs : listing Sep E t xs -> forall s fuel, Sep s -> length t <= fuel -> sep_loop sep p fuel (s ++ t ++ stop) = Done stop xs.
  Proof.
    intros H. induction H as [e x He|e s' t x xs He Hs' Ht IH]; intros s fuel Hs L; (destruct fuel as [|fuel]; [pose proof (NE _ _ He); destruct e; [congruence|cbn in L; lia]|]); cbn [sep_loop].
    - rewrite (Hsep _ _ _ _ Hs He), (shorter s) by auto. rewrite (Hp _ _ _ He HA2), (shorter e) by eauto. now rewrite loop_stop.
    - rewrite <- !app_assoc. rewrite (Hsep _ _ _ _ Hs He), (shorter s) by auto. rewrite (Hp _ _ _ He) by auto. rewrite (shorter e) by eauto. rewrite IH; [reflexivity|assumption|]. rewrite !app_length in L. pose proof (NS _ Hs'). destruct s'; [congruence|cbn in L; lia].
  Qed.
  Lemma listing_app t xs : listing Sep E t xs -> separated_nonempty_list sep p (t ++ stop) = Done stop xs /\ separated_list sep p (t ++ stop) = Done stop xs.
  Proof.
    intros H. unfold separated_nonempty_list, separated_list. inversion H as [e x He|e s u x xs' He Hs Hu]; subst.
    - rewrite (Hp _ _ _ He HA2), (shorter t) by eauto. now rewrite loop_stop.
    - rewrite <- !app_assoc, (Hp _ _ _ He) by auto. rewrite (shorter e) by eauto. rewrite (loop_app u xs' Hu s); [auto|assumption|]. rewrite !app_length. lia.
  Qed.
End Sep.

(* ---- words, blanks, numbers ---- *)
Lemma word_token s : word s -> forall a, In a s -> is_token a = true.
Proof. intros [_ H] a Ha. unfold is_token. now rewrite (H a Ha). Qed.
Lemma space_white a : is_space a = true -> is_white a = true.
Proof. unfold is_space. intros H. apply Bool.orb_true_iff in H. destruct H as [H|H]; apply beqb_true in H; subst; reflexivity. Qed.
Definition no_token (rest : bytes) : Prop := ends is_token rest.
Lemma blanks_no_token s t : blanks s -> no_token (s ++ t).
Proof. intros [NE H] a r E. destruct s as [|b s]; [congruence|]. injection E as <- _. unfold is_token. destruct (H b (or_introl eq_refl)) as [-> | ->]; reflexivity. Qed.
Lemma nil_ends f : ends f [].
Proof. intros a r H. discriminate. Qed.
Lemma newline_no_token t : no_token (newline ++ t).
Proof. intros a r E. injection E as <- _. reflexivity. Qed.
Lemma word_no_space s t : word s -> ends is_space (s ++ t).
Proof.
  intros [NE H] a r E. destruct s as [|b s]; [congruence|]. injection E as <- _. specialize (H b (or_introl eq_refl)). destruct (is_space b) eqn:Sb; [|reflexivity]. apply space_white in Sb. congruence.
Qed.
Lemma space_app s t : blanks s -> ends is_space t -> space (s ++ t) = Done t s.
Proof. intros [NE H] Et. unfold space. apply take_while1_app; [assumption|now apply spaces_is|assumption]. Qed.
Lemma word1_app s t : word s -> no_token t -> take_while1 is_token (s ++ t) = Done t s.
Proof. intros H Et. apply take_while1_app; [apply H|now apply word_token|assumption]. Qed.
Lemma field_app s w t : blanks s -> word w -> no_token t -> parse_field (s ++ w ++ t) = Done t w.
Proof. intros Hs Hw Ht. unfold parse_field. rewrite (pb _ _ _ (w ++ t) s); [now apply word1_app|]. apply space_app; [assumption|now apply word_no_space]. Qed.
Lemma digit_white a : is_digit a = true -> is_white a = false.
Proof.
  unfold is_digit, is_white. intros H. apply andb_true_iff in H. destruct H as [H1 H2]. apply Nat.leb_le in H1, H2.
  apply Bool.orb_false_iff. split; [apply Nat.eqb_neq; lia|]. apply Bool.andb_false_iff. right. apply Nat.leb_gt. lia.
Qed.
Lemma digits_word s : digits s -> word s.
Proof. intros [NE H]. split; [assumption|]. intros a Ha. now apply digit_white, H. Qed.
Lemma white_digit a : is_white a = true -> is_digit a = false.
Proof. intros H. destruct (is_digit a) eqn:D; [|reflexivity]. apply digit_white in D. congruence. Qed.
Lemma no_token_digit t : no_token t -> ends is_digit t.
Proof. intros H a r E. specialize (H a r E). unfold is_token in H. apply Bool.negb_false_iff in H. now apply white_digit. Qed.
Lemma digit_app s t : digits s -> ends is_digit t -> digit (s ++ t) = Done t s.
Proof. intros [NE H] Et. unfold digit. now apply take_while1_app. Qed.

Section Disco.
  Context {N T W : Type} (ops : num_ops W) (ion : text_io N) (iot : text_io T) (iow : text_io W) (neq : N -> N -> bool) (checked : bool).

  Lemma count_word t w : count ops iow t w -> word t.
  Proof.
    intros [[H _]|(num & den & n & d & Hn & Hd & -> & _)]; [now apply digits_word|]. apply digits_word in Hn, Hd. split; [destruct Hn as [NE _]; destruct num; [congruence|discriminate]|].
    intros a Ha. apply in_app_iff in Ha. destruct Ha as [Ha|[<-|Ha]]; [now apply Hn|reflexivity|now apply Hd].
  Qed.
  Lemma slash_no_token t : no_token t -> opt (complete (skip tag «"/"»; digit)) t = Done t None.
  Proof.
    intros H. unfold opt, complete, pbind. destruct t as [|a t]; [reflexivity|]. specialize (H a t eq_refl). cbn [list_ascii_of_string]. rewrite tag1_error; [reflexivity|]. intros ->. discriminate.
  Qed.
  Lemma count_app t w rest : count ops iow t w -> no_token rest -> parse_pseudocount ops iow (t ++ rest) = Done rest w.
  Proof.
    intros H HR. unfold parse_pseudocount, map_opt. destruct H as [[Hd HW]|(num & den & n & d & Hn & Hd & -> & E1 & E2 & ->)].
    - rewrite (pb _ _ _ rest t); [|apply digit_app; [assumption|now apply no_token_digit]]. rewrite (pb _ _ _ rest None); [|now apply slash_no_token]. cbn [pret]. now rewrite HW.
    - rewrite <- !app_assoc. rewrite (pb _ _ _ («"/"» ++ den ++ rest) num); [|apply digit_app; [assumption|intros a r E; injection E as <- _; reflexivity]].
      rewrite (pb _ _ _ rest (Some den)); [cbn [pret]; now rewrite E1, E2|]. unfold opt, complete. rewrite (pb _ _ _ (den ++ rest) tt); [|apply tag_app]. rewrite digit_app; [reflexivity|assumption|now apply no_token_digit].
  Qed.

  (* ---- yields ---- *)
  Fixpoint value (c : list bool) : BinNums.N := match c with [] => 0%N | b :: c => (2 * value c + (if b then 1 else 0))%N end.
  Lemma from_binary_app c : forall i acc, i + length c <= 64 -> from_binary checked i (Some acc) (map bit c) = FOk (2 ^ N.of_nat i * value c + acc)%N.
  Proof.
    induction c as [|b c IH]; intros i acc L; cbn [map from_binary value].
    - f_equal. lia.
    - cbn [length] in L. destruct b; cbn [bit].
      + change (beqb "1" "0") with false. change (beqb "1" "1") with true. cbn [beqb]. unfold u64_pow. replace (i <? 64) with true by (symmetry; apply Nat.ltb_lt; lia). cbn [option_map]. rewrite IH by lia. f_equal.
        rewrite Nat2N.inj_succ, N.pow_succ_r by lia. lia.
      + change (beqb "0" "0") with true. cbn iota. rewrite IH by lia. f_equal. rewrite Nat2N.inj_succ, N.pow_succ_r by lia. lia.
  Qed.
  Lemma value_bit c : forall k, N.testbit (value c) (N.of_nat k) = nth k c false.
  Proof.
    induction c as [|b c IH]; intros k; cbn [value]; [rewrite N.bits_0; now destruct k|]. destruct k as [|k].
    - change (N.of_nat 0) with 0%N. destruct b; [apply N.testbit_odd_0|]. rewrite N.add_0_r. apply N.testbit_even_0.
    - rewrite Nat2N.inj_succ. cbn [nth]. rewrite <- IH. destruct b; [now rewrite N.testbit_odd_succ by lia|]. rewrite N.add_0_r. now rewrite N.testbit_even_succ by lia.
  Qed.
  Lemma land_pow k c : (N.land (2 ^ k) c =? 0)%N = negb (N.testbit c k).
  Proof.
    destruct (N.testbit c k) eqn:E; cbn [negb].
    - apply N.eqb_neq. intros H. assert (C : N.testbit (N.land (2 ^ k) c) k = false) by (rewrite H; apply N.bits_0). rewrite N.land_spec, N.pow2_bits_true, E in C. discriminate.
    - apply N.eqb_eq. apply N.bits_inj. intros j. rewrite N.land_spec, N.bits_0. destruct (N.eq_dec k j) as [->|NE]; [now rewrite E, andb_false_r|]. now rewrite N.pow2_bits_false.
  Qed.
  Lemma read_component_app (c0 c : list bool) : forall s1 s2 p, c0 = p ++ c -> length c0 <= 64 ->
    read_component (T := T) checked (length c) (length p) (value c0) s1 s2 = Some (rparse_component c s1 s2).
  Proof.
    induction c as [|b c IH]; intros s1 s2 p E L; cbn [length read_component rparse_component]; [reflexivity|]. assert (L' := L). rewrite E, app_length in L'. cbn [length] in L'.
    unfold u64_pow. replace (length p <? 64) with true by (symmetry; apply Nat.ltb_lt; lia). rewrite land_pow, value_bit.
    replace (nth (length p) c0 false) with b by (rewrite E, app_nth2, Nat.sub_diag by lia; reflexivity).
    assert (E' : c0 = (p ++ [b]) ++ c) by (rewrite <- app_assoc; exact E). destruct b; cbn [negb].
    - specialize (IH s1 (S s2) (p ++ [true]) E' L). rewrite app_length, Nat.add_comm in IH. cbn [length Nat.add] in IH. rewrite IH. destruct (rparse_component c s1 (S s2)) as [[l a] z]. reflexivity.
    - specialize (IH (S s1) s2 (p ++ [false]) E' L). rewrite app_length, Nat.add_comm in IH. cbn [length Nat.add] in IH. rewrite IH. destruct (rparse_component c (S s1) s2) as [[l a] z]. reflexivity.
  Qed.
  Definition packed (c : list bool) : nat * BinNums.N := (length c mod 256, value c).
  Lemma read_yield_app (y : yield) : (forall c, In c y -> length c <= 64) -> forall s1 s2, read_yield (T := T) checked (map packed y) s1 s2 = Some (rparse_composition y s1 s2).
  Proof.
    induction y as [|c y IH]; intros H s1 s2; cbn [map read_yield rparse_composition packed]; [reflexivity|]. pose proof (H c (or_introl eq_refl)) as Lc.
    unfold packed at 1. rewrite Nat.mod_small by lia.
    pose proof (read_component_app c c s1 s2 [] eq_refl Lc) as RC. cbn [length] in RC. rewrite RC. destruct (rparse_component c s1 s2) as [[l a] b]. rewrite IH; [reflexivity|]. intros c' Hc'. apply H. now right.
  Qed.
  Lemma bits_digits c a : In a (map bit c) -> is_binary_digit a = true.
  Proof. intros H. apply in_map_iff in H. destruct H as (b & <- & _). destruct b; reflexivity. Qed.
  Lemma component_parse c rest : length c <= 64 -> ends is_binary_digit rest -> parse_yield_component checked (map bit c ++ rest) = Done rest (packed c).
  Proof.
    intros L E. unfold parse_yield_component. rewrite (pb _ _ _ rest (map bit c)); [|apply take_while_app; [apply bits_digits|assumption]].
    rewrite from_binary_app by (cbn; lia). cbn [N.of_nat]. unfold packed. rewrite map_length. do 2 f_equal. change (2 ^ 0)%N with 1%N. lia.
  Qed.
  Lemma yield_word t y : yield_text t y -> word t.
  Proof.
    intros H. assert (B : forall c a, In a (map bit c) -> is_white a = false) by (intros c a Ha; apply in_map_iff in Ha; destruct Ha as (b & <- & _); destruct b; reflexivity).
    induction H as [e c [NE ->]|e s t c y [NE ->] <- Ht IH].
    - split; [destruct c; [congruence|discriminate]|apply B].
    - split; [destruct c; [congruence|discriminate]|]. intros a Ha. apply in_app_iff in Ha. destruct Ha as [Ha|[<-|Ha]]; [eapply B, Ha|reflexivity|now apply IH].
  Qed.
  Lemma listing_map {X Y} (f : X -> Y) Sep (E : bytes -> X -> Prop) (E' : bytes -> Y -> Prop) t xs : listing Sep E t xs -> (forall e x, In x xs -> E e x -> E' e (f x)) -> listing Sep E' t (map f xs).
  Proof.
    intros H. induction H as [e x He|e s t x xs He Hs Ht IH]; intros HE; cbn [map].
    - apply l_one. apply HE; [now left|assumption].
    - apply l_cons; [apply HE; [now left|assumption]|assumption|]. apply IH. intros e' x' Hx. apply HE. now right.
  Qed.
  Lemma yield_parse t y : yield_text t y -> (forall c, In c y -> length c <= 64) -> parse_yield checked t = Done [] (map packed y).
  Proof.
    intros H L. rewrite <- (app_nil_r t). unfold parse_yield.
    apply (listing_app (tag «","») (parse_yield_component checked) (eq «","») (fun e v => exists c, c <> [] /\ length c <= 64 /\ e = map bit c /\ v = packed c) (ends is_binary_digit) []).
    - intros s e x u <- _. apply tag_app.
    - intros e x rest (c & _ & Lc & -> & ->) HR. now apply component_parse.
    - intros s u <- a r E. injection E as <- _. reflexivity.
    - apply nil_ends.
    - intros s <-. discriminate.
    - intros e x (c & NE & _ & -> & _). destruct c; [congruence|discriminate].
    - left. right. reflexivity.
    - apply (listing_map packed _ _ _ t y H). intros e c Hc [NE ->]. exists c. auto.
  Qed.

  (* ---- lines ---- *)
  Definition deriv_of (r : import_rule N W) : disco_deriv := match ir_rhs2 r with None => Chain (ir_lhs r) (ir_rhs1 r) | Some n => Binary (ir_lhs r) (ir_rhs1 r) n end.
  Definition disco_of (r : import_rule N W) : disco_deriv * list (nat * BinNums.N) * W := (deriv_of r, map packed (ir_yield r), ir_weight r).
  Definition narrow (r : import_rule N W) : Prop := forall c, In c (ir_yield r) -> length c <= 64.
  Lemma disco_line_app t r rest : disco_line ops ion iow t r -> narrow r -> no_token rest -> ends is_space rest ->
    parse_constituent ops ion iow checked (t ++ rest) = Done rest (disco_of r).
  Proof.
    intros (l & s1 & a & s2 & m & y & s4 & w & B1 & B2 & B4 & -> & [Wl El] & [Wa Ea] & Hy & Hc & Hm) HN HR HS.
    unfold parse_constituent. rewrite <- !app_assoc. pose proof (yield_word _ _ Hy) as Wy. pose proof (count_word _ _ Hc) as Ww.
    assert (NF : opt (complete parse_field) rest = Done rest None).
    { unfold opt, complete, parse_field, pbind, space, take_while1. destruct rest as [|z rest]; [reflexivity|]. cbn [span]. rewrite (HS z rest eq_refl). reflexivity. }
    rewrite (pb _ _ _ (s1 ++ a ++ s2 ++ m ++ y ++ s4 ++ w ++ rest) l); [|apply word1_app; [assumption|now apply blanks_no_token]].
    rewrite (pb _ _ _ (s2 ++ m ++ y ++ s4 ++ w ++ rest) a); [|apply field_app; auto; now apply blanks_no_token].
    assert (CP : to_result (parse_pseudocount ops iow w) = FOk (ir_weight r)) by (rewrite <- (app_nil_r w), (count_app w (ir_weight r) [] Hc); [reflexivity|apply nil_ends]).
    unfold disco_of, deriv_of. destruct (ir_rhs2 r) as [n|].
    - destruct Hm as (b & s3 & B3 & [Wb Eb] & ->). rewrite <- !app_assoc.
      rewrite (pb _ _ _ (s3 ++ y ++ s4 ++ w ++ rest) b); [|apply field_app; auto; now apply blanks_no_token].
      rewrite (pb _ _ _ (s4 ++ w ++ rest) y); [|apply field_app; auto; now apply blanks_no_token].
      rewrite (pb _ _ _ rest (Some w)); [|unfold opt, complete; rewrite field_app by auto; reflexivity].
      rewrite El. rewrite (pb _ _ _ rest (ir_lhs r)) by reflexivity. rewrite Ea. rewrite (pb _ _ _ rest (ir_rhs1 r)) by reflexivity. rewrite Eb.
      rewrite (pb _ _ _ rest (Binary (ir_lhs r) (ir_rhs1 r) n, y, w)) by reflexivity. rewrite (yield_parse y (ir_yield r) Hy HN). cbn [to_result]. now rewrite CP.
    - subst m. cbn [app].
      rewrite (pb _ _ _ (s4 ++ w ++ rest) y); [|apply field_app; auto; now apply blanks_no_token].
      rewrite (pb _ _ _ rest w); [|apply field_app; auto].
      rewrite (pb _ _ _ rest None) by exact NF.
      rewrite El. rewrite (pb _ _ _ rest (ir_lhs r)) by reflexivity. rewrite Ea. rewrite (pb _ _ _ rest (ir_rhs1 r)) by reflexivity.
      rewrite (pb _ _ _ rest (Chain (ir_lhs r) (ir_rhs1 r), y, w)) by reflexivity. rewrite (yield_parse y (ir_yield r) Hy HN). cbn [to_result]. now rewrite CP.
  Qed.
End Disco.

(* files *)
Definition line_end (rest : bytes) : Prop := rest = [] \/ exists t, rest = newline ++ t.
Lemma line_end_token rest : line_end rest -> no_token rest.
Proof. intros [-> |[t ->]]; [apply nil_ends|apply newline_no_token]. Qed.
Lemma line_end_space rest : line_end rest -> ends is_space rest.
Proof. intros [-> |[t ->]]; [apply nil_ends|]. intros a r E. injection E as <- _. reflexivity. Qed.
Lemma file_app {X} (p : parser X) (E : bytes -> X -> Prop) text xs : file E text xs -> p [] = Incomplete -> (p newline = Error \/ p newline = Incomplete) ->
  (forall e x, E e x -> e <> []) -> (forall e x rest, In x xs -> E e x -> line_end rest -> p (e ++ rest) = Done rest x) ->
  exists rest, separated_list (tag newline) p text = Done rest xs /\ (xs <> [] -> separated_nonempty_list (tag newline) p text = Done rest xs).
Proof.
  intros [[HT ->]|(t & HL & HT)] P0 P1 NE HP.
  - destruct HT as [-> | ->].
    + exists []. split; [|congruence]. unfold separated_list. now rewrite P0.
    + exists newline. split; [|congruence]. unfold separated_list. destruct P1 as [-> | ->]; reflexivity.
  - assert (HL' : listing (eq newline) (fun e x => In x xs /\ E e x) t xs).
    { clear - HL. assert (G : forall ys, (forall x, In x xs -> In x ys) -> listing (eq newline) (fun e x => In x ys /\ E e x) t xs); [|now apply G].
      induction HL as [e x He|e s t x xs He Hs Ht IH]; intros ys HI; constructor; auto; try (split; [apply HI; now left|assumption]). apply IH. intros z Hz. apply HI. now right. }
    assert (G : forall stop, stop = [] \/ stop = newline -> separated_nonempty_list (tag newline) p (t ++ stop) = Done stop xs /\ separated_list (tag newline) p (t ++ stop) = Done stop xs).
    { intros stop Hst. apply (listing_app (tag newline) p (eq newline) (fun e x => In x xs /\ E e x) line_end stop).
      - intros s e x u <- _. apply tag_app.
      - intros e x rest [Hx He] HR. now apply HP.
      - intros s u <-. right. now exists u.
      - destruct Hst as [-> | ->]; [now left|right; now exists []].
      - intros s <-. discriminate.
      - intros e x [_ He]. eapply NE, He.
      - destruct Hst as [-> | ->]; [left; right; reflexivity|]. right. exists []. split; [reflexivity|]. split; [discriminate|now right].
      - assumption. }
    destruct HT as [-> | ->]; [destruct (G [] (or_introl eq_refl)) as [G1 G2]; rewrite app_nil_r in *|destruct (G newline (or_intror eq_refl)) as [G1 G2]]; eexists; split; eauto.
Qed.

Section Disco2.
  Context {N T W : Type} (ops : num_ops W) (ion : text_io N) (iot : text_io T) (iow : text_io W) (neq : N -> N -> bool) (checked : bool).

  Lemma disco_file text rs : file (disco_line ops ion iow) text rs -> (forall r, In r rs -> narrow r) -> discodop_of_text ops ion iow checked text = FOk (map disco_of rs).
  Proof.
    intros HF HN. set (E' := fun e (x : disco_deriv * list (nat * BinNums.N) * W) => exists r, disco_line ops ion iow e r /\ narrow r /\ x = disco_of r).
    assert (HF' : file E' text (map disco_of rs)).
    { destruct HF as [[HT ->]|(t & HL & HT)]; [left; auto|]. right. exists t. split; [|assumption]. apply (listing_map disco_of _ _ _ t rs HL). intros e r Hr He. exists r. auto. }
    destruct (file_app (parse_constituent ops ion iow checked) E' text (map disco_of rs) HF') as (rest & H & _).
    - reflexivity.
    - left. reflexivity.
    - intros e x (r & (l & s1 & a & s2 & m & y & s4 & w & _ & _ & _ & -> & [[Wl _] _] & _) & _). destruct l; [congruence|discriminate].
    - intros e x rest _ (r & Hr & Nr & ->) HR. apply disco_line_app; auto; [now apply line_end_token|now apply line_end_space].
    - unfold discodop_of_text, parse_discodop_constituents. now rewrite H.
  Qed.

  (* ---- the lexer ---- *)
  Definition entry (t : bytes) (pw : bytes * W) : Prop := exists s w n, blanks s /\ named ion (fst pw) n /\ count ops iow w (snd pw) /\ t = fst pw ++ s ++ w.
  Definition lexer_line' (t : bytes) (l : bytes * list (bytes * W)) : Prop :=
    exists s x a, named iot (fst l) x /\ blanks s /\ t = fst l ++ s ++ a /\ listing blanks entry a (snd l).
  Lemma lexer_line_app t l rest : lexer_line' t l -> line_end rest -> parse_lexer_line ops iow (t ++ rest) = Done rest l.
  Proof.
    intros (s & x & a & [Wd _] & Bs & -> & HL) HR. destruct l as [wd pws]. cbn [fst snd] in *. unfold parse_lexer_line. rewrite <- !app_assoc.
    rewrite (pb _ _ _ (s ++ a ++ rest) wd); [|apply take_while_app; [now apply word_token|now apply blanks_no_token]].
    assert (Wa : ends is_space (a ++ rest)).
    { destruct (listing_first blanks entry a pws HL) as (e & [p v] & u & (s' & w & n & _ & [Wp _] & _ & ->) & ->). cbn [fst] in *. rewrite <- !app_assoc. now apply word_no_space. }
    rewrite (pb _ _ _ (a ++ rest) s); [|now apply space_app].
    rewrite (pb _ _ _ rest pws); [reflexivity|].
    apply (listing_app (skip space; pret tt) (do pos <- take_while is_token; skip space; do w <- parse_pseudocount ops iow; pret (pos, w)) blanks entry no_token rest).
    - intros s' e [p v] u Bs' (s2 & w & n & _ & [Wp _] & _ & ->). cbn [fst] in *. rewrite (pb _ _ _ ((p ++ s2 ++ w) ++ u) s'); [reflexivity|]. apply space_app; [assumption|]. rewrite <- app_assoc. now apply word_no_space.
    - intros e [p v] rest' (s2 & w & n & B2 & [Wp _] & Hc & ->) HR'. cbn [fst snd] in *. rewrite <- !app_assoc. rewrite (pb _ _ _ (s2 ++ w ++ rest') p); [|apply take_while_app; [now apply word_token|now apply blanks_no_token]].
      rewrite (pb _ _ _ (w ++ rest') s2); [|apply space_app; [assumption|apply word_no_space; eapply count_word, Hc]]. rewrite (pb _ _ _ rest' v); [reflexivity|]. now apply count_app.
    - intros s' u Bs'. now apply blanks_no_token.
    - now apply line_end_token.
    - intros s' [NE _]. assumption.
    - intros e [p v] (s2 & w & n & _ & [[Wp _] _] & _ & ->). cbn [fst] in *. destruct p; [congruence|discriminate].
    - left. unfold pbind, space, take_while1. destruct HR as [-> |[u ->]]; [now right|left]. reflexivity.
    - assumption.
  Qed.
  Lemma lexer_named word x (es : list (T * N * W)) a : of_text iot word = Some x ->
    listing blanks (fun t e => exists p s w n v, named ion p n /\ blanks s /\ count ops iow w v /\ t = p ++ s ++ w /\ e = (x, n, v)) a es ->
    exists pws, listing blanks entry a pws /\ lexer_entries (W := W) ion iot word pws = Some es.
  Proof.
    intros HX H. induction H as [e y (p & s & w & n & v & Hn & Bs & Hc & -> & ->)|e s0 t y ys (p & s & w & n & v & Hn & Bs & Hc & -> & ->) Hs0 Ht IH].
    - exists [(p, v)]. split; [apply l_one; exists s, w, n; auto|]. cbn. destruct Hn as [_ Hn]. now rewrite HX, Hn.
    - destruct IH as (pws & HL & HE). exists ((p, v) :: pws). split; [apply l_cons; auto; exists s, w, n; auto|]. cbn. destruct Hn as [_ Hn]. now rewrite HX, Hn, HE.
  Qed.
  Lemma lexer_lines text (ess : list (list (T * N * W))) : file (lexer_line ops ion iot iow) text ess ->
    exists v, file lexer_line' text v /\ lexer_all (W := W) ion iot v = Some (concat ess).
  Proof.
    assert (L1 : forall e es, lexer_line ops ion iot iow e es -> exists l, lexer_line' e l /\ lexer_entries (W := W) ion iot (fst l) (snd l) = Some es).
    { intros e es (wd & s & x & a & [Ww Ex] & Bs & -> & HL). destruct (lexer_named wd x es a Ex HL) as (pws & HP & HE). exists (wd, pws). split; [|assumption]. exists s, x, a. split; [now split|]. split; [assumption|]. split; [reflexivity|assumption]. }
    intros [[HT ->]|(t & HL & HT)]; [exists []; split; [left; auto|reflexivity]|].
    assert (G : exists v, listing (eq newline) lexer_line' t v /\ lexer_all (W := W) ion iot v = Some (concat ess)).
    { clear HT. induction HL as [e es He|e s t es ess He Hs Ht IH].
      - destruct (L1 _ _ He) as ([wd pws] & Hl & HE). exists [(wd, pws)]. split; [now apply l_one|]. cbn in *. now rewrite HE.
      - destruct (L1 _ _ He) as ([wd pws] & Hl & HE). destruct IH as (v & Hv & HA). exists ((wd, pws) :: v). split; [now apply l_cons|]. cbn in *. now rewrite HE, HA. }
    destruct G as (v & Hv & HA). exists v. split; [|assumption]. right. eauto.
  Qed.
  Lemma lexer_file text ess : file (lexer_line ops ion iot iow) text ess -> lexer_of_text ops ion iot iow text = FOk (concat ess).
  Proof.
    intros HF. destruct (lexer_lines text ess HF) as (v & HV & HA). destruct (file_app (parse_lexer_line ops iow) lexer_line' text v HV) as (rest & H & _).
    - reflexivity.
    - left. reflexivity.
    - intros e [wd pws] (s & x & a & [[Wd _] _] & _ & -> & _). cbn [fst] in *. destruct wd; [congruence|discriminate].
    - intros e l rest _ Hl HR. now apply lexer_line_app.
    - unfold lexer_of_text, parse_discodop_lexer, map_opt. now rewrite H, HA.
  Qed.

  (* ---- denominators ---- *)
  Context (Hneq : forall a b, neq a b = true <-> a = b).
  Definition sum_of (o : option W) (ws : list W) : option W := fold_left (fun o w => Some (match o with Some v => n_add ops v w | None => w end)) ws o.
  Lemma add_weight_other m l w n : neq l n = false -> denominator neq (add_weight ops neq m l w) n = denominator neq m n.
  Proof.
    intros NE. induction m as [|[k v] m IH]; cbn.
    - now rewrite NE.
    - destruct (neq k l) eqn:E; cbn; [|now rewrite IH]. apply Hneq in E. subst k. now rewrite NE.
  Qed.
  Lemma add_weight_same m l w : denominator neq (add_weight ops neq m l w) l = Some (match denominator neq m l with Some v => n_add ops v w | None => w end).
  Proof.
    assert (R : neq l l = true) by now apply Hneq. induction m as [|[k v] m IH]; cbn; [now rewrite R|]. destruct (neq k l) eqn:E; cbn; rewrite E; [reflexivity|assumption].
  Qed.
  Lemma denominators_sum lws : forall m n, denominator neq (fold_left (fun m lw => add_weight ops neq m (fst lw) (snd lw)) lws m) n =
    sum_of (denominator neq m n) (map snd (filter (fun lw => neq (fst lw) n) lws)).
  Proof.
    induction lws as [|[l w] lws IH]; intros m n; cbn [fold_left filter fst snd]; [reflexivity|]. rewrite IH. destruct (neq l n) eqn:E; cbn [map fst snd].
    - apply Hneq in E. subst l. rewrite add_weight_same. reflexivity.
    - now rewrite add_weight_other.
  Qed.
  Lemma sum_some ws : forall v, sum_of (Some v) ws = Some (fold_left (n_add ops) ws v).
  Proof. induction ws as [|w ws IH]; intros v; [reflexivity|]. cbn. apply IH. Qed.
  Lemma sum_total ws w : In w ws -> exists s, sum_of None ws = Some s /\ total ops ws s.
  Proof. destruct ws as [|v ws]; [intros []|]. intros _. cbn. eexists. split; [apply sum_some|reflexivity]. Qed.
  Lemma denominators_weights (cs : disco_constituents (N := N) (W := W)) (lex : option (list (T * N * W))) n : denominator neq (denominators ops neq cs lex) n = sum_of None (weights_in neq cs (match lex with Some l => l | None => [] end) n).
  Proof.
    unfold denominators. rewrite denominators_sum. cbn [denominator]. f_equal. rewrite filter_app, map_app. unfold weights_in. f_equal.
    - induction cs as [|[[d y] w] cs IH]; [reflexivity|]. cbn [map filter fst snd]. destruct (neq (get_lhs d) n); cbn [map snd]; now rewrite IH.
    - destruct lex as [l|]; [|reflexivity]. induction l as [|[[t p] w] l IH]; [reflexivity|]. cbn [map filter fst snd]. destruct (neq p n); cbn [map snd]; now rewrite IH.
  Qed.
  Lemma weights_of (rs : list (import_rule N W)) (ls : list (T * N * W)) n : weights_in neq (map disco_of rs) ls n = weights neq rs ls n.
  Proof.
    unfold weights_in, weights. f_equal. induction rs as [|r rs IH]; [reflexivity|]. cbn [map filter fst snd disco_of]. replace (get_lhs (deriv_of r)) with (ir_lhs r) by (unfold deriv_of; destruct (ir_rhs2 r); reflexivity).
    destruct (neq (ir_lhs r) n); cbn [map snd]; now rewrite IH.
  Qed.
End Disco2.

(* ---- variables ---- *)
Lemma filter_component {T} c : forall i1 i2 (l : list (vart T)) a b, rparse_component c i1 i2 = (l, a, b) ->
  i1 <= a /\ i2 <= b /\ filter (from_successor 0) l = map (Var 0) (seq i1 (a - i1)) /\ filter (from_successor 1) l = map (Var 1) (seq i2 (b - i2)) /\
  (forall s, 2 <= s -> filter (from_successor s) l = []) /\ Forall2 (fun b v => exists j, v = Var (if b : bool then 1 else 0) j) c l.
Proof.
  induction c as [|[] c IH]; intros i1 i2 l a b E; cbn in E.
  - injection E as <- <- <-. rewrite !Nat.sub_diag. repeat split; auto.
  - destruct (rparse_component c i1 (S i2)) as [[l' a'] b'] eqn:E'. injection E as <- <- <-. specialize (IH _ _ _ _ _ E'). destruct IH as (H1 & H2 & F0 & F1 & F2 & FA). repeat split; try lia.
    + cbn. assumption.
    + cbn. rewrite F1. replace (b' - i2) with (S (b' - S i2)) by lia. reflexivity.
    + intros s Hs. destruct s as [|[|s]]; [lia|lia|]. cbn. apply F2. lia.
    + constructor; [now exists i2|assumption].
  - destruct (rparse_component c (S i1) i2) as [[l' a'] b'] eqn:E'. injection E as <- <- <-. specialize (IH _ _ _ _ _ E'). destruct IH as (H1 & H2 & F0 & F1 & F2 & FA). repeat split; try lia.
    + cbn. rewrite F0. replace (a' - i1) with (S (a' - S i1)) by lia. reflexivity.
    + cbn. assumption.
    + intros s Hs. destruct s as [|[|s]]; [lia|lia|]. cbn. apply F2. lia.
    + constructor; [now exists i1|assumption].
Qed.
Lemma composition_reads {T} y : forall i1 i2, let c : composition T := rparse_composition y i1 i2 in
  Forall2 (Forall2 (fun b v => exists j, v = Var (if b : bool then 1 else 0) j)) y c /\
  (exists n, filter (from_successor 0) (concat c) = map (Var 0) (seq i1 n)) /\ (exists n, filter (from_successor 1) (concat c) = map (Var 1) (seq i2 n)) /\
  (forall s, 2 <= s -> filter (from_successor s) (concat c) = []).
Proof.
  induction y as [|bs y IH]; intros i1 i2; cbn [rparse_composition].
  - split; [constructor|]. split; [now exists 0|]. split; [now exists 0|auto].
  - destruct (rparse_component bs i1 i2) as [[l a] b] eqn:E. apply filter_component in E. destruct E as (H1 & H2 & F0 & F1 & F2 & FA). specialize (IH a b). cbn zeta in IH. destruct IH as (I1 & [n0 I2] & [n1 I3] & I4).
    cbn [concat]. split; [now constructor|]. split; [|split].
    + exists ((a - i1) + n0). rewrite filter_app, F0, I2, seq_app, map_app. do 3 f_equal. lia.
    + exists ((b - i2) + n1). rewrite filter_app, F1, I3, seq_app, map_app. do 3 f_equal. lia.
    + intros s Hs. rewrite filter_app, F2, I4 by assumption. reflexivity.
Qed.
Lemma reads {T} y : reads_as y (rparse_composition (T := T) y 0 0).
Proof.
  pose proof (composition_reads (T := T) y 0 0) as H. cbn zeta in H. destruct H as (H1 & H2 & H3 & H4). split; [assumption|]. intros s. destruct s as [|[|s]]; [assumption|assumption|]. exists 0. apply H4. lia.
Qed.

(* ---- rparse ---- *)
Section Rparse.
  Context {N W : Type} (ion : text_io N) (iow : text_io W).
  Lemma bool_app b rest : parse_bool (truth b ++ rest) = Done rest b.
  Proof. unfold parse_bool, alt. destruct b; cbn; reflexivity. Qed.
  Lemma rcomponent_app t c rest : rparse_component_text t c -> parse_rparse_component (t ++ rest) = Done rest c.
  Proof.
    unfold parse_rparse_component. intros [[-> ->]|(e & HL & ->)]; [reflexivity|]. rewrite <- !app_assoc. rewrite (pb _ _ _ (e ++ «"]"» ++ rest) tt) by apply tag_app.
    rewrite (pb _ _ _ («"]"» ++ rest) c); [rewrite (pb _ _ _ rest tt) by apply tag_app; reflexivity|].
    apply (listing_app (tag «", "») parse_bool (eq «", "») (fun t b => t = truth b) (fun _ => True) («"]"» ++ rest)); auto.
    - intros s e' x u <- _. apply tag_app.
    - intros e' x rest' -> _. apply bool_app.
    - intros s <-. discriminate.
    - intros e' x ->. destruct x; discriminate.
  Qed.
  Lemma rcomponent_first t c : rparse_component_text t c -> exists u, t = «"["» ++ u.
  Proof. intros [[-> ->]|(e & HL & ->)]; [now exists «"]"»|eauto]. Qed.
  Lemma ryield_app t y rest : rparse_yield_text t y -> parse_rparse_yield (t ++ rest) = Done rest y.
  Proof.
    intros (e & HL & ->). unfold parse_rparse_yield. rewrite <- !app_assoc. rewrite (pb _ _ _ (e ++ «"]]"» ++ rest) tt) by apply tag_app.
    rewrite (pb _ _ _ («"]]"» ++ rest) y); [rewrite (pb _ _ _ rest tt) by apply tag_app; reflexivity|].
    apply (listing_app (tag «", "») parse_rparse_component (eq «", "») rparse_component_text (fun _ => True) («"]]"» ++ rest)); auto.
    - intros s e' x u <- _. apply tag_app.
    - intros e' x rest' He _. now apply rcomponent_app.
    - intros s <-. discriminate.
    - intros e' x He. apply rcomponent_first in He. destruct He as [u ->]. discriminate.
  Qed.
  Lemma tag_blank t : (forall a, In a t -> is_white a = false) -> forall b s r, (forall z, b <> t ++ z) -> blanks s -> tag t (b ++ s ++ r) = Error.
  Proof.
    intros HT. induction t as [|c t IH]; intros b s r NB Bs; [now destruct (NB b)|]. destruct b as [|x b].
    - cbn [app]. destruct Bs as [NE Hs]. destruct s as [|z s]; [congruence|]. apply tag1_error_gen. intros ->. specialize (HT c (or_introl eq_refl)). destruct (Hs c (or_introl eq_refl)) as [-> | ->]; discriminate.
    - cbn. destruct (beqb x c) eqn:E; [|reflexivity]. apply beqb_true in E. subst. apply IH; [|intros z Ez; subst; now destruct (NB z)|assumption]. intros a Ha. apply HT. now right.
  Qed.
  Lemma rparse_line_app t r rest : rparse_line ion iow t r -> parse_rparse_clause ion iow (t ++ rest) =
    Done rest (ir_weight r, ir_lhs r, match ir_rhs2 r with Some n => RBinary (ir_rhs1 r) n | None => RChain (ir_rhs1 r) end, ir_yield r).
  Proof.
    intros (k & s0 & w & l & s1 & s2 & a & s3 & m & y & Dk & B0 & B1 & B2 & B3 & -> & [Ww Ew] & NC & [Wl El] & [Wa Ea] & Hy & Hm). unfold parse_rparse_clause. rewrite <- !app_assoc.
    rewrite (pb _ _ _ (s0 ++ w ++ «":"» ++ l ++ s1 ++ «"-->"» ++ s2 ++ a ++ s3 ++ m ++ y ++ rest) k); [|apply digit_app; [assumption|apply no_token_digit; now apply blanks_no_token]].
    rewrite (pb _ _ _ (w ++ «":"» ++ l ++ s1 ++ «"-->"» ++ s2 ++ a ++ s3 ++ m ++ y ++ rest) s0); [|apply space_app; [assumption|now apply word_no_space]].
    rewrite (pb _ _ _ («":"» ++ l ++ s1 ++ «"-->"» ++ s2 ++ a ++ s3 ++ m ++ y ++ rest) w).
    2: { apply take_while1_app; [apply Ww| |intros z u E; injection E as <- _; reflexivity]. intros z Hz. apply andb_true_iff. split; [now apply (word_token w)|]. apply negb_true_iff, beqb_false. intros ->. contradiction. }
    rewrite (pb _ _ _ (l ++ s1 ++ «"-->"» ++ s2 ++ a ++ s3 ++ m ++ y ++ rest) tt) by apply tag_app.
    rewrite (pb _ _ _ (s1 ++ «"-->"» ++ s2 ++ a ++ s3 ++ m ++ y ++ rest) l); [|apply word1_app; [assumption|now apply blanks_no_token]].
    rewrite (pb _ _ _ («"-->"» ++ s2 ++ a ++ s3 ++ m ++ y ++ rest) s1); [|apply space_app; [assumption|intros z u E; injection E as <- _; reflexivity]].
    rewrite (pb _ _ _ (s2 ++ a ++ s3 ++ m ++ y ++ rest) tt) by apply tag_app.
    rewrite (pb _ _ _ (a ++ s3 ++ m ++ y ++ rest) s2); [|apply space_app; [assumption|now apply word_no_space]].
    rewrite (pb _ _ _ (s3 ++ m ++ y ++ rest) a); [|apply word1_app; [assumption|now apply blanks_no_token]].
    assert (FY : exists u, y = «"[[["» ++ u).
    { destruct Hy as (e & HL & ->). destruct (listing_first _ _ e _ HL) as (e' & x & u & He & ->). apply rcomponent_first in He. destruct He as [v ->]. rewrite <- !app_assoc. now eexists. }
    destruct FY as [u EY].
    destruct (ir_rhs2 r) as [n|].
    - destruct Hm as (b & s4 & B4 & [Wb Eb] & NB & ->). rewrite <- !app_assoc.
      rewrite (pb _ _ _ (b ++ s4 ++ y ++ rest) s3); [|apply space_app; [assumption|now apply word_no_space]].
      rewrite (pb _ _ _ (y ++ rest) (Some b)).
      2: { unfold opt. rewrite (pb _ _ _ (b ++ s4 ++ y ++ rest) tt).
           2: { unfold pnot. rewrite tag_blank; [reflexivity| |assumption|assumption]. intros z [<-|[<-|[<-|[]]]]; reflexivity. }
           rewrite (pb _ _ _ (s4 ++ y ++ rest) b); [|apply word1_app; [assumption|now apply blanks_no_token]].
           rewrite (pb _ _ _ (y ++ rest) s4); [reflexivity|]. apply space_app; [assumption|]. rewrite EY. intros z v E. injection E as <- _. reflexivity. }
      rewrite (pb _ _ _ rest (ir_yield r)); [|unfold complete; now rewrite (ryield_app y (ir_yield r))].
      rewrite Ew, El, Ea, Eb. reflexivity.
    - subst m. cbn [app].
      rewrite (pb _ _ _ (y ++ rest) s3); [|apply space_app; [assumption|rewrite EY; intros z v E; injection E as <- _; reflexivity]].
      rewrite (pb _ _ _ (y ++ rest) None).
      2: { unfold opt. unfold pbind at 1. unfold pnot. rewrite EY, <- app_assoc, tag_app. reflexivity. }
      rewrite (pb _ _ _ rest (ir_yield r)); [|unfold complete; now rewrite (ryield_app y (ir_yield r))].
      rewrite Ew, El, Ea. reflexivity.
  Qed.
  Lemma rparse_file text rs : rs <> [] -> file (rparse_line ion iow) text rs ->
    rparse_of_text ion iow text = FOk (map (fun r => (ir_weight r, ir_lhs r, match ir_rhs2 r with Some n => RBinary (ir_rhs1 r) n | None => RChain (ir_rhs1 r) end, ir_yield r)) rs).
  Proof.
    intros NE HF. set (f := fun r : import_rule N W => (ir_weight r, ir_lhs r, match ir_rhs2 r with Some n => RBinary (ir_rhs1 r) n | None => RChain (ir_rhs1 r) end, ir_yield r)).
    set (E' := fun e x => exists r, rparse_line ion iow e r /\ x = f r).
    assert (HF' : file E' text (map f rs)).
    { destruct HF as [[HT ->]|(t & HL & HT)]; [left; auto|]. right. exists t. split; [|assumption]. apply (listing_map f _ _ _ t rs HL). intros e r Hr He. exists r. auto. }
    destruct (file_app (parse_rparse_clause ion iow) E' text (map f rs) HF') as (rest & _ & H).
    - reflexivity.
    - left. reflexivity.
    - intros e x (r & (k & s0 & w & l & s1 & s2 & a & s3 & m & y & [Dk _] & _ & _ & _ & _ & -> & _) & _). destruct k; [congruence|discriminate].
    - intros e x rest _ (r & Hr & ->) HR. now apply rparse_line_app.
    - unfold rparse_of_text. rewrite H; [reflexivity|]. intros E. apply map_eq_nil in E. contradiction.
  Qed.
End Rparse.

(* ---- the default lexer ---- *)
Section Default.
  Context {N W : Type} (neq : N -> N -> bool) (Hneq : forall a b, neq a b = true <-> a = b).
  Definition keys_ok (m : list (N * bool)) : Prop := NoDup (map fst m).
  Lemma set_lhs_in m n x b : keys_ok m -> In (x, b) (set_lhs neq m n) <-> (x = n /\ b = false) \/ (x <> n /\ In (x, b) m).
  Proof.
    unfold keys_ok. induction m as [|[k v] m IH]; intros ND; cbn.
    - split; [intros [[= <- <-]|[]]; now left|]. intros [[-> ->]|[_ []]]. now left.
    - inversion ND as [|? ? NI ND']; subst. destruct (neq k n) eqn:E.
      + apply Hneq in E. subst k. cbn. split.
        * intros [[= <- <-]|H]; [now left|]. right. split; [|now right]. intros ->. apply NI. apply in_map_iff. exists (n, b). auto.
        * intros [[-> ->]|[NE [[= <- <-]|H]]]; [now left|congruence|now right].
      + assert (NK : k <> n) by (intros ->; assert (neq n n = true) by (now apply Hneq); congruence). cbn. rewrite IH by assumption. split.
        * intros [[= <- <-]|[H|[H1 H2]]]; [right; split; [assumption|now left]|now left|right; split; [assumption|now right]].
        * intros [H|[NE [[= <- <-]|H]]]; [right; now left|now left|right; right; auto].
  Qed.
  Lemma or_insert_in m n x b : keys_ok m -> In (x, b) (or_insert_rhs neq m n) <-> In (x, b) m \/ (x = n /\ b = true /\ ~ In n (map fst m)).
  Proof.
    unfold keys_ok. induction m as [|[k v] m IH]; intros ND; cbn.
    - split; [intros [[= <- <-]|[]]; right; auto|]. intros [[]|(-> & -> & _)]. now left.
    - inversion ND as [|? ? NI ND']; subst. destruct (neq k n) eqn:E.
      + apply Hneq in E. subst k. cbn. split; [auto|]. intros [H|(-> & -> & H)]; [assumption|]. destruct H. now left.
      + assert (NK : k <> n) by (intros ->; assert (neq n n = true) by (now apply Hneq); congruence). cbn. rewrite IH by assumption. split.
        * intros [H|[H|(H1 & H2 & H3)]]; [left; now left|left; now right|]. right. repeat split; auto. intros [H|H]; auto.
        * intros [[H|H]|(H1 & H2 & H3)]; [now left|right; now left|]. right. right. repeat split; auto.
  Qed.
  Lemma set_lhs_keys m n : keys_ok m -> keys_ok (set_lhs neq m n) /\ forall x, In x (map fst (set_lhs neq m n)) <-> x = n \/ In x (map fst m).
  Proof.
    unfold keys_ok. induction m as [|[k v] m IH]; intros ND; cbn.
    - split; [constructor; [intros []|constructor]|]. intros x. intuition congruence.
    - inversion ND as [|? ? NI ND']; subst. destruct (neq k n) eqn:E; cbn.
      + apply Hneq in E. subst k. split; [now constructor|]. intros x. intuition congruence.
      + destruct (IH ND') as [H1 H2]. split; [|intros x; rewrite H2; intuition congruence]. constructor; [|assumption]. rewrite H2. intros [->|H]; [|contradiction]. assert (neq n n = true) by (now apply Hneq). congruence.
  Qed.
  Lemma or_insert_keys m n : keys_ok m -> keys_ok (or_insert_rhs neq m n) /\ forall x, In x (map fst (or_insert_rhs neq m n)) <-> x = n \/ In x (map fst m).
  Proof.
    unfold keys_ok. induction m as [|[k v] m IH]; intros ND; cbn.
    - split; [constructor; [intros []|constructor]|]. intros x. intuition congruence.
    - inversion ND as [|? ? NI ND']; subst. destruct (neq k n) eqn:E; cbn.
      + apply Hneq in E. subst k. split; [now constructor|]. intros x. intuition congruence.
      + destruct (IH ND') as [H1 H2]. split; [|intros x; rewrite H2; intuition congruence]. constructor; [|assumption]. rewrite H2. intros [->|H]; [|contradiction]. assert (neq n n = true) by (now apply Hneq). congruence.
  Qed.
  (* the map after the constituents cs: keys are the nonterminals, true for those that are on no left-hand side *)
  Definition map_ok (cs : disco_constituents (N := N) (W := W)) (m : list (N * bool)) : Prop :=
    keys_ok m /\ (forall n, In (n, true) m <-> on_rhs cs n /\ ~ on_lhs cs n) /\ (forall n, In n (map fst m) <-> on_rhs cs n \/ on_lhs cs n).
  Lemma key_true m n : keys_ok m -> In (n, true) m -> In (n, false) m -> False.
  Proof.
    unfold keys_ok. induction m as [|[k v] m IH]; intros ND; [intros []|]. inversion ND as [|? ? NI ND']; subst. intros [[= -> ->]|H1] [H2|H2]; [discriminate| | |now apply IH].
    - apply NI. apply in_map_iff. exists (n, false). auto.
    - injection H2 as -> ->. apply NI. apply in_map_iff. exists (n, true). auto.
  Qed.
  Lemma on_rhs_snoc (cs : disco_constituents (N := N) (W := W)) x n : on_rhs (cs ++ [x]) n <-> on_rhs cs n \/ match fst (fst x) with Chain _ a => n = a | Binary _ a b => n = a \/ n = b end.
  Proof.
    unfold on_rhs. split.
    - intros (d & y & w & H & E). apply in_app_iff in H. destruct H as [H|[->|[]]]; [left; eauto 6|now right].
    - intros [(d & y & w & H & E)|E]; [exists d, y, w; split; [apply in_app_iff; now left|assumption]|]. destruct x as [[d y] w]. exists d, y, w. split; [apply in_app_iff; right; now left|assumption].
  Qed.
  Lemma on_lhs_snoc (cs : disco_constituents (N := N) (W := W)) x n : on_lhs (cs ++ [x]) n <-> on_lhs cs n \/ n = get_lhs (fst (fst x)).
  Proof.
    unfold on_lhs. split.
    - intros (d & y & w & H & E). apply in_app_iff in H. destruct H as [H|[->|[]]]; [left; eauto 6|right]. cbn. destruct d; assumption.
    - intros [(d & y & w & H & E)|E]; [exists d, y, w; split; [apply in_app_iff; now left|assumption]|]. destruct x as [[d y] w]. exists d, y, w. split; [apply in_app_iff; right; now left|]. destruct d; assumption.
  Qed.
  Lemma map_ok_step (rhs lhs : N -> Prop) m n : 
    keys_ok m -> (forall x, In (x, true) m <-> rhs x /\ ~ lhs x) -> (forall x, In x (map fst m) <-> rhs x \/ lhs x) ->
    let m' := or_insert_rhs neq m n in keys_ok m' /\ (forall x, In (x, true) m' <-> (rhs x \/ x = n) /\ ~ lhs x) /\ (forall x, In x (map fst m') <-> (rhs x \/ x = n) \/ lhs x).
  Proof.
    intros K H1 H2. cbn zeta. destruct (or_insert_keys m n K) as [K' HK]. split; [assumption|]. split; [|intros x; rewrite HK, H2; intuition].
    intros x. rewrite or_insert_in by assumption. rewrite H1, H2. split.
    - intros [[A B]|(-> & _ & A)]; [intuition|]. split; [now right|]. intros C. apply A. now right.
    - intros [[A|A] B]; [now left|]. subst x. destruct (in_dec (fun a b => match Bool.bool_dec (neq a b) true with left e => left (proj1 (Hneq a b) e) | right e => right (fun h => e (proj2 (Hneq a b) h)) end) n (map fst m)) as [I|I].
      + left. apply H2 in I. destruct I as [I|I]; [auto|contradiction].
      + right. split; [reflexivity|]. split; [reflexivity|]. intros C. apply I, H2. assumption.
  Qed.
  Lemma only_on_rhs_ok (cs : disco_constituents (N := N) (W := W)) : map_ok cs (only_on_rhs neq cs).
  Proof.
    unfold only_on_rhs. induction cs as [|x cs IH] using rev_ind.
    - cbn. split; [constructor|]. split; intros n; (split; [intros []|]).
      + intros [(d & y & w & [] & _) _].
      + intros [(d & y & w & [] & _)|(d & y & w & [] & _)].
    - rewrite fold_left_app. cbn [fold_left]. destruct x as [[d y] w]. set (m := fold_left _ cs []) in *. destruct IH as (K & H1 & H2).
      assert (SL : forall l, let m' := set_lhs neq m l in keys_ok m' /\ (forall n, In (n, true) m' <-> on_rhs cs n /\ ~ (on_lhs cs n \/ n = l)) /\ (forall n, In n (map fst m') <-> on_rhs cs n \/ (on_lhs cs n \/ n = l))).
      { intros l. cbn zeta. destruct (set_lhs_keys m l K) as [K' HK]. split; [assumption|]. split; [|intros n; rewrite HK, H2; intuition]. intros n. rewrite set_lhs_in by assumption. rewrite H1. intuition congruence. }
      destruct d as [l a|l a b].
      + destruct (SL l) as (A & B & C). destruct (map_ok_step (on_rhs cs) (fun n => on_lhs cs n \/ n = l) _ a A B C) as (A' & B' & C'). split; [assumption|]. split; intros n; rewrite on_rhs_snoc, on_lhs_snoc; cbn [fst get_lhs]; [apply B'|apply C'].
      + destruct (SL l) as (A & B & C). destruct (map_ok_step (on_rhs cs) (fun n => on_lhs cs n \/ n = l) _ a A B C) as (A' & B' & C').
        destruct (map_ok_step (fun n => on_rhs cs n \/ n = a) (fun n => on_lhs cs n \/ n = l) _ b A' B' C') as (A2 & B2 & C2).
        split; [assumption|]. split; intros n; rewrite on_rhs_snoc, on_lhs_snoc; cbn [fst get_lhs]; [rewrite B2|rewrite C2]; tauto.
  Qed.
End Default.
