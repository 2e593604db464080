From Verif Require Import M_Nom Base M_Recog M_CFG M_Grammar M_Text S_Text.

Lemma beqb_refl a : beqb a a = true.
Proof. apply Ascii.eqb_refl. Qed.
Lemma beqb_true a b : beqb a b = true <-> a = b.
Proof. apply Ascii.eqb_eq. Qed.
Lemma beqb_false a b : beqb a b = false <-> a <> b.
Proof. apply Ascii.eqb_neq. Qed.
Lemma one_of_spec s a : one_of s a = true <-> In a s.
Proof. unfold one_of. rewrite existsb_exists. split; [intros (b & H & E); apply beqb_true in E; now subst|intros H; exists a; split; [assumption|apply beqb_refl]]. Qed.

Lemma tag_app t rest : tag t (t ++ rest) = Done rest tt.
Proof. induction t as [|a t IH]; [reflexivity|]. cbn. now rewrite beqb_refl. Qed.
Lemma tag_done t i r u : tag t i = Done r u -> i = t ++ r.
Proof.
  revert i. induction t as [|b t IH]; intros i H; cbn in H; [now injection H|]. destruct i as [|a i]; [discriminate|]. destruct (beqb a b) eqn:E; [|discriminate].
  apply beqb_true in E. subst. cbn. f_equal. now apply IH.
Qed.
Lemma tag_not t i r : t <> [] -> (i = [] \/ exists a b t' i', t = b :: t' /\ i = a :: i' /\ a <> b) -> tag t i <> Done r tt.
Proof. intros NT [->|(a & b & t' & i' & -> & -> & NE)] H; [now destruct t|]. cbn in H. apply beqb_false in NE. rewrite NE in H. discriminate. Qed.
Lemma tag1_error_gen b t a i : a <> b -> tag (b :: t) (a :: i) = Error.
Proof. intros NE. cbn. apply beqb_false in NE. now rewrite NE. Qed.
Lemma tag1_error b a i : a <> b -> tag [b] (a :: i) = Error.
Proof. intros NE. cbn. apply beqb_false in NE. now rewrite NE. Qed.

Lemma pb {X Y} (p : parser X) (q : X -> parser Y) i r x : p i = Done r x -> pbind p q i = q x r.
Proof. intros E. unfold pbind. now rewrite E. Qed.
(* [ends f rest]: a maximal run of f ends before rest *)
Definition ends (f : ascii -> bool) (rest : bytes) : Prop := forall a r, rest = a :: r -> f a = false.
Lemma span_app f x rest : (forall a, In a x -> f a = true) -> ends f rest -> span f (x ++ rest) = (x, rest).
Proof.
  intros H E. induction x as [|a x IH]; cbn.
  - destruct rest as [|b r]; [reflexivity|]. cbn. now rewrite (E b r eq_refl).
  - rewrite (H a (or_introl eq_refl)), IH; [reflexivity|]. intros b Hb. apply H. now right.
Qed.
Lemma span_all f i : let (x, r) := span f i in i = x ++ r /\ (forall a, In a x -> f a = true) /\ ends f r.
Proof.
  induction i as [|a i IH]; cbn; [repeat split; [intros a []|intros a r H; discriminate]|].
  destruct (f a) eqn:E; [|repeat split; [intros b []|intros b r H; now injection H as <- <-]].
  destruct (span f i) as [x r]. destruct IH as (-> & H1 & H2). repeat split; auto. intros b [<-|Hb]; auto.
Qed.
Lemma take_while_app f x rest : (forall a, In a x -> f a = true) -> ends f rest -> take_while f (x ++ rest) = Done rest x.
Proof. intros H E. unfold take_while. now rewrite span_app. Qed.
Lemma take_all i : take_while (fun _ => true) i = Done [] i.
Proof. unfold take_while. rewrite <- (app_nil_r i) at 1. rewrite span_app; [reflexivity|auto|intros a r H; discriminate]. Qed.
Lemma spaces_is sp : spaces sp -> forall a, In a sp -> is_space a = true.
Proof. intros H a Ha. destruct (H a Ha) as [-> | ->]; reflexivity. Qed.
Lemma skip_spaces sp rest : spaces sp -> ends is_space rest -> take_while is_space (sp ++ rest) = Done rest sp.
Proof. intros H E. apply take_while_app; [now apply spaces_is|assumption]. Qed.
Lemma skip_no_spaces rest : ends is_space rest -> take_while is_space rest = Done rest [].
Proof. intros E. exact (skip_spaces [] rest (fun a (H : In a []) => match H with end) E). Qed.
Lemma take_while1_app f x rest : x <> [] -> (forall a, In a x -> f a = true) -> ends f rest -> take_while1 f (x ++ rest) = Done rest x.
Proof. intros NE H E. unfold take_while1. rewrite span_app by assumption. destruct x; [congruence|]. reflexivity. Qed.
Lemma is_not_app f x rest : x <> [] -> (forall a, In a x -> f a = false) -> ends (fun a => negb (f a)) rest -> is_not f (x ++ rest) = Done rest x.
Proof. intros NE H E. unfold is_not. rewrite span_app; [|intros a Ha; now rewrite (H a Ha)|assumption]. destruct x; [congruence|]. reflexivity. Qed.

(* ---- tokens ---- *)
Notation qt := """"%char.
Notation bs := "\"%char.
Lemma we_app x y : well_escaped x -> well_escaped y -> well_escaped (x ++ y).
Proof. intros H. induction H; cbn; intros; [assumption|apply we_plain; auto|apply we_esc; auto]. Qed.
Lemma we_plains x : (forall a, In a x -> one_of «"""\"» a = false) -> well_escaped x.
Proof.
  induction x as [|a x IH]; intros H; [constructor|]. pose proof (H a (or_introl eq_refl)) as E. cbn in E. apply orb_false_iff in E. destruct E as [E1 E2]. apply orb_false_iff in E2. destruct E2 as [E2 _].
  constructor; [now apply beqb_false|now apply beqb_false|]. apply IH. intros b Hb. apply H. now right.
Qed.
Definition esc_loop := escaped_loop (one_of «"""\"») bs (one_of «"\"""»).
Lemma escaped_done fuel i r y : esc_loop fuel i = Done r y -> i = y ++ r /\ well_escaped y.
Proof.
  revert i r y. induction fuel as [|fuel IH]; intros i r y H; destruct i as [|a i']; cbn in H; try discriminate; try (injection H as <- <-; split; [reflexivity|constructor]).
  fold esc_loop in H. pose proof (span_all (fun a => negb (one_of «"""\"» a)) (a :: i')) as SP. cbn [span] in SP.
  destruct (if negb (one_of «"""\"» a) then let (x, r0) := span (fun a0 => negb (one_of «"""\"» a0)) i' in (a :: x, r0) else ([], a :: i')) as [x r0] eqn:EX.
  change (span (fun a => negb (beqb a qt || (beqb a bs || false))) i') with (span (fun a => negb (one_of «"""\"» a)) i') in H.
  change (negb (beqb a qt || (beqb a bs || false))) with (negb (one_of «"""\"» a)) in H. rewrite EX in H. destruct SP as (E1 & E2 & E3). destruct x as [|b x].
  - destruct (beqb a bs) eqn:EB; [|injection H as <- <-; split; [reflexivity|constructor]]. apply beqb_true in EB. subst a. destruct i' as [|c i']; [discriminate|].
    destruct (beqb c bs || (beqb c qt || false)) eqn:EC; [|discriminate]. destruct (esc_loop fuel i') as [r' y'| | |] eqn:EL; try discriminate. injection H as <- <-. apply IH in EL. destruct EL as [-> W].
    split; [reflexivity|]. apply we_esc; [|assumption]. apply orb_true_iff in EC. destruct EC as [EC|EC]; [right; now apply beqb_true|left]. rewrite orb_false_r in EC. now apply beqb_true.
  - destruct (esc_loop fuel r0) as [r' y'| | |] eqn:EL; try discriminate. injection H as <- <-. apply IH in EL. destruct EL as [-> W]. split; [exact (eq_trans E1 (app_assoc (b :: x) y' r'))|].
    apply (we_app (b :: x)); [|assumption]. apply we_plains. intros c Hc. specialize (E2 c Hc). now apply negb_true_iff.
Qed.
(* a text splits into a run without quotation marks and backslashes, and the rest *)
Lemma escaped_app fuel s rest : well_escaped s -> length (s ++ qt :: rest) <= fuel -> esc_loop fuel (s ++ qt :: rest) = Done (qt :: rest) s.
Proof.
  revert s. induction fuel as [|fuel IH]; intros s W L; [rewrite app_length in L; cbn in L; lia|].
  set (f := one_of «"""\"»). pose proof (span_all (fun a => negb (f a)) s) as SP. destruct (span (fun a => negb (f a)) s) as [x s'] eqn:ES. destruct SP as (-> & E2 & E3).
  assert (EN : ends (fun a => negb (f a)) (s' ++ qt :: rest)) by (destruct s' as [|c s']; intros a r H; injection H as <- <-; [reflexivity|now apply (E3 _ s')]).
  assert (W' : well_escaped s').
  { clear L ES E3 EN. induction x as [|a x IHx]; [assumption|]. apply IHx; [|intros b Hb; apply E2; now right]. inversion W as [|? ? N1 N2 W1|? ? N1 W1]; subst; [assumption|]. specialize (E2 bs (or_introl eq_refl)). discriminate. }
  destruct x as [|a x].
  - cbn [app] in *. destruct s' as [|c s']; cbn [app]; [reflexivity|]. pose proof (E3 c s' eq_refl) as Ec. inversion W' as [|? ? N1 N2 W1|b s'' N1 W1]; subst.
    + unfold f in Ec. cbn in Ec. apply beqb_false in N1, N2. rewrite N1, N2 in Ec. discriminate.
    + cbn [app]. change (esc_loop (S fuel) (bs :: b :: s'' ++ qt :: rest)) with (if one_of «"\"""» b then match esc_loop fuel (s'' ++ qt :: rest) with Done r' y => Done r' (bs :: b :: y) | e => e end else Error).
      rewrite IH; [|assumption|cbn in L; rewrite app_length in *; cbn in *; lia]. destruct N1 as [-> | ->]; reflexivity.
  - rewrite <- app_assoc. change (esc_loop (S fuel) ((a :: x) ++ s' ++ qt :: rest)) with
      (match is_not f ((a :: x) ++ s' ++ qt :: rest) with
       | Done r y => match esc_loop fuel r with Done r' z => Done r' (y ++ z) | e => e end
       | Incomplete => Incomplete | Panic => Panic
       | Error => if beqb a bs then match x ++ s' ++ qt :: rest with b :: r => if one_of «"\"""» b then match esc_loop fuel r with Done r' y => Done r' (a :: b :: y) | e => e end else Error | [] => Error end else Done ((a :: x) ++ s' ++ qt :: rest) []
       end).
    rewrite (is_not_app f (a :: x)); [|discriminate|intros b Hb; now apply negb_true_iff, E2|assumption]. rewrite IH; [reflexivity|assumption|]. rewrite <- app_assoc, app_length in L. cbn in L. lia.
Qed.
Lemma quoted_app s rest : well_escaped s -> quoted (quote ++ s ++ quote ++ rest) = Done rest s.
Proof.
  intros W. unfold quoted, pbind. rewrite (tag_app quote). unfold escaped. fold esc_loop. change (quote ++ rest) with (qt :: rest). rewrite escaped_app by auto.
  change (qt :: rest) with (quote ++ rest). rewrite tag_app. reflexivity.
Qed.
Lemma quoted_done i r s : quoted i = Done r s -> i = quote ++ s ++ quote ++ r /\ well_escaped s.
Proof.
  unfold quoted, pbind. destruct (tag quote i) as [r1 u| | |] eqn:E1; try discriminate. apply tag_done in E1. unfold escaped. fold esc_loop.
  destruct (esc_loop (length r1) r1) as [r2 y| | |] eqn:E2; try discriminate. apply escaped_done in E2. destruct (tag quote r2) as [r3 u'| | |] eqn:E3; try discriminate. apply tag_done in E3.
  intros H. injection H as <- <-. destruct E2 as [E2 W]. split; [|assumption]. now rewrite E1, E2, E3.
Qed.

Lemma bare_first s : bare s -> exists a s', s = a :: s' /\ a <> qt /\ is_space a = false /\ ~ In a stops.
Proof.
  intros [NE H]. destruct s as [|a s']; [congruence|]. exists a, s'. specialize (H a (or_introl eq_refl)). destruct H as [NI NT]. split; [reflexivity|]. split; [intros ->; apply NI; cbn; auto|]. split; [|assumption].
  unfold is_space. apply orb_false_iff. split; apply beqb_false; [|assumption]. intros ->. apply NI. now left.
Qed.
Lemma token_stop_in a : token_stop a = true <-> In a stops.
Proof. apply one_of_spec. Qed.
Lemma bare_app s rest : bare s -> at_stop rest -> alt quoted (is_not token_stop) (s ++ rest) = Done rest s.
Proof.
  intros B AS. destruct (bare_first s B) as (a & s' & E & NQ & _). unfold alt, quoted, pbind. replace (tag quote (s ++ rest)) with (@Error unit).
  - apply is_not_app; [apply B| |].
    + intros b Hb. destruct (token_stop b) eqn:E'; [|reflexivity]. apply token_stop_in in E'. now apply B in Hb.
    + intros b r Er. destruct AS as [->|(c & r' & -> & Hc)]; [discriminate|]. injection Er as -> ->. apply negb_false_iff. now apply token_stop_in.
  - subst s. symmetry. now apply tag1_error.
Qed.
Lemma token_app {X} (io : text_io X) rest t x : token io rest t x -> parse_token io (t ++ rest) = Done rest x.
Proof.
  intros (s & HO & [[-> W]|(-> & B & AS)]); unfold parse_token, map_opt.
  - unfold alt. rewrite <- !app_assoc. rewrite quoted_app by assumption. now rewrite HO.
  - rewrite bare_app by assumption. now rewrite HO.
Qed.
(* the first byte of a token is neither a blank nor a stop *)
Lemma token_first {X} (io : text_io X) rest t x : token io rest t x -> exists a t', t = a :: t' /\ is_space a = false /\ (a = qt \/ ~ In a stops).
Proof. intros (s & HO & [[-> W]|(-> & B & AS)]); [exists qt, (s ++ quote); auto|]. destruct (bare_first s B) as (a & s' & E & NQ & ES & NI). exists a, s'. auto. Qed.

(* ---- lists ---- *)
Section Vec.
  Context {X : Type} (P : syntax X) (inner : parser X) (o c : ascii).
  Notation sep := ","%char.
  Context (HP : forall rest e x, P rest e x -> inner (e ++ rest) = Done rest x)
          (HF : forall rest e x, P rest e x -> exists a e', e = a :: e' /\ is_space a = false /\ a <> sep)
          (HC : forall rest, inner (c :: rest) = Error) (Cs : is_space c = false) (Cc : c <> sep).
  Let elem : parser X := skip opt (tag [sep]); skip take_while is_space; do the_token <- inner; skip take_while is_space; pret the_token.
  Lemma items_ends rest t xs : more_items P [sep] (c :: rest) t xs -> ends is_space (t ++ c :: rest).
  Proof. intros H a r E. destruct H; cbn in E; injection E as <- <-; [assumption|reflexivity]. Qed.
  Lemma elem_close rest : elem (c :: rest) = Error.
  Proof. unfold elem, pbind, opt. rewrite tag1_error by assumption. rewrite skip_no_spaces; [|intros a r E; now injection E as <- <-]. now rewrite HC. Qed.
  Lemma elem_app sp e sp' rest x pre : pre = [] /\ sp = [] \/ pre = [sep] -> spaces sp -> spaces sp' -> P (sp' ++ rest) e x -> ends is_space rest -> elem (pre ++ sp ++ e ++ sp' ++ rest) = Done rest x.
  Proof.
    intros Hp S1 S2 HE EN. destruct (HF _ _ _ HE) as (a & e' & Ee & As & Ac).
    assert (EE : ends is_space (e ++ sp' ++ rest)) by (intros b r Er; subst e; now injection Er as <- <-).
    assert (E1 : opt (tag [sep]) (pre ++ sp ++ e ++ sp' ++ rest) = Done (sp ++ e ++ sp' ++ rest) (match pre with [] => None | _ => Some tt end)).
    { destruct Hp as [[-> ->]| ->]; [|unfold opt; now rewrite tag_app]. cbn [app]. unfold opt. rewrite Ee at 1. cbn [app]. now rewrite tag1_error. }
    unfold elem, pbind. rewrite E1. rewrite skip_spaces by assumption. rewrite (HP _ _ _ HE). rewrite skip_spaces by assumption. reflexivity.
  Qed.
  Lemma many0_step {Y} (p : parser Y) fuel i r x : p i = Done r x -> length r < length i -> many0_loop p (S fuel) i = match many0_loop p fuel r with Done r' xs => Done r' (x :: xs) | e => e end.
  Proof. intros E L. destruct i as [|a i]; [cbn in L; lia|]. cbn [many0_loop]. rewrite E. destruct (Nat.eqb_spec (length r) (length (a :: i))); [lia|reflexivity]. Qed.
  Lemma more_app rest t xs : more_items P [sep] (c :: rest) t xs -> forall fuel, length (t ++ c :: rest) <= fuel -> many0_loop elem fuel (t ++ c :: rest) = Done (c :: rest) xs.
  Proof.
    intros H. induction H as [|sp e sp' t x xs S1 S2 HE HM IH]; intros fuel L.
    - destruct fuel; [cbn in L; lia|]. cbn [app many0_loop]. now rewrite elem_close.
    - pose proof (items_ends _ _ _ HM) as EN. rewrite <- !app_assoc in *. pose proof (elem_app sp e sp' (t ++ c :: rest) x [sep] (or_intror eq_refl) S1 S2 HE EN) as EE.
      destruct fuel; [cbn in L; lia|]. rewrite (many0_step _ _ _ _ _ EE); [|rewrite !app_length; cbn; lia]. rewrite IH; [reflexivity|]. rewrite !app_length in *. cbn in *. lia.
  Qed.
  Lemma vec_app rest t xs : vec P [o] [c] [sep] rest t xs -> parse_vec inner [o] [c] [sep] (t ++ rest) = Done rest xs.
  Proof.
    intros (sp & body & S1 & HI & ->). unfold parse_vec. fold elem. rewrite <- !app_assoc.
    assert (EB : ends is_space (body ++ [c] ++ rest)).
    { destruct HI as [|e sp' t x xs S2 HE HM]; [intros a r E; now injection E as <- <-|]. destruct (HF _ _ _ HE) as (a & e' & -> & As & _). intros b r E. now injection E as <- <-. }
    assert (EM : many0 elem (body ++ [c] ++ rest) = Done (c :: rest) xs).
    { unfold many0. destruct HI as [|e sp' t x xs S2 HE HM]; [now apply more_app; [constructor|]|].
      pose proof (items_ends _ _ _ HM) as EN. pose proof (elem_app [] e sp' (t ++ c :: rest) x [] (or_introl (conj eq_refl eq_refl)) (fun a (H : In a []) => match H with end) S2 HE EN) as EE. cbn [app] in EE.
      rewrite <- !app_assoc. cbn [app]. destruct (HF _ _ _ HE) as (a & e' & Ee & _). assert (L0 : 0 < length e) by (rewrite Ee; cbn; lia).
      destruct (length (e ++ sp' ++ t ++ c :: rest)) as [|fuel] eqn:LF; [rewrite !app_length in LF; lia|]. rewrite (many0_step _ _ _ _ _ EE); [|rewrite !app_length in *; cbn in *; lia].
      rewrite (more_app _ _ _ HM); [reflexivity|]. rewrite !app_length in *. cbn in *. lia. }
    rewrite (pb _ _ _ _ _ (tag_app _ _)). rewrite (pb _ _ _ _ _ (skip_spaces _ _ S1 EB)). rewrite (pb _ _ _ _ _ EM). rewrite (pb _ _ _ _ _ (tag_app [c] rest)). reflexivity.
  Qed.
End Vec.

(* ---- numbers ---- *)
Lemma uint_text_back d : text_uint (uint_text d) = Some d.
Proof. induction d as [|d IH|d IH|d IH|d IH|d IH|d IH|d IH|d IH|d IH|d IH]; cbn [uint_text text_uint is_digit]; [reflexivity|..]; rewrite IH; reflexivity. Qed.
Lemma uint_text_digits d a : In a (uint_text d) -> is_digit a = true.
Proof. induction d; cbn; intros H; [destruct H|..]; (destruct H as [<-|H]; [reflexivity|auto]). Qed.
Lemma usize_text_nonempty n : usize_text n <> [].
Proof.
  unfold usize_text. intros H. assert (E : N.to_uint (N.of_nat n) = Nil) by (destruct (N.to_uint (N.of_nat n)); (reflexivity || discriminate)).
  pose proof (DecimalN.Unsigned.of_to (N.of_nat n)) as E2. rewrite E in E2. cbn in E2. rewrite <- E2 in E. discriminate.
Qed.
Lemma is_digit_iff a : is_digit a = true <-> (48 <= N_of_ascii a <= 57)%N.
Proof.
  destruct a as [[] [] [] [] [] [] [] []]; cbn; split; intros H; try discriminate; try reflexivity; try (split; intros C; discriminate C);
    exfalso; destruct H as [H1 H2]; (apply H1; reflexivity) || (apply H2; reflexivity).
Qed.
Lemma of_uint_acc d p : Npos (Pos.of_uint_acc d p) = fold_left (fun v a => 10 * v + (N_of_ascii a - 48))%N (uint_text d) (Npos p).
Proof. revert p. induction d as [|d IH|d IH|d IH|d IH|d IH|d IH|d IH|d IH|d IH|d IH]; intros p; [reflexivity|..]; cbn [Pos.of_uint_acc uint_text fold_left]; rewrite IH; f_equal;
  match goal with |- context [(N_of_ascii ?a - 48)%N] => let v := eval vm_compute in (N_of_ascii a - 48)%N in change (N_of_ascii a - 48)%N with v end; lia. Qed.
Lemma of_uint_decimal d : N.of_uint d = decimal (uint_text d).
Proof.
  unfold N.of_uint, decimal. induction d as [|d IH|d IH|d IH|d IH|d IH|d IH|d IH|d IH|d IH|d IH]; [reflexivity|cbn [Pos.of_uint uint_text fold_left]; exact IH|..];
    cbn [Pos.of_uint uint_text fold_left]; rewrite of_uint_acc; reflexivity.
Qed.
Lemma text_uint_digits s : (forall a, In a s -> is_digit a = true) -> exists d, text_uint s = Some d /\ uint_text d = s.
Proof.
  induction s as [|a s IH]; intros HD; [exists Decimal.Nil; auto|]. destruct IH as (d & E & ED); [intros; apply HD; now right|]. pose proof (HD a (or_introl eq_refl)) as Ha. cbn [text_uint]. rewrite Ha, E. cbn [option_map].
  eexists. split; [reflexivity|]. destruct a as [[] [] [] [] [] [] [] []]; cbn in Ha; try discriminate Ha; cbn; now rewrite ED.
Qed.
Lemma text_uint_some s d : text_uint s = Some d -> forall a, In a s -> is_digit a = true.
Proof.
  revert d. induction s as [|b s IH]; intros d E a Ha; [destruct Ha|]. cbn [text_uint] in E. destruct (is_digit b) eqn:B; [|discriminate]. destruct (text_uint s) as [d'|] eqn:E'; [|discriminate].
  destruct Ha as [<-|Ha]; [exact B|]. eapply IH; eauto.
Qed.
Lemma usize_digits ds : ds <> [] -> (forall a, In a ds -> is_digit a = true) -> forall s, s = ds \/ s = "+"%char :: ds ->
  usize_of_text s = if (decimal ds <? usize_bound)%N then Some (N.to_nat (decimal ds)) else None.
Proof.
  intros NE HD s Hs. destruct (text_uint_digits ds HD) as (d & E & ED). assert (ES : (match s with "+"%char :: a :: s' => a :: s' | _ => s end) = ds).
  { destruct ds as [|a ds]; [congruence|]. destruct Hs as [->| ->]; [|reflexivity]. pose proof (HD a (or_introl eq_refl)) as Ha. destruct ds as [|b ds]; destruct a as [[] [] [] [] [] [] [] []]; try reflexivity; discriminate Ha. }
  unfold usize_of_text. rewrite ES. destruct ds as [|a ds]; [congruence|]. rewrite E. cbv zeta. now rewrite of_uint_decimal, ED.
Qed.
Lemma usize_iff s n : usize_of_text s = Some n <-> number s (N.of_nat n) /\ (N.of_nat n < usize_bound)%N.
Proof.
  split.
  - intros E. set (ds := match s with "+"%char :: a :: s' => a :: s' | _ => s end).
    assert (Hs : s = ds \/ s = "+"%char :: ds).
    { subst ds. destruct s as [|a [|b s]]; [now left|left; destruct a as [[] [] [] [] [] [] [] []]; reflexivity|]. destruct a as [[] [] [] [] [] [] [] []]; try (left; reflexivity). now right. }
    assert (NE : ds <> []) by (intros E0; unfold usize_of_text in E; fold ds in E; rewrite E0 in E; discriminate).
    assert (HD : forall a, In a ds -> is_digit a = true).
    { unfold usize_of_text in E. fold ds in E. destruct ds as [|a ds']; [congruence|]. destruct (text_uint (a :: ds')) as [d|] eqn:ET; [|discriminate]. now apply (text_uint_some _ d). }
    rewrite (usize_digits ds NE HD s Hs) in E. destruct (decimal ds <? usize_bound)%N eqn:L; [|discriminate]. injection E as <-. rewrite Nnat.N2Nat.id. apply N.ltb_lt in L. split; [|exact L].
    exists ds. split; [exact Hs|]. split; [exact NE|]. split; [|reflexivity]. intros a Ha. now apply is_digit_iff, HD.
  - intros ((ds & Hs & NE & HD & E) & L). rewrite (usize_digits ds NE (fun a Ha => proj2 (is_digit_iff a) (HD a Ha)) s Hs). rewrite E. apply N.ltb_lt in L. rewrite L. f_equal. apply Nnat.Nat2N.id.
Qed.
Lemma usize_text_back n : (N.of_nat n < usize_bound)%N -> usize_of_text (usize_text n) = Some n.
Proof.
  intros L. apply usize_iff. split; [|exact L]. exists (usize_text n). split; [now left|]. split; [apply usize_text_nonempty|]. split.
  - intros a Ha. apply is_digit_iff. now apply (uint_text_digits (N.to_uint (N.of_nat n))).
  - unfold usize_text. rewrite <- of_uint_decimal. apply DecimalN.Unsigned.of_to.
Qed.
Lemma digit_app n rest : ends is_digit rest -> digit (usize_text n ++ rest) = Done rest (usize_text n).
Proof. intros E. apply take_while1_app; [apply usize_text_nonempty|apply uint_text_digits|assumption]. Qed.
Lemma digit_space rest n : ends is_space (usize_text n ++ rest).
Proof.
  pose proof (usize_text_nonempty n) as NE. pose proof (uint_text_digits (N.to_uint (N.of_nat n))) as D. fold (usize_text n) in D. destruct (usize_text n) as [|a s]; [congruence|]. specialize (D a (or_introl eq_refl)).
  intros b r E. injection E as <- <-. unfold is_space. apply orb_false_iff. split; apply beqb_false; intros ->; discriminate.
Qed.
Lemma spaces_end f sp rest : sp <> [] -> spaces sp -> (f " "%char = false) -> (f "009"%char = false) -> ends f (sp ++ rest).
Proof. intros NE HS F1 F2 a r E. destruct sp as [|b sp]; [congruence|]. injection E as <- <-. destruct (HS b (or_introl eq_refl)) as [-> | ->]; assumption. Qed.
Lemma ends_first f a t rest : f a = false -> ends f ((a :: t) ++ rest).
Proof. intros H b r E. now injection E as <- <-. Qed.
Lemma token_ends {X} (io : text_io X) rest t x rest' : token io rest t x -> ends is_space (t ++ rest').
Proof. intros H. apply token_first in H. destruct H as (a & t' & -> & E & _). now apply ends_first. Qed.
Lemma token_close {X} (io : text_io X) c rest : c <> qt -> In c stops -> parse_token io (c :: rest) = Error.
Proof.
  intros NQ HS. unfold parse_token, map_opt, alt, quoted, pbind. change quote with [qt]. rewrite tag1_error by assumption. unfold is_not. cbn [span]. apply token_stop_in in HS. rewrite HS. reflexivity.
Qed.
Lemma alt_left {X} (p q : parser X) i r x : p i = Done r x -> alt p q i = Done r x.
Proof. intros E. unfold alt. now rewrite E. Qed.
Lemma alt_right {X} (p q : parser X) i : p i = Error -> alt p q i = q i.
Proof. intros E. unfold alt. now rewrite E. Qed.
Lemma pb_error {X Y} (p : parser X) (q : X -> parser Y) i : p i = Error -> pbind p q i = Error.
Proof. intros E. unfold pbind. now rewrite E. Qed.
Lemma pret_eq {X} (x : X) i : pret x i = Done i x.
Proof. reflexivity. Qed.
Lemma tag_first a t b i : a <> b -> tag (b :: t) (a :: i) = Error.
Proof. intros NE. cbn. apply beqb_false in NE. now rewrite NE. Qed.

Lemma arrow_app a rest : an_arrow a -> arrow (a ++ rest) = Done rest tt.
Proof. intros [->|[->| ->]]; reflexivity. Qed.
Lemma arrow_first a rest : an_arrow a -> ends is_space (a ++ rest).
Proof. intros [->|[->| ->]] b r E; injection E as <- <-; reflexivity. Qed.
Lemma comment_ends z : comment z -> ends is_space z.
Proof. intros [->|[s ->]] a r E; [discriminate|]. now injection E as <- <-. Qed.

Section Rules.
  Context {N T : Type} {K : Weight} (ion : text_io N) (iot : text_io T) (iow : text_io K).

  Lemma letter_app rest e x : letter ion iot rest e x -> parse_letter_t ion iot (e ++ rest) = Done rest x.
  Proof.
    intros (sp & t & S1 & H). unfold parse_letter_t. destruct x as [n|a]; destruct H as [-> HT]; rewrite <- !app_assoc.
    - apply alt_left. rewrite (pb _ _ _ _ _ (tag_app _ _)), (pb _ _ _ _ _ (skip_spaces _ _ S1 (token_ends _ _ _ _ _ HT))), (pb _ _ _ _ _ (token_app _ _ _ _ HT)). reflexivity.
    - rewrite alt_right; [|now apply pb_error]. rewrite (pb _ _ _ _ _ (tag_app _ _)), (pb _ _ _ _ _ (skip_spaces _ _ S1 (token_ends _ _ _ _ _ HT))), (pb _ _ _ _ _ (token_app _ _ _ _ HT)). reflexivity.
  Qed.
  Lemma letter_first rest e x : letter ion iot rest e x -> exists a e', e = a :: e' /\ is_space a = false /\ a <> ","%char.
  Proof. intros (sp & t & S1 & H). destruct x; destruct H as [-> _]; eexists _, _; (split; [reflexivity|split; [reflexivity|discriminate]]). Qed.
  Lemma cfg_vec_app rest t xs : vec (letter ion iot) «"["» «"]"» «","» rest t xs -> parse_cfg_composition ion iot (t ++ rest) = Done rest xs.
  Proof. apply (vec_app (letter ion iot) (parse_letter_t ion iot) "["%char "]"%char letter_app letter_first); [reflexivity|reflexivity|discriminate]. Qed.

  Lemma var_app rest e x : variable_or_terminal iot rest e x -> parse_var_t iot (e ++ rest) = Done rest x.
  Proof.
    intros (sp & S1 & H). unfold parse_var_t. destruct x as [i j|a].
    - destruct H as (sp' & S2 & NE & Li & Lj & -> & HR). apply alt_left. rewrite <- !app_assoc. rewrite (pb _ _ _ _ _ (tag_app _ _)), (pb _ _ _ _ _ (skip_spaces _ _ S1 (digit_space _ _))).
      rewrite (pb _ _ _ _ _ (digit_app _ _ (spaces_end is_digit sp' _ NE S2 eq_refl eq_refl))), (pb _ _ _ _ _ (skip_spaces _ _ S2 (digit_space _ _))). rewrite (pb _ _ _ _ _ (digit_app _ _ HR)).
      now rewrite !usize_text_back.
    - destruct H as (t & -> & HT). rewrite <- !app_assoc. rewrite alt_right; [|now apply pb_error].
      rewrite (pb _ _ _ _ _ (tag_app _ _)), (pb _ _ _ _ _ (skip_spaces _ _ S1 (token_ends _ _ _ _ _ HT))), (pb _ _ _ _ _ (token_app _ _ _ _ HT)). reflexivity.
  Qed.
  Lemma var_first rest e x : variable_or_terminal iot rest e x -> exists a e', e = a :: e' /\ is_space a = false /\ a <> ","%char.
  Proof. intros (sp & S1 & H). destruct x as [i j|a]; [destruct H as (sp' & _ & _ & _ & _ & -> & _)|destruct H as (u & -> & _)]; eexists _, _; (split; [reflexivity|split; [reflexivity|discriminate]]). Qed.
  Lemma component_app rest t xs : component iot rest t xs -> parse_projection iot (t ++ rest) = Done rest xs.
  Proof. apply (vec_app (variable_or_terminal iot) (parse_var_t iot) "["%char "]"%char var_app var_first); [reflexivity|reflexivity|discriminate]. Qed.
  Lemma vec_first {X} (P : syntax X) o c sep rest t xs : is_space o = false -> o <> ","%char -> vec P [o] c sep rest t xs -> exists a e', t = a :: e' /\ is_space a = false /\ a <> ","%char.
  Proof. intros H1 H2 (sp & body & _ & _ & ->). exists o, (sp ++ body ++ c). auto. Qed.
  Lemma vec_ends {X} (P : syntax X) o c sep rest t xs rest' : is_space o = false -> o <> ","%char -> vec P [o] c sep rest t xs -> ends is_space (t ++ rest').
  Proof. intros H1 H2 H. destruct (vec_first P o c sep rest t xs H1 H2 H) as (a & e' & -> & E & _). now apply ends_first. Qed.
  Lemma composition_app rest t xs : vec (component iot) «"["» «"]"» «","» rest t xs -> parse_composition iot (t ++ rest) = Done rest xs.
  Proof. apply (vec_app (component iot) (parse_projection iot) "["%char "]"%char component_app); [|reflexivity|reflexivity|discriminate]. intros r e x. now apply vec_first. Qed.
  Lemma tokens_app {X} (io : text_io X) o c rest t xs : is_space c = false -> c <> ","%char -> c <> qt -> In c stops -> vec (token io) [o] [c] «","» rest t xs -> parse_vec (parse_token io) [o] [c] «","» (t ++ rest) = Done rest xs.
  Proof.
    intros Cs Cc Cq CS. apply (vec_app (token io) (parse_token io) o c); auto.
    - intros r e x. apply token_app.
    - intros r e x H. apply token_first in H. destruct H as (a & t' & -> & E & D). exists a, t'. repeat split; auto. destruct D as [->|NI]; [discriminate|intros ->; apply NI; cbn; tauto].
    - intros r. now apply token_close.
  Qed.

  (* the end of a rule: blanks, weight, blanks, comment *)
  Lemma weight_app {Y} (fin : option K -> parser K) (q : option K -> parser Y) sp3 w sp4 z k : (forall w i, fin (Some w) i = Done i w) ->
    spaces sp3 -> spaces sp4 -> weight_part iow (sp4 ++ z) w k -> comment z ->
    exists o, (match o with Some k => k | None => wone end) = k /\
      (skip take_while is_space;
       do weight_o <- opt (complete (skip tag «"#"»; skip take_while is_space; do weight_s <- is_not (one_of «" "»); fin (of_text iow weight_s)));
       skip take_while is_space; q weight_o) (sp3 ++ w ++ sp4 ++ z) = q o z.
  Proof.
    intros HF S3 S4 HW HC. pose proof (comment_ends z HC) as EZ. destruct HW as [[-> ->]|(sp & s & S1 & NE & HS & HO & -> & HR)].
    - exists None. split; [reflexivity|]. cbn [app]. rewrite app_assoc. assert (S34 : spaces (sp3 ++ sp4)) by (intros a Ha; apply in_app_iff in Ha; destruct Ha; auto).
      rewrite (pb _ _ _ _ _ (skip_spaces _ _ S34 EZ)).
      assert (EO : opt (complete (skip tag «"#"»; skip take_while is_space; do weight_s <- is_not (one_of «" "»); fin (of_text iow weight_s))) z = Done z None) by (destruct HC as [->|[c ->]]; reflexivity).
      rewrite (pb _ _ _ _ _ EO), (pb _ _ _ _ _ (skip_no_spaces _ EZ)). reflexivity.
    - exists (Some k). split; [reflexivity|]. rewrite <- !app_assoc. rewrite (pb _ _ _ _ _ (skip_spaces sp3 (_ ++ sp ++ s ++ sp4 ++ z) S3 (ends_first is_space "#"%char [] _ eq_refl))).
      assert (ES : ends is_space (s ++ sp4 ++ z)) by (destruct s as [|a s]; [congruence|]; apply ends_first; destruct (HS a (or_introl eq_refl)) as [H1 H2]; unfold is_space; apply orb_false_iff; split; now apply beqb_false).
      assert (EO : opt (complete (skip tag «"#"»; skip take_while is_space; do weight_s <- is_not (one_of «" "»); fin (of_text iow weight_s))) («"#"» ++ sp ++ s ++ sp4 ++ z) = Done (sp4 ++ z) (Some k)).
      { unfold opt, complete. rewrite (pb _ _ _ _ _ (tag_app _ _)), (pb _ _ _ _ _ (skip_spaces _ _ S1 ES)).
        rewrite (pb _ _ _ _ _ (is_not_app (one_of «" "») s (sp4 ++ z) NE (fun a Ha => proj2 (orb_false_iff _ _) (conj (proj2 (beqb_false _ _) (proj1 (HS a Ha))) eq_refl)) ltac:(intros a r E; destruct HR as [ER|[r' ER]]; rewrite ER in E; [discriminate|]; now injection E as <- <-))).
        now rewrite HO, HF. }
      rewrite (pb _ _ _ _ _ EO), (pb _ _ _ _ _ (skip_spaces _ _ S4 EZ)). reflexivity.
  Qed.

  Lemma cfg_rule_app text r : cfg_rule_syntax ion iot iow text r -> parse_cfg_rule ion iot iow text = Done [] r.
  Proof.
    intros (h & sp1 & a & sp2 & c & sp3 & w & sp4 & z & S1 & S2 & S3 & S4 & -> & HH & HA & HV & HW & HC). unfold parse_cfg_rule.
    rewrite (pb _ _ _ _ _ (token_app _ _ _ _ HH)), (pb _ _ _ _ _ (skip_spaces _ _ S1 (arrow_first _ _ HA))), (pb _ _ _ _ _ (arrow_app _ _ HA)).
    rewrite (pb _ _ _ _ _ (skip_spaces _ _ S2 (vec_ends _ "["%char _ _ _ _ _ _ eq_refl ltac:(discriminate) HV))), (pb _ _ _ _ _ (cfg_vec_app _ _ _ HV)).
    match goal with |- pbind _ (fun _ => pbind _ (fun weight_o => pbind _ (fun _ => @?q weight_o))) _ = _ => destruct (weight_app (fun o => expr_res o) q sp3 w sp4 z _ (fun w i => eq_refl) S3 S4 HW HC) as (o & EO & E) end.
    etransitivity; [exact E|]. cbn beta. rewrite EO. destruct HC as [->|[s ->]]; [now destruct r|].
    assert (EA : alt eof (skip tag «"%"»; skip take_while (fun _ => true); pret tt) («"%"» ++ s) = Done [] tt).
    { rewrite alt_right by reflexivity. rewrite (pb _ _ _ _ _ (tag_app _ _)), (pb _ _ _ _ _ (take_all s)). reflexivity. }
    rewrite (pb _ _ _ _ _ EA). now destruct r.
  Qed.
  Lemma pmcfg_rule_app text r : pmcfg_rule_syntax ion iot iow text r -> parse_pmcfg_rule ion iot iow text = Done [] r.
  Proof.
    intros (h & sp1 & a & sp2 & c & sp3 & s & sp4 & w & sp5 & z & S1 & S2 & S3 & S4 & S5 & -> & HH & HA & HV & HT & HW & HC). unfold parse_pmcfg_rule.
    rewrite (pb _ _ _ _ _ (token_app _ _ _ _ HH)), (pb _ _ _ _ _ (skip_spaces _ _ S1 (arrow_first _ _ HA))), (pb _ _ _ _ _ (arrow_app _ _ HA)).
    rewrite (pb _ _ _ _ _ (skip_spaces _ _ S2 (vec_ends _ "["%char _ _ _ _ _ _ eq_refl ltac:(discriminate) HV))), (pb _ _ _ _ _ (composition_app _ _ _ HV)).
    rewrite (pb _ _ _ _ _ (skip_spaces _ _ S3 (vec_ends _ "("%char _ _ _ _ _ _ eq_refl ltac:(discriminate) HT))).
    assert (ET : parse_successors ion (s ++ sp4 ++ w ++ sp5 ++ z) = Done (sp4 ++ w ++ sp5 ++ z) (pr_tail r)) by (apply (tokens_app ion "("%char ")"%char); [reflexivity|discriminate|discriminate|cbn; tauto|exact HT]).
    rewrite (pb _ _ _ _ _ ET).
    match goal with |- pbind _ (fun _ => pbind _ (fun weight_o => pbind _ (fun _ => @?q weight_o))) _ = _ => destruct (weight_app (fun o => unwrap o) q sp4 w sp5 z _ (fun w i => eq_refl) S4 S5 HW HC) as (o & EO & E) end.
    etransitivity; [exact E|]. cbn beta. rewrite EO.
    assert (EM : exists r' u, many0 (tag «"%"») z = Done r' u).
    { unfold many0. assert (H : forall n z, (exists r' u, many0_loop (tag ["%"%char]) n z = Done r' u) \/ n < length z).
      { clear. induction n as [|n IH]; intros z; (destruct z as [|b z]; [left; eexists _, _; reflexivity|]); [right; cbn; lia|]. cbn [many0_loop]. change (tag ["%"%char] (b :: z)) with (if beqb b "%" then Done z tt else Error).
        destruct (beqb b "%"); [|left; eexists _, _; reflexivity]. destruct (Nat.eqb_spec (length z) (length (b :: z))); [cbn in *; lia|]. destruct (IH z) as [(r' & u & ->)|L]; [left; eexists _, _; reflexivity|right; cbn; lia]. }
      destruct (H (length z) z) as [H'|L]; [exact H'|lia]. }
    destruct EM as (r' & u & EM). rewrite (pb _ _ _ _ _ EM), (pb _ _ _ _ _ (take_all r')). now destruct r.
  Qed.
End Rules.

(* ---- Display writes texts of the syntax ---- *)
Definition comma_tail (l : list bytes) : bytes := flat_map (fun x => «", "» ++ x) l.
Lemma commas_cons x l : commas (x :: l) = x ++ comma_tail l.
Proof. revert x. induction l as [|y l IH]; intros x; [cbn; now rewrite app_nil_r|]. change (commas (x :: y :: l)) with (x ++ «", "» ++ commas (y :: l)). rewrite IH. reflexivity. Qed.
Section Commas.
  Context {X : Type} (P : syntax X) (f : X -> bytes) (c : ascii) (Cd : is_digit c = false).
  Lemma comma_ends l rest : ends is_digit (comma_tail l ++ c :: rest).
  Proof. intros a r E. destruct l; cbn in E; injection E as <- <-; [assumption|reflexivity]. Qed.
  Lemma comma_more rest xs : (forall x, In x xs -> forall rest, ends is_digit rest -> P rest (f x) x) -> more_items P [","%char] (c :: rest) (comma_tail (map f xs)) xs.
  Proof.
    induction xs as [|x xs IH]; intros H; [constructor|]. cbn [map]. change (comma_tail (f x :: map f xs)) with ((«", "» ++ f x) ++ comma_tail (map f xs)).
    rewrite <- app_assoc. change («", "» ++ f x ++ comma_tail (map f xs)) with ([","%char] ++ [" "%char] ++ f x ++ [] ++ comma_tail (map f xs)).
    constructor; [intros a [<-|[]]; now left|intros a []| |]; [|apply IH; intros y Hy; apply H; now right]. apply H; [now left|]. apply comma_ends.
  Qed.
  Lemma commas_items rest xs : (forall x, In x xs -> forall rest, ends is_digit rest -> P rest (f x) x) -> items P [","%char] (c :: rest) (commas (map f xs)) xs.
  Proof.
    destruct xs as [|x xs]; intros H; [constructor|]. cbn [map]. rewrite commas_cons. change (f x ++ comma_tail (map f xs)) with (f x ++ [] ++ comma_tail (map f xs)).
    constructor; [intros a []| |]; [|apply comma_more; intros y Hy; apply H; now right]. apply H; [now left|]. apply comma_ends.
  Qed.
  Lemma commas_vec o rest xs : (forall x, In x xs -> forall rest, ends is_digit rest -> P rest (f x) x) -> vec P [o] [c] [","%char] rest ([o] ++ commas (map f xs) ++ [c]) xs.
  Proof. intros H. exists [], (commas (map f xs)). split; [intros a []|]. split; [now apply commas_items|reflexivity]. Qed.
End Commas.
Lemma in_quotes_token {X} (io : text_io X) x rest : of_text io (to_text io x) = Some x -> well_escaped (to_text io x) -> token io rest (in_quotes (to_text io x)) x.
Proof. intros H W. exists (to_text io x). split; [assumption|]. left. auto. Qed.

(* ---- lines ---- *)
Lemma strip_cr_id l : (forall l', l <> l' ++ ["013"%char]) -> strip_cr l = l.
Proof.
  intros H. unfold strip_cr. destruct (rev l) as [|a l'] eqn:E; [reflexivity|]. assert (NA : a <> "013"%char).
  { intros ->. apply (H (rev l')). rewrite <- (rev_involutive l), E. reflexivity. }
  destruct a as [[] [] [] [] [] [] [] []]; try reflexivity. congruence.
Qed.
Lemma lines_step acc a s : a <> "010"%char -> lines acc (a :: s) = lines (a :: acc) s.
Proof. intros NA. cbn [lines]. destruct a as [[] [] [] [] [] [] [] []]; try reflexivity. congruence. Qed.
Lemma lines_app l s acc : ~ In "010"%char l -> lines acc (l ++ newline ++ s) = strip_cr (rev acc ++ l) :: lines [] s.
Proof.
  revert acc. induction l as [|a l IH]; intros acc NI; [now rewrite app_nil_r|]. cbn [app]. rewrite lines_step by (intros ->; apply NI; now left).
  rewrite IH by (intros C; apply NI; now right). cbn [rev]. now rewrite <- app_assoc.
Qed.
Lemma trim_start_app w t : whites w -> ends is_white t -> trim_start (w ++ t) = t.
Proof. intros W E. unfold trim_start. now rewrite span_app. Qed.
Lemma trim_app w t w' : whites w -> whites w' -> (forall a t', t = a :: t' -> is_white a = false) -> (forall a t', t = t' ++ [a] -> is_white a = false) -> t <> [] -> trim (w ++ t ++ w') = t.
Proof.
  intros W W' H1 H2 NE. unfold trim. rewrite trim_start_app; [|assumption|intros a r E; destruct t as [|b t]; [congruence|]; injection E as <- <-; now apply (H1 b t)].
  rewrite rev_app_distr, trim_start_app, rev_involutive; [reflexivity|intros a Ha; apply W'; now apply in_rev|].
  intros a r E. apply (H2 a (rev r)). rewrite <- (rev_involutive t), E. reflexivity.
Qed.
Lemma starts_with_app t s : text_starts_with t (t ++ s) = true.
Proof. unfold text_starts_with. now rewrite tag_app. Qed.
Lemma starts_with_false t w p : whites w -> (forall a, In a p -> is_white a = false) -> (forall z, t <> p ++ z) -> text_starts_with p (t ++ w) = false.
Proof.
  intros W HP H. unfold text_starts_with. destruct (tag p (t ++ w)) as [r u| | |] eqn:E; try reflexivity. apply tag_done in E. exfalso. revert t H E. induction p as [|a p IH]; intros t H E; [now apply (H t)|].
  destruct t as [|b t]; cbn in E.
  - specialize (HP a (or_introl eq_refl)). rewrite W in HP; [discriminate|rewrite E; now left].
  - injection E as -> E. apply (IH (fun c Hc => HP c (or_intror Hc)) t); [|assumption]. intros z ->. now apply (H z).
Qed.
Lemma lines_last l : l <> [] -> ~ In "010"%char l -> lines [] l = [l].
Proof.
  assert (H : forall l acc, ~ In "010"%char l -> rev acc ++ l <> [] -> lines acc l = [rev acc ++ l]).
  { clear. induction l as [|a l IH]; intros acc NI NE.
    - cbn [lines]. rewrite app_nil_r in *. destruct acc; [contradiction NE; reflexivity|reflexivity].
    - rewrite lines_step by (intros ->; apply NI; now left). rewrite IH; [cbn [rev]; now rewrite <- app_assoc|intros C; apply NI; now right|cbn [rev]; rewrite <- app_assoc; destruct (rev acc); discriminate]. }
  intros NE NI. now rewrite (H l [] NI NE).
Qed.
Lemma strip_cr_app l : strip_cr (l ++ ["013"%char]) = l.
Proof. unfold strip_cr. rewrite rev_app_distr. cbn [rev app]. apply rev_involutive. Qed.
Section Grammar.
  Context {I R : Type} (io : text_io I) (rule : bytes -> from_str R) (rule_syntax : bytes -> R -> Prop).
  Context (HR : forall t r, rule_syntax t r -> rule t = FOk r /\ t <> []).
  Lemma line_app l is rs ls : line_means io rule_syntax l is rs ->
    grammar_lines io rule (l :: ls) = match grammar_lines io rule ls with FOk (i, r) => FOk (is ++ i, rs ++ r) | e => e end.
  Proof.
    intros H. destruct H as [sp v z is S1 HV| |w z W|w t w' r W W' HT H1 H2 H3 H4].
    - cbn [grammar_lines]. assert (EP : parse_initials io («"initial:"» ++ sp ++ v ++ z) = Done z is).
      { unfold parse_initials. rewrite (pb _ _ _ _ _ (tag_app _ _)). rewrite (pb _ _ _ _ _ (skip_spaces _ _ S1 (vec_ends (token io) "["%char _ _ _ _ _ _ eq_refl ltac:(discriminate) HV))).
        apply (tokens_app io "["%char "]"%char); [reflexivity|discriminate|discriminate|cbn; tauto|exact HV]. }
      rewrite EP. change (trim_start («"initial:"» ++ sp ++ v ++ z)) with («"initial:"» ++ sp ++ v ++ z). rewrite starts_with_app. destruct (grammar_lines io rule ls) as [[i r]| |]; reflexivity.
    - cbn. destruct (grammar_lines io rule ls) as [[i r]| |]; reflexivity.
    - cbn [grammar_lines]. rewrite trim_start_app; [|assumption|intros a r E; now injection E as <- <-]. change (text_starts_with «"initial:"» («"%"» ++ z)) with false. rewrite starts_with_app.
      destruct w; cbn; destruct (grammar_lines io rule ls) as [[i r]| |]; reflexivity.
    - destruct (HR t r HT) as [ER NE]. cbn [grammar_lines].
      assert (ES : trim_start (w ++ t ++ w') = t ++ w') by (apply trim_start_app; [assumption|intros a r' E; destruct t as [|b t]; [congruence|]; injection E as <- <-; now apply (H1 b t)]). rewrite ES.
      rewrite !starts_with_false; auto.
      2: intros a Ha; cbn in Ha; repeat (destruct Ha as [<-|Ha]; [reflexivity|]); destruct Ha.
      2: intros a Ha; cbn in Ha; repeat (destruct Ha as [<-|Ha]; [reflexivity|]); destruct Ha.
      rewrite trim_app by assumption. rewrite ER. replace (match w ++ t ++ w' with [] => true | _ => false end) with false by (destruct w; [destruct t; [congruence|reflexivity]|reflexivity]).
      cbn. destruct (grammar_lines io rule ls) as [[i r']| |]; reflexivity.
  Qed.
  Lemma text_app s is rs : text_means io rule_syntax s is rs -> grammar_of_text io rule s = FOk (is, rs).
  Proof.
    unfold grammar_of_text. intros H. induction H as [|l is rs s is' rs' NI NC HL HT IH|l is rs NE NI NC HL|l is rs s is' rs' NI HL HT IH]; [reflexivity| | |].
    2: { rewrite lines_last by assumption. rewrite (line_app _ _ _ _ HL). cbn. now rewrite !app_nil_r. }
    2: { rewrite app_assoc. rewrite lines_app; [cbn [rev app]; rewrite strip_cr_app, (line_app _ _ _ _ HL), IH; reflexivity|]. intros C. apply in_app_iff in C. destruct C as [C|[C|[]]]; [now apply NI|discriminate]. }
    rewrite lines_app by assumption. cbn [rev app]. rewrite strip_cr_id by assumption.
    rewrite (line_app _ _ _ _ HL), IH. reflexivity.
  Qed.
End Grammar.
