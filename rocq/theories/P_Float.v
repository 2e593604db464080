(* Sums of logarithms of probabilities: closed, commutative, monotone. *)
From Coq Require Import ZArith Reals Lra Eqdep_dec.
From Flocq Require Import Core Relative Plus_error BinarySingleNaN.
From Verif Require Import Base M_Float.

Local Open Scope R_scope.
Local Existing Instance fprec.
Local Existing Instance femax.
Notation fx := (SpecFloat.fexp 53 1024).
Notation rnd := (round radix2 fx (round_mode mode_NE)).
Notation val := (@B2R 53 1024).

Lemma is_log_le x : is_log x = true -> val x <= 0.
Proof.
  destruct x as [s|s| |s m e H]; cbn; intros E; try lra. subst s. apply F2R_le_0. cbn. lia.
Qed.
Lemma finite_format x : generic_format radix2 fx (val x).
Proof. apply generic_format_B2R. Qed.
(* a finite logarithm has the sign of its value *)
Lemma log_sign x : is_finite x = true -> is_log x = true -> Bsign x = match Rcompare (val x) 0 with Eq => false | Lt => true | Gt => false end.
Proof.
  destruct x as [s|s| |s m e H]; cbn -[F2R]; intros E1 E2; try discriminate.
  - rewrite Rcompare_Eq by reflexivity. now destruct s.
  - subst s. rewrite Rcompare_Lt; [reflexivity|]. apply F2R_lt_0. cbn. lia.
Qed.
Lemma log_finite x : is_log x = true -> {is_finite x = true} + {x = B754_infinity true}.
Proof. destruct x as [s|s| |s m e H]; cbn; intros E; auto; try discriminate. subst s. now right. Qed.
Lemma sign_log x : is_finite x = true -> Bsign x = match Rcompare (val x) 0 with Eq => false | Lt => true | Gt => false end -> val x <= 0 -> is_log x = true.
Proof.
  destruct x as [s|s| |s m e H]; cbn -[F2R]; intros E1 E2 E3; try discriminate.
  - rewrite Rcompare_Eq in E2 by reflexivity. now subst s.
  - rewrite E2. destruct s; [cbn [cond_Zopp] in *|exfalso].
    + rewrite Rcompare_Lt; [reflexivity|]. apply F2R_lt_0. cbn. lia.
    + assert (0 < F2R (Float radix2 (Z.pos m) e)) by (apply F2R_gt_0; cbn; lia). cbn [cond_Zopp] in E3. lra.
Qed.

(* the two cases of a sum of finite logarithms *)
Inductive sum_case (x y : f64) : Prop :=
| sum_fits : Rabs (rnd (val x + val y)) < bpow radix2 1024 -> val (fadd x y) = rnd (val x + val y) -> is_finite (fadd x y) = true -> is_log (fadd x y) = true -> sum_case x y
| sum_over : rnd (val x + val y) <= - bpow radix2 1024 -> fadd x y = B754_infinity true -> sum_case x y.
Lemma rnd_le a b : a <= b -> rnd a <= rnd b.
Proof. apply round_le; typeclasses eauto. Qed.
Lemma rnd_nonpos x y : is_log x = true -> is_log y = true -> rnd (val x + val y) <= 0.
Proof.
  intros Hx Hy. apply is_log_le in Hx, Hy. replace 0 with (rnd 0) by (apply round_0; typeclasses eauto). apply rnd_le. lra.
Qed.
Lemma sum_cases x y : is_finite x = true -> is_finite y = true -> is_log x = true -> is_log y = true -> sum_case x y.
Proof.
  intros Fx Fy Hx Hy. pose proof (Bplus_correct 53 1024 fprec femax mode_NE x y Fx Fy) as C. fold (fadd x y) in C.
  pose proof (rnd_nonpos x y Hx Hy) as RN. destruct (Rlt_bool_spec (Rabs (rnd (val x + val y))) (bpow radix2 1024)) as [L|L].
  - destruct C as (C1 & C2 & C3). apply sum_fits; auto. apply sign_log; [assumption| |now rewrite C1].
    rewrite C3, C1. pose proof (is_log_le x Hx). pose proof (is_log_le y Hy). destruct (Rcompare_spec (val x + val y) 0) as [Z|Z|Z]; [| |lra].
    + rewrite Rcompare_Lt; [reflexivity|]. destruct RN as [RN|RN]; [exact RN|]. exfalso.
      apply (round_plus_eq_0 radix2 fx (round_mode mode_NE)) in RN; auto using finite_format; try typeclasses eauto. lra.
    + rewrite Z, round_0 by typeclasses eauto. rewrite Rcompare_Eq by reflexivity. rewrite (log_sign x Fx Hx), Rcompare_Eq by lra. reflexivity.
  - destruct C as (C1 & C2). apply sum_over.
    + rewrite Rabs_left1 in L by assumption. lra.
    + assert (S : Bsign x = true).
      { rewrite (log_sign x Fx Hx). destruct (Rcompare_spec (val x) 0) as [Z|Z|Z]; [reflexivity| |]; exfalso.
        - assert (SY : Bsign y = false) by (rewrite <- C2, (log_sign x Fx Hx), Rcompare_Eq; auto). rewrite (log_sign y Fy Hy) in SY.
          pose proof (is_log_le y Hy). destruct (Rcompare_spec (val y) 0) as [Z2|Z2|Z2]; [discriminate| |lra].
          rewrite Z, Z2, Rplus_0_r, round_0, Rabs_R0 in L by typeclasses eauto. pose proof (bpow_gt_0 radix2 1024). lra.
        - pose proof (is_log_le x Hx). lra. }
      rewrite S in C1. destruct (fadd x y) as [s|s| |s m e H]; cbn in C1; try discriminate. now injection C1 as ->.
Qed.
Lemma add_log x y : is_log x = true -> is_log y = true -> is_log (fadd x y) = true.
Proof.
  intros Hx Hy. destruct (log_finite x Hx) as [Fx| ->].
  - destruct (log_finite y Hy) as [Fy| ->].
    + destruct (sum_cases x y Fx Fy Hx Hy) as [_ _ _ H|_ ->]; [exact H|reflexivity].
    + destruct x; cbn in *; try discriminate; reflexivity.
  - destruct y; cbn in *; try discriminate; try reflexivity. now subst s.
Qed.

(* equality and order *)
Lemma log_inj x y : is_log x = true -> is_log y = true -> is_finite x = true -> is_finite y = true -> val x = val y -> x = y.
Proof. intros Hx Hy Fx Fy E. apply B2R_Bsign_inj; auto. now rewrite (log_sign x Fx Hx), (log_sign y Fy Hy), E. Qed.
Lemma fle_finite x y : is_finite x = true -> is_finite y = true -> fle x y = true <-> val x <= val y.
Proof. intros Fx Fy. unfold fle. rewrite Bleb_correct by assumption. destruct (Rle_bool_spec (val x) (val y)); split; try discriminate; auto; lra. Qed.
Lemma fle_inf y : is_log y = true -> fle (B754_infinity true) y = true.
Proof. destruct y as [s|s| |s m e H]; cbn; intros E; try discriminate; try reflexivity; now subst s. Qed.
Lemma fle_inf_r x : is_log x = true -> fle x (B754_infinity true) = true -> x = B754_infinity true.
Proof. destruct x as [s|s| |s m e H]; cbn; intros E1 E2; subst; try discriminate; try reflexivity. Qed.
Lemma fadd_comm x y : is_log x = true -> is_log y = true -> fadd x y = fadd y x.
Proof.
  intros Hx Hy. destruct (log_finite x Hx) as [Fx| ->].
  - destruct (log_finite y Hy) as [Fy| ->]; [|destruct x; cbn in *; try discriminate; reflexivity].
    destruct (sum_cases x y Fx Fy Hx Hy) as [L1 V1 F1 H1|L1 E1]; destruct (sum_cases y x Fy Fx Hy Hx) as [L2 V2 F2 H2|L2 E2].
    + apply log_inj; auto. now rewrite V1, V2, Rplus_comm.
    + exfalso. rewrite Rplus_comm in L2. rewrite Rabs_left1 in L1 by (apply rnd_nonpos; assumption). lra.
    + exfalso. rewrite Rplus_comm in L1. rewrite Rabs_left1 in L2 by (apply rnd_nonpos; assumption). lra.
    + congruence.
  - destruct y as [s|s| |s m e H]; cbn in *; try discriminate; try reflexivity. now subst s.
Qed.
Lemma fadd_mono x y z : is_log x = true -> is_log y = true -> is_log z = true -> fle x y = true -> fle (fadd x z) (fadd y z) = true.
Proof.
  intros Hx Hy Hz L. pose proof (add_log x z Hx Hz) as Hxz. pose proof (add_log y z Hy Hz) as Hyz.
  destruct (log_finite z Hz) as [Fz| ->].
  - destruct (log_finite x Hx) as [Fx| ->].
    + destruct (log_finite y Hy) as [Fy| ->]; [|now rewrite (fle_inf_r x Hx L) in Fx].
      apply (fle_finite x y Fx Fy) in L. assert (M : rnd (val x + val z) <= rnd (val y + val z)) by (apply rnd_le; lra).
      destruct (sum_cases x z Fx Fz Hx Hz) as [L1 V1 F1 H1|L1 E1]; [|rewrite E1; now apply fle_inf].
      destruct (sum_cases y z Fy Fz Hy Hz) as [L2 V2 F2 H2|L2 E2].
      * apply fle_finite; auto. now rewrite V1, V2.
      * exfalso. rewrite Rabs_left1 in L1 by (apply rnd_nonpos; assumption). lra.
    + replace (fadd (B754_infinity true) z) with (B754_infinity true : f64) by (destruct z; cbn in *; try discriminate; reflexivity). now apply fle_inf.
  - replace (fadd x (B754_infinity true)) with (B754_infinity true : f64); [now apply fle_inf|].
    destruct x as [s|s| |s m e H]; cbn in *; try discriminate; try reflexivity. now subst s.
Qed.

(* ---- the weights ---- *)
Lemma log_eq (x y : log_prob) : proj1_sig x = proj1_sig y -> x = y.
Proof. destruct x as [x Hx], y as [y Hy]. cbn. intros ->. f_equal. apply UIP_dec, bool_dec. Qed.
(* `LogDomain<f64>` restricted to probabilities: `Mul` adds the logarithms, `one()` is 0.0, `Ord` compares the logarithms *)
Definition log_mul (x y : log_prob) : log_prob := exist _ (fadd (proj1_sig x) (proj1_sig y)) (add_log _ _ (proj2_sig x) (proj2_sig y)).
Definition log_one : log_prob := exist (fun x : f64 => is_log x = true) (B754_zero false) eq_refl.
Definition log_leb (x y : log_prob) : bool := fle (proj1_sig x) (proj1_sig y).
Definition LogProb : Weight := mkWeight log_prob log_mul log_one log_leb.

Lemma log_leb_iff (x y : log_prob) : log_leb x y = true <-> proj1_sig x = B754_infinity true \/ (is_finite (proj1_sig x) = true /\ is_finite (proj1_sig y) = true /\ val (proj1_sig x) <= val (proj1_sig y)).
Proof.
  destruct x as [x Hx], y as [y Hy]. unfold log_leb. cbn [proj1_sig]. split.
  - intros L. destruct (log_finite x Hx) as [Fx| ->]; [right|now left]. destruct (log_finite y Hy) as [Fy| ->]; [|now rewrite (fle_inf_r x Hx L) in Fx]. split; [exact Fx|]. split; [exact Fy|]. now apply fle_finite.
  - intros [->|(Fx & Fy & L)]; [now apply fle_inf|now apply fle_finite].
Qed.
Lemma log_laws : RoundLaws LogProb.
Proof.
  constructor.
  - split.
    + intros x y. change (log_leb x y = true \/ log_leb y x = true). rewrite !log_leb_iff. destruct x as [x Hx], y as [y Hy]. cbn [proj1_sig].
      destruct (log_finite x Hx) as [Fx| ->]; [|left; now left]. destruct (log_finite y Hy) as [Fy| ->]; [|right; now left].
      destruct (Rle_or_lt (val x) (val y)); [left|right]; right; repeat split; auto; lra.
    + intros x y z. change (log_leb x y = true -> log_leb y z = true -> log_leb x z = true). rewrite !log_leb_iff. intros [E|(F1 & F2 & L)]; [auto|].
      intros [E|(F3 & F4 & L2)]; [rewrite E in F2; discriminate|]. right. repeat split; auto. lra.
  - intros x y. change (log_leb x y = true -> log_leb y x = true -> x = y). rewrite !log_leb_iff. intros H1 H2. apply log_eq. destruct x as [x Hx], y as [y Hy]. cbn [proj1_sig] in *.
    destruct H1 as [->|(F1 & F2 & L1)], H2 as [->|(F3 & F4 & L2)]; try reflexivity; try discriminate. apply log_inj; auto. lra.
  - intros x y. apply log_eq. cbn. apply fadd_comm; [apply (proj2_sig x)|apply (proj2_sig y)].
  - intros [x Hx]. apply log_eq. cbn. destruct x as [s|s| |s m e H]; cbn in *; try reflexivity; try discriminate. now destruct s.
  - intros x y z L. apply fadd_mono; [apply (proj2_sig x)|apply (proj2_sig y)|apply (proj2_sig z)|exact L].
Qed.
Lemma log_le_one (x : LogProb) : wleb x wone = true.
Proof.
  change (log_leb x log_one = true). rewrite log_leb_iff. destruct x as [x Hx]. cbn [proj1_sig log_one]. destruct (log_finite x Hx) as [Fx| ->]; [right|now left]. split; [exact Fx|]. split; [reflexivity|]. now apply is_log_le.
Qed.

(* ---- rounding errors ---- *)
Notation unit_roundoff := (bpow radix2 (-53)).
Lemma rnd_rel x y : exists e, Rabs e <= unit_roundoff /\ rnd (val x + val y) = (val x + val y) * (1 + e).
Proof.
  destruct (FLT_plus_error_N_ex radix2 (3 - 1024 - 53) 53 (fun x => negb (Z.even x)) (val x) (val y) (finite_format x) (finite_format y)) as (e & B & E).
  exists e. split; [|exact E]. eapply Rle_trans; [exact B|]. unfold u_ro. change (bpow radix2 (-53)) with (/ IZR (2 ^ 53)). change (bpow radix2 (- (53) + 1)) with (/ IZR (2 ^ 52)).
  replace (IZR (2 ^ 53)) with (2 * IZR (2 ^ 52)) by (rewrite <- mult_IZR; reflexivity). assert (P : 0 < IZR (2 ^ 52)) by (apply IZR_lt; reflexivity).
  rewrite <- Rinv_mult. assert (Q : 0 < / (2 * IZR (2 ^ 52))) by (apply Rinv_0_lt_compat; lra). set (u := / (2 * IZR (2 ^ 52))) in *.
  apply Rmult_le_reg_r with (1 + u); [lra|]. unfold Rdiv. rewrite Rmult_assoc, Rinv_l by lra. nra.
Qed.
(* the exact logarithm of a product *)
Definition exact_log (l : list LogProb) : R := fold_right Rplus 0 (map (fun x => val (proj1_sig x)) l).
Lemma exact_cons x l : exact_log (x :: l) = val (proj1_sig x) + exact_log l.
Proof. reflexivity. Qed.
Lemma exact_app l l' : exact_log (l ++ l') = exact_log l + exact_log l'.
Proof. induction l as [|x l IH]; [cbn [app]; unfold exact_log at 2; cbn; lra|]. cbn [app]. rewrite !exact_cons, IH. lra. Qed.
Lemma exact_perm l l' : Permutation l l' -> exact_log l = exact_log l'.
Proof. induction 1; rewrite ?exact_cons in *; lra. Qed.
Lemma exact_nonpos l : exact_log l <= 0.
Proof. induction l as [|x l IH]; [apply Rle_refl|]. rewrite exact_cons. pose proof (is_log_le _ (proj2_sig x)). lra. Qed.
Lemma unit_small : 0 < unit_roundoff < 1.
Proof. split; [apply bpow_gt_0|]. change 1 with (bpow radix2 0). apply bpow_lt. reflexivity. Qed.
Lemma pow_bounds n : 0 < (1 - unit_roundoff) ^ n <= 1 /\ 1 <= (1 + unit_roundoff) ^ n.
Proof.
  pose proof unit_small as U. induction n as [|n [[I1 I2] I3]]; cbn [pow]; [lra|]. set (a := (1 - unit_roundoff) ^ n) in *. set (b := (1 + unit_roundoff) ^ n) in *. nra.
Qed.
Lemma lprod_snoc (l : list LogProb) x : lprod (l ++ [x]) = wmul (lprod l) x.
Proof. unfold lprod. now rewrite fold_left_app. Qed.
Lemma lprod_error (l : list LogProb) : (forall x, In x l -> is_finite (proj1_sig x) = true) ->
  (is_finite (proj1_sig (lprod l)) = true /\ exact_log l * (1 + unit_roundoff) ^ length l <= val (proj1_sig (lprod l)) <= exact_log l * (1 - unit_roundoff) ^ length l) \/
  (proj1_sig (lprod l) = B754_infinity true /\ exact_log l * (1 + unit_roundoff) ^ length l <= - bpow radix2 1024).
Proof.
  induction l as [|x l IH] using rev_ind; intros HF.
  - left. split; [reflexivity|]. cbn. lra.
  - rewrite lprod_snoc, exact_app, app_length. cbn [length]. rewrite Nat.add_1_r. cbn [pow].
    assert (Fx : is_finite (proj1_sig x) = true) by (apply HF, in_or_app; right; now left).
    specialize (IH (fun y Hy => HF y (in_or_app _ _ _ (or_introl Hy)))). rewrite exact_cons. change (exact_log []) with 0. rewrite Rplus_0_r.
    pose proof (exact_nonpos l) as E0. pose proof (is_log_le _ (proj2_sig x)) as X0. pose proof unit_small as U. destruct (pow_bounds (length l)) as [[P1 P2] P3].
    set (E := exact_log l) in *. set (a := (1 - unit_roundoff) ^ length l) in *. set (b := (1 + unit_roundoff) ^ length l) in *. set (u := unit_roundoff) in *. set (v := val (proj1_sig x)) in *.
    destruct IH as [(F & B1 & B2)|(I1 & B1)].
    + assert (Hl : is_log (proj1_sig (lprod l)) = true) by apply (proj2_sig (lprod l)).
      destruct (rnd_rel (proj1_sig (lprod l)) (proj1_sig x)) as (e & Be & Ee). fold v in Ee. apply Rabs_le_inv in Be. fold u in Be. set (c := val (proj1_sig (lprod l))) in *.
      assert (L1 : (E + v) * b <= c + v) by nra. assert (L2 : c + v <= (E + v) * a) by nra. assert (L3 : c + v <= 0) by (pose proof (is_log_le _ Hl); subst c; lra).
      assert (G1 : (E + v) * ((1 + u) * b) <= (c + v) * (1 + e)).
      { apply Rle_trans with ((c + v) * (1 + u)); [|nra]. replace ((E + v) * ((1 + u) * b)) with (((E + v) * b) * (1 + u)) by ring. apply Rmult_le_compat_r; lra. }
      assert (G2 : (c + v) * (1 + e) <= (E + v) * ((1 - u) * a)).
      { apply Rle_trans with ((c + v) * (1 - u)); [nra|]. replace ((E + v) * ((1 - u) * a)) with (((E + v) * a) * (1 - u)) by ring. apply Rmult_le_compat_r; lra. }
      rewrite <- Ee in G1, G2. cbn [wmul LogProb log_mul proj1_sig].
      destruct (sum_cases _ _ F Fx Hl (proj2_sig x)) as [L V FF HH|L EQ]; fold v in L; try (fold v in V).
      * left. split; [exact FF|]. rewrite V. fold c. split; assumption.
      * right. split; [exact EQ|]. fold c in L. lra.
    + right. split.
      * cbn [wmul LogProb log_mul proj1_sig]. rewrite I1. destruct x as [x Hx]. cbn [proj1_sig] in *. destruct x as [s|s| |s m e H]; cbn in *; try discriminate; reflexivity.
      * assert (G : (E + v) * b <= - bpow radix2 1024) by nra. pose proof (bpow_gt_0 radix2 1024) as B0. set (B := bpow radix2 1024) in *.
        replace ((E + v) * ((1 + u) * b)) with (((E + v) * b) * (1 + u)) by ring. set (z := (E + v) * b) in *. nra.
Qed.
Lemma lprod_order (l l' : list LogProb) : (forall x, In x l -> is_finite (proj1_sig x) = true) -> (forall x, In x l' -> is_finite (proj1_sig x) = true) ->
  is_finite (proj1_sig (lprod l)) = true -> wleb (lprod l') (lprod l) = true ->
  exact_log l' * (1 + unit_roundoff) ^ length l' <= exact_log l * (1 - unit_roundoff) ^ length l.
Proof.
  intros F F' FL L. change (log_leb (lprod l') (lprod l) = true) in L. apply log_leb_iff in L.
  destruct (lprod_error l F) as [(_ & _ & B2)|(I1 & _)]; [|rewrite I1 in FL; discriminate].
  destruct (lprod_error l' F') as [(F1 & B1 & _)|(I1 & B1)].
  - destruct L as [E|(_ & _ & L)]; [rewrite E in F1; discriminate|]. lra.
  - assert (G : - bpow radix2 1024 <= val (proj1_sig (lprod l))); [|lra].
    pose proof (abs_B2R_lt_emax _ _ (proj1_sig (lprod l))) as G. apply Rabs_def2 in G. lra.
Qed.

(* ---- factors ---- *)
Lemma rnd_normal x : bpow radix2 (-1022) <= Rabs x -> exists e, Rabs e <= unit_roundoff /\ rnd x = x * (1 + e).
Proof.
  intros B. destruct (relative_error_N_FLT_ex radix2 (3 - 1024 - 53) 53 eq_refl (fun x => negb (Z.even x)) x B) as (e & Be & E). exists e. split; [|exact E].
  eapply Rle_trans; [exact Be|]. right. change (bpow radix2 (-53)) with (/ IZR (2 ^ 53)). change (bpow radix2 (- (53) + 1)) with (/ IZR (2 ^ 52)).
  replace (IZR (2 ^ 53)) with (2 * IZR (2 ^ 52)) by (rewrite <- mult_IZR; reflexivity). now rewrite Rinv_mult.
Qed.
Lemma usize_exact n : (0 < n)%nat -> (Z.of_nat n <= 2 ^ 53)%Z -> val (f64_of_usize n) = IZR (Z.of_nat n) /\ is_finite (f64_of_usize n) = true /\ Bsign (f64_of_usize n) = false.
Proof.
  intros N0 NB. pose proof (binary_normalize_correct 53 1024 fprec femax mode_NE (Z.of_nat n) 0 false) as C. cbv zeta in C. fold (f64_of_usize n) in C.
  assert (EF : F2R (beta := radix2) {| Fnum := Z.of_nat n; Fexp := 0 |} = IZR (Z.of_nat n)) by (unfold F2R; cbn; lra). rewrite EF in C.
  assert (GF : generic_format radix2 fx (IZR (Z.of_nat n))).
  { destruct (Z.eq_dec (Z.of_nat n) (2 ^ 53)) as [->|NE].
    - change (IZR (2 ^ 53)) with (bpow radix2 53). apply generic_format_bpow. cbn. lia.
    - apply generic_format_FLT. exists (Float radix2 (Z.of_nat n) 0); [now rewrite EF| |cbn; lia]. cbn. rewrite Z.abs_eq by lia. lia. }
  rewrite (round_generic _ _ _ _ GF) in C. assert (P : 0 < IZR (Z.of_nat n)) by (apply IZR_lt; lia).
  rewrite Rlt_bool_true in C.
  - destruct C as (C1 & C2 & C3). rewrite Rcompare_Gt in C3 by exact P. auto.
  - rewrite Rabs_pos_eq by lra. apply Rle_lt_trans with (IZR (2 ^ 53)); [now apply IZR_le|]. change (IZR (2 ^ 53)) with (bpow radix2 53). apply bpow_lt. reflexivity.
Qed.
Lemma neg_log x : is_finite x = true -> val x < 0 -> is_log x = true.
Proof.
  destruct x as [s|s| |s m e H]; cbn -[F2R]; intros E1 E2; try discriminate; try lra. destruct s; [reflexivity|exfalso].
  assert (0 < F2R (Float radix2 (Z.pos m) e)) by (apply F2R_gt_0; cbn; lia). cbn [cond_Zopp] in E2. lra.
Qed.
Lemma inv_n n : (0 < n)%nat -> (Z.of_nat n <= 2 ^ 53)%Z -> let q := fdiv (f64_of_usize 1) (f64_of_usize n) in
  exists e, Rabs e <= unit_roundoff /\ val q = / IZR (Z.of_nat n) * (1 + e) /\ is_finite q = true /\ Bsign q = false /\ unit_roundoff <= val q <= 1.
Proof.
  intros N0 NB q. destruct (usize_exact n N0 NB) as (V & F & S1). destruct (usize_exact 1 ltac:(lia) ltac:(cbn; lia)) as (V1 & F1 & S2). change (IZR (Z.of_nat 1)) with 1 in V1.
  assert (P : 1 <= IZR (Z.of_nat n)) by (change 1 with (IZR 1); apply IZR_le; lia).
  assert (NB' : IZR (Z.of_nat n) <= bpow radix2 53) by (change (bpow radix2 53) with (IZR (2 ^ 53)); now apply IZR_le).
  pose proof (Bdiv_correct 53 1024 fprec femax mode_NE (f64_of_usize 1) (f64_of_usize n) ltac:(rewrite V; lra)) as C. fold (fdiv (f64_of_usize 1) (f64_of_usize n)) in C. fold q in C. rewrite V, V1 in C. unfold Rdiv in C. rewrite Rmult_1_l in C.
  assert (I1 : / IZR (Z.of_nat n) <= 1) by (rewrite <- Rinv_1; apply Rinv_le_contravar; lra).
  assert (I2 : unit_roundoff <= / IZR (Z.of_nat n)) by (change (-53)%Z with (- (53))%Z; rewrite bpow_opp; apply Rinv_le_contravar; lra).
  assert (R1 : rnd (/ IZR (Z.of_nat n)) <= 1).
  { change 1 with (bpow radix2 0) in *. replace (bpow radix2 0) with (rnd (bpow radix2 0)) by (apply round_generic; [typeclasses eauto|]; apply generic_format_bpow; cbn; lia). now apply rnd_le. }
  assert (R2 : unit_roundoff <= rnd (/ IZR (Z.of_nat n))).
  { replace unit_roundoff with (rnd unit_roundoff) by (apply round_generic; [typeclasses eauto|]; apply generic_format_bpow; cbn; lia). now apply rnd_le. }
  pose proof unit_small as U. rewrite Rlt_bool_true in C.
  - destruct C as (C1 & C2 & C3). destruct (rnd_normal (/ IZR (Z.of_nat n))) as (e & Be & E).
    { rewrite Rabs_pos_eq by lra. apply Rle_trans with unit_roundoff; [apply bpow_le; lia|exact I2]. }
    exists e. split; [exact Be|]. split; [congruence|]. split; [now rewrite C2|]. split; [|rewrite C1; lra]. rewrite C3; [now rewrite S1, S2|]. destruct q; try reflexivity. rewrite F1 in C2. discriminate.
  - rewrite Rabs_pos_eq by lra. apply Rle_lt_trans with 1; [exact R1|]. change 1 with (bpow radix2 0). apply bpow_lt. reflexivity.
Qed.
Lemma factor_value (w : f64) n : is_log w = true -> is_finite w = true -> (val w = 0 \/ bpow radix2 (-960) <= Rabs (val w)) -> (0 < n)%nat -> (Z.of_nat n <= 2 ^ 53)%Z ->
  let x := fmul w (fdiv (f64_of_usize 1) (f64_of_usize n)) in
  is_log x = true /\ is_finite x = true /\
  val w * (1 + unit_roundoff) ^ 2 <= IZR (Z.of_nat n) * val x <= val w * (1 - unit_roundoff) ^ 2.
Proof.
  intros Lw Fw HW N0 NB x. destruct (inv_n n N0 NB) as (e & Be & Q1 & Q2 & Q3 & Q4 & Q5). set (q := fdiv (f64_of_usize 1) (f64_of_usize n)) in *.
  pose proof (Bmult_correct 53 1024 fprec femax mode_NE w q) as C. fold (fmul w q) in C. fold x in C. pose proof (is_log_le w Lw) as W0. pose proof unit_small as U.
  assert (P : 0 < IZR (Z.of_nat n)) by (apply IZR_lt; lia).
  assert (B0 : val w <= val w * val q) by nra.
  assert (R1 : val w <= rnd (val w * val q)).
  { replace (val w) with (rnd (val w)) at 1 by (apply round_generic; [typeclasses eauto|apply finite_format]). now apply rnd_le. }
  assert (R2 : rnd (val w * val q) <= 0) by (replace 0 with (rnd 0) by (apply round_0; typeclasses eauto); apply rnd_le; nra).
  rewrite Rlt_bool_true in C.
  2:{ rewrite Rabs_left1 by exact R2. pose proof (abs_B2R_lt_emax _ _ w) as G. apply Rabs_def2 in G. lra. }
  destruct C as (C1 & C2 & C3). rewrite Fw, Q2 in C2. cbn [andb] in C2.
  destruct HW as [Z|HW].
  - rewrite Z in *. rewrite Rmult_0_l, round_0 in C1 by typeclasses eauto. split; [|split; [exact C2|rewrite C1; lra]].
    apply sign_log; [exact C2| |lra]. rewrite C1, Rcompare_Eq by reflexivity. rewrite C3; [|destruct x; try reflexivity; discriminate]. rewrite Q3, (log_sign w Fw Lw), Z, Rcompare_Eq by reflexivity. reflexivity.
  - destruct (rnd_normal (val w * val q)) as (e2 & Be2 & E2).
    { rewrite Rabs_mult, (Rabs_pos_eq (val q)) by lra. apply Rle_trans with (bpow radix2 (-960) * bpow radix2 (-53)); [rewrite <- bpow_plus; apply bpow_le; lia|].
      apply Rmult_le_compat; auto; apply bpow_ge_0. }
    rewrite E2 in C1. apply Rabs_le_inv in Be, Be2. assert (WN : val w < 0) by (destruct W0 as [W0|W0]; [exact W0|rewrite W0, Rabs_R0 in HW; pose proof (bpow_gt_0 radix2 (-960)); lra]).
    assert (EX : IZR (Z.of_nat n) * val x = val w * ((1 + e) * (1 + e2))) by (rewrite C1, Q1; field; lra).
    set (u := unit_roundoff) in *. assert (M1 : (1 + e) * (1 + e2) <= (1 + u) ^ 2) by (cbn [pow]; rewrite Rmult_1_r; apply Rmult_le_compat; lra).
    assert (M2 : (1 - u) ^ 2 <= (1 + e) * (1 + e2)) by (cbn [pow]; rewrite Rmult_1_r; apply Rmult_le_compat; lra).
    assert (M3 : 0 < (1 + e) * (1 + e2)) by (apply Rmult_lt_0_compat; lra). set (z := (1 + e) * (1 + e2)) in *. set (a := (1 + u) ^ 2) in *. set (b := (1 - u) ^ 2) in *.
    split; [|split; [exact C2|rewrite EX; nra]]. apply neg_log; [exact C2|]. assert (IZR (Z.of_nat n) * val x < 0) by (rewrite EX; nra). nra.
Qed.
Lemma exact_repeat x n : exact_log (repeat x n) = IZR (Z.of_nat n) * val (proj1_sig x).
Proof. induction n as [|n IH]; [unfold exact_log; cbn; lra|]. change (repeat x (S n)) with (x :: repeat x n). rewrite exact_cons, IH, Nat2Z.inj_succ, succ_IZR. lra. Qed.
Lemma repeat_map {X Y} (f : X -> Y) x n : map f (repeat x n) = repeat (f x) n.
Proof. induction n as [|n IH]; cbn; [reflexivity|now rewrite IH]. Qed.
Lemma factorize_error (w : LogProb) n : is_finite (proj1_sig w) = true -> (val (proj1_sig w) = 0 \/ bpow radix2 (-960) <= Rabs (val (proj1_sig w))) -> (0 < n)%nat -> (Z.of_nat n <= 2 ^ 53)%Z ->
  exists l : list LogProb, map (@proj1_sig _ _) l = log_factorize (proj1_sig w) n /\ length l = n /\ (forall x y, In x l -> In y l -> x = y) /\
  ((is_finite (proj1_sig (lprod l)) = true /\ val (proj1_sig w) * (1 + unit_roundoff) ^ (n + 2) <= val (proj1_sig (lprod l)) <= val (proj1_sig w) * (1 - unit_roundoff) ^ (n + 2)) \/
   (proj1_sig (lprod l) = B754_infinity true /\ val (proj1_sig w) * (1 + unit_roundoff) ^ (n + 2) <= - bpow radix2 1024)).
Proof.
  intros Fw HW N0 NB. destruct (factor_value (proj1_sig w) n (proj2_sig w) Fw HW N0 NB) as (Lx & Fx & V1 & V2). set (x := fmul _ _) in *.
  set (X := exist (fun x : f64 => is_log x = true) x Lx : LogProb). exists (repeat X n).
  split; [exact (repeat_map (@proj1_sig _ _) X n)|]. split; [apply repeat_length|]. split; [intros a b Ha Hb; apply repeat_spec in Ha, Hb; congruence|].
  assert (FX : forall y, In y (repeat X n) -> is_finite (proj1_sig y) = true) by (intros y Hy; apply repeat_spec in Hy; now subst y).
  pose proof (lprod_error (repeat X n) FX) as LE. rewrite exact_repeat, repeat_length in LE. change (proj1_sig X) with x in LE.
  destruct (pow_bounds n) as [[P1 P2] P3]. rewrite !pow_add. set (a := (1 - unit_roundoff) ^ n) in *. set (b := (1 + unit_roundoff) ^ n) in *. set (c := (1 + unit_roundoff) ^ 2) in *. set (d := (1 - unit_roundoff) ^ 2) in *.
  set (v := val (proj1_sig w)) in *. set (z := IZR (Z.of_nat n) * val x) in *.
  assert (G1 : v * (b * c) <= z * b) by (replace (v * (b * c)) with ((v * c) * b) by ring; apply Rmult_le_compat_r; lra).
  assert (G2 : z * a <= v * (a * d)) by (replace (v * (a * d)) with ((v * d) * a) by ring; apply Rmult_le_compat_r; lra).
  destruct LE as [(F & L1 & L2)|(I & L1)]; [left|right]; (split; [assumption|lra]).
Qed.
