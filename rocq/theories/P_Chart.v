(* Proofs about the chart. *)
From Coq Require Import NArith.
From Verif Require Import Base M_Chart S_Chart.

(* ---- the triangular index ---- *)
(* twice the offset of width w *)
Lemma even_prod n : exists k, n * (n + 1) = 2 * k.
Proof. induction n as [|n (k & IH)]; [exists 0; reflexivity|]. exists (k + n + 1). nia. Qed.
Definition offset (n w : nat) : nat := (n * (n + 1) - (n - w + 1) * (n - w + 2)) / 2.
Lemma offset_spec n w : 1 <= w <= n -> 2 * offset n w + (n - w + 1) * (n - w + 2) = n * (n + 1).
Proof.
  intros H. unfold offset. destruct (even_prod n) as (k & Ek). destruct (even_prod (n - w + 1)) as (k' & Ek').
  assert (L : (n - w + 1) * (n - w + 2) <= n * (n + 1)) by nia. replace ((n - w + 1) * (n - w + 2)) with (2 * k') in * by (rewrite <- Ek'; nia).
  rewrite Ek in *. replace (2 * k - 2 * k') with ((k - k') * 2) by lia. rewrite Nat.div_mul by lia. lia.
Qed.
Lemma index_some i j n : span n i j -> index i j n = Some (offset n (j - i) + i).
Proof.
  intros [H1 H2]. unfold index. assert (E1 : Nat.leb i j = true) by (apply Nat.leb_le; lia). assert (E2 : Nat.leb (j - i) n = true) by (apply Nat.leb_le; lia).
  assert (E3 : Nat.leb ((n - (j - i) + 1) * (n - (j - i) + 2)) (n * (n + 1)) = true) by (apply Nat.leb_le; nia). rewrite E1, E2, E3. reflexivity.
Qed.
Lemma index_ws_some i j q n s : span n i j -> index_with_state i j q n s = Some ((offset n (j - i) + i) * s + q).
Proof.
  intros [H1 H2]. unfold index_with_state. assert (E1 : Nat.leb i j = true) by (apply Nat.leb_le; lia). assert (E2 : Nat.leb (j - i) n = true) by (apply Nat.leb_le; lia).
  assert (E3 : Nat.leb ((n - (j - i) + 1) * (n - (j - i) + 2)) (n * (n + 1)) = true) by (apply Nat.leb_le; nia). rewrite E1, E2, E3. reflexivity.
Qed.
Lemma offset_next n w : 1 <= w -> w < n -> offset n (S w) = offset n w + (n - w + 1).
Proof. intros H1 H2. pose proof (offset_spec n w ltac:(lia)). pose proof (offset_spec n (S w) ltac:(lia)). nia. Qed.
Lemma offset_mono n w1 w2 : 1 <= w1 -> w1 < w2 -> w2 <= n -> offset n w1 + (n - w1 + 1) <= offset n w2.
Proof.
  intros H1 H2. induction H2 as [|w2 H2 IH]; intros H3; [rewrite offset_next by lia; lia|]. rewrite offset_next by lia. specialize (IH ltac:(lia)). lia.
Qed.
Lemma chart_size_twice n : 2 * chart_size n = n * (n + 1).
Proof. unfold chart_size. destruct (even_prod n) as (k & ->). rewrite (Nat.mul_comm 2 k), Nat.div_mul by lia. lia. Qed.
Lemma chart_size_ws n s : chart_size_with_states n s = chart_size n * s.
Proof. unfold chart_size_with_states, chart_size. destruct (even_prod n) as (k & ->). replace (2 * k * s) with (k * s * 2) by lia. rewrite Nat.div_mul by lia. rewrite (Nat.mul_comm 2 k), Nat.div_mul by lia. reflexivity. Qed.
Lemma cell_range n i j : span n i j -> offset n (j - i) + i < chart_size n.
Proof. intros [H1 H2]. pose proof (offset_spec n (j - i) ltac:(lia)). pose proof (chart_size_twice n). nia. Qed.
Lemma cell_inj n i j i' j' : span n i j -> span n i' j' -> offset n (j - i) + i = offset n (j' - i') + i' -> i = i' /\ j = j'.
Proof.
  intros [H1 H2] [H3 H4] E. destruct (Nat.lt_trichotomy (j - i) (j' - i')) as [L|[L|L]].
  - pose proof (offset_mono n (j - i) (j' - i') ltac:(lia) L ltac:(lia)). lia.
  - rewrite L in E. lia.
  - pose proof (offset_mono n (j' - i') (j - i) ltac:(lia) L ltac:(lia)). lia.
Qed.
Lemma cell_surj n k : k < chart_size n -> exists i j, span n i j /\ offset n (j - i) + i = k.
Proof.
  intros H. pose proof (chart_size_twice n) as T. destruct n as [|n]; [lia|]. set (m := S n) in *.
  assert (G : forall w, 1 <= w <= m -> k < offset m w + (m - w + 1) -> exists i j, span m i j /\ offset m (j - i) + i = k).
  { induction w as [|w IH]; intros Hw Hk; [lia|]. destruct w as [|w].
    - exists k, (S k). assert (E : offset m 1 = 0) by (pose proof (offset_spec m 1 ltac:(lia)); nia). unfold span. replace (S k - k) with 1 by lia. rewrite E in *. lia.
    - destruct (Nat.lt_ge_cases k (offset m (S w) + (m - S w + 1))) as [L|L]; [apply IH; lia|]. rewrite <- offset_next in L by lia.
      exists (k - offset m (S (S w))), (k - offset m (S (S w)) + S (S w)). unfold span. replace (k - offset m (S (S w)) + S (S w) - (k - offset m (S (S w)))) with (S (S w)) by lia. lia. }
  apply (G m); [lia|]. pose proof (offset_spec m m ltac:(lia)). nia.
Qed.

(* ---- vectors ---- *)
Lemma vset_ok {X} (v : list X) : forall i x, i < length v -> exists v', vset v i x = Some v' /\ length v' = length v /\ forall k, nth_error v' k = if Nat.eqb k i then Some x else nth_error v k.
Proof.
  induction v as [|y v IH]; intros i x H; cbn in H; [lia|]. destruct i as [|i]; cbn.
  - eexists. split; [reflexivity|]. split; [reflexivity|]. intros [|k]; reflexivity.
  - destruct (IH i x ltac:(lia)) as (v' & -> & L & N). eexists. split; [reflexivity|]. split; [cbn; lia|]. intros [|k]; [reflexivity|]. cbn. apply N.
Qed.
Lemma nth_error_firstn {X} (l : list X) : forall n k, nth_error (firstn n l) k = if Nat.ltb k n then nth_error l k else None.
Proof.
  induction l as [|x l IH]; intros n k; [rewrite firstn_nil; destruct k; cbn [nth_error]; match goal with |- context [if ?b then _ else _] => now destruct b end|]. destruct n as [|n]; cbn [firstn]; [destruct k; reflexivity|].
  destruct k as [|k]; [reflexivity|]. cbn [nth_error]. rewrite IH. reflexivity.
Qed.
Lemma nth_error_skipn {X} (l : list X) : forall n k, nth_error (skipn n l) k = nth_error l (n + k).
Proof. induction l as [|x l IH]; intros [|n] k; cbn; try reflexivity; [destruct k; reflexivity|]. apply IH. Qed.
Lemma slice_ok {X} (v : list X) a k : a + k <= length v -> exists s, slice v a (a + k) = Some s /\ length s = k /\ forall x, nth_error s x = if Nat.ltb x k then nth_error v (a + x) else None.
Proof.
  intros H. unfold slice. replace (Nat.leb a (a + k)) with true by (symmetry; apply Nat.leb_le; lia). replace (Nat.leb (a + k) (length v)) with true by (symmetry; apply Nat.leb_le; lia). cbn [andb].
  replace (a + k - a) with k by lia. eexists. split; [reflexivity|]. split; [rewrite firstn_length, skipn_length; lia|]. intros x. now rewrite nth_error_firstn, nth_error_skipn.
Qed.
Lemma nth_error_ext {X} (a b : list X) : (forall k, nth_error a k = nth_error b k) -> a = b.
Proof.
  revert b. induction a as [|x a IH]; intros [|y b] H; [reflexivity|specialize (H 0); discriminate|specialize (H 0); discriminate|].
  pose proof (H 0) as H0. cbn in H0. injection H0 as ->. f_equal. apply IH. intros k. exact (H (S k)).
Qed.

(* ---- the chart as a map ---- *)
Section Rep.
  Context {K : ZWeight}.
  Definition wlookup (l : list (nat * K)) (q : nat) : K := match find (fun e => Nat.eqb (fst e) q) (rev l) with Some e => snd e | None => wzero end.
  Definition states_ok (l : list (nat * K)) (s : nat) : Prop := forall e, In e l -> fst e < s.
  (* cell k of c contains the entries l *)
  Definition cell_rep (c : chart K) (k : nat) (l : list (nat * K)) : Prop :=
    length l <= ch_beam c /\ states_ok l (ch_states c) /\ nth_error (ch_counts c) k = Some (length l) /\
    (forall x, x < length l -> nth_error (ch_entries c) (k * ch_beam c + x) = nth_error l x) /\
    (forall q, q < ch_states c -> nth_error (ch_weights c) (k * ch_states c + q) = Some (wlookup l q)).
  Definition chart_rep (c : chart K) (f : nat -> nat -> list (nat * K)) : Prop :=
    length (ch_counts c) = chart_size (ch_n c) /\ length (ch_entries c) = chart_size (ch_n c) * ch_beam c /\
    length (ch_weights c) = chart_size (ch_n c) * ch_states c /\
    forall i j, span (ch_n c) i j -> cell_rep c (offset (ch_n c) (j - i) + i) (f i j).

  Lemma nth_error_repeat {X} (x : X) : forall n k, k < n -> nth_error (repeat x n) k = Some x.
  Proof. induction n as [|n IH]; intros k H; [lia|]. destruct k; [reflexivity|]. apply IH. lia. Qed.
  Lemma chart_new_rep n s b : (N.of_nat b <= 65535)%N -> exists c, chart_new n s b = Some c /\ ch_n c = n /\ ch_states c = s /\ ch_beam c = b /\ chart_rep c (fun _ _ => []).
  Proof.
    intros H. unfold chart_new. apply N.leb_le in H. rewrite H. eexists. split; [reflexivity|]. cbn [ch_n ch_states ch_beam]. do 3 (split; [reflexivity|]). unfold chart_rep.
    cbn [ch_n ch_states ch_beam ch_counts ch_entries ch_weights]. rewrite !repeat_length, chart_size_ws. do 3 (split; [reflexivity|]).
    intros i j HS. pose proof (cell_range n i j HS). unfold cell_rep. cbn [ch_n ch_states ch_beam ch_counts ch_entries ch_weights length].
    split; [lia|]. split; [intros e []|]. split; [now apply nth_error_repeat|]. split; [intros x Hx; lia|].
    intros q Hq. rewrite nth_error_repeat; [reflexivity|]. nia.
  Qed.
  Lemma wlookup_snoc l q w q' : wlookup (l ++ [(q, w)]) q' = if Nat.eqb q' q then w else wlookup l q'.
  Proof. unfold wlookup. rewrite rev_app_distr. cbn. rewrite (Nat.eqb_sym q' q). now destruct (Nat.eqb q q'). Qed.
  Lemma add_entry_rep c f i j q w : chart_rep c f -> span (ch_n c) i j -> q < ch_states c ->
    exists c', add_entry i j q w c = Some c' /\ ch_n c' = ch_n c /\ ch_states c' = ch_states c /\ ch_beam c' = ch_beam c /\
      chart_rep c' (fun i' j' => if Nat.eqb i' i && Nat.eqb j' j && Nat.ltb (length (f i j)) (ch_beam c) then f i j ++ [(q, w)] else f i' j').
  Proof.
    intros (L1 & L2 & L3 & HR) HS Hq. pose proof (HR i j HS) as (B & SO & CN & EN & WN). pose proof (cell_range _ _ _ HS) as CR. unfold add_entry. rewrite (index_some _ _ _ HS), CN.
    destruct (Nat.ltb (length (f i j)) (ch_beam c)) eqn:EL.
    - apply Nat.ltb_lt in EL. set (k := offset (ch_n c) (j - i) + i) in *.
      assert (X1 : k * ch_beam c + length (f i j) < length (ch_entries c)) by (rewrite L2; nia). assert (X2 : k * ch_states c + q < length (ch_weights c)) by (rewrite L3; nia).
      assert (X3 : k < length (ch_counts c)) by (rewrite L1; assumption).
      destruct (vset_ok _ _ (q, w) X1) as (es & -> & Le & Ne). destruct (vset_ok _ _ w X2) as (ws & -> & Lw & Nw). destruct (vset_ok _ _ (length (f i j) + 1) X3) as (cs & -> & Lc & Nc).
      eexists. split; [reflexivity|]. cbn [ch_n ch_states ch_beam]. do 3 (split; [reflexivity|]). unfold chart_rep. cbn [ch_n ch_states ch_beam ch_counts ch_entries ch_weights]. rewrite Le, Lw, Lc. split; [assumption|]. split; [assumption|]. split; [assumption|].
      intros i' j' HS'. rewrite Bool.andb_true_r. destruct (Nat.eqb i' i && Nat.eqb j' j) eqn:EE.
      + apply Bool.andb_true_iff in EE. destruct EE as [E1 E2]. apply Nat.eqb_eq in E1, E2. subst i' j'. fold k. unfold cell_rep. cbn [ch_n ch_states ch_beam ch_counts ch_entries ch_weights]. rewrite app_length. cbn [length].
        split; [lia|]. split; [intros e He; apply in_app_iff in He; destruct He as [He|[<-|[]]]; [now apply SO|exact Hq]|]. split; [now rewrite Nc, Nat.eqb_refl|]. split.
        * intros x Hx. rewrite Ne. destruct (Nat.eqb (k * ch_beam c + x) (k * ch_beam c + length (f i j))) eqn:EX.
          -- apply Nat.eqb_eq in EX. assert (x = length (f i j)) by lia. subst x. rewrite nth_error_app2, Nat.sub_diag by lia. reflexivity.
          -- apply Nat.eqb_neq in EX. rewrite nth_error_app1 by lia. apply EN. lia.
        * intros q' Hq'. rewrite Nw, wlookup_snoc. destruct (Nat.eqb q' q) eqn:EQ.
          -- apply Nat.eqb_eq in EQ. subst q'. now rewrite Nat.eqb_refl.
          -- apply Nat.eqb_neq in EQ. destruct (Nat.eqb _ _) eqn:EX; [apply Nat.eqb_eq in EX; lia|]. now apply WN.
      + assert (NE : offset (ch_n c) (j' - i') + i' <> k).
        { intros E. destruct (cell_inj _ _ _ _ _ HS' HS E) as [-> ->]. rewrite !Nat.eqb_refl in EE. discriminate. }
        clear EE. destruct (HR i' j' HS') as (B' & SO' & CN' & EN' & WN'). set (k' := offset (ch_n c) (j' - i') + i') in *. unfold cell_rep. cbn [ch_n ch_states ch_beam ch_counts ch_entries ch_weights].
        split; [assumption|]. split; [assumption|]. split; [rewrite Nc; destruct (Nat.eqb k' k) eqn:EX; [apply Nat.eqb_eq in EX; contradiction|assumption]|]. split.
        * intros x Hx. rewrite Ne. destruct (Nat.eqb _ _) eqn:EX; [|now apply EN']. apply Nat.eqb_eq in EX. exfalso. apply NE. nia.
        * intros q' Hq'. rewrite Nw. destruct (Nat.eqb _ _) eqn:EX; [|now apply WN']. apply Nat.eqb_eq in EX. exfalso. apply NE. nia.
    - exists c. split; [reflexivity|]. do 3 (split; [reflexivity|]). split; [assumption|]. split; [assumption|]. split; [assumption|]. intros i' j' HS'. rewrite Bool.andb_false_r. now apply HR.
  Qed.
  Lemma iterate_rep c f i j : chart_rep c f -> span (ch_n c) i j -> iterate_nont c i j = Some (f i j).
  Proof.
    intros (L1 & L2 & L3 & HR) HS. pose proof (HR i j HS) as (B & SO & CN & EN & WN). pose proof (cell_range _ _ _ HS) as CR. unfold iterate_nont. rewrite (index_some _ _ _ HS), CN.
    set (k := offset (ch_n c) (j - i) + i) in *. assert (X : k * ch_beam c + length (f i j) <= length (ch_entries c)) by (rewrite L2; nia).
    destruct (slice_ok _ _ _ X) as (s & -> & Ls & Ns). f_equal. apply nth_error_ext. intros x. rewrite Ns. destruct (Nat.ltb x (length (f i j))) eqn:Ex.
    - apply EN. now apply Nat.ltb_lt.
    - symmetry. apply nth_error_None. now apply Nat.ltb_ge.
  Qed.
  Lemma get_weight_rep (KL : ZWeightLaws K) c f i j q : chart_rep c f -> span (ch_n c) i j -> q < ch_states c -> get_weight c i j q = Some (last_weight (f i j) q).
  Proof.
    intros (L1 & L2 & L3 & HR) HS Hq. pose proof (HR i j HS) as (B & SO & CN & EN & WN). unfold get_weight. rewrite (index_ws_some _ _ _ _ _ HS), (WN q Hq). cbn. f_equal. unfold wlookup, last_weight.
    destruct (find _ _) as [e|]; [reflexivity|]. now rewrite (proj2 (zl_eqb K KL wzero wzero) eq_refl).
  Qed.
  Lemma chart_rep_ext c f g : (forall i j, span (ch_n c) i j -> f i j = g i j) -> chart_rep c f -> chart_rep c g.
  Proof. intros E (L1 & L2 & L3 & HR). repeat (split; [assumption|]). intros i j HS. rewrite <- E by assumption. now apply HR. Qed.
  Lemma add_entries_rep h : forall c f, chart_rep c f -> (forall e, In e h -> span (ch_n c) (fst (fst e)) (snd (fst e)) /\ fst (snd e) < ch_states c) ->
    exists c', add_entries h c = Some c' /\ ch_n c' = ch_n c /\ ch_states c' = ch_states c /\ ch_beam c' = ch_beam c /\
      chart_rep c' (fun i j => firstn (ch_beam c) (f i j ++ map snd (filter (fun e => Nat.eqb (fst (fst e)) i && Nat.eqb (snd (fst e)) j) h))).
  Proof.
    unfold add_entries. induction h as [|[[i j] [q w]] h IH]; intros c f HR HV; cbn [fold_left].
    - exists c. do 4 (split; [reflexivity|]). eapply chart_rep_ext; [|exact HR]. intros i j HS. cbn. rewrite app_nil_r. symmetry. apply firstn_all2. apply HR. assumption.
    - destruct (HV _ (or_introl eq_refl)) as [HS Hq]. cbn [fst snd] in *. destruct (add_entry_rep c f i j q w HR HS Hq) as (c1 & -> & N1 & S1 & B1 & R1).
      destruct (IH c1 _ R1) as (c' & E & N2 & S2 & B2 & R2); [intros e He; rewrite N1, S1; apply HV; now right|]. exists c'. split; [exact E|]. split; [congruence|]. split; [congruence|]. split; [congruence|].
      eapply chart_rep_ext; [|exact R2]. intros i' j' HS'. rewrite N2, N1 in HS'. rewrite B1. cbn [filter fst snd]. rewrite (Nat.eqb_sym i i'), (Nat.eqb_sym j j').
      destruct (Nat.eqb i' i && Nat.eqb j' j) eqn:EE; cbn [andb]; [|reflexivity]. apply Bool.andb_true_iff in EE. destruct EE as [E1 E2]. apply Nat.eqb_eq in E1, E2. subst i' j'.
      destruct (Nat.ltb (length (f i j)) (ch_beam c)) eqn:EL; cbn [map]; [now rewrite <- app_assoc|].
      apply Nat.ltb_ge in EL. assert (EB : length (f i j) = ch_beam c) by (destruct HR as (_ & _ & _ & HR); destruct (HR i j HS) as (B & _); lia).
      rewrite <- EB, !firstn_app, Nat.sub_diag, !firstn_O. reflexivity.
  Qed.
End Rep.
