From Verif Require Import Base BMap M_Util S_Util P_Agenda.
Arguments Nat.ltb : simpl never. Arguments Nat.leb : simpl never.

(* ---------------- VecMultiMap ---------------- *)
Section VMM.
  Context {T : Type}.
  Implicit Types m : vmm T.

  Definition absm m : mm_map T := fun i => nth i m [].

  Lemma nth_repeat_nil i n : nth i (repeat (@nil T) n) [] = [].
  Proof. revert i; induction n; intros [|i]; cbn; auto. Qed.

  Lemma nth_resize n m i : nth i (resize n m) [] = if Nat.ltb i n then nth i m [] else [].
  Proof.
    unfold resize. destruct (Nat.ltb_spec i n) as [L|L].
    - destruct (Nat.lt_ge_cases i (length m)) as [G|G].
      + rewrite app_nth1 by (rewrite firstn_length; lia).
        rewrite <- (firstn_skipn n m) at 2. now rewrite app_nth1 by (rewrite firstn_length; lia).
      + rewrite (nth_overflow m) by assumption. rewrite app_nth2 by (rewrite firstn_length; lia). apply nth_repeat_nil.
    - apply nth_overflow. rewrite app_length, firstn_length, repeat_length. lia.
  Qed.

  Lemma resize_length n m : length (resize n m) = n.
  Proof. unfold resize. rewrite app_length, firstn_length, repeat_length. lia. Qed.

  Lemma pad_abs i m j : nth j (vmm_pad_to i m) [] = nth j m [].
  Proof.
    unfold vmm_pad_to. destruct (Nat.leb_spec (length m) i); [|reflexivity]. rewrite nth_resize.
    destruct (Nat.ltb_spec j (i + 1)); [reflexivity|]. symmetry. apply nth_overflow. lia.
  Qed.

  Lemma pad_length i m : i < length (vmm_pad_to i m).
  Proof. unfold vmm_pad_to. destruct (Nat.leb_spec (length m) i); [rewrite resize_length|]; lia. Qed.

  Lemma nth_update f : forall i m j, i < length m -> nth j (update i f m) [] = if Nat.eqb j i then f (nth i m []) else nth j m [].
  Proof.
    induction i as [|i IH]; intros [|v m] j L; cbn in *; try lia.
    - destruct j; reflexivity.
    - destruct j as [|j]; [reflexivity|]. cbn. apply IH. lia.
  Qed.

  Lemma step_abs m o : exists r m', vmm_step m o = Some (r, m') /\ mm_reads (absm m) o r /\
    forall j, absm m' j = mm_step (absm m) o j.
  Proof.
    unfold absm. destruct o as [i v|i|i|i f]; cbn.
    - unfold vmm_push_to. pose proof (pad_length i m) as L. destruct (Nat.ltb_spec i (length (vmm_pad_to i m))); [|lia].
      eexists _, _. split; [reflexivity|]. split; [reflexivity|]. intros j. rewrite nth_update by assumption.
      rewrite !pad_abs. reflexivity.
    - unfold vmm_get. pose proof (pad_length i m) as L. destruct (nth_error (vmm_pad_to i m) i) as [v|] eqn:E.
      + eexists _, _. split; [reflexivity|]. split.
        * f_equal. apply (nth_error_nth _ _ []) in E. rewrite <- E. apply pad_abs.
        * intros j. apply pad_abs.
      + apply nth_error_None in E. lia.
    - eexists _, _. split; [reflexivity|]. split; [|reflexivity]. unfold vmm_get_or_fail.
      destruct (nth_error m i) as [v|] eqn:E.
      + left. f_equal. symmetry. now apply nth_error_nth.
      + right. split; [reflexivity|]. apply nth_overflow. now apply nth_error_None.
    - unfold vmm_get_mut. pose proof (pad_length i m) as L. destruct (Nat.ltb_spec i (length (vmm_pad_to i m))); [|lia].
      eexists _, _. split; [reflexivity|]. split; [reflexivity|]. intros j. rewrite nth_update by assumption.
      rewrite !pad_abs. reflexivity.
  Qed.

  Lemma mm_step_ext (f g : mm_map T) o : (forall j, f j = g j) -> forall j, mm_step f o j = mm_step g o j.
  Proof. intros E j. destruct o; cbn; rewrite ?E; try reflexivity; destruct (Nat.eqb j i); now rewrite ?E. Qed.

  Lemma mm_run_ext ops : forall (f g : mm_map T), (forall j, f j = g j) -> forall j, mm_run f ops j = mm_run g ops j.
  Proof. induction ops as [|o ops IH]; intros f g E j; cbn; [apply E|]. apply IH. now apply mm_step_ext. Qed.

  Lemma mm_reads_ext (f g : mm_map T) o r : (forall j, f j = g j) -> mm_reads f o r -> mm_reads g o r.
  Proof. intros E. destruct o; cbn; rewrite ?E; auto. Qed.

  Lemma mm_reads_all_ext ops : forall (f g : mm_map T) rs, (forall j, f j = g j) -> mm_reads_all f ops rs -> mm_reads_all g ops rs.
  Proof.
    induction ops as [|o ops IH]; intros f g [|r rs] E; cbn; auto. intros [H1 H2]. split.
    - eapply mm_reads_ext; eauto.
    - eapply IH; [|exact H2]. now apply mm_step_ext.
  Qed.

  Lemma run_abs ops : forall m, exists rs m', vmm_run m ops = Some (rs, m') /\
    mm_reads_all (absm m) ops rs /\ forall j, absm m' j = mm_run (absm m) ops j.
  Proof.
    induction ops as [|o ops IH]; intros m; cbn; [exists [], m; auto|].
    destruct (step_abs m o) as (r & m1 & E1 & R1 & A1). rewrite E1.
    destruct (IH m1) as (rs & m2 & E2 & R2 & A2). rewrite E2.
    exists (r :: rs), m2. split; [reflexivity|]. split.
    - split; [assumption|]. eapply mm_reads_all_ext; [|exact R2]. exact A1.
    - intros j. rewrite A2. now apply mm_run_ext.
  Qed.

  Lemma last_filled_spec m : match last_filled m with
    | None => forall i, nth i m [] = []
    | Some k => nth k m [] <> [] /\ k < length m /\ forall i, k < i -> nth i m [] = []
    end.
  Proof.
    induction m as [|v m IH]; cbn; [intros [|]; reflexivity|].
    destruct (last_filled m) as [k|].
    - destruct IH as (I1 & I2 & I3). repeat split; [assumption|lia|]. intros [|i] H; [lia|]. apply I3. lia.
    - destruct (Nat.ltb_spec 0 (length v)).
      + repeat split; [destruct v; cbn in *; [lia|discriminate]|lia|]. intros [|i] L; [lia|]. apply IH.
      + intros [|i]; [|apply IH]. destruct v; [reflexivity|cbn in *; lia].
  Qed.

  Lemma into_vec_spec m : let v := vmm_into_vec m in
    (forall i, nth i v [] = nth i m []) /\ (v = [] \/ last v [] <> []).
  Proof.
    unfold vmm_into_vec. pose proof (last_filled_spec m) as L. destruct (last_filled m) as [k|]; cbn.
    - destruct L as (L1 & L2 & L3). split.
      + intros i. unfold vmm_into_vec_with_size. rewrite nth_resize. destruct (Nat.ltb_spec i (k + 1)); [reflexivity|].
        symmetry. apply L3. lia.
      + right. unfold vmm_into_vec_with_size.
        assert (G : forall l : list (list T), l <> [] -> last l [] = nth (length l - 1) l []).
        { induction l as [|x l IH]; intros N; [congruence|]. destruct l as [|y l]; [reflexivity|].
          assert (Y : y :: l <> []) by discriminate. specialize (IH Y).
          replace (length (x :: y :: l) - 1) with (S (length (y :: l) - 1)) by (cbn; lia).
          change (nth (S (length (y :: l) - 1)) (x :: y :: l) []) with (nth (length (y :: l) - 1) (y :: l) []).
          rewrite <- IH. reflexivity. }
        rewrite G.
        * rewrite resize_length, nth_resize. destruct (Nat.ltb_spec (k + 1 - 1) (k + 1)); [|lia].
          now replace (k + 1 - 1) with k by lia.
        * intros Z. apply (f_equal (@length _)) in Z. rewrite resize_length in Z. cbn in Z. lia.
    - split; [intros [|]; now rewrite L|now left].
  Qed.
End VMM.

(* ---------------- Partition ---------------- *)
Section Part.
  Context {T : Type} (cmp : T -> T -> comparison) (OL : OrdLaws cmp).
  Notation sorted := (sorted_keys cmp).
  Notation get := (bm_get cmp).

  Lemma cmp_dec (a b : T) : {a = b} + {a <> b}.
  Proof.
    destruct (cmp a b) eqn:E; [left; now apply (ol_eq _ OL)| |]; right; intros H; apply (ol_eq _ OL) in H; congruence.
  Qed.

  Lemma get_insert_other s s' c (p : partition) : sorted (map fst p) -> s <> s' -> get s (bm_insert cmp s' c p) = get s p.
  Proof.
    intros S N. rewrite (bm_get_insert cmp OL) by assumption. destruct (cmp s s') eqn:E; auto.
    apply (ol_eq _ OL) in E. congruence.
  Qed.

  Lemma insert_cell_spec cell symbols : forall p, sorted (map fst p) -> NoDup symbols ->
    match part_insert_cell cmp cell symbols p with
    | Some p' => sorted (map fst p') /\ (forall s, In s symbols -> get s p = None) /\
                 (forall s, In s symbols -> get s p' = Some cell) /\ (forall s, ~ In s symbols -> get s p' = get s p)
    | None => exists s c, In s symbols /\ get s p = Some c
    end.
  Proof.
    induction symbols as [|x symbols IH]; intros p S N; cbn; [repeat split; auto; tauto|].
    inversion N as [|? ? Nx N']; subst. destruct (get x p) as [c|] eqn:G.
    - exists x, c. auto.
    - specialize (IH (bm_insert cmp x cell p) (bm_insert_sorted cmp OL x cell p S) N').
      destruct (part_insert_cell cmp cell symbols (bm_insert cmp x cell p)) as [p'|].
      + destruct IH as (I1 & I2 & I3 & I4). split; [assumption|]. repeat split.
        * intros s [<-|Hs]; [assumption|]. rewrite <- (get_insert_other s x cell); auto. intros ->. contradiction.
        * intros s [<-|Hs]; [|auto]. rewrite I4 by assumption. rewrite (bm_get_insert cmp OL) by assumption.
          now rewrite (cmp_refl cmp OL).
        * intros s Hs. rewrite I4 by tauto. apply get_insert_other; [assumption|]. intros ->. tauto.
      + destruct IH as (s & c & Hs & Gs). exists s, c. split; [auto|].
        rewrite get_insert_other in Gs; auto. intros ->. contradiction.
  Qed.

  Lemma insert_cells_spec cells : forall p, sorted (map fst p) -> (forall c, In c cells -> sorted c) ->
    match part_insert_cells cmp cells p with
    | Some p' => sorted (map fst p') /\ disjoint_cells cells /\ (forall c s, In c cells -> In s c -> get s p = None) /\
                 (forall c s, In c cells -> In s c -> get s p' = Some c) /\
                 (forall s, (forall c, In c cells -> ~ In s c) -> get s p' = get s p)
    | None => (exists c s d, In c cells /\ In s c /\ get s p = Some d) \/ ~ disjoint_cells cells
    end.
  Proof.
    induction cells as [|c cells IH]; intros p Sp SC; cbn.
    - repeat split; auto; try tauto. intros i j a b x H. destruct i; discriminate.
    - pose proof (insert_cell_spec c c p Sp) as Hc. specialize (Hc (sorted_NoDup cmp OL _ (SC c (or_introl eq_refl)))).
      destruct (part_insert_cell cmp c c p) as [p1|].
      2:{ destruct Hc as (s & d & Hs & Gs). left. exists c, s, d. auto. }
      destruct Hc as (S1 & C1 & C2 & C3). specialize (IH p1 S1 (fun d Hd => SC d (or_intror Hd))).
      destruct (part_insert_cells cmp cells p1) as [p'|].
      + destruct IH as (I1 & I2 & I3 & I4 & I5).
        assert (DJ : forall d s, In d cells -> In s d -> ~ In s c).
        { intros d s Hd Hs Hc. specialize (I3 d s Hd Hs). rewrite (C2 s Hc) in I3. discriminate. }
        repeat split.
        * assumption.
        * intros [|i] [|j] a b x Ha Hb Hxa Hxb; cbn in *.
          -- reflexivity.
          -- injection Ha as <-. exfalso. apply nth_error_In in Hb. eapply DJ; eauto.
          -- injection Hb as <-. exfalso. apply nth_error_In in Ha. eapply DJ; eauto.
          -- f_equal. eapply I2; eauto.
        * intros d s [<-|Hd] Hs; [auto|]. rewrite <- C3; [now apply (I3 d)|]. eapply DJ; eauto.
        * intros d s [<-|Hd] Hs; [|now apply (I4 d)]. rewrite I5; [auto|]. intros d Hd Hsd. eapply DJ; eauto.
        * intros s Hs. rewrite I5 by (intros; apply Hs; auto). apply C3. apply Hs. auto.
      + destruct IH as [(d & s & e & Hd & Hs & Gs)|ND].
        * destruct (in_dec cmp_dec s c) as [Hc|Hc].
          -- right. intros D. apply In_nth_error in Hd. destruct Hd as [k Hk].
             specialize (D 0 (S k) c d s eq_refl Hk Hc Hs). discriminate.
          -- left. exists d, s, e. rewrite C3 in Gs by assumption. auto.
        * right. intros D. apply ND. intros i j a b x Ha Hb Hxa Hxb.
          assert (S i = S j); [|lia]. eapply (D (S i) (S j)); eauto.
  Qed.

  Lemma part_new_iff cells : (forall c, In c cells -> sorted c) ->
    (part_new cmp cells <> None <-> disjoint_cells cells).
  Proof.
    intros SC. pose proof (insert_cells_spec cells [] Logic.I SC) as H. unfold part_new.
    destruct (part_insert_cells cmp cells []) as [p|]; split; intros G; try tauto; try congruence.
    destruct H as [(c & s & d & _ & _ & X)|X]; [discriminate|contradiction].
  Qed.

  Lemma part_get_spec cells p : (forall c, In c cells -> sorted c) -> part_new cmp cells = Some p ->
    forall s c, part_get_cell cmp s p = Some c <-> In c cells /\ In s c.
  Proof.
    intros SC E. pose proof (insert_cells_spec cells [] Logic.I SC) as H. unfold part_new in E. rewrite E in H.
    destruct H as (H1 & H2 & H3 & H4 & H5). intros s c. unfold part_get_cell. split.
    - intros G.
      assert (X : exists d, In d cells /\ In s d).
      { destruct (List.Exists_dec (fun d => In s d) cells) as [X|X].
        - intros d. destruct (existsb (fun x => match cmp s x with Eq => true | _ => false end) d) eqn:B.
          + left. apply existsb_exists in B. destruct B as (y & Hy & B). destruct (cmp s y) eqn:Q; try discriminate.
            apply (ol_eq _ OL) in Q. now subst.
          + right. intros Hd. assert (existsb (fun x => match cmp s x with Eq => true | _ => false end) d = true); [|congruence].
            apply existsb_exists. exists s. now rewrite (cmp_refl cmp OL).
        - apply Exists_exists in X. exact X.
        - rewrite H5 in G; [discriminate|]. intros d Hd Hs. apply X. apply Exists_exists. eauto. }
      destruct X as (d & Hd & Hs). rewrite (H4 d s Hd Hs) in G. injection G as <-. auto.
    - intros [Hc Hs]. now apply H4.
  Qed.

  Lemma existsb_cmp s l : existsb (fun x => match cmp s x with Eq => true | _ => false end) l = true <-> In s l.
  Proof.
    rewrite existsb_exists. split.
    - intros (y & Hy & B). destruct (cmp s y) eqn:Q; try discriminate. apply (ol_eq _ OL) in Q. now subst.
    - intros H. exists s. now rewrite (cmp_refl cmp OL).
  Qed.

  Lemma collapse_loop_spec cells (SC : forall c, In c cells -> sorted c) (D : disjoint_cells cells) :
    forall entries alphabet,
    (forall s c, In (s, c) entries -> In c cells /\ In s c) ->
    (forall c, In c cells -> forall s s', In s c -> In s' c -> In s alphabet -> In s' alphabet) ->
    NoDup (part_collapse_loop cmp entries alphabet) /\
    forall c, In c (part_collapse_loop cmp entries alphabet) <->
              exists s, In (s, c) entries /\ ~ In s alphabet.
  Proof.
    assert (same : forall c d x, In c cells -> In d cells -> In x c -> In x d -> c = d).
    { intros c d x Hc Hd Hx Hx'. apply In_nth_error in Hc, Hd. destruct Hc as [i Hc], Hd as [j Hd].
      assert (i = j) by (eapply D; eauto). congruence. }
    induction entries as [|[s c] entries IH]; intros al HE HA; cbn.
    - split; [constructor|]. intros c. split; [tauto|]. intros (s & [] & _).
    - assert (Hc : In c cells /\ In s c) by (apply HE; now left).
      destruct (existsb _ al) eqn:B.
      + apply existsb_cmp in B. destruct (IH al) as [I1 I2]; [intros; apply HE; now right|assumption|].
        split; [assumption|]. intros d. rewrite I2. split.
        * intros (x & Hx & Hn). exists x. auto.
        * intros (x & [Hx|Hx] & Hn); [|eauto]. injection Hx as -> ->. contradiction.
      + assert (Hs : ~ In s al). { intros G. apply existsb_cmp in G. congruence. }
        destruct (IH (al ++ c)) as [I1 I2].
        * intros; apply HE; now right.
        * intros d Hd x y Hx Hy Hxa. apply in_app_or in Hxa. apply in_or_app. destruct Hxa as [Hxa|Hxa].
          -- left. eapply HA; eauto.
          -- right. assert (c = d) by (eapply same; eauto; tauto). now subst.
        * assert (Keep : forall d, In d (part_collapse_loop cmp entries (al ++ c)) -> d <> c).
          { intros d Hd ->. apply I2 in Hd. destruct Hd as (x & Hx & Hn). apply Hn. apply in_or_app. right.
            apply (HE x c). now right. }
          split.
          -- constructor; [|assumption]. intros G. now apply Keep in G.
          -- intros d. cbn. rewrite I2. split.
             ++ intros [<-|(x & Hx & Hn)]; [exists s; auto|]. exists x. split; [auto|]. intros G. apply Hn.
                apply in_or_app. now left.
             ++ intros (x & [Hx|Hx] & Hn); [injection Hx as -> ->; now left|].
                destruct (existsb (fun y => match cmp s y with Eq => true | _ => false end) d) eqn:Bd.
                ** apply existsb_cmp in Bd. left. destruct (HE x d (or_intror Hx)) as [Hd1 Hd2].
                   eapply same; [apply Hc|exact Hd1|apply Hc|exact Bd].
                ** right. exists x. split; [assumption|]. intros G. apply in_app_or in G. destruct G as [G|G]; [contradiction|].
                   destruct (HE x d (or_intror Hx)) as [Hd1 Hd2].
                   assert (c = d) by (eapply same; [apply Hc|exact Hd1|exact G|exact Hd2]). subst d.
                   assert (In s c) by apply Hc. apply existsb_cmp in H. congruence.
  Qed.

  Lemma part_collapse_spec cells p : (forall c, In c cells -> sorted c) -> part_new cmp cells = Some p ->
    Permutation (part_collapse cmp p) (filter (fun c => negb (Nat.eqb (length c) 0)) cells).
  Proof.
    intros SC E. assert (D : disjoint_cells cells) by (apply part_new_iff; [assumption|congruence]).
    assert (Sp : sorted (map fst p)).
    { pose proof (insert_cells_spec cells [] Logic.I SC) as H. unfold part_new in E. rewrite E in H. apply H. }
    assert (HE : forall s c, In (s, c) p <-> In c cells /\ In s c).
    { intros s c. rewrite <- (part_get_spec cells p SC E). unfold part_get_cell. symmetry. now apply bm_get_In. }
    destruct (collapse_loop_spec cells SC D p []) as [N C].
    - intros s c Hs. now apply HE.
    - intros c _ s s' _ _ [].
    - apply NoDup_Permutation; [exact N| |].
      + clear - D. induction cells as [|c cells IH]; cbn; [constructor|].
        assert (IH' : NoDup (filter (fun c : list T => negb (Nat.eqb (length c) 0)) cells)).
        { apply IH. intros i j a b x Ha Hb Hx Hx'. assert (S i = S j); [|lia]. eapply (D (S i) (S j)); eauto. }
        destruct c as [|y c]; cbn; [assumption|]. constructor; [|assumption]. intros G. apply filter_In in G.
        destruct G as [G _]. apply In_nth_error in G. destruct G as [j Hj].
        specialize (D 0 (S j) (y :: c) (y :: c) y eq_refl Hj (or_introl eq_refl) (or_introl eq_refl)). lia.
      + intros c. unfold part_collapse. rewrite C, filter_In. split.
        * intros (s & Hs & _). apply HE in Hs. destruct Hs as [H1 H2]. split; [assumption|]. destruct c; [destruct H2|reflexivity].
        * intros [H1 H2]. destruct c as [|s c]; [discriminate|]. exists s. split; [|tauto]. apply HE. split; [assumption|now left].
  Qed.

  Lemma part_alphabet_spec cells p : (forall c, In c cells -> sorted c) -> part_new cmp cells = Some p ->
    sorted (part_alphabet p) /\ forall s, In s (part_alphabet p) <-> exists c, In c cells /\ In s c.
  Proof.
    intros SC E.
    assert (Sp : sorted (map fst p)).
    { pose proof (insert_cells_spec cells [] Logic.I SC) as H. unfold part_new in E. rewrite E in H. apply H. }
    split; [exact Sp|]. intros s. unfold part_alphabet. split.
    - intros H. apply in_map_iff in H. destruct H as ([s' c] & <- & H). exists c.
      apply (bm_get_In cmp OL) in H; [|assumption]. now apply (part_get_spec cells p SC E) in H.
    - intros (c & Hc). apply (part_get_spec cells p SC E) in Hc. unfold part_get_cell in Hc.
      apply (bm_get_In cmp OL) in Hc; [|assumption]. now apply (in_map fst) in Hc.
  Qed.
End Part.

(* ---------------- Pushdown ---------------- *)
Section PD.
  Context {A : Type}.
  Lemma pd_collect_elements (p : pushdown A) : forall res, pd_collect p res = res ++ elements p.
  Proof. induction p as [|a p IH]; intros res; cbn; [now rewrite app_nil_r|]. rewrite IH. now rewrite <- app_assoc. Qed.

  Lemma pd_to_vec_elements (p : pushdown A) : pd_to_vec p = rev (elements p).
  Proof. unfold pd_to_vec. now rewrite pd_collect_elements. Qed.

  Lemma pd_from_elements v : forall p, elements (fold_left (@pd_push A) v p) = rev v ++ elements p.
  Proof. induction v as [|a v IH]; intros p; cbn; [reflexivity|]. rewrite IH. cbn. now rewrite <- app_assoc. Qed.

  Lemma elements_inj (p q : pushdown A) : elements p = elements q -> p = q.
  Proof. revert q; induction p as [|a p IH]; intros [|b q]; cbn; try discriminate; [reflexivity|]. intros H. injection H as -> H. f_equal. auto. Qed.

  Lemma pd_from_to (p : pushdown A) : pd_from (pd_to_vec p) = p.
  Proof.
    apply elements_inj. unfold pd_from. rewrite pd_from_elements, pd_to_vec_elements, rev_involutive. cbn. apply app_nil_r.
  Qed.

  Lemma pd_to_from (v : list A) : pd_to_vec (pd_from v) = v.
  Proof. rewrite pd_to_vec_elements. unfold pd_from. rewrite pd_from_elements. cbn. now rewrite app_nil_r, rev_involutive. Qed.

  Lemma pd_eqb_spec eqb : EqbSpec eqb -> EqbSpec (@pd_eqb A eqb).
  Proof.
    intros E p. induction p as [|a p IH]; intros [|b q]; cbn; try (split; congruence).
    rewrite andb_true_iff, IH, (E a b). split; [intros [-> ->]; reflexivity|]. intros H. injection H as -> ->. auto.
  Qed.
End PD.

(* map with state = fold over the elements, top to bottom *)
Fixpoint list_map_state {A B S} (f : S -> A -> S * B) (s : S) (l : list A) : S * list B :=
  match l with [] => (s, []) | a :: r => let '(s1, b) := f s a in let '(s2, t) := list_map_state f s1 r in (s2, b :: t) end.

Lemma pd_map_elements {A B S} (f : S -> A -> S * B) p : forall s,
  fst (pd_map f s p) = fst (list_map_state f s (elements p)) /\
  elements (snd (pd_map f s p)) = snd (list_map_state f s (elements p)).
Proof.
  induction p as [|a p IH]; intros s; cbn; [auto|]. destruct (f s a) as [s1 b]. destruct (IH s1) as [I1 I2].
  destruct (pd_map f s1 p) as [s2 r]. destruct (list_map_state f s1 (elements p)) as [s2' t]. cbn in *. split; [assumption|now f_equal].
Qed.

Lemma pd_map_pure {A B} (f : A -> B) p : elements (snd (pd_map (fun (u : unit) a => (u, f a)) tt p)) = map f (elements p).
Proof. induction p as [|a p IH]; cbn; [reflexivity|]. destruct (pd_map _ tt p) as [u r]. cbn in *. now f_equal. Qed.

Section Int.
  Context {A : Type} (eqb : A -> A -> bool) (E : EqbSpec eqb).

  Lemma eqb_dec (a b : A) : {a = b} + {a <> b}.
  Proof. destruct (eqb a b) eqn:Q; [left; now apply E|right; intros H; apply E in H; congruence]. Qed.

  Lemma find_index_some x l k : find_index eqb x l = Some k -> nth_error l k = Some x.
  Proof.
    revert k; induction l as [|y l IH]; intros k; cbn; [discriminate|]. destruct (eqb x y) eqn:Q.
    - intros H. injection H as <-. apply E in Q. now subst.
    - destruct (find_index eqb x l) as [j|]; cbn; [|discriminate]. intros H. injection H as <-. cbn. now apply IH.
  Qed.

  Lemma find_index_none x l : find_index eqb x l = None <-> ~ In x l.
  Proof.
    induction l as [|y l IH]; cbn; [tauto|]. destruct (eqb x y) eqn:Q.
    - apply E in Q. subst. split; [discriminate|tauto].
    - destruct (find_index eqb x l); cbn; [split; [discriminate|]|].
      + intros G. exfalso. apply G. right. destruct (in_dec eqb_dec x l) as [I|N]; [assumption|]. apply IH in N. discriminate.
      + split; [|reflexivity]. intros _ [->|G]; [rewrite (proj2 (E x x) eq_refl) in Q; discriminate|]. now apply IH.
  Qed.

  Lemma int_spec l x : exists k, snd (int_integerise eqb l x) = k /\
    nth_error (fst (int_integerise eqb l x)) k = Some x /\
    (exists r, fst (int_integerise eqb l x) = l ++ r).
  Proof.
    unfold int_integerise. destruct (find_index eqb x l) as [k|] eqn:F; cbn.
    - exists k. split; [reflexivity|]. split; [now apply find_index_some|]. exists []. now rewrite app_nil_r.
    - exists (length l). split; [reflexivity|]. split; [|now exists [x]].
      rewrite nth_error_app2 by lia. now rewrite Nat.sub_diag.
  Qed.

  Lemma nth_error_prefix (l r : list A) k x : nth_error l k = Some x -> nth_error (l ++ r) k = Some x.
  Proof. intros H. rewrite nth_error_app1; [assumption|]. apply nth_error_Some. congruence. Qed.

  Lemma pd_integerise_spec p : forall l, 
    (exists r, fst (pd_integerise eqb l p) = l ++ r) /\
    forall r, pd_un_integerise (fst (pd_integerise eqb l p) ++ r) (snd (pd_integerise eqb l p)) = Some p.
  Proof.
    induction p as [|a p IH]; intros l; cbn; [split; [exists []; now rewrite app_nil_r|reflexivity]|].
    destruct (int_spec l a) as (k & K1 & K2 & (r1 & K3)). unfold pd_integerise in *. cbn.
    destruct (int_integerise eqb l a) as [l1 k1]. cbn in K1, K2, K3. subst k1.
    destruct (IH l1) as [(r2 & I1) I2]. destruct (pd_map (int_integerise eqb) l1 p) as [l2 q]. cbn in *. split.
    - exists (r1 ++ r2). rewrite I1, K3. now rewrite app_assoc.
    - intros r. unfold int_find_value. rewrite I2. subst l2. rewrite <- app_assoc, (nth_error_prefix _ _ _ _ K2). reflexivity.
  Qed.
End Int.

(* ---------------- Dyck ---------------- *)
Section Dyck.
  Context {A : Type} (eqb : A -> A -> bool) (E : EqbSpec eqb).

  Lemma dyck_loop_app u : dyck u -> forall v st, dyck_loop eqb (u ++ v) st = dyck_loop eqb v st.
  Proof.
    induction 1 as [|u1 u2 H1 IH1 H2 IH2|a u H IH]; intros v st.
    - reflexivity.
    - now rewrite <- app_assoc, IH1, IH2.
    - cbn. rewrite <- app_assoc, IH. cbn. now rewrite (proj2 (E a a) eq_refl).
  Qed.

  (* w is a suffix of a Dyck word after opening the brackets st *)
  Inductive closes : list A -> list (bracket A) -> Prop :=
  | closes_nil u : dyck u -> closes [] u
  | closes_cons a st u v : dyck u -> closes st v -> closes (a :: st) (u ++ Close a :: v).

  Lemma closes_prefix st w u : dyck u -> closes st w -> closes st (u ++ w).
  Proof.
    intros Hu [v Hv|a st' v1 v2 Hv1 H].
    - constructor. now constructor.
    - rewrite app_assoc. constructor; [now constructor|assumption].
  Qed.

  Lemma dyck_loop_sound w : forall st, dyck_loop eqb w st = true -> closes st w.
  Proof.
    induction w as [|[a|a] w IH]; intros st H; cbn in H.
    - destruct st; [|discriminate]. constructor. constructor.
    - apply IH in H. inversion H as [|b st' u v Hu Hv]; subst.
      change (Open a :: u ++ Close a :: v) with ((Open a :: u ++ Close a :: v)).
      replace (Open a :: u ++ Close a :: v) with ((Open a :: u ++ [Close a]) ++ v)
        by (cbn; now rewrite <- app_assoc).
      apply closes_prefix; [now constructor|assumption].
    - destruct st as [|b st]; [discriminate|]. destruct (eqb a b) eqn:Q; [|discriminate]. apply E in Q. subst b.
      apply IH in H. apply (closes_cons a st [] w); [constructor|assumption].
  Qed.

  Lemma dyck_iff w : dyck_recognize eqb w = true <-> dyck w.
  Proof.
    split; intros H.
    - apply dyck_loop_sound in H. now inversion H.
    - unfold dyck_recognize. rewrite <- (app_nil_r w), dyck_loop_app by assumption. reflexivity.
  Qed.
End Dyck.
