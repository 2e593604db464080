(* Proofs about grammars: evaluate, Mcfg::from_pmcfg, Lcfrs::new, CFG from PMCFG. *)
From Verif Require Import Base BMap M_Util M_Recog M_Automata M_CFG M_TreeStack M_Grammar S_Recog S_CFG S_Grammar P_Automata P_TreeStack.

Section DInd.
  Context {N T W : Type} (P : dtree N T W -> Prop) (H : forall r ts, Forall P ts -> P (DNode r ts)).
  Fixpoint dtree_ind2 (d : dtree N T W) : P d :=
    match d with DNode r ts => H r ts ((fix go l : Forall P l := match l with [] => Forall_nil _ | x :: l => Forall_cons x (dtree_ind2 x) (go l) end) ts) end.
End DInd.

Lemma opt_all_ext {X Y} (f g : X -> option Y) l : (forall x, In x l -> f x = g x) -> opt_all f l = opt_all g l.
Proof. induction l as [|x l IH]; intros H; cbn [opt_all]; [reflexivity|]. rewrite H by now left. rewrite IH by (intros; apply H; now right). reflexivity. Qed.

Section Evaluate.
  Context {T : Type}.
  Definition val (se : nat -> option (composition T)) (x : vart T) : option (list (vart T)) :=
    match x with Tm t => Some [Tm t] | Var i j => match se i with Some y => nth_error y j | None => None end end.
  Definition cache_ok (se : nat -> option (composition T)) (c : list (nat * composition T)) : Prop :=
    sorted_keys Nat.compare (map fst c) /\ forall i x, bm_get Nat.compare i c = Some x -> se i = Some x.

  Lemma ev_component_spec se c : forall cache acc, cache_ok se cache ->
    match ev_component se cache c acc, opt_all (val se) c with
    | Some (cache', r), Some v => r = acc ++ concat v /\ cache_ok se cache'
    | None, None => True
    | _, _ => False
    end.
  Proof.
    induction c as [|[i j|t] c IH]; intros cache acc OK; cbn [ev_component opt_all].
    - cbn. rewrite app_nil_r. auto.
    - assert (E : exists o, (match bm_get Nat.compare i cache with
                 | Some x => Some (cache, x)
                 | None => match se i with Some x => Some (bm_insert Nat.compare i x cache, x) | None => None end
                 end) = o /\ match o with Some (cache', x) => se i = Some x /\ cache_ok se cache' | None => se i = None end).
      { eexists. split; [reflexivity|]. destruct (bm_get Nat.compare i cache) as [x|] eqn:G; [split; [now apply OK|assumption]|].
        destruct (se i) as [x|] eqn:E; [|reflexivity]. split; [reflexivity|]. destruct OK as [O1 O2].
        split; [now apply (bm_insert_sorted Nat.compare nat_ord)|]. intros k y. rewrite (bm_get_insert Nat.compare nat_ord) by assumption.
        destruct (Nat.compare k i) eqn:C; [|auto|auto]. apply Nat.compare_eq in C. congruence. }
      destruct E as (o & -> & Ho). cbn [val]. destruct o as [[cache' x]|]; [|rewrite Ho; trivial]. destruct Ho as [-> OK'].
      destruct (nth_error x j) as [comp|]; [|trivial]. specialize (IH cache' (acc ++ comp) OK').
      destruct (ev_component se cache' c (acc ++ comp)) as [[cache2 r]|], (opt_all (val se) c) as [v|]; try tauto.
      cbn [concat]. now rewrite app_assoc.
    - cbn [val]. specialize (IH cache (acc ++ [Tm t]) OK).
      destruct (ev_component se cache c (acc ++ [Tm t])) as [[cache2 r]|], (opt_all (val se) c) as [v|]; try tauto.
      cbn [concat]. now rewrite app_assoc.
  Qed.
  Lemma ev_components_spec se cs : forall cache acc, cache_ok se cache ->
    ev_components se cache cs acc = option_map (app acc) (opt_all (fun c => option_map (@concat _) (opt_all (val se) c)) cs).
  Proof.
    induction cs as [|c cs IH]; intros cache acc OK; cbn [ev_components opt_all]; [cbn; now rewrite app_nil_r|].
    pose proof (ev_component_spec se c cache [] OK) as H.
    destruct (ev_component se cache c []) as [[cache' x]|], (opt_all (val se) c) as [v|]; try tauto; cbn [option_map]; try reflexivity.
    destruct H as [-> OK']. rewrite IH by assumption. destruct (opt_all _ cs) as [r|]; cbn; [|reflexivity]. now rewrite <- app_assoc.
  Qed.

  Lemma max_len_le {X} (m : gorn X) k v : gt_get k m = Some v -> length k <= max_len m.
  Proof.
    unfold gt_get, max_len. induction m as [|[k' v'] m IH]; cbn [bm_get fold_right fst]; [discriminate|]. destruct (addr_cmp k k') eqn:E.
    - apply (ol_eq addr_cmp addr_ord) in E. subst. lia.
    - intros H; specialize (IH H); lia.
    - intros H; specialize (IH H); lia.
  Qed.

  Lemma evaluate_pos_spec {N W} (m : gorn (composition T)) (d : dtree N T W) : forall fuel addr,
    (forall k, gt_get (addr ++ k) m = option_map pr_comp (rule_at d k)) -> max_len m < fuel + length addr ->
    evaluate_pos fuel m addr = option_map (map (map Tm)) (yield d).
  Proof.
    induction d as [r ts IH] using dtree_ind2. intros fuel addr HM HF.
    assert (H0 := HM []). rewrite app_nil_r in H0. cbn in H0. pose proof (max_len_le _ _ _ H0) as HL.
    destruct fuel as [|f]; [lia|]. cbn [evaluate_pos]. rewrite H0.
    set (se := fun i => evaluate_pos f m (addr ++ [i])).
    assert (SE : forall i, se i = match nth_error ts i with Some c => option_map (map (map Tm)) (yield c) | None => None end).
    { intros i. unfold se. destruct (nth_error ts i) as [c|] eqn:E.
      - rewrite Forall_forall in IH. apply IH; [eapply nth_error_In; eauto| |rewrite app_length; cbn; lia].
        intros k. rewrite <- app_assoc. cbn. rewrite HM. cbn. now rewrite E.
      - destruct f as [|f]; [reflexivity|]. cbn [evaluate_pos]. rewrite HM. cbn. now rewrite E. }
    rewrite ev_components_spec by (split; [exact I|intros i x G; discriminate]).
    cbn [yield]. generalize (pr_comp r). intros cs. clear H0 HL HM HF. clearbody se.
    assert (C : forall c, option_map (@concat _) (opt_all (val se) c) = option_map (map Tm) (option_map (@concat T) (opt_all (fun x => match x with
        | Tm t => Some [t]
        | Var i j => match nth_error (map yield ts) i with Some (Some y) => nth_error y j | _ => None end
        end) c))).
    { induction c as [|x c IHc]; cbn [opt_all]; [reflexivity|].
      assert (V : val se x = option_map (map Tm) (match x with
        | Tm t => Some [t]
        | Var i j => match nth_error (map yield ts) i with Some (Some y) => nth_error y j | _ => None end
        end)).
      { destruct x as [i j|t]; cbn [val]; [|reflexivity]. rewrite SE. rewrite nth_error_map. destruct (nth_error ts i) as [c'|]; cbn; [|reflexivity].
        destruct (yield c') as [y|]; cbn; [|reflexivity]. now rewrite nth_error_map. }
      rewrite V. clear V. destruct (match x with Tm t => Some [t] | Var i j => _ end) as [u|]; cbn; [|reflexivity].
      destruct (opt_all (val se) c) as [v|], (opt_all _ c) as [v'|]; cbn in *; try discriminate; [|reflexivity].
      f_equal. rewrite map_app. congruence. }
    assert (E : opt_all (fun c => option_map (@concat _) (opt_all (val se) c)) cs = option_map (map (map Tm))
      (opt_all (fun c => option_map (@concat T) (opt_all (fun x => match x with
        | Tm t => Some [t]
        | Var i j => match nth_error (map yield ts) i with Some (Some y) => nth_error y j | _ => None end
        end) c)) cs)).
    { induction cs as [|c cs IHc]; cbn [opt_all]; [reflexivity|]. rewrite C, IHc. destruct (option_map (@concat T) _) as [u|]; cbn; [|reflexivity].
      match goal with |- context [option_map _ (opt_all ?f cs)] => destruct (opt_all f cs) end; reflexivity. }
    rewrite E. match goal with |- context [option_map (map (map Tm)) (opt_all ?f cs)] => destruct (opt_all f cs) end; reflexivity.
  Qed.
End Evaluate.

Section ToTerm.
  Context {N T W : Type}.
  Lemma to_term_gen (m : gorn (prule N T W)) : forall a b, sorted_keys addr_cmp (map fst m) -> gsorted a -> gsorted b ->
    let r := fold_left (fun acc e => (gt_insert (fst e) (pr_comp (snd e)) (fst acc), gt_insert (fst e) (pr_head (snd e)) (snd acc))) m (a, b) in
    gsorted (fst r) /\ gsorted (snd r) /\
    forall k, gt_get k (fst r) = match gt_get k m with Some x => Some (pr_comp x) | None => gt_get k a end /\
              gt_get k (snd r) = match gt_get k m with Some x => Some (pr_head x) | None => gt_get k b end.
  Proof.
    induction m as [|[k0 x0] m IH]; intros a b SM SA SB; cbn [fold_left]; [cbn; auto|].
    cbn [fst snd]. cbn [map sorted_keys fst] in SM. destruct SM as [S1 S2].
    destruct (IH (gt_insert k0 (pr_comp x0) a) (gt_insert k0 (pr_head x0) b) S2) as (R1 & R2 & R3).
    - now apply (bm_insert_sorted addr_cmp addr_ord).
    - now apply (bm_insert_sorted addr_cmp addr_ord).
    - split; [exact R1|]. split; [exact R2|]. intros k. destruct (R3 k) as [A1 A2]. rewrite A1, A2. clear R1 R2 R3 A1 A2.
      assert (G0 : gt_get k ((k0, x0) :: m) = match addr_cmp k k0 with Eq => Some x0 | _ => gt_get k m end) by reflexivity. rewrite G0.
      assert (GI : forall X (v : X) l, gsorted l -> gt_get k (gt_insert k0 v l) = match addr_cmp k k0 with Eq => Some v | _ => gt_get k l end)
        by (intros X v l SL; apply (bm_get_insert addr_cmp addr_ord); assumption).
      rewrite !GI by assumption. destruct (addr_cmp k k0) eqn:C; [|auto|auto].
      apply (ol_eq addr_cmp addr_ord) in C. subst k.
      assert (NI : gt_get k0 m = None).
      { apply (bm_get_None addr_cmp addr_ord). intros Hin. specialize (S1 _ Hin). rewrite (cmp_refl addr_cmp addr_ord) in S1. discriminate. }
      rewrite NI. auto.
  Qed.
  Lemma to_term_spec (m : gorn (prule N T W)) k : sorted_keys addr_cmp (map fst m) ->
    gt_get k (fst (to_term m)) = option_map pr_comp (gt_get k m) /\ gt_get k (snd (to_term m)) = option_map pr_head (gt_get k m).
  Proof.
    intros S1. destruct (to_term_gen m [] [] S1) as (_ & _ & R); [exact I|exact I|]. destruct (R k) as [A1 A2]. split; [etransitivity; [exact A1|]|etransitivity; [exact A2|]]; now destruct (gt_get k m).
  Qed.
End ToTerm.

(* ---- Mcfg::from_pmcfg ---- *)
Lemma pair_eqb_spec : EqbSpec pair_eqb.
Proof. intros [a b] [c d]. unfold pair_eqb. cbn. rewrite andb_true_iff, !Nat.eqb_eq. split; [intros [-> ->]; reflexivity|intros E; injection E; auto]. Qed.
Lemma memb_In {A} (eqb : A -> A -> bool) : EqbSpec eqb -> forall x l, memb eqb x l = true <-> In x l.
Proof.
  intros E x l. unfold memb. rewrite existsb_exists. split; [intros (y & Hy & H); apply E in H; now subst|intros H; exists x; split; [assumption|now apply E]].
Qed.
Lemma insert_all_fresh_spec l : forall seen, insert_all_fresh seen l = true <-> NoDup l /\ forall x, In x l -> ~ In x seen.
Proof.
  induction l as [|x l IH]; intros seen; cbn [insert_all_fresh]; [split; [split; [constructor|intros ? []]|reflexivity]|].
  destruct (memb pair_eqb x seen) eqn:M.
  - apply (memb_In _ pair_eqb_spec) in M. split; [discriminate|]. intros [_ H]. destruct (H x (or_introl eq_refl) M).
  - rewrite IH. assert (NS : ~ In x seen) by (intros H; apply (memb_In _ pair_eqb_spec) in H; congruence). split.
    + intros [ND F]. split.
      * constructor; [|assumption]. intros H. apply (F x H). now left.
      * intros y [<-|Hy]; [assumption|]. intros H. apply (F y Hy). now right.
    + intros [ND F]. inversion ND as [|? ? H1 H2]; subst. split; [assumption|]. intros y Hy [<-|H]; [contradiction|]. apply (F y); [now right|assumption].
Qed.

(* ---- Lcfrs::new ---- *)
Section Lcfrs.
  Context {N T W : Type} (neqb : N -> N -> bool) (E : EqbSpec neqb).
  Notation rule := (prule N T W).

  Lemma read_fanouts_from_spec (rules : list rule) : forall m,
    match read_fanouts_from neqb m rules with
    | Some m' => (forall r, In r rules -> fan_get neqb (pr_head r) m' = Some (length (pr_comp r))) /\
                 (forall n f, fan_get neqb n m = Some f -> fan_get neqb n m' = Some f) /\
                 (forall n f, fan_get neqb n m' = Some f -> fan_get neqb n m = Some f \/ exists r, In r rules /\ pr_head r = n /\ length (pr_comp r) = f)
    | None => forall f, (forall n x, fan_get neqb n m = Some x -> f n = x) -> ~ fanouts_ok rules f
    end.
  Proof.
    induction rules as [|r rules IH]; intros m; cbn [read_fanouts_from].
    - split; [intros ? []|]. split; auto.
    - destruct (fan_get neqb (pr_head r) m) as [f|] eqn:G.
      + destruct (Nat.eqb_spec f (length (pr_comp r))) as [EQ|NE].
        * specialize (IH m). destruct (read_fanouts_from neqb m rules) as [m'|].
          -- destruct IH as (H1 & H2 & H3). split; [|split; [exact H2|]].
             ++ intros r' [<-|Hr]; [|auto]. rewrite <- EQ. auto.
             ++ intros n x Hx. destruct (H3 n x Hx) as [|(r' & ? & ? & ?)]; [auto|]. right. exists r'. cbn. auto.
          -- intros f' Hf OK. apply (IH f' Hf). intros r' Hr. apply OK. now right.
        * intros f' Hf OK. specialize (OK r (or_introl eq_refl)). rewrite (Hf _ _ G) in OK. congruence.
      + specialize (IH ((pr_head r, length (pr_comp r)) :: m)). destruct (read_fanouts_from neqb _ rules) as [m'|].
        * destruct IH as (H1 & H2 & H3). cbn [fan_get] in H2, H3. split; [|split].
          -- intros r' [<-|Hr]; [|auto]. apply H2. now rewrite (proj2 (E _ _) eq_refl).
          -- intros n x Hx. apply H2. destruct (neqb n (pr_head r)) eqn:En; [|assumption]. apply E in En. subst. congruence.
          -- intros n x Hx. destruct (H3 n x Hx) as [H|(r' & ? & ? & ?)].
             ++ destruct (neqb n (pr_head r)) eqn:En; [|auto]. apply E in En. subst. injection H as <-. right. exists r. cbn. auto.
             ++ right. exists r'. cbn. auto.
        * intros f' Hf OK. apply (IH f').
          -- cbn [fan_get]. intros n x Hx. destruct (neqb n (pr_head r)) eqn:En; [|auto]. apply E in En. subst. injection Hx as <-. symmetry. apply OK. now left.
          -- intros r' Hr. apply OK. now right.
  Qed.

  (* the vector of occurrences *)
  Lemma vmm_push_nth v : forall i j k, nth k (vmm_push v i j) [] = nth k v [] ++ (if Nat.eqb k i then [j] else []).
  Proof.
    assert (Z : forall i j k, nth k (vmm_push [] i j) [] = if Nat.eqb k i then [j] else []).
    { induction i as [|i IH]; intros j [|k]; cbn; try reflexivity; [now destruct k|apply IH]. }
    induction v as [|js v IH]; intros i j k.
    - rewrite Z. now destruct k.
    - destruct i as [|i], k as [|k]; cbn; [reflexivity|now rewrite app_nil_r|now rewrite app_nil_r|]. try apply IH.
  Qed.
  Lemma vmm_push_len v : forall i j, length (vmm_push v i j) = Nat.max (length v) (S i).
  Proof.
    assert (Z : forall i j, length (vmm_push [] i j) = S i) by (induction i as [|i IH]; intros j; cbn; [reflexivity|now rewrite IH]).
    induction v as [|js v IH]; intros i j; [now rewrite Z|]. destruct i as [|i]; cbn [vmm_push length]; [lia|]. rewrite IH. lia.
  Qed.
  Definition occs (vs : list (nat * nat)) (v0 : list (list nat)) := fold_left (fun v ij => vmm_push v (fst ij) (snd ij)) vs v0.
  Lemma occs_nth vs : forall v0 k, nth k (occs vs v0) [] = nth k v0 [] ++ map snd (filter (fun ij => Nat.eqb k (fst ij)) vs).
  Proof.
    induction vs as [|[i j] vs IH]; intros v0 k; cbn [occs fold_left filter map fst snd]; [now rewrite app_nil_r|].
    change (nth k (occs vs (vmm_push v0 i j)) [] = nth k v0 [] ++ map snd (if Nat.eqb k i then (i, j) :: filter (fun ij => Nat.eqb k (fst ij)) vs else filter (fun ij => Nat.eqb k (fst ij)) vs)).
    rewrite IH, vmm_push_nth. destruct (Nat.eqb k i); cbn [map snd]; now rewrite <- ?app_assoc, ?app_nil_r.
  Qed.
  Lemma occs_len vs : forall v0 n, length (occs vs v0) <= n <-> length v0 <= n /\ forall i j, In (i, j) vs -> i < n.
  Proof.
    induction vs as [|[i j] vs IH]; intros v0 n; cbn [occs fold_left fst snd].
    - split; [intros H; split; [assumption|intros ? ? []]|tauto].
    - change (length (occs vs (vmm_push v0 i j)) <= n <-> length v0 <= n /\ (forall i0 j0, In (i0, j0) ((i, j) :: vs) -> i0 < n)).
      rewrite IH, vmm_push_len. split.
      + intros [H1 H2]. split; [lia|]. intros i0 j0 [H|H]; [injection H as <- <-; lia|eauto].
      + intros [H1 H2]. split; [specialize (H2 i j (or_introl eq_refl)); lia|]. intros i0 j0 H. apply (H2 i0 j0). now right.
  Qed.

  Lemma ins_perm x l : Permutation (ins x l) (x :: l).
  Proof. induction l as [|y l IH]; cbn; [auto|]. destruct (Nat.leb x y); [auto|]. rewrite IH. apply perm_swap. Qed.
  Lemma isort_perm l : Permutation (isort l) l.
  Proof. induction l as [|x l IH]; cbn; [auto|]. rewrite ins_perm. now constructor. Qed.
  Definition sorted (l : list nat) := forall i j a b, i < j -> nth_error l i = Some a -> nth_error l j = Some b -> a <= b.
  Inductive srt : list nat -> Prop := srt_nil : srt [] | srt_cons x l : (forall y, In y l -> x <= y) -> srt l -> srt (x :: l).
  Lemma ins_srt x l : srt l -> srt (ins x l).
  Proof.
    induction 1 as [|y l H1 H2 IH]; cbn; [constructor; [intros ? []|constructor]|].
    destruct (Nat.leb_spec x y).
    - constructor; [|now constructor]. intros z [<-|Hz]; [assumption|]. specialize (H1 z Hz). lia.
    - constructor; [|assumption]. intros z Hz. apply (Permutation_in _ (ins_perm x l)) in Hz. destruct Hz as [<-|Hz]; [lia|auto].
  Qed.
  Lemma isort_srt l : srt (isort l).
  Proof. induction l; cbn; [constructor|now apply ins_srt]. Qed.
  Lemma srt_perm_eq l1 : forall l2, srt l1 -> srt l2 -> Permutation l1 l2 -> l1 = l2.
  Proof.
    induction l1 as [|x l1 IH]; intros l2 H1 H2 P; [apply Permutation_nil in P; now subst|].
    destruct l2 as [|y l2]; [symmetry in P; apply Permutation_nil in P; discriminate|].
    inversion H1; inversion H2; subst.
    assert (x = y).
    { assert (In x (y :: l2)) by (eapply Permutation_in; [exact P|now left]). assert (In y (x :: l1)) by (eapply Permutation_in; [symmetry; exact P|now left]).
      destruct H as [->|H]; [reflexivity|]. destruct H0 as [->|H0]; [reflexivity|]. apply Nat.le_antisymm; auto. }
    subst y. f_equal. apply IH; auto. now apply Permutation_cons_inv in P.
  Qed.
  Lemma seq_srt n : forall a, srt (seq a n).
  Proof. induction n as [|n IH]; intros a; cbn; constructor; [|apply IH]. intros y Hy. apply in_seq in Hy. lia. Qed.
  Lemma list_eqb_eq a : forall b, list_eqb a b = true <-> a = b.
  Proof.
    induction a as [|x a IH]; intros [|y b]; cbn; try (split; congruence). rewrite andb_true_iff, Nat.eqb_eq, IH. split; [intros [-> ->]; reflexivity|intros H; injection H; auto].
  Qed.
  Lemma isort_seq l f : list_eqb (isort l) (seq 0 f) = true <-> Permutation l (seq 0 f).
  Proof.
    rewrite list_eqb_eq. split.
    - intros H. rewrite <- H. symmetry. apply isort_perm.
    - intros P. apply srt_perm_eq; [apply isort_srt|apply seq_srt|]. now rewrite isort_perm.
  Qed.
  Lemma zip_check_spec v : forall fs, length v = length fs -> zip_check v fs = true <-> forall i f, nth_error fs i = Some f -> Permutation (nth i v []) (seq 0 f).
  Proof.
    induction v as [|js v IH]; intros [|f fs] L; cbn in L; try discriminate; cbn [zip_check].
    - split; [|reflexivity]. intros _ [|i] f; discriminate.
    - rewrite andb_true_iff, isort_seq, IH by lia. split.
      + intros [H1 H2] [|i] f'; cbn; [intros E'; injection E' as <-; assumption|apply H2].
      + intros H. split; [apply (H 0 f); reflexivity|]. intros i f' Hf. apply (H (S i) f' Hf).
  Qed.
  Lemma filter_NoDup_fst (vs : list (nat * nat)) : NoDup vs <-> forall k, NoDup (map snd (filter (fun ij => Nat.eqb k (fst ij)) vs)).
  Proof.
    induction vs as [|[i j] vs IH]; cbn [filter fst]; [split; [intros _ k; constructor|constructor]|]. split.
    - intros H k. inversion H as [|? ? N1 N2]; subst. destruct (Nat.eqb_spec k i) as [->|]; [|now apply IH]. cbn. constructor; [|now apply IH].
      intros Hin. apply in_map_iff in Hin. destruct Hin as ([i' j'] & Ej & Hin). apply filter_In in Hin. destruct Hin as [Hin Ei]. apply Nat.eqb_eq in Ei. cbn in *. subst. contradiction.
    - intros H. constructor.
      + intros Hin. specialize (H i). rewrite Nat.eqb_refl in H. cbn in H. inversion H as [|? ? N1 N2]; subst. apply N1. apply in_map_iff. exists (i, j). split; [reflexivity|].
        apply filter_In. split; [assumption|]. cbn. apply Nat.eqb_refl.
      + apply IH. intros k. specialize (H k). destruct (Nat.eqb k i); [|assumption]. cbn in H. now inversion H.
  Qed.

  (* each variable exactly once, and the last successor occurs *)
  Lemma check_composition_spec (c : composition T) (fs : list nat) :
    check_composition c fs = true <->
      NoDup (variables c) /\ (forall i j, In (i, j) (variables c) <-> exists f, nth_error fs i = Some f /\ j < f) /\
      last fs 1 <> 0.
  Proof.
    unfold check_composition. fold (occs (variables c) []). set (vs := variables c). clearbody vs.
    set (o := occs vs []). rewrite andb_true_iff, Nat.eqb_eq.
    assert (NT : forall k, nth k o [] = map snd (filter (fun ij => Nat.eqb k (fst ij)) vs)) by (intros k; unfold o; rewrite occs_nth; now destruct k).
    assert (IN : forall i j, In j (nth i o []) <-> In (i, j) vs).
    { intros i j. rewrite NT, in_map_iff. split.
      - intros ([i' j'] & <- & H). apply filter_In in H. destruct H as [H Ei]. apply Nat.eqb_eq in Ei. cbn in *. now subst.
      - intros H. exists (i, j). split; [reflexivity|]. apply filter_In. split; [assumption|]. apply Nat.eqb_refl. }
    assert (LE : length o <= length fs <-> forall i j, In (i, j) vs -> i < length fs) by (unfold o; rewrite occs_len; cbn; split; [tauto|]; intros; split; [lia|assumption]).
    split.
    - intros [L Z]. rewrite zip_check_spec in Z by assumption. split; [|split].
      + apply filter_NoDup_fst. intros k. rewrite <- NT. destruct (nth_error fs k) as [f|] eqn:Ek.
        * eapply Permutation_NoDup; [symmetry; apply (Z k f Ek)|apply seq_NoDup].
        * apply nth_error_None in Ek. rewrite nth_overflow by lia. constructor.
      + intros i j. rewrite <- IN. split.
        * intros H. destruct (nth_error fs i) as [f|] eqn:Ei.
          -- exists f. split; [reflexivity|]. apply (Permutation_in _ (Z i f Ei)), in_seq in H. lia.
          -- apply nth_error_None in Ei. rewrite nth_overflow in H by lia. destruct H.
        * intros (f & Ef & Hj). eapply Permutation_in; [symmetry; apply (Z i f Ef)|]. apply in_seq. lia.
      + destruct (rev fs) as [|f fs'] eqn:Er.
        * apply (f_equal (@rev nat)) in Er. rewrite rev_involutive in Er. subst fs. cbn. lia.
        * apply (f_equal (@rev nat)) in Er. rewrite rev_involutive in Er. cbn [rev] in Er. rewrite Er, last_last. intros ->.
          assert (n : nth_error fs (length (rev fs')) = Some 0) by (rewrite Er, nth_error_app2, Nat.sub_diag by lia; reflexivity).
          pose proof (Z _ _ n) as P. cbn in P. symmetry in P. apply Permutation_nil in P.
          (* the last index must have pushed something *)
          rewrite Er, app_length in L. cbn in L.
          assert (LL : length o <= length (rev fs')).
          { unfold o. apply occs_len. split; [cbn; lia|]. intros i j Hij. assert (Hi : i < length fs) by (rewrite Er, app_length; cbn; apply LE in Hij; [rewrite Er, app_length in Hij; cbn in Hij; lia|rewrite Er, app_length; cbn; lia]).
            rewrite Er, app_length in Hi. cbn in Hi. assert (i <> length (rev fs')); [|lia]. intros ->. apply IN in Hij. rewrite P in Hij. destruct Hij. }
          lia.
    - intros (ND & VS & LA).
      assert (L : length o = length fs).
      { apply Nat.le_antisymm.
        - apply LE. intros i j Hij. apply VS in Hij. destruct Hij as (f & Ef & _). apply nth_error_Some. congruence.
        - destruct (rev fs) as [|f fs'] eqn:Er; apply (f_equal (@rev nat)) in Er; rewrite rev_involutive in Er; [subst; cbn; lia|]. cbn [rev] in Er.
          rewrite Er, last_last in LA. destruct f as [|f]; [congruence|].
          assert (Hin : In (length (rev fs'), 0) vs) by (apply VS; exists (S f); split; [rewrite Er, nth_error_app2, Nat.sub_diag by lia; reflexivity|lia]).
          rewrite Er, app_length. cbn. destruct (Nat.le_gt_cases (S (length (rev fs'))) (length o)) as [H|H]; [lia|].
          assert (H' : length o <= length (rev fs')) by lia. unfold o in H'. apply occs_len in H'. destruct H' as [_ H']. specialize (H' _ _ Hin). lia. }
      split; [assumption|]. rewrite zip_check_spec by assumption. intros i f Ef. apply NoDup_Permutation.
      + rewrite NT. now apply filter_NoDup_fst.
      + apply seq_NoDup.
      + intros j. rewrite IN, VS, in_seq. split; [intros (f' & Ef' & Hj); assert (f' = f) by congruence; lia|intros Hj; exists f; split; [assumption|lia]].
  Qed.
End Lcfrs.

Section LcfrsNew.
  Context {N T W : Type} (neqb : N -> N -> bool) (E : EqbSpec neqb).
  Notation rule := (prule N T W).

  Lemma all_check_spec m (rules : list rule) :
    match all_check neqb m rules with
    | Some true => forall r, In r rules -> exists fs, opt_all (fun n => fan_get neqb n m) (pr_tail r) = Some fs /\ check_composition (pr_comp r) fs = true
    | Some false => exists r fs, In r rules /\ opt_all (fun n => fan_get neqb n m) (pr_tail r) = Some fs /\ check_composition (pr_comp r) fs = false
    | None => exists r, In r rules /\ opt_all (fun n => fan_get neqb n m) (pr_tail r) = None
    end.
  Proof.
    induction rules as [|r rules IH]; cbn [all_check]; [intros ? []|].
    destruct (opt_all (fun n => fan_get neqb n m) (pr_tail r)) as [fs|] eqn:O.
    - destruct (check_composition (pr_comp r) fs) eqn:C.
      + destruct (all_check neqb m rules) as [[|]|].
        * intros r' [<-|Hr]; eauto.
        * destruct IH as (r' & fs' & ? & ? & ?). exists r', fs'. cbn. auto.
        * destruct IH as (r' & ? & ?). exists r'. cbn. auto.
      + exists r, fs. cbn. auto.
    - exists r. cbn. auto.
  Qed.

  Lemma last_nth {X} (l : list X) (d x : X) : last (l ++ [x]) d = x.
  Proof. apply last_last. Qed.

  Lemma F2_length {X Y} (P : X -> Y -> Prop) l1 l2 : Forall2 P l1 l2 -> length l1 = length l2.
  Proof. induction 1; cbn; auto. Qed.
  Lemma F2_nth {X Y} (P : X -> Y -> Prop) l1 l2 : Forall2 P l1 l2 -> forall i, match nth_error l1 i, nth_error l2 i with
    | Some x, Some y => P x y | None, None => True | _, _ => False end.
  Proof. induction 1 as [|x y l1 l2 H _ IH]; intros [|i]; cbn; auto. apply IH. Qed.

  Lemma lcfrs_new_ok (rules : list rule) init g :
    lcfrs_new neqb rules init = Some (Some g) <->
    g = MCFG rules init /\ is_lcfrs rules init /\ defined_tails rules /\ no_empty_last rules.
  Proof.
    unfold lcfrs_new. pose proof (read_fanouts_from_spec neqb E rules []) as R. fold (read_fanouts neqb rules) in R.
    destruct (read_fanouts neqb rules) as [m|].
    2:{ split; [discriminate|]. intros (_ & (f & OK & _) & _). exfalso. apply (R f); [cbn; discriminate|assumption]. }
    destruct R as (R1 & _ & R3). cbn [fan_get] in R3.
    assert (FM : forall n x, fan_get neqb n m = Some x -> exists r, In r rules /\ pr_head r = n /\ length (pr_comp r) = x)
      by (intros n x H; destruct (R3 n x H) as [H'|H']; [discriminate|assumption]). clear R3.
    pose proof (all_check_spec m rules) as A.
    split.
    - intros H. assert (FI : fan_get neqb init m = Some 1) by (destruct (fan_get neqb init m) as [[|[|]]|]; congruence). rewrite FI in H.
      destruct (all_check neqb m rules) as [[|]|]; try discriminate. injection H as <-. split; [reflexivity|].
      assert (TF : forall (r : rule) fs, opt_all (fun n => fan_get neqb n m) (pr_tail r) = Some fs -> forall i B, nth_error (pr_tail r) i = Some B -> exists f, nth_error fs i = Some f /\ fan_get neqb B m = Some f).
      { intros r fs O i B Hi. apply opt_all_F2 in O. pose proof (F2_nth _ _ _ O i) as G. rewrite Hi in G. destruct (nth_error fs i) as [f|]; [eauto|tauto]. }
      split; [|split].
      + exists (fun n => match fan_get neqb n m with Some x => x | None => 0 end). split; [|split; [|split]].
        * intros r Hr. now rewrite R1.
        * now rewrite FI.
        * destruct (FM _ _ FI) as (r & ? & ? & _). eauto.
        * intros r Hr. destruct (A r Hr) as (fs & O & C). apply check_composition_spec in C. destruct C as (C1 & C2 & _).
          split; [assumption|]. split.
          -- intros i j Hij. apply C2 in Hij. destruct Hij as (f & Ef & Hj). apply opt_all_F2 in O. pose proof (F2_nth _ _ _ O i) as G. rewrite Ef in G.
             destruct (nth_error (pr_tail r) i) as [B|]; [|tauto]. exists B. split; [reflexivity|]. cbn in G. now rewrite G.
          -- intros i B j Hi Hj. destruct (TF r fs O i B Hi) as (f & Ef & Fm). rewrite Fm in Hj. apply C2. eauto.
      + intros r B Hr HB. destruct (A r Hr) as (fs & O & _). apply In_nth_error in HB. destruct HB as [i Hi]. destruct (TF r fs O i B Hi) as (f & _ & Fm).
        destruct (FM _ _ Fm) as (r' & ? & ? & _). eauto.
      + intros r l B r' Hr Ht Hr' HB. destruct (A r Hr) as (fs & O & C). apply check_composition_spec in C. destruct C as (_ & _ & C).
        assert (Hi : nth_error (pr_tail r) (length l) = Some B) by (rewrite Ht, nth_error_app2, Nat.sub_diag by lia; reflexivity).
        destruct (TF r fs O _ B Hi) as (f & Ef & Fm). specialize (R1 r' Hr'). rewrite HB, Fm in R1. injection R1 as ->.
        intros E0. rewrite E0 in Ef. cbn in Ef. apply C.
        assert (Lf : length fs = S (length l)). { apply opt_all_F2, F2_length in O. rewrite Ht, app_length in O. cbn in O. lia. }
        destruct (rev fs) as [|x fs'] eqn:Er; apply (f_equal (@rev nat)) in Er; rewrite rev_involutive in Er; [subst; discriminate|]. cbn [rev] in Er.
        rewrite Er, last_last. rewrite Er in Ef, Lf. rewrite app_length in Lf. cbn in Lf. rewrite nth_error_app2 in Ef by lia.
        replace (length l - length (rev fs')) with 0 in Ef by lia. now injection Ef.
    - intros (-> & (f & OK & Fi & (ri & Hri & HI) & LR) & DT & NL).
      assert (FI : fan_get neqb init m = Some 1) by (rewrite <- HI, (R1 ri Hri), (OK ri Hri), HI, Fi; reflexivity). rewrite FI.
      assert (FD : forall n x, fan_get neqb n m = Some x -> f n = x) by (intros n x H; destruct (FM n x H) as (r & Hr & <- & <-); symmetry; now apply OK).
      assert (GD : forall r B, In r rules -> In B (pr_tail r) -> fan_get neqb B m = Some (f B)).
      { intros r B Hr HB. destruct (DT r B Hr HB) as (r' & Hr' & <-). rewrite (R1 r' Hr'). f_equal. now apply OK. }
      assert (OA : forall r, In r rules -> opt_all (fun n => fan_get neqb n m) (pr_tail r) = Some (map f (pr_tail r))).
      { intros r Hr. assert (G : forall B, In B (pr_tail r) -> fan_get neqb B m = Some (f B)) by (intros; eapply GD; eauto).
        induction (pr_tail r) as [|B t IH]; [reflexivity|]. cbn [opt_all map]. rewrite G by now left. rewrite IH by (intros; apply G; now right). reflexivity. }
      destruct (all_check neqb m rules) as [[|]|]; [reflexivity| |].
      + exfalso. destruct A as (r & fs & Hr & O & C). rewrite OA in O by assumption. injection O as <-.
        assert (CT : check_composition (pr_comp r) (map f (pr_tail r)) = true); [|congruence].
        destruct (LR r Hr) as (L1 & L2 & L3). apply check_composition_spec. split; [exact L1|]. split.
        * intros i j. split.
          -- intros Hij. destruct (L2 i j Hij) as (B & HB & Hj). exists (f B). split; [|assumption]. now rewrite nth_error_map, HB.
          -- intros (x & Hx & Hj). rewrite nth_error_map in Hx. destruct (nth_error (pr_tail r) i) as [B|] eqn:HB; [|discriminate]. injection Hx as <-. eapply L3; eauto.
        * destruct (rev (pr_tail r)) as [|B t] eqn:Er; apply (f_equal (@rev N)) in Er; rewrite rev_involutive in Er; [rewrite Er; cbn; lia|]. cbn [rev] in Er.
          rewrite Er, map_app. cbn [map]. rewrite last_last. destruct (DT r B Hr) as (r' & Hr' & HB); [rewrite Er; apply in_or_app; right; now left|].
          rewrite <- HB, <- (OK r' Hr'). intros L0. apply length_zero_iff_nil in L0. exact (NL r (rev t) B r' Hr Er Hr' HB L0).
      + exfalso. destruct A as (r & Hr & O). rewrite OA in O by assumption. discriminate.
  Qed.

  Lemma lcfrs_new_defined (rules : list rule) init : defined_tails rules -> lcfrs_new neqb rules init <> None.
  Proof.
    intros DT. unfold lcfrs_new. pose proof (read_fanouts_from_spec neqb E rules []) as R. fold (read_fanouts neqb rules) in R.
    destruct (read_fanouts neqb rules) as [m|]; [|discriminate]. destruct R as (R1 & _ & _).
    pose proof (all_check_spec m rules) as A. destruct (fan_get neqb init m) as [[|[|]]|]; try discriminate.
    destruct (all_check neqb m rules) as [[|]|]; try discriminate. destruct A as (r & Hr & O). apply opt_all_None in O. destruct O as (B & HB & F).
    destruct (DT r B Hr HB) as (r' & Hr' & <-). rewrite (R1 r' Hr') in F. discriminate.
  Qed.
End LcfrsNew.
