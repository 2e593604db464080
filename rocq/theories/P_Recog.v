From Verif Require Import Base M_Agenda M_Search M_Util M_Recog S_Search S_Util S_Recog P_Agenda P_Search P_Util.
Arguments Nat.ltb : simpl never.

(* ---- weights ---- *)
Section R.
  Context {K : Weight} (KL : RoundLaws K).
  Lemma wl_one_r (a : K) : wmul a wone = a.
  Proof. now rewrite (rl_comm K KL), (rl_one_l K KL). Qed.
  Lemma wl_shrink (a b : K) : wleb b wone = true -> wleb (wmul a b) a = true.
  Proof. intros H. rewrite (rl_comm K KL). rewrite <- (rl_one_l K KL a) at 2. now apply (rl_mono K KL). Qed.
  Lemma wl_mono_l (a b c : K) : wleb a b = true -> wleb (wmul c a) (wmul c b) = true.
  Proof. intros H. rewrite !(rl_comm K KL c). now apply (rl_mono K KL). Qed.
  Lemma wleb_refl (a : K) : wleb a a = true.
  Proof. apply (leb_refl _ (rl_order K KL)). Qed.
  Lemma lprod_snoc (l : list K) x : lprod (l ++ [x]) = wmul (lprod l) x.
  Proof. unfold lprod. now rewrite fold_left_app. Qed.
  (* factors one can be left out *)
  Lemma lprod_one_l (l : list K) : lprod (wone :: l) = lprod l.
  Proof. unfold lprod. cbn. now rewrite (rl_one_l K KL). Qed.
End R.
Section W.
  Context {K : Weight} (KL : WeightLaws K).
  Lemma wprod_app (l l' : list K) : wprod (l ++ l') = wmul (wprod l) (wprod l').
  Proof.
    unfold wprod. induction l as [|x l IH]; cbn; [now rewrite (wl_one_l K KL)|]. now rewrite IH, (wl_assoc K KL).
  Qed.
  Lemma wprod_snoc (l : list K) x : wprod (l ++ [x]) = wmul (wprod l) x.
  Proof. rewrite wprod_app. cbn. now rewrite (wl_one_r KL). Qed.
  (* with associativity, the order of multiplication does not matter *)
  Lemma fold_wprod (l : list K) : forall k, fold_left wmul l k = wmul k (wprod l).
  Proof.
    induction l as [|x l IH]; intros k; cbn; [symmetry; apply (wl_one_r KL)|]. rewrite IH. symmetry. apply (wl_assoc K KL).
  Qed.
  Lemma lprod_wprod (l : list K) : lprod l = wprod l.
  Proof. unfold lprod. rewrite fold_wprod. apply (wl_one_l K KL). Qed.
  Lemma wprod_perm (l l' : list K) : Permutation l l' -> wprod l = wprod l'.
  Proof.
    unfold wprod. induction 1; cbn; auto; [now rewrite IHPermutation| |congruence].
    rewrite !(wl_assoc K KL). f_equal. apply (wl_comm K KL).
  Qed.
End W.

Lemma cost_laws : WeightLaws CostWeight.
Proof.
  constructor; cbn; intros; try lia.
  - apply geb_TO. exact nat_leb_TO.
  - intros a b H1 H2. apply Nat.leb_le in H1, H2. cbn in *. lia.
  - apply Nat.leb_le in H. apply Nat.leb_le. lia.
Qed.

Lemma starts_with_spec {T} (eqb : T -> T -> bool) : EqbSpec eqb -> forall p w,
  starts_with eqb w p = true <-> w = p ++ skipn (length p) w.
Proof.
  intros E. induction p as [|a p IH]; intros w; cbn; [split; [reflexivity|now destruct w]|]. destruct w as [|b w]; [split; [discriminate|]|].
  - cbn. discriminate.
  - cbn. rewrite andb_true_iff, IH, (E b a). split; [intros [-> H]; now f_equal|]. intros H. injection H as -> H. auto.
Qed.

Lemma starts_with_app {T} (eqb : T -> T -> bool) : EqbSpec eqb -> forall p w, starts_with eqb (p ++ w) p = true.
Proof. intros E p w. apply starts_with_spec; [assumption|]. now rewrite skipn_app, skipn_all, Nat.sub_diag. Qed.

Lemma pd_to_vec_push {A} (p : pushdown A) x : pd_to_vec (pd_push p x) = pd_to_vec p ++ [x].
Proof. rewrite !pd_to_vec_elements. reflexivity. Qed.
Lemma pd_from_snoc {A} (v : list A) x : pd_from (v ++ [x]) = pd_push (pd_from v) x.
Proof. unfold pd_from. now rewrite fold_left_app. Qed.
Lemma pd_to_vec_inj {A} (p q : pushdown A) : pd_to_vec p = pd_to_vec q -> p = q.
Proof. intros H. rewrite <- (pd_from_to p), <- (pd_from_to q). now f_equal. Qed.

Lemma NoDup_app_l {A} (l l' : list A) : NoDup (l ++ l') -> NoDup l.
Proof.
  induction l as [|x l IH]; cbn; intros N; [constructor|]. apply NoDup_cons_iff in N. destruct N as [N1 N2].
  constructor; [|auto]. intros G. apply N1. apply in_or_app. now left.
Qed.
Lemma NoDup_map_filter {A B} (g : A -> B) f (l : list A) : NoDup (map g l) -> NoDup (map g (filter f l)).
Proof.
  induction l as [|x l IH]; cbn; intros N; [constructor|]. apply NoDup_cons_iff in N. destruct N as [N1 N2].
  destruct (f x); cbn; [|auto]. constructor; [|auto]. intros G. apply N1. apply in_map_iff in G. destruct G as (y & <- & G).
  apply filter_In in G. now apply in_map.
Qed.

Section Exec.
  Context {S I T : Type} {K : Weight} (apply : I -> S -> list S).
  Lemma executes_app (ts us : list (transition I T K)) : forall s s', executes apply s (ts ++ us) s' <->
    exists s1, executes apply s ts s1 /\ executes apply s1 us s'.
  Proof.
    induction ts as [|t ts IH]; intros s s'; cbn.
    - split; [intros H; exists s; split; [constructor|assumption]|]. intros (s1 & H1 & H2). inversion H1; now subst.
    - split.
      + intros H. inversion H as [|? ? ? s1 ? H1 H2]; subst. apply IH in H2. destruct H2 as (s2 & H2 & H3).
        exists s2. split; [econstructor; eauto|assumption].
      + intros (s2 & H1 & H2). inversion H1 as [|? ? ? s1 ? H3 H4]; subst. econstructor; eauto. apply IH. eauto.
  Qed.
  Lemma executes_snoc (ts : list (transition I T K)) t s s' : executes apply s (ts ++ [t]) s' <->
    exists s1, executes apply s ts s1 /\ In s' (apply (t_ins t) s1).
  Proof.
    rewrite executes_app. split; intros (s1 & H1 & H2); exists s1; (split; [assumption|]).
    - inversion H2 as [|? ? ? s2 ? H3 H4]; subst. inversion H4; now subst.
    - econstructor; [exact H2|constructor].
  Qed.
End Exec.

(* ---- panicking search ---- *)
Section CallsP.
  Context {I : Type} (A : agenda I) (sp : I -> option (list I)).
  Definition dflt (i : I) : list I := match sp i with Some l => l | None => [] end.

  Lemma calls_p_total n : forall a r, search_calls_p A sp n a = Some r -> search_calls A dflt n a = r.
  Proof.
    induction n as [|n IH]; intros a r; cbn; [congruence|].
    unfold search_next_p, search_next. destruct (ag_pop A a) as [[i a']|].
    - destruct (sp i) as [l|] eqn:Q; [|discriminate]. replace (dflt i) with l by (unfold dflt; now rewrite Q).
      destruct (search_calls_p A sp n (ag_extend A l a')) as [[os a2]|] eqn:E; [|discriminate].
      intros H. injection H as <-. apply IH in E. now rewrite E.
    - destruct (search_calls_p A sp n a) as [[os a2]|] eqn:E; [|discriminate].
      intros H. injection H as <-. apply IH in E. now rewrite E.
  Qed.

  (* no panic if no reachable node panics *)
  Lemma calls_p_defined content (AS : agenda_sound A content) init n : forall a,
    (forall x, In x (content a) -> reachable dflt init x) ->
    (forall x, reachable dflt init x -> sp x <> None) -> exists r, search_calls_p A sp n a = Some r.
  Proof.
    induction n as [|n IH]; intros a H HN; cbn; [eauto|].
    unfold search_next_p. destruct (ag_pop A a) as [[i a']|] eqn:P.
    - destruct (as_pop _ _ AS _ _ _ P) as [P1 P2].
      assert (Hi : reachable dflt init i) by auto.
      destruct (sp i) as [l|] eqn:Q; [|now apply HN in Hi].
      destruct (IH (ag_extend A l a')) as [[os a2] E]; [|assumption|rewrite E; eauto].
      intros x Hx. apply (extend_sound A content AS) in Hx. destruct Hx as [Hx|Hx]; [|auto].
      eapply reach_step; [exact Hi|]. unfold dflt. now rewrite Q.
    - destruct (IH a H HN) as [[os a2] E]. rewrite E. eauto.
  Qed.
End CallsP.

(* prefixes of the output *)
Section Prefix.
  Context {I : Type} (A : agenda I) (succs : I -> list I).
  Lemma until_none_prefix m : forall n a, m <= n ->
    until_none (fst (search_calls A succs m a)) = firstn m (until_none (fst (search_calls A succs n a))).
  Proof.
    induction m as [|m IH]; intros n a L; [reflexivity|]. destruct n as [|n]; [lia|]. rewrite !calls_S.
    unfold search_next. destruct (ag_pop A a) as [[i a']|]; cbn; [|reflexivity]. f_equal. apply IH. lia.
  Qed.
End Prefix.

(* ---- recognise ---- *)
Section Rec.
  Context (a : automaton) (TE : EqbSpec (au_teqb a)) (KL : RoundLaws (au_K a)).
  Notation AItem := (item (au_S a) (au_I a) (au_T a) (au_K a)).
  Notation succs := (dflt (item_succs a)).
  Notation ex := (executes (T := au_T a) (K := au_K a) (au_apply a)).

  Definition item_inv (word : list (au_T a)) (i : AItem) : Prop :=
    let ts := pd_to_vec (snd i) in
    ex (au_init a) ts (c_storage (fst i)) /\ (forall t, In t ts -> au_trans a t) /\
    run_word ts ++ c_word (fst i) = word /\ c_weight (fst i) = run_weight ts.

  Lemma in_tr_apply t (c c' : configuration (au_S a) (au_T a) (au_K a)) : In c' (tr_apply (au_teqb a) (au_apply a) t c) <->
    exists s', In s' (au_apply a (t_ins t) (c_storage c)) /\ c_word c = t_word t ++ c_word c' /\
               c' = Conf (c_word c') s' (wmul (c_weight c) (t_weight t)).
  Proof.
    unfold tr_apply. destruct (starts_with (au_teqb a) (c_word c) (t_word t)) eqn:SW; cbn.
    - apply (starts_with_spec _ TE) in SW. rewrite in_map_iff. split.
      + intros (s' & <- & H). exists s'. cbn. auto.
      + intros (s' & H1 & H2 & H3). exists s'. split; [|assumption]. rewrite H3. f_equal.
        rewrite H2, skipn_app, skipn_all, Nat.sub_diag. reflexivity.
    - split; [tauto|]. intros (s' & H1 & H2 & H3). rewrite H2, (starts_with_app _ TE) in SW. discriminate.
  Qed.

  Lemma in_succs i j : In j (succs i) <-> exists k t, au_key a (fst i) = Some k /\ In t (au_tmap a k) /\
    snd j = pd_push (snd i) t /\ In (fst j) (tr_apply (au_teqb a) (au_apply a) t (fst i)).
  Proof.
    unfold dflt, item_succs. destruct i as [c run], j as [c' run']. cbn. destruct (au_key a c) as [k|].
    - rewrite in_flat_map. split.
      + intros (t & Ht & H). apply in_map_iff in H. destruct H as (c1 & E & H). injection E as <- <-. exists k, t. auto.
      + intros (k' & t & E & Ht & E2 & H). injection E as <-. exists t. split; [assumption|]. apply in_map_iff. exists c'.
        split; [congruence|assumption].
    - split; [intros []|]. intros (k & t & E & _). discriminate.
  Qed.

  Lemma run_word_snoc (ts : list (transition (au_I a) (au_T a) (au_K a))) t : run_word (ts ++ [t]) = run_word ts ++ t_word t.
  Proof. unfold run_word. rewrite flat_map_app. cbn. now rewrite app_nil_r. Qed.
  Lemma run_weight_snoc (ts : list (transition (au_I a) (au_T a) (au_K a))) t : run_weight (ts ++ [t]) = wmul (run_weight ts) (t_weight t).
  Proof using KL. unfold run_weight. rewrite map_app. apply lprod_snoc. Qed.

  Lemma item_inv_step word i j : item_inv word i -> In j (succs i) -> item_inv word j.
  Proof.
    intros (H1 & H2 & H3 & H4) Hj. apply in_succs in Hj. destruct Hj as (k & t & Hk & Ht & Er & Hc).
    apply in_tr_apply in Hc. destruct Hc as (s' & A1 & A2 & A3). unfold item_inv. rewrite Er, pd_to_vec_push. repeat split.
    - apply executes_snoc. exists (c_storage (fst i)). split; [assumption|]. rewrite A3. exact A1.
    - intros t' Ht'. apply in_app_or in Ht'. destruct Ht' as [Ht'|[<-|[]]]; [auto|]. exists k. assumption.
    - rewrite run_word_snoc, <- app_assoc, <- A2. assumption.
    - rewrite run_weight_snoc, <- H4, A3. reflexivity.
  Qed.

  Lemma item_inv_reachable word i : reachable succs (init_items a (Some word)) i -> item_inv word i.
  Proof.
    induction 1 as [x H|x y Hx IH H].
    - destruct H as [<-|[]]. unfold item_inv. cbn. repeat split; try tauto. constructor.
    - eapply item_inv_step; eauto.
  Qed.

  Definition the_item (ts : list (transition (au_I a) (au_T a) (au_K a))) rest s : AItem :=
    (Conf rest s (run_weight ts), pd_from ts).

  Lemma inv_the_item word i : item_inv word i -> i = the_item (pd_to_vec (snd i)) (c_word (fst i)) (c_storage (fst i)).
  Proof.
    intros (H1 & H2 & H3 & H4). destruct i as [[w s k] run]. unfold the_item. cbn [fst snd c_word c_storage c_weight] in *. now rewrite (pd_from_to run), H4.
  Qed.

  Lemma complete_level (KO : key_ok a) word ts : forall rest s,
    ex (au_init a) ts s -> (forall t, In t ts -> au_trans a t) -> run_word ts ++ rest = word ->
    In (the_item ts rest s) (level succs (length ts) (init_items a (Some word))).
  Proof.
    assert (LS : forall d xs, level succs (S d) xs = flat_map succs (level succs d xs)).
    { induction d as [|d IH]; intros xs; [reflexivity|]. change (level succs (S (S d)) xs) with (level succs (S d) (flat_map succs xs)).
      rewrite IH. reflexivity. }
    induction ts as [|t ts IH] using rev_ind; intros rest s HE HT HW.
    - inversion HE; subst. cbn. left. reflexivity.
    - rewrite app_length, Nat.add_comm. cbn [length]. change (1 + length ts) with (S (length ts)). rewrite LS.
      apply executes_snoc in HE. destruct HE as (s1 & HE & HA).
      rewrite run_word_snoc, <- app_assoc in HW.
      apply in_flat_map. exists (the_item ts (t_word t ++ rest) s1). split.
      + apply IH; auto. intros t' Ht'. apply HT. apply in_or_app. now left.
      + assert (HC : In (Conf rest s (wmul (run_weight ts) (t_weight t)))
                        (tr_apply (au_teqb a) (au_apply a) t (Conf (t_word t ++ rest) s1 (run_weight ts)))).
        { apply in_tr_apply. exists s. cbn. auto. }
        destruct (KO t (Conf (t_word t ++ rest) s1 (run_weight ts))) as (k & K1 & K2).
        * apply HT. apply in_or_app. right. now left.
        * intros Z. rewrite Z in HC. destruct HC.
        * apply in_succs. exists k, t. unfold the_item. cbn. repeat split; auto.
          -- apply pd_from_snoc.
          -- rewrite run_weight_snoc. assumption.
  Qed.

  (* determinism: runs identify items *)
  Lemma succs_runs_nodup (DT : deterministic a) i : NoDup (map snd (succs i)).
  Proof.
    destruct DT as [D1 D2]. unfold dflt, item_succs. destruct i as [c run]. destruct (au_key a c) as [k|]; [|constructor].
    specialize (D2 k). induction (au_tmap a k) as [|t ts IH]; cbn; [constructor|]. inversion D2 as [|? ? N1 N2]; subst.
    rewrite map_app. specialize (IH N2).
    assert (L : length (tr_apply (au_teqb a) (au_apply a) t c) <= 1).
    { unfold tr_apply. destruct (negb _); cbn; [lia|]. rewrite map_length. apply D1. }
    destruct (tr_apply (au_teqb a) (au_apply a) t c) as [|c1 [|c2 r]]; cbn in *; try lia; [assumption|].
    constructor; [|assumption]. intros H. apply in_map_iff in H. destruct H as ([c3 r3] & E & H). cbn in E. subst r3.
    apply in_flat_map in H. destruct H as (t' & Ht' & H). apply in_map_iff in H. destruct H as (c4 & E & H).
    injection E as _ ->. contradiction.
  Qed.

  Lemma NoDup_app_intro {B} (l l' : list B) : NoDup l -> NoDup l' -> (forall x, In x l -> ~ In x l') -> NoDup (l ++ l').
  Proof.
    induction l as [|x l IH]; intros H1 H2 H3; cbn; [assumption|]. inversion H1; subst. constructor.
    - intros G. apply in_app_or in G. destruct G; [contradiction|]. eapply H3; [now left|eassumption].
    - apply IH; auto. intros y Hy. apply H3. now right.
  Qed.

  Lemma succs_run i j : In j (succs i) -> exists t, snd j = pd_push (snd i) t.
  Proof. intros H. apply in_succs in H. destruct H as (k & t & _ & _ & E & _). eauto. Qed.

  Lemma flat_succs_runs_nodup (DT : deterministic a) xs : NoDup (map snd xs) -> NoDup (map snd (flat_map succs xs)).
  Proof.
    induction xs as [|x xs IH]; cbn; intros H; [constructor|]. inversion H as [|? ? N1 N2]; subst. rewrite map_app.
    apply NoDup_app_intro; [now apply succs_runs_nodup|auto|]. intros r Hr Hr'.
    apply in_map_iff in Hr, Hr'. destruct Hr as (j & E & Hj), Hr' as (j' & E' & Hj').
    apply in_flat_map in Hj'. destruct Hj' as (x' & Hx' & Hj').
    apply succs_run in Hj, Hj'. destruct Hj as [t Ht], Hj' as [t' Ht'].
    assert (Q : pd_push (snd x) t = pd_push (snd x') t') by congruence. unfold pd_push in Q. injection Q as _ Q.
    apply N1. rewrite Q. now apply in_map.
  Qed.

  Lemma forest_runs_nodup (DT : deterministic a) D : forall xs m,
    NoDup (map snd xs) -> (forall x, In x xs -> length (pd_to_vec (snd x)) = m) ->
    NoDup (map snd (forest succs D xs)) /\ forall x, In x (forest succs D xs) -> m <= length (pd_to_vec (snd x)).
  Proof.
    induction D as [|D IH]; intros xs m N L; cbn; [split; [constructor|tauto]|].
    assert (L' : forall x, In x (flat_map succs xs) -> length (pd_to_vec (snd x)) = S m).
    { intros x Hx. apply in_flat_map in Hx. destruct Hx as (y & Hy & Hx). apply succs_run in Hx. destruct Hx as [t Ht].
      rewrite Ht, pd_to_vec_push, app_length. cbn. rewrite (L y Hy). lia. }
    destruct (IH (flat_map succs xs) (S m)) as [I1 I2]; [now apply flat_succs_runs_nodup|assumption|].
    rewrite map_app. split.
    - apply NoDup_app_intro; auto. intros r Hr Hr'. apply in_map_iff in Hr, Hr'.
      destruct Hr as (x & Ex & Hx), Hr' as (y & Ey & Hy). apply I2 in Hy. apply L in Hx. rewrite Ex in Hx. rewrite Ey in Hy. lia.
    - intros x Hx. apply in_app_or in Hx. destruct Hx as [Hx|Hx]; [apply L in Hx; lia|apply I2 in Hx; lia].
  Qed.

  Lemma run_weight_le (LE : forall t, au_trans a t -> wleb (t_weight t) wone = true) x y :
    In y (succs x) -> wleb (item_weight y) (item_weight x) = true.
  Proof.
    intros H. apply in_succs in H. destruct H as (k & t & _ & Ht & _ & Hc). apply in_tr_apply in Hc.
    destruct Hc as (s' & _ & _ & E). unfold item_weight. rewrite E. cbn. apply (wl_shrink KL). apply LE. now exists k.
  Qed.

  Lemma ni_filter {B W} (weight : B -> W) leb f l : nonincreasing weight leb l -> nonincreasing weight leb (filter f l).
  Proof.
    induction 1 as [|x xs H N IH]; cbn; [constructor|]. destruct (f x); [|assumption]. constructor; [|assumption].
    intros y Hy. apply filter_In in Hy. now apply H.
  Qed.

  (* split a filtered list *)
  Lemma filter_split {B} (f : B -> bool) l : forall before y after, filter f l = before ++ y :: after ->
    exists b1 a1, l = b1 ++ y :: a1 /\ filter f b1 = before.
  Proof.
    induction l as [|x l IH]; intros before y after E; cbn in E; [destruct before; discriminate|].
    destruct (f x) eqn:F.
    - destruct before as [|z before]; cbn in E.
      + injection E as -> E. exists [], l. auto.
      + injection E as -> E. destruct (IH _ _ _ E) as (b1 & a1 & -> & Hb). exists (z :: b1), a1. split; [reflexivity|].
        cbn. now rewrite F, Hb.
    - destruct (IH _ _ _ E) as (b1 & a1 & -> & Hb). exists (x :: b1), a1. split; [reflexivity|]. cbn. now rewrite F.
  Qed.

  Context (H : max_heap (AItem * au_K a) (wi_leb wleb)).
  Notation AG := (heap_agenda (I := AItem) item_weight wleb H).

  Lemma recognise_unfold w n outs : recognise_int a H w n = Some outs ->
    outs = filter (fun i => au_terminal a (fst i))
             (until_none (fst (search_calls AG succs n (heap_collect item_weight wleb H (init_items a w))))).
  Proof.
    unfold recognise_int. destruct (search_calls_p _ _ _ _) as [[os h]|] eqn:E; [|discriminate].
    intros Q. injection Q as <-. apply calls_p_total in E. now rewrite E.
  Qed.

  Lemma until_none_In {B} (os : list (option B)) x : In x (until_none os) -> In (Some x) os.
  Proof. induction os as [|[y|] os IH]; cbn; [tauto| |tauto]. intros [->|G]; auto. Qed.

  Lemma reachable_perm init init' x : Permutation init init' -> reachable succs init x -> reachable succs init' x.
  Proof. intros P. induction 1; [constructor; eapply Permutation_in; eauto|]. eapply reach_step; eauto. Qed.

  Lemma recognise_reach w n outs i : recognise_int a H w n = Some outs -> In i outs ->
    reachable succs (init_items a w) i /\ au_terminal a (fst i) = true.
  Proof.
    intros E Hi. apply recognise_unfold in E. subst outs. apply filter_In in Hi. destruct Hi as [Hi Ht]. split; [|assumption].
    apply until_none_In in Hi.
    apply (search_reachable AG _ (lossless_sound _ _ (heap_lossless item_weight wleb H)) succs (init_items a w)) in Hi; [assumption|].
    intros y Hy. constructor. eapply Permutation_in; [apply (heap_collect_content item_weight wleb H)|exact Hy].
  Qed.

  Lemma recognise_beam_reach (M : minmax_heap (AItem * au_K a) (wi_leb wleb)) beam w n outs i :
    recognise_beam_int a M beam w n = Some outs -> In i outs ->
    reachable succs (init_items a w) i /\ au_terminal a (fst i) = true.
  Proof.
    unfold recognise_beam_int. destruct (search_calls_p _ _ _ _) as [[os h]|] eqn:E; [|discriminate].
    intros Q Hi. injection Q as <-. apply calls_p_total in E. apply filter_In in Hi. destruct Hi as [Hi Ht]. split; [|assumption].
    apply until_none_In in Hi. replace os with (fst (os, h)) in Hi by reflexivity. rewrite <- E in Hi.
    apply (search_reachable _ _ (limited_sound wleb item_weight M) succs (init_items a w)) in Hi; [assumption|].
    intros y Hy. constructor. apply (extend_sound _ _ (limited_sound wleb item_weight M)) in Hy.
    destruct Hy as [Hy|Hy]; [assumption|]. exfalso. revert Hy. unfold lh_items. cbn. rewrite (mm_empty_c M). tauto.
  Qed.

  Lemma recognise_sound w n outs i : recognise_int a H w n = Some outs -> In i outs ->
    exists word, w = Some word /\ item_inv word i /\ au_terminal a (fst i) = true.
  Proof.
    intros E Hi. destruct (recognise_reach w n outs i E Hi) as [R T]. destruct w as [word|].
    - exists word. split; [reflexivity|]. split; [now apply item_inv_reachable|assumption].
    - exfalso. clear - R. induction R; auto.
  Qed.

  Lemma recognise_beam_sound (M : minmax_heap (AItem * au_K a) (wi_leb wleb)) beam w n outs i :
    recognise_beam_int a M beam w n = Some outs -> In i outs ->
    exists word, w = Some word /\ item_inv word i /\ au_terminal a (fst i) = true.
  Proof.
    intros E Hi. destruct (recognise_beam_reach M beam w n outs i E Hi) as [R T]. destruct w as [word|].
    - exists word. split; [reflexivity|]. split; [now apply item_inv_reachable|assumption].
    - exfalso. clear - R. induction R; auto.
  Qed.

  Lemma recognise_sorted (LE : forall t, au_trans a t -> wleb (t_weight t) wone = true) w n outs :
    recognise_int a H w n = Some outs -> nonincreasing item_weight wleb outs.
  Proof.
    intros E. apply recognise_unfold in E. subst outs. apply ni_filter.
    apply (weighted_sorted_gen AG _ _ item_weight wleb (rl_order _ KL) (heap_maxfirst item_weight wleb H) succs (run_weight_le LE) n).
    apply heap_wf_collect.
  Qed.

  Lemma recognise_before (LE : forall t, au_trans a t -> wleb (t_weight t) wone = true) (KO : key_ok a)
    word n before y after ts s :
    recognise_int a H (Some word) n = Some (before ++ y :: after) ->
    ex (au_init a) ts s -> (forall t, In t ts -> au_trans a t) -> run_word ts = word ->
    au_terminal a (Conf [] s (run_weight ts)) = true ->
    wleb (run_weight ts) (item_weight y) = false -> In (the_item ts [] s) before.
  Proof.
    intros E HE HT HW HF HL. apply recognise_unfold in E. symmetry in E. apply filter_split in E.
    destruct E as (b1 & a1 & E & <-).
    set (st := heap_collect item_weight wleb H (init_items a (Some word))) in *.
    assert (N : length b1 + 1 <= n).
    { pose proof (until_none_le AG succs n st) as L. fold st in L. rewrite E, app_length in L. cbn in L. lia. }
    assert (E' : until_none (fst (search_calls AG succs (length b1 + 1) st)) = b1 ++ [y]).
    { rewrite (until_none_prefix AG succs (length b1 + 1) n st N), E. rewrite firstn_app.
      replace (length b1 + 1 - length b1) with 1 by lia. rewrite firstn_all2 by lia. reflexivity. }
    pose proof (heap_maxfirst item_weight wleb H) as AM.
    destruct (weighted_complete AG _ _ _ wleb (rl_order _ KL) AM succs (run_weight_le LE) (length b1 + 1) st
                (init_items a (Some word)) (item_weight y) (S (length ts))) as [r P].
    - apply (heap_collect_content item_weight wleb H).
    - eapply (weighted_frontier AG _ _ _ wleb AM succs (run_weight_le LE)); [apply heap_wf_collect|exact E'].
    - rewrite E' in P.
      assert (HI : In (the_item ts [] s) (forest succs (S (length ts)) (init_items a (Some word)))).
      { eapply in_level_forest; [|apply Nat.lt_succ_diag_r]. apply complete_level; auto. now rewrite app_nil_r. }
      assert (HX : In (the_item ts [] s) (filter (fun y0 => negb (wleb (item_weight y0) (item_weight y))) (b1 ++ [y]))).
      { eapply Permutation_in; [symmetry; exact P|]. apply in_or_app. left. apply filter_In. split; [assumption|].
        unfold item_weight at 1. cbn. now rewrite HL. }
      apply filter_In in HX. destruct HX as [HX HX2]. apply in_app_or in HX. apply filter_In.
      split; [|exact HF]. destruct HX as [HX|[HX|[]]]; [assumption|]. rewrite HX in HL.
      pose proof (wleb_refl KL (run_weight ts)) as R. unfold item_weight, the_item in HL. cbn in HL. congruence.
  Qed.

  Lemma recognise_exhaustive (KO : key_ok a) word n outs ts s :
    recognise_int a H (Some word) n = Some outs -> recognise_ended a H (Some word) n ->
    ex (au_init a) ts s -> (forall t, In t ts -> au_trans a t) -> run_word ts = word ->
    au_terminal a (Conf [] s (run_weight ts)) = true -> In (the_item ts [] s) outs.
  Proof.
    intros E (os & h & EN & Hn) HE HT HW HF. apply recognise_unfold in E. subst outs. apply calls_p_total in EN.
    set (st := heap_collect item_weight wleb H (init_items a (Some word))) in *.
    destruct (search_end AG _ (heap_lossless item_weight wleb H) succs n st (init_items a (Some word))) as (D & L & P).
    - apply (heap_collect_content item_weight wleb H).
    - unfold st in *. now rewrite EN.
    - apply filter_In. split; [|exact HF]. eapply Permutation_in; [symmetry; exact P|].
      assert (HI : In (the_item ts [] s) (forest succs (S (length ts)) (init_items a (Some word)))).
      { eapply in_level_forest; [|apply Nat.lt_succ_diag_r]. apply complete_level; auto. now rewrite app_nil_r. }
      destruct (Nat.le_ge_cases D (S (length ts))) as [G|G].
      + rewrite (forest_stable succs D _ _ L G) in HI. assumption.
      + clear - HI G. replace D with (S (length ts) + (D - S (length ts))) by lia.
        generalize (D - S (length ts)). intros k. induction k as [|k IH]; [now rewrite Nat.add_0_r|].
        rewrite Nat.add_succ_r, forest_level_S. apply in_or_app. now left.
  Qed.

  Lemma recognise_once (DT : deterministic a) w n outs :
    recognise_int a H w n = Some outs -> NoDup (map snd outs).
  Proof.
    intros E. apply recognise_unfold in E. subst outs.
    set (st := heap_collect item_weight wleb H (init_items a w)) in *.
    destruct (search_prefix AG _ (heap_lossless item_weight wleb H) succs n st (init_items a w)) as (D & rest & P).
    { apply (heap_collect_content item_weight wleb H). }
    assert (N : NoDup (map snd (forest succs D (init_items a w)))).
    { apply (forest_runs_nodup DT D (init_items a w) 0).
      - destruct w; cbn; repeat constructor. tauto.
      - destruct w; cbn; [|tauto]. intros x [<-|[]]. reflexivity. }
    apply (Permutation_map snd) in P. symmetry in P. eapply Permutation_NoDup in N; [|exact P].
    rewrite map_app in N. apply NoDup_app_l in N. apply NoDup_map_filter. exact N.
  Qed.

  (* a run is found once the runs at least as heavy are exhausted *)
  Lemma recognise_finds (LE : forall t, au_trans a t -> wleb (t_weight t) wone = true) (KO : key_ok a) word ts s D :
    ex (au_init a) ts s -> (forall t, In t ts -> au_trans a t) -> run_word ts = word ->
    au_terminal a (Conf [] s (run_weight ts)) = true -> length ts < D ->
    (forall us s', ex (au_init a) us s' -> (forall t, In t us -> au_trans a t) -> (exists rest, run_word us ++ rest = word) ->
       D <= length us -> wleb (run_weight ts) (run_weight us) = false) ->
    exists n, forall outs, recognise_int a H (Some word) n = Some outs -> In (the_item ts [] s) outs.
  Proof.
    intros HE HT HW HF HL HB.
    set (init := init_items a (Some word)). exists (S (length (forest succs D init))). intros outs E.
    apply recognise_unfold in E. subst outs. apply filter_In. split; [|exact HF].
    pose proof (heap_maxfirst item_weight wleb H) as AM.
    apply (weighted_finds AG _ _ _ wleb (rl_order _ KL) AM succs (run_weight_le LE) _ _ init D).
    - apply heap_wf_collect.
    - apply (heap_collect_content item_weight wleb H).
    - eapply in_level_forest; [|exact HL]. apply complete_level; auto. now rewrite app_nil_r.
    - intros E y HD Hy. assert (R : reachable succs init y) by (apply reachable_level; eauto).
      destruct (item_inv_reachable word y R) as (I1 & I2 & I3 & I4).
      assert (LY : length (pd_to_vec (snd y)) = E).
      { clear -Hy. revert y Hy. assert (LS : forall d xs, level succs (S d) xs = flat_map succs (level succs d xs)).
        { induction d as [|d IH]; intros xs; [reflexivity|]. change (level succs (S (S d)) xs) with (level succs (S d) (flat_map succs xs)).
          rewrite IH. reflexivity. }
        induction E as [|E IH]; intros y Hy.
        - destruct Hy as [<-|[]]. reflexivity.
        - rewrite LS in Hy. apply in_flat_map in Hy. destruct Hy as (x & Hx & Hy).
          apply succs_run in Hy. destruct Hy as [t Ht]. rewrite Ht, pd_to_vec_push, app_length, (IH x Hx). cbn. lia. }
      unfold item_weight, the_item. cbn [fst c_weight]. rewrite I4. eapply HB; eauto. lia.
    - lia.
  Qed.

  Lemma recognise_defined w n :
    (forall i, reachable succs (init_items a w) i -> au_key a (fst i) <> None) ->
    exists outs, recognise_int a H w n = Some outs.
  Proof.
    intros HN. unfold recognise_int.
    destruct (calls_p_defined AG (item_succs a) _ (lossless_sound _ _ (heap_lossless item_weight wleb H)) (init_items a w) n
                (heap_collect item_weight wleb H (init_items a w))) as [[os h] E].
    - intros x Hx. constructor. eapply Permutation_in; [apply (heap_collect_content item_weight wleb H)|exact Hx].
    - intros x Hx G. apply (HN x Hx). unfold item_succs in G. destruct x as [c r]. cbn. destruct (au_key a c); [discriminate|reflexivity].
    - rewrite E. eauto.
  Qed.
End Rec.

(* ---- check_run ---- *)
Section CheckRun.
  Context {S I T : Type} {K : Weight} (apply : I -> S -> list S).

  Lemma check_run_loop_spec (ts : list (transition I T K)) : forall ss w,
    snd (fold_left (check_run_loop apply) ts (ss, w)) = fold_left wmul (map t_weight ts) w /\
    forall s', In s' (fst (fold_left (check_run_loop apply) ts (ss, w))) <-> exists s, In s ss /\ executes apply s ts s'.
  Proof.
    induction ts as [|t ts IH]; intros ss w; cbn.
    - split; [reflexivity|]. intros s'. split.
      + intros Hs. exists s'. split; [assumption|constructor].
      + intros (s & Hs & E). inversion E; now subst.
    - destruct (IH (flat_map (fun s => apply (t_ins t) s) ss) (wmul w (t_weight t))) as [I1 I2]. split.
      + exact I1.
      + intros s'. rewrite I2. split.
        * intros (s1 & H1 & H2). apply in_flat_map in H1. destruct H1 as (s & Hs & H1). exists s. split; [assumption|].
          econstructor; eauto.
        * intros (s & Hs & E). inversion E as [|? ? ? s1 ? E1 E2]; subst. exists s1. split; [|assumption].
          apply in_flat_map. eauto.
  Qed.

  Lemma check_run_spec initial (run : pushdown (transition I T K)) c r :
    In (c, r) (check_run apply initial run) <->
    r = run /\ c_word c = [] /\ c_weight c = run_weight (pd_to_vec run) /\ executes apply initial (pd_to_vec run) (c_storage c).
  Proof.
    unfold check_run, pd_iter. pose proof (check_run_loop_spec (pd_to_vec run) [initial] wone) as [I1 I2].
    destruct (fold_left (check_run_loop apply) (pd_to_vec run) ([initial], wone)) as [res w]. cbn in I1, I2.
    fold (lprod (map t_weight (pd_to_vec run))) in I1. fold (run_weight (pd_to_vec run)) in I1. rewrite in_map_iff. split.
    - intros (s & E & Hs). injection E as <- <-. cbn. apply I2 in Hs. destruct Hs as (s0 & [<-|[]] & Hs). auto.
    - intros (-> & H1 & H2 & H3). exists (c_storage c). destruct c as [cw cs ck]. cbn in *. subst. split; [reflexivity|].
      apply I2. exists initial. auto.
  Qed.
End CheckRun.
