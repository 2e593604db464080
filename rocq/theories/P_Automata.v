From Verif Require Import Base M_Agenda M_Search M_Util M_Recog M_Automata S_Search S_Util S_Recog P_Agenda P_Search P_Util P_Recog.
Arguments Nat.ltb : simpl never.

(* ---- opt_all ---- *)
Lemma opt_all_map {A B C} (f : B -> option C) (g : A -> B) l : opt_all f (map g l) = opt_all (fun x => f (g x)) l.
Proof. induction l as [|x l IH]; cbn; [reflexivity|]. now rewrite IH. Qed.
Lemma opt_all_id {A B} (f : A -> option B) (g : B -> A) l : (forall x, In x l -> f (g x) = Some x) -> opt_all f (map g l) = Some l.
Proof.
  induction l as [|x l IH]; cbn; intros H; [reflexivity|]. rewrite (H x) by auto. rewrite IH; [reflexivity|]. auto.
Qed.
Lemma opt_all_Some {A B} (f : A -> option B) l r : opt_all f l = Some r <-> Forall2 (fun x y => f x = Some y) l r.
Proof.
  revert r. induction l as [|x l IH]; intros r; cbn.
  - split; [intros H; injection H as <-; constructor|]. intros H. inversion H. reflexivity.
  - split.
    + destruct (f x) as [y|] eqn:E; [|discriminate]. destruct (opt_all f l) as [ys|]; [|discriminate].
      intros H. injection H as <-. constructor; [assumption|]. now apply IH.
    + intros H. inversion H as [|? y ? ys Hy Hys]; subst. rewrite Hy. apply IH in Hys. now rewrite Hys.
Qed.
Lemma opt_all_None {A B} (f : A -> option B) l : opt_all f l = None <-> exists x, In x l /\ f x = None.
Proof.
  induction l as [|x l IH]; cbn.
  - split; [discriminate|]. intros (x & [] & _).
  - destruct (f x) as [y|] eqn:E.
    + destruct (opt_all f l) as [ys|].
      * split; [discriminate|]. intros (z & [->|Hz] & E2); [congruence|]. enough (Some ys = None) by discriminate. apply IH. eauto.
      * split; [|reflexivity]. intros _. destruct (proj1 IH eq_refl) as (z & Hz & E2). eauto.
    + split; [eauto|reflexivity].
Qed.

(* ---- nonincreasing as a split property ---- *)
Lemma ni_split {B W} (weight : B -> W) leb l : nonincreasing weight leb l ->
  forall before y after, l = before ++ y :: after -> forall x, In x before -> leb (weight y) (weight x) = true.
Proof.
  induction 1 as [|x xs H N IH]; intros before y after E z Hz; [destruct before; discriminate|].
  destruct before as [|b before]; [destruct Hz|]. injection E as <- ->. destruct Hz as [<-|Hz].
  - apply H. apply in_or_app. right. now left.
  - eapply IH; eauto.
Qed.

(* ---- codes ---- *)
Section Enc.
  Context {A : Type} (eqb : A -> A -> bool) (E : EqbSpec eqb).
  Definition enc (l : list A) (x : A) : nat := match find_index eqb x l with Some k => k | None => 0 end.

  Lemma enc_In l x : In x l -> int_find_value l (enc l x) = Some x.
  Proof.
    intros H. unfold enc. destruct (find_index eqb x l) as [k|] eqn:F; [|apply (find_index_none eqb E) in F; contradiction].
    now apply (find_index_some eqb E) in F.
  Qed.
  Lemma enc_inj l x y : In x l -> In y l -> enc l x = enc l y -> x = y.
  Proof. intros Hx Hy Q. apply enc_In in Hx, Hy. rewrite Q in Hx. congruence. Qed.
  Lemma find_index_app l r x : In x l -> find_index eqb x (l ++ r) = find_index eqb x l.
  Proof.
    induction l as [|y l IH]; cbn; [tauto|]. destruct (eqb x y) eqn:Q; [reflexivity|]. intros [->|H].
    - assert (eqb x x = true) by now apply E. congruence.
    - now rewrite IH.
  Qed.
  Lemma enc_app l r x : In x l -> enc (l ++ r) x = enc l x.
  Proof. intros H. unfold enc. now rewrite find_index_app. Qed.
  Lemma find_key_enc l x : int_find_key eqb l x = if memb eqb x l then Some (enc l x) else None.
  Proof.
    unfold int_find_key, enc. destruct (find_index eqb x l) as [k|] eqn:F.
    - apply (find_index_some eqb E) in F. apply nth_error_In in F. apply (memb_In eqb E) in F. now rewrite F.
    - apply (find_index_none eqb E) in F. apply (memb_notIn eqb E) in F. now rewrite F.
  Qed.
  Lemma int_enc l x : let '(l', k) := int_integerise eqb l x in
    (exists r, l' = l ++ r) /\ In x l' /\ k = enc l' x.
  Proof.
    unfold int_integerise. destruct (find_index eqb x l) as [k|] eqn:F.
    - split; [exists []; now rewrite app_nil_r|]. pose proof F as G. apply (find_index_some eqb E) in G. apply nth_error_In in G.
      split; [assumption|]. unfold enc. now rewrite F.
    - split; [eauto|]. split; [apply in_or_app; right; now left|].
      unfold enc. apply (find_index_none eqb E) in F. clear -E F. 
      enough (H : find_index eqb x (l ++ [x]) = Some (length l)) by now rewrite H.
      induction l as [|y l IH]; cbn.
      + assert (H : eqb x x = true) by now apply E. now rewrite H.
      + destruct (eqb x y) eqn:Q; [apply E in Q; subst; exfalso; apply F; now left|].
        rewrite IH; [reflexivity|]. intros H. apply F. now right.
  Qed.
  Lemma map_enc_app l r xs : (forall x, In x xs -> In x l) -> map (enc (l ++ r)) xs = map (enc l) xs.
  Proof. intros H. apply map_ext_in. intros x Hx. apply enc_app. auto. Qed.
  Lemma int_list_enc xs : forall l, let '(l', ks) := int_list eqb l xs in
    (exists r, l' = l ++ r) /\ (forall x, In x xs -> In x l') /\ ks = map (enc l') xs.
  Proof.
    induction xs as [|x xs IH]; intros l; cbn.
    - split; [exists []; now rewrite app_nil_r|]. split; [tauto|reflexivity].
    - pose proof (int_enc l x) as HX. destruct (int_integerise eqb l x) as [l1 k]. destruct HX as ((r1 & ->) & Hx & Hk).
      specialize (IH (l ++ r1)). destruct (int_list eqb (l ++ r1) xs) as [l2 ks]. destruct IH as ((r2 & ->) & Hxs & Hks).
      split; [exists (r1 ++ r2); now rewrite app_assoc|]. split.
      + intros y [<-|Hy]; [apply in_or_app; now left|auto].
      + subst. f_equal. symmetry. now apply enc_app.
  Qed.
  Lemma un_list_enc l xs : (forall x, In x xs -> In x l) -> un_list l (map (enc l) xs) = Some xs.
  Proof. intros H. unfold un_list. apply opt_all_id. intros x Hx. apply enc_In. auto. Qed.
  Lemma map_enc_inj l xs ys : (forall x, In x xs -> In x l) -> (forall x, In x ys -> In x l) ->
    map (enc l) xs = map (enc l) ys -> xs = ys.
  Proof.
    intros H1 H2 Q. assert (G : Some xs = Some ys) by (rewrite <- (un_list_enc l xs H1), <- (un_list_enc l ys H2); now rewrite Q).
    now injection G.
  Qed.
End Enc.

(* ---- coded automata ---- *)
Section Coded.
  Context (ai : automaton) {S I T : Type} (apply : I -> S -> list S) (init : S)
          (tr : transition I T (au_K ai) -> Prop) (final : S -> Prop)
          (kS : S -> Prop) (kI : I -> Prop) (kT : T -> Prop)
          (eS : S -> au_S ai) (eI : I -> au_I ai) (eT : T -> au_T ai)
          (tti : T -> option (au_T ai))
          (item_map : item (au_S ai) (au_I ai) (au_T ai) (au_K ai) -> option (item S I T (au_K ai))).
  Definition eTr (t : transition I T (au_K ai)) : transition (au_I ai) (au_T ai) (au_K ai) :=
    Trans (map eT (t_word t)) (t_weight t) (eI (t_ins t)).

  Record coded : Prop := {
    cd_teqb : EqbSpec (au_teqb ai);
    cd_init : au_init ai = eS init;
    cd_kinit : kS init;
    cd_tr : forall t', au_trans ai t' <-> exists t, tr t /\ t' = eTr t;
    cd_ktr : forall t, tr t -> kI (t_ins t) /\ forall x, In x (t_word t) -> kT x;
    cd_comm : forall i s, kI i -> kS s -> au_apply ai (eI i) (eS s) = map eS (apply i s);
    cd_pres : forall i s s', kI i -> kS s -> In s' (apply i s) -> kS s';
    cd_final : forall w s k, kS s -> (au_terminal ai (Conf w (eS s) k) = true <-> w = [] /\ final s);
    cd_key : key_ok ai;
    cd_tti : forall x, (kT x /\ tti x = Some (eT x)) \/ (~ kT x /\ tti x = None);
    cd_tinj : forall x y, kT x -> kT y -> eT x = eT y -> x = y;
    cd_trinj : forall t t', tr t -> tr t' -> eTr t = eTr t' -> t = t';
    cd_map : forall w s k ts, kS s -> (forall x, In x w -> kT x) -> (forall t, In t ts -> tr t) ->
      item_map (Conf (map eT w) (eS s) k, pd_from (map eTr ts)) = Some (Conf w s k, pd_from ts)
  }.

  Context (CD : coded) (KL : RoundLaws (au_K ai)).
  Notation ex := (executes (T := T) (K := au_K ai) apply).
  Notation exi := (executes (T := au_T ai) (K := au_K ai) (au_apply ai)).

  Lemma exec_up ts' : forall s s'', kS s -> exi (eS s) ts' s'' -> (forall t, In t ts' -> au_trans ai t) ->
    exists ts s', ts' = map eTr ts /\ (forall t, In t ts -> tr t) /\ s'' = eS s' /\ kS s' /\ ex s ts s'.
  Proof.
    induction ts' as [|t' ts' IH]; intros s s'' HS HE HT.
    - inversion HE; subst. exists [], s. cbn. repeat split; auto; [tauto|constructor].
    - inversion HE as [|? ? ? s1 ? H1 H2]; subst. 
      destruct (proj1 (cd_tr CD t') (HT t' (or_introl eq_refl))) as (t & Ht & ->).
      destruct (cd_ktr CD t Ht) as [KI KT]. unfold eTr in H1. cbn in H1.
      rewrite (cd_comm CD _ _ KI HS) in H1. apply in_map_iff in H1. destruct H1 as (s2 & <- & H1).
      pose proof (cd_pres CD _ _ _ KI HS H1) as HS2.
      destruct (IH s2 s'' HS2 H2) as (ts & s' & -> & G1 & G2 & G3 & G4); [intros; apply HT; now right|].
      exists (t :: ts), s'. cbn. repeat split; auto; [intros u [<-|Hu]; auto|]. econstructor; eauto.
  Qed.

  Lemma exec_down ts : forall s s', kS s -> ex s ts s' -> (forall t, In t ts -> tr t) ->
    exi (eS s) (map eTr ts) (eS s') /\ kS s'.
  Proof.
    induction ts as [|t ts IH]; intros s s' HS HE HT.
    - inversion HE; subst. split; [constructor|assumption].
    - inversion HE as [|? ? ? s1 ? H1 H2]; subst. 
      destruct (cd_ktr CD t (HT t (or_introl eq_refl))) as [KI KT].
      pose proof (cd_pres CD _ _ _ KI HS H1) as HS1.
      destruct (IH s1 s' HS1 H2) as [G1 G2]; [intros; apply HT; now right|]. split; [|assumption].
      cbn. econstructor; [|exact G1]. unfold eTr. cbn. rewrite (cd_comm CD _ _ KI HS). now apply in_map.
  Qed.

  Lemma run_word_eTr ts : run_word (map eTr ts) = map eT (run_word ts).
  Proof. unfold run_word. induction ts as [|t ts IH]; cbn; [reflexivity|]. now rewrite IH, map_app. Qed.
  Lemma run_weight_eTr ts : run_weight (map eTr ts) = run_weight ts.
  Proof. unfold run_weight. f_equal. rewrite map_map. reflexivity. Qed.

  Lemma known_word ts : (forall t, In t ts -> tr t) -> forall x, In x (run_word ts) -> kT x.
  Proof.
    intros HT x Hx. apply in_flat_map in Hx. destruct Hx as (t & Ht & Hx). apply (cd_ktr CD t (HT t Ht)). assumption.
  Qed.
  Lemma tti_word w : (forall x, In x w -> kT x) -> opt_all tti w = Some (map eT w).
  Proof.
    induction w as [|x w IH]; cbn; intros H; [reflexivity|]. destruct (cd_tti CD x) as [[_ E]|[E _]]; [|exfalso; auto].
    rewrite E, IH; auto.
  Qed.
  Lemma tti_word_inv w w' : opt_all tti w = Some w' -> w' = map eT w /\ forall x, In x w -> kT x.
  Proof.
    revert w'. induction w as [|x w IH]; intros w'; cbn; [intros H; injection H as <-; cbn; tauto|].
    destruct (cd_tti CD x) as [[Kx E]|[_ E]]; rewrite E; [|discriminate].
    destruct (opt_all tti w) as [w1|]; [|discriminate]. intros H. injection H as <-. destruct (IH w1 eq_refl) as [-> HW].
    split; [reflexivity|]. intros y [<-|Hy]; auto.
  Qed.
  Lemma map_eT_inj w w' : (forall x, In x w -> kT x) -> (forall x, In x w' -> kT x) -> map eT w = map eT w' -> w = w'.
  Proof.
    revert w'. induction w as [|x w IH]; intros [|y w']; cbn; intros H1 H2 E; try discriminate; [reflexivity|].
    injection E as E1 E2. f_equal; [apply (cd_tinj CD); auto|]. apply IH; auto.
  Qed.

  (* an accepted internal item decodes *)
  Definition good (word : list T) (o : item (au_S ai) (au_I ai) (au_T ai) (au_K ai)) (e : item S I T (au_K ai)) : Prop :=
    exists ts s, accepting_run apply init tr final word ts s /\ kS s /\
      o = (Conf [] (eS s) (run_weight ts), pd_from (map eTr ts)) /\ e = (Conf [] s (run_weight ts), pd_from ts).

  Lemma inv_decode word i : item_inv ai (map eT word) i -> (forall x, In x word -> kT x) -> au_terminal ai (fst i) = true ->
    exists e, item_map i = Some e /\ good word i e.
  Proof.
    intros HI KW HF. pose proof (inv_the_item ai _ _ HI) as Ei. destruct HI as (I1 & I2 & I3 & I4).
    rewrite (cd_init CD) in I1. destruct (exec_up _ _ _ (cd_kinit CD) I1 I2) as (ts & s & E1 & E2 & E3 & E4 & E5).
    destruct i as [[cw cs ck] run]. unfold the_item in Ei. cbn [fst snd c_word c_storage c_weight] in *. subst cs.
    apply (cd_final CD _ _ _ E4) in HF. destruct HF as [-> HF]. rewrite app_nil_r, E1, run_word_eTr in I3.
    apply map_eT_inj in I3; [|now apply known_word|assumption].
    rewrite E1, run_weight_eTr in I4. subst ck. rewrite <- (pd_from_to run), E1.
    exists (Conf [] s (run_weight ts), pd_from ts). split.
    - apply (cd_map CD [] s (run_weight ts) ts); auto. intros x [].
    - exists ts, s. repeat split; auto.
  Qed.

  Lemma decode_all word outs : (forall i, In i outs -> item_inv ai (map eT word) i /\ au_terminal ai (fst i) = true) ->
    (forall x, In x word -> kT x) -> exists outs', opt_all item_map outs = Some outs' /\ Forall2 (good word) outs outs'.
  Proof.
    intros H KW. induction outs as [|i outs IH]; cbn; [exists []; auto|].
    destruct (H i) as [H1 H2]; [now left|]. destruct (inv_decode word i H1 KW H2) as (e & -> & G).
    destruct IH as (outs' & -> & F); [intros; apply H; now right|]. exists (e :: outs'). auto.
  Qed.

  Lemma accepting_inj word ts s ts' s' : accepting_run apply init tr final word ts s -> accepting_run apply init tr final word ts' s' ->
    map eTr ts = map eTr ts' -> ts = ts'.
  Proof.
    intros (_ & H1 & _) (_ & H2 & _). clear s s'. revert ts' H2. induction ts as [|t ts IH]; intros [|t' ts'] H2 E; try discriminate; [reflexivity|].
    cbn in E. assert (E1 : eTr t = eTr t') by congruence. assert (E2 : map eTr ts = map eTr ts') by congruence. f_equal.
    - apply (cd_trinj CD); [apply H1; now left|apply H2; now left|assumption].
    - apply IH; auto; intros; [apply H1|apply H2]; now right.
  Qed.

  Context (H : max_heap (item (au_S ai) (au_I ai) (au_T ai) (au_K ai) * au_K ai) (wi_leb wleb)).

  (* recognise never panics in item_map, and its result is a correct enumeration *)
  Lemma coded_recognise word n outs : recognise_int ai H (opt_all tti word) n = Some outs ->
    exists outs', recognise_with ai tti item_map H word n = Some outs' /\
      enum_sound apply init tr final word outs' /\
      ((forall t, tr t -> wleb (t_weight t) wone = true) -> enum_best_first apply init tr final word outs') /\
      (recognise_ended ai H (opt_all tti word) n -> enum_exhaustive apply init tr final word outs') /\
      (deterministic ai -> NoDup (map snd outs')) /\
      length outs' = length outs.
  Proof.
    intros R. unfold recognise_with. rewrite R. destruct (opt_all tti word) as [w'|] eqn:EW.
    - destruct (tti_word_inv word w' EW) as [-> KW].
      destruct (decode_all word outs) as (outs' & -> & F2).
      { intros i Hi. destruct (recognise_sound ai (cd_teqb CD) KL H _ n outs i R Hi) as (w1 & E1 & HI & HT). injection E1 as <-. auto. }
      { assumption. }
      exists outs'. split; [reflexivity|].
      assert (P1 : forall e, In e outs' -> exists o, In o outs /\ good word o e).
      { intros e He. clear -F2 He. induction F2; [destruct He|]. destruct He as [<-|He]; [exists x; split; [now left|assumption]|].
        destruct (IHF2 He) as (o & Ho & G). exists o. split; [now right|assumption]. }
      assert (AI : forall ts s, accepting_run apply init tr final word ts s -> kS s /\
                     exi (au_init ai) (map eTr ts) (eS s) /\ (forall t, In t (map eTr ts) -> au_trans ai t) /\
                     run_word (map eTr ts) = map eT word /\ au_terminal ai (Conf [] (eS s) (run_weight (map eTr ts))) = true).
      { intros ts s (A1 & A2 & A3 & A4). rewrite (cd_init CD).
        destruct (exec_down ts init s (cd_kinit CD) A1 A2) as [D1 D2]. split; [assumption|]. split; [assumption|]. split.
        - intros t Ht. apply in_map_iff in Ht. destruct Ht as (t0 & <- & Ht0). apply (cd_tr CD). eauto.
        - split; [rewrite run_word_eTr; now f_equal|]. apply (cd_final CD _ _ _ D2). auto. }
      assert (P2 : forall o e ts s, good word o e -> accepting_run apply init tr final word ts s -> kS s ->
                   o = the_item ai (map eTr ts) [] (eS s) -> e = (Conf [] s (run_weight ts), pd_from ts)).
      { intros o e ts s (ts1 & s1 & G1 & G2 & G3 & G4) A KS Eo. rewrite Eo in G3. unfold the_item in G3.
        assert (Q1 : pd_from (map eTr ts) = pd_from (map eTr ts1)) by congruence.
        assert (Q2 : eS s = eS s1) by congruence.
        assert (Q3 : map eTr ts = map eTr ts1) by (rewrite <- (pd_to_from (map eTr ts)), <- (pd_to_from (map eTr ts1)); now rewrite Q1).
        apply (accepting_inj word ts s ts1 s1 A G1) in Q3. subst ts1. subst e. f_equal. f_equal.
        assert (M1 := cd_map CD [] s (run_weight ts) ts KS ltac:(intros x []) (proj1 (proj2 A))).
        assert (M2 := cd_map CD [] s1 (run_weight ts) ts G2 ltac:(intros x []) (proj1 (proj2 A))).
        rewrite Q2 in M1. congruence. }
      assert (SPL : forall before y after, outs' = before ++ y :: after -> exists b o a, outs = b ++ o :: a /\ Forall2 (good word) b before /\ good word o y).
      { clear -F2. revert F2. revert outs. induction outs' as [|e outs' IH]; intros outs F2 before y after E; [destruct before; discriminate|].
        inversion F2 as [|o ? os ? G F]; subst. destruct before as [|b before]; injection E as E1 E2.
        - subst. exists [], o, os. auto.
        - subst. destruct (IH os F before y after eq_refl) as (b1 & o1 & a1 & -> & Q1 & Q2). exists (o :: b1), o1, a1.
          split; [reflexivity|]. split; [constructor; assumption|assumption]. }
      assert (GW : forall o e, good word o e -> item_weight o = item_weight e).
      { intros o e (ts1 & s1 & _ & _ & -> & ->). reflexivity. }
      assert (INB : forall b before o, Forall2 (good word) b before -> In o b -> exists e, In e before /\ good word o e).
      { clear. intros b before o F. induction F; [intros []|]. intros [<-|Ho]; [exists y; split; [now left|assumption]|].
        destruct (IHF Ho) as (e & He & G). exists e. split; [now right|assumption]. }
      repeat split.
      + destruct (P1 _ H0) as (o & Ho & ts & s & G1 & G2 & G3 & G4). injection G4 as -> ->. rewrite pd_to_from. apply G1.
      + destruct (P1 _ H0) as (o & Ho & ts & s & G1 & G2 & G3 & G4). injection G4 as -> ->. rewrite pd_to_from. apply G1.
      + destruct (P1 _ H0) as (o & Ho & ts & s & G1 & G2 & G3 & G4). injection G4 as -> ->. rewrite pd_to_from. apply G1.
      + destruct (P1 _ H0) as (o & Ho & ts & s & G1 & G2 & G3 & G4). injection G4 as -> ->. apply G1.
      + destruct (P1 _ H0) as (o & Ho & ts & s & G1 & G2 & G3 & G4). injection G4 as -> ->. reflexivity.
      + destruct (P1 _ H0) as (o & Ho & ts & s & G1 & G2 & G3 & G4). injection G4 as -> ->. rewrite pd_to_from. reflexivity.
      + intros x Hx. destruct (SPL _ _ _ H1) as (b & o & a & E & Q1 & Q2).
        assert (LE : forall t, au_trans ai t -> wleb (t_weight t) wone = true).
        { intros t Ht. apply (cd_tr CD) in Ht. destruct Ht as (t0 & Ht0 & ->). cbn. auto. }
        pose proof (recognise_sorted ai (cd_teqb CD) KL H LE _ _ _ R) as NI.
        assert (HX : exists ox, In ox b /\ good word ox x).
        { clear -Q1 Hx. induction Q1; [destruct Hx|]. destruct Hx as [<-|Hx]; [eexists; split; [now left|eassumption]|].
          destruct (IHQ1 Hx) as (ox & Ho & G). exists ox. split; [now right|assumption]. }
        destruct HX as (ox & Hox & Gx). rewrite <- (GW _ _ Gx), <- (GW _ _ Q2). eapply ni_split; eauto.
      + intros ts s A L. destruct (SPL _ _ _ H1) as (b & o & a & E & Q1 & Q2).
        assert (LE : forall t, au_trans ai t -> wleb (t_weight t) wone = true).
        { intros t Ht. apply (cd_tr CD) in Ht. destruct Ht as (t0 & Ht0 & ->). cbn. auto. }
        destruct (AI ts s A) as (KS & B1 & B2 & B3 & B4). subst outs.
        assert (HB : In (the_item ai (map eTr ts) [] (eS s)) b).
        { eapply (recognise_before ai (cd_teqb CD) KL H LE (cd_key CD)); eauto. rewrite run_weight_eTr, (GW _ _ Q2). assumption. }
        destruct (INB _ _ _ Q1 HB) as (e & He & G). rewrite <- (P2 _ _ ts s G A KS eq_refl). assumption.
      + intros HE ts s A. destruct (AI ts s A) as (KS & B1 & B2 & B3 & B4).
        assert (HB : In (the_item ai (map eTr ts) [] (eS s)) outs).
        { eapply (recognise_exhaustive ai (cd_teqb CD) KL H (cd_key CD)); eauto. }
        destruct (INB _ _ _ F2 HB) as (e & He & G). rewrite <- (P2 _ _ ts s G A KS eq_refl). assumption.
      + intros D. pose proof (recognise_once ai H D _ _ _ R) as N.
        clear -F2 N CD. induction F2 as [|o e outs outs' G F IH]; cbn; [constructor|]. cbn in N. apply NoDup_cons_iff in N. destruct N as [N1 N2].
        constructor; [|auto]. intros Hin. apply N1. apply in_map_iff in Hin. destruct Hin as (e2 & E2 & He2).
        assert (G2 : exists o2, In o2 outs /\ good word o2 e2).
        { clear -F He2. induction F; [destruct He2|]. destruct He2 as [<-|He2]; [exists x; split; [now left|assumption]|].
          destruct (IHF He2) as (o2 & Ho & G). exists o2. split; [now right|assumption]. }
        destruct G2 as (o2 & Ho2 & G2). destruct G as (ts & s & A1 & A2 & A3 & A4), G2 as (ts2 & s2 & B1 & B2 & B3 & B4).
        subst e e2. cbn in E2. assert (ts2 = ts) by (rewrite <- (pd_to_from ts2), E2; apply pd_to_from). subst ts2.
        replace (snd o) with (snd o2); [now apply in_map|]. subst o o2. reflexivity.
      + clear -F2. induction F2; cbn; congruence.
    - (* an unknown symbol *)
      assert (outs = []).
      { destruct outs as [|i outs]; [reflexivity|]. exfalso.
        destruct (recognise_sound ai (cd_teqb CD) KL H _ n _ i R (or_introl eq_refl)) as (w1 & E1 & _). discriminate. }
      subst outs. cbn. exists []. split; [reflexivity|]. split; [intros ? ? []|].
      split; [intros _ before y after E; destruct before; discriminate|]. split.
      + intros _ ts s (A1 & A2 & A3 & A4). exfalso. apply opt_all_None in EW. destruct EW as (x & Hx & Ex).
        rewrite <- A3 in Hx. pose proof (known_word ts A2 x Hx) as Kx. destruct (cd_tti CD x) as [[_ E]|[E _]]; [congruence|contradiction].
      + split; [intros _; constructor|reflexivity].
  Qed.

  Lemma coded_recognise_beam (M : minmax_heap (item (au_S ai) (au_I ai) (au_T ai) (au_K ai) * au_K ai) (wi_leb wleb)) beam word n outs :
    recognise_beam_int ai M beam (opt_all tti word) n = Some outs ->
    exists outs', recognise_beam_with ai tti item_map M beam word n = Some outs' /\ enum_sound apply init tr final word outs' /\
                  length outs' = length outs.
  Proof.
    intros R. unfold recognise_beam_with. rewrite R. destruct (opt_all tti word) as [w'|] eqn:EW.
    - destruct (tti_word_inv word w' EW) as [-> KW].
      destruct (decode_all word outs) as (outs' & -> & F2).
      { intros i Hi. destruct (recognise_beam_sound ai (cd_teqb CD) KL M beam _ n outs i R Hi) as (w1 & E1 & HI & HT). injection E1 as <-. auto. }
      { assumption. }
      exists outs'. split; [reflexivity|]. split; [|clear -F2; induction F2; cbn; congruence].
      intros conf run Hin.
      assert (P1 : exists o, In o outs /\ good word o (conf, run)).
      { clear -F2 Hin. induction F2; [destruct Hin|]. destruct Hin as [->|He]; [exists x; split; [now left|assumption]|].
        destruct (IHF2 He) as (o & Ho & G). exists o. split; [now right|assumption]. }
      destruct P1 as (o & Ho & ts & s & G1 & G2 & G3 & G4). injection G4 as -> ->. rewrite pd_to_from. auto.
    - assert (outs = []).
      { destruct outs as [|i outs]; [reflexivity|]. exfalso.
        destruct (recognise_beam_sound ai (cd_teqb CD) KL M beam _ n _ i R (or_introl eq_refl)) as (w1 & E1 & _). discriminate. }
      subst outs. exists []. cbn. split; [reflexivity|]. split; [intros ? ? []|reflexivity].
  Qed.
End Coded.

(* ---- termination of the enumeration ---- *)
Lemma calls_p_none {I} (A : agenda I) sp n a : ag_pop A a = None -> search_calls_p A sp n a = Some (repeat None n, a).
Proof. intros P. induction n as [|n IH]; cbn; [reflexivity|]. unfold search_next_p. rewrite P. now rewrite IH. Qed.

Section Ends.
  Context (a : automaton) (TE : EqbSpec (au_teqb a)) (KL : RoundLaws (au_K a)).
  Context (H : max_heap (item (au_S a) (au_I a) (au_T a) (au_K a) * au_K a) (wi_leb wleb)).
  Notation succs := (dflt (item_succs a)).

  Lemma level_length w d : forall x, In x (level succs d (init_items a (Some w))) -> length (pd_to_vec (snd x)) = d.
  Proof.
    assert (LS : forall d xs, level succs (S d) xs = flat_map succs (level succs d xs)).
    { induction d0 as [|d0 IH]; intros xs; [reflexivity|]. change (level succs (S (S d0)) xs) with (level succs (S d0) (flat_map succs xs)).
      rewrite IH. reflexivity. }
    induction d as [|d IH]; intros x Hx.
    - destruct Hx as [<-|[]]. reflexivity.
    - rewrite LS in Hx. apply in_flat_map in Hx. destruct Hx as (y & Hy & Hx).
      apply succs_run in Hx. destruct Hx as [t Ht]. rewrite Ht, pd_to_vec_push, app_length, (IH y Hy). cbn. lia.
  Qed.

  Lemma ends_none n : recognise_ended a H None (S n).
  Proof.
    unfold recognise_ended.
    assert (P : ag_pop (heap_agenda item_weight wleb H) (heap_collect item_weight wleb H (init_items a None)) = None).
    { destruct (ag_pop _ _) as [[i h]|] eqn:E; [|reflexivity].
      pose proof (al_pop_some _ _ (heap_lossless item_weight wleb H) _ _ _ E) as P.
      assert (P2 : Permutation [] (i :: heap_agenda_content item_weight wleb H h)).
      { rewrite <- P. symmetry. apply (heap_collect_content item_weight wleb H). }
      apply Permutation_nil in P2. discriminate. }
    rewrite (calls_p_none _ _ (S n) _ P). do 2 eexists. split; [reflexivity|]. now left.
  Qed.

  Lemma ends_bounded w bound :
    (forall i, item_inv a w i -> au_key a (fst i) <> None /\ length (pd_to_vec (snd i)) < bound) ->
    exists n, recognise_ended a H (Some w) n.
  Proof.
    intros HB. set (init := init_items a (Some w)) in *.
    assert (RI : forall i, reachable succs init i -> item_inv a w i) by (intros i; apply item_inv_reachable; assumption).
    assert (LN : level succs bound init = []).
    { destruct (level succs bound init) as [|x l] eqn:EL; [reflexivity|]. exfalso.
      assert (Hx : In x (level succs bound init)) by (rewrite EL; now left).
      pose proof (level_length w bound x Hx) as L1.
      assert (R : reachable succs init x) by (apply reachable_level; eauto).
      destruct (HB x (RI x R)) as [_ L2]. lia. }
    exists (S (length (forest succs bound init))). unfold recognise_ended.
    set (n := S (length (forest succs bound init))).
    destruct (calls_p_defined (heap_agenda item_weight wleb H) (item_succs a) _
                (lossless_sound _ _ (heap_lossless item_weight wleb H)) init n (heap_collect item_weight wleb H init)) as [[os h] E].
    - intros x Hx. constructor. eapply Permutation_in; [apply (heap_collect_content item_weight wleb H)|exact Hx].
    - intros x Hx G. apply (proj1 (HB x (RI x Hx))). unfold item_succs in G. destruct x as [c r]. cbn. destruct (au_key a c); [discriminate|reflexivity].
    - exists os, h. split; [exact E|]. apply calls_p_total in E.
      pose proof (search_terminates (heap_agenda item_weight wleb H) _ (heap_lossless item_weight wleb H) succs
                    (heap_collect item_weight wleb H init) init bound n) as ST.
      rewrite E in ST. apply ST; [apply (heap_collect_content item_weight wleb H)|assumption|unfold n; lia].
  Qed.

  Lemma defined_inv w n : (forall i, item_inv a w i -> au_key a (fst i) <> None) -> exists outs, recognise_int a H (Some w) n = Some outs.
  Proof. intros HN. apply recognise_defined. intros i Hi. apply HN. now apply item_inv_reachable. Qed.
  Lemma defined_none n : exists outs, recognise_int a H None n = Some outs.
  Proof. apply recognise_defined. intros i Hi. exfalso. induction Hi; auto. Qed.
  Lemma defined_beam_inv (M : minmax_heap (item (au_S a) (au_I a) (au_T a) (au_K a) * au_K a) (wi_leb wleb)) beam ow n :
    (forall w i, ow = Some w -> item_inv a w i -> au_key a (fst i) <> None) -> exists outs, recognise_beam_int a M beam ow n = Some outs.
  Proof.
    intros HN. unfold recognise_beam_int.
    destruct (calls_p_defined (limited_agenda M item_weight) (item_succs a) _ (limited_sound wleb item_weight M) (init_items a ow) n
                (ag_extend (limited_agenda M item_weight) (init_items a ow) (lh_with_capacity M beam))) as [[os h] E].
    - intros x Hx. constructor. apply (extend_sound _ _ (limited_sound wleb item_weight M)) in Hx.
      destruct Hx as [Hy|Hy]; [assumption|]. exfalso. revert Hy. unfold lh_items. cbn. rewrite (mm_empty_c M). tauto.
    - intros x Hx G. destruct ow as [w|]; [|clear -Hx; induction Hx; auto]. 
      apply (HN w x eq_refl). { now apply item_inv_reachable. }
      unfold item_succs in G. destruct x as [c r]. cbn. destruct (au_key a c); [discriminate|reflexivity].
    - rewrite E. eauto.
  Qed.
End Ends.

Section CodedEnds.
  Context (ai : automaton) {S I T : Type} (apply : I -> S -> list S) (init : S)
          (tr : transition I T (au_K ai) -> Prop) (final : S -> Prop)
          (kS : S -> Prop) (kI : I -> Prop) (kT : T -> Prop)
          (eS : S -> au_S ai) (eI : I -> au_I ai) (eT : T -> au_T ai)
          (tti : T -> option (au_T ai))
          (item_map : item (au_S ai) (au_I ai) (au_T ai) (au_K ai) -> option (item S I T (au_K ai))).
  Context (CD : coded ai apply init tr final kS kI kT eS eI eT tti item_map) (KL : RoundLaws (au_K ai)).
  Context (H : max_heap (item (au_S ai) (au_I ai) (au_T ai) (au_K ai) * au_K ai) (wi_leb wleb)).

  (* every reachable item is the image of a partial run *)
  Lemma inv_run w i : item_inv ai (map eT w) i -> (forall x, In x w -> kT x) ->
    exists ts s rest, executes apply init ts s /\ (forall t, In t ts -> tr t) /\ run_word ts ++ rest = w /\ kS s /\
      i = (Conf (map eT rest) (eS s) (run_weight ts), pd_from (map (eTr ai eI eT) ts)) /\
      length (pd_to_vec (snd i)) = length ts.
  Proof.
    intros HI KW. pose proof (inv_the_item ai _ _ HI) as Ei. destruct HI as (I1 & I2 & I3 & I4).
    rewrite (cd_init _ _ _ _ _ _ _ _ _ _ _ _ _ CD) in I1.
    destruct (exec_up _ _ _ _ _ _ _ _ _ _ _ _ _ CD _ _ _ (cd_kinit _ _ _ _ _ _ _ _ _ _ _ _ _ CD) I1 I2) as (ts & s & E1 & E2 & E3 & E4 & E5).
    rewrite E1, run_word_eTr in I3.
    assert (P : exists rest, run_word ts ++ rest = w /\ c_word (fst i) = map eT rest).
    { assert (KR : forall x, In x (run_word ts) -> kT x) by (intros x; eapply (known_word _ _ _ _ _ _ _ _ _ _ _ _ _ CD); eassumption).
      clear -I3 KR KW CD. revert w I3 KW. induction (run_word ts) as [|x l IH]; intros w I3 KW.
      - exists w. split; [reflexivity|exact I3].
      - destruct w as [|y w]; [discriminate|]. cbn in I3. injection I3 as X1 X2.
        apply (cd_tinj _ _ _ _ _ _ _ _ _ _ _ _ _ CD) in X1; [|apply KR; now left|apply KW; now left]. subst y.
        destruct (IH (fun z Hz => KR z (or_intror Hz)) w X2 (fun z Hz => KW z (or_intror Hz))) as (rest & <- & R).
        exists rest. auto. }
    destruct P as (rest & P1 & P2). exists ts, s, rest. repeat split; auto.
    - rewrite Ei. unfold the_item. rewrite E1, P2, run_weight_eTr, E3. reflexivity.
    - rewrite E1. apply map_length.
  Qed.

  Lemma coded_defined word n :
    (forall ts s rest, executes apply init ts s -> (forall t, In t ts -> tr t) -> run_word ts ++ rest = word -> kS s ->
       au_key ai (Conf (map eT rest) (eS s) (run_weight ts)) <> None) ->
    exists outs, recognise_int ai H (opt_all tti word) n = Some outs.
  Proof.
    intros HK. destruct (opt_all tti word) as [w'|] eqn:EW; [|apply defined_none].
    destruct (tti_word_inv _ _ _ _ _ _ _ _ _ _ _ _ _ CD word w' EW) as [-> KW].
    apply (defined_inv ai (cd_teqb _ _ _ _ _ _ _ _ _ _ _ _ _ CD) KL). intros i Hi.
    destruct (inv_run word i Hi KW) as (ts & s & rest & A1 & A2 & A3 & A4 & -> & _). cbn. eapply HK; eauto.
  Qed.

  Lemma coded_defined_beam (M : minmax_heap (item (au_S ai) (au_I ai) (au_T ai) (au_K ai) * au_K ai) (wi_leb wleb)) beam word n :
    (forall ts s rest, executes apply init ts s -> (forall t, In t ts -> tr t) -> run_word ts ++ rest = word -> kS s ->
       au_key ai (Conf (map eT rest) (eS s) (run_weight ts)) <> None) ->
    exists outs, recognise_beam_int ai M beam (opt_all tti word) n = Some outs.
  Proof.
    intros HK. apply (defined_beam_inv ai (cd_teqb _ _ _ _ _ _ _ _ _ _ _ _ _ CD) KL). intros w' i EW Hi.
    destruct (tti_word_inv _ _ _ _ _ _ _ _ _ _ _ _ _ CD word w' EW) as [-> KW].
    destruct (inv_run word i Hi KW) as (ts & s & rest & A1 & A2 & A3 & A4 & -> & _). cbn. eapply HK; eauto.
  Qed.

  Lemma coded_ends word bound :
    (forall ts s rest, executes apply init ts s -> (forall t, In t ts -> tr t) -> run_word ts ++ rest = word -> kS s ->
       au_key ai (Conf (map eT rest) (eS s) (run_weight ts)) <> None /\ length ts < bound) ->
    exists n, recognise_ended ai H (opt_all tti word) n.
  Proof.
    intros HK. destruct (opt_all tti word) as [w'|] eqn:EW; [|exists 1; apply ends_none].
    destruct (tti_word_inv _ _ _ _ _ _ _ _ _ _ _ _ _ CD word w' EW) as [-> KW].
    apply (ends_bounded ai (cd_teqb _ _ _ _ _ _ _ _ _ _ _ _ _ CD) KL H (map eT word) bound). intros i Hi.
    destruct (inv_run word i Hi KW) as (ts & s & rest & A1 & A2 & A3 & A4 & -> & L). cbn [fst] in *. rewrite L. eapply HK; eauto.
  Qed.

  (* heavier partial runs of every length keep an accepting run from ever being returned *)
  Lemma coded_starves word n outs conf run : (forall t, tr t -> wleb (t_weight t) wone = true) ->
    recognise_with ai tti item_map H word n = Some outs ->
    (forall d, exists us s' rest, executes apply init us s' /\ (forall t, In t us -> tr t) /\ run_word us ++ rest = word /\
       length us = d /\ wleb (run_weight us) (c_weight conf) = false) ->
    ~ In (conf, run) outs.
  Proof.
    intros LE R HD Hin. unfold recognise_with in R.
    destruct (recognise_int ai H (opt_all tti word) n) as [oi|] eqn:RI; [|discriminate].
    apply opt_all_Some in R.
    assert (G : exists o, In o oi /\ item_map o = Some (conf, run)).
    { clear -R Hin. induction R; [destruct Hin|]. destruct Hin as [<-|Hin]; [exists x; split; [now left|assumption]|].
      destruct (IHR Hin) as (o & Ho & E). exists o. split; [now right|assumption]. }
    destruct G as (o & Ho & Eo).
    destruct (recognise_sound ai (cd_teqb _ _ _ _ _ _ _ _ _ _ _ _ _ CD) KL H _ n oi o RI Ho) as (w1 & E1 & HI & HT).
    destruct (tti_word_inv _ _ _ _ _ _ _ _ _ _ _ _ _ CD word w1 E1) as [-> KW]. rewrite E1 in RI.
    destruct (inv_decode _ _ _ _ _ _ _ _ _ _ _ _ _ CD word o HI KW HT) as (e & Ee & ts & s & A1 & A2 & A3 & A4).
    rewrite Eo in Ee. injection Ee as <-. injection A4 as -> ->. cbn [c_weight] in HD.
    apply recognise_unfold in RI. subst oi. apply filter_In in Ho. destruct Ho as [Ho _]. revert Ho.
    assert (LEI : forall t, au_trans ai t -> wleb (t_weight t) wone = true).
    { intros t Ht. apply (cd_tr _ _ _ _ _ _ _ _ _ _ _ _ _ CD) in Ht. destruct Ht as (t0 & Ht0 & ->). cbn. auto. }
    apply (weighted_starves _ _ _ _ wleb (rl_order _ KL) (heap_maxfirst item_weight wleb H) (dflt (item_succs ai))
             (run_weight_le ai (cd_teqb _ _ _ _ _ _ _ _ _ _ _ _ _ CD) KL LEI) n _ (init_items ai (Some (map eT word)))).
    - apply heap_wf_collect.
    - apply (heap_collect_content item_weight wleb H).
    - intros d. destruct (HD d) as (us & s' & rest & B1 & B2 & B3 & B4 & B5).
      destruct (exec_down _ _ _ _ _ _ _ _ _ _ _ _ _ CD us init s' (cd_kinit _ _ _ _ _ _ _ _ _ _ _ _ _ CD) B1 B2) as [C1 C2].
      exists (the_item ai (map (eTr ai eI eT) us) (map eT rest) (eS s')). split.
      + rewrite <- B4, <- (map_length (eTr ai eI eT) us). apply complete_level; auto using (cd_teqb _ _ _ _ _ _ _ _ _ _ _ _ _ CD), (cd_key _ _ _ _ _ _ _ _ _ _ _ _ _ CD).
        * rewrite (cd_init _ _ _ _ _ _ _ _ _ _ _ _ _ CD). exact C1.
        * intros t Ht. apply in_map_iff in Ht. destruct Ht as (t0 & <- & Ht0). apply (cd_tr _ _ _ _ _ _ _ _ _ _ _ _ _ CD). eauto.
        * rewrite run_word_eTr, <- map_app, B3. reflexivity.
      + rewrite A3. unfold item_weight, the_item. cbn [fst c_weight]. now rewrite run_weight_eTr.
  Qed.
End CodedEnds.

(* ---- integerising lists of transitions ---- *)
Section TransInt.
  Context {I I' T Q : Type} {K : Weight} (teqb : T -> T -> bool) (TE : EqbSpec teqb)
          (ins_int : list Q -> I -> list Q * I') (ins_un : list Q -> I' -> option I)
          (kI : list Q -> I -> Prop) (eI : list Q -> I -> I').
  Context (LI : forall l i, let '(l', i') := ins_int l i in (exists r, l' = l ++ r) /\ kI l' i /\ i' = eI l' i)
          (LE : forall l r i, kI l i -> kI (l ++ r) i /\ eI (l ++ r) i = eI l i)
          (LU : forall l i, kI l i -> ins_un l (eI l i) = Some i).
  Definition kTr (lt : list T) (lq : list Q) (t : transition I T K) : Prop := kI lq (t_ins t) /\ forall x, In x (t_word t) -> In x lt.
  Definition eTrL (lt : list T) (lq : list Q) (t : transition I T K) : transition I' nat K :=
    Trans (map (enc teqb lt) (t_word t)) (t_weight t) (eI lq (t_ins t)).

  Lemma kTr_app lt lq r1 r2 t : kTr lt lq t -> kTr (lt ++ r1) (lq ++ r2) t /\ eTrL (lt ++ r1) (lq ++ r2) t = eTrL lt lq t.
  Proof.
    intros [H1 H2]. destruct (LE lq r2 (t_ins t) H1) as [E1 E2]. split.
    - split; [assumption|]. intros x Hx. apply in_or_app. auto.
    - unfold eTrL. rewrite E2, (map_enc_app teqb TE); auto.
  Qed.

  Lemma trs_int_spec ts : forall lt lq, let '((lt', lq'), ts') := trs_integerise teqb ins_int lt lq ts in
    (exists r, lt' = lt ++ r) /\ (exists r, lq' = lq ++ r) /\ (forall t, In t ts -> kTr lt' lq' t) /\ ts' = map (eTrL lt' lq') ts.
  Proof.
    induction ts as [|t ts IH]; intros lt lq; cbn.
    - split; [exists []; now rewrite app_nil_r|]. split; [exists []; now rewrite app_nil_r|]. split; [tauto|reflexivity].
    - unfold tr_integerise. pose proof (int_list_enc teqb TE (t_word t) lt) as HW. destruct (int_list teqb lt (t_word t)) as [lt1 w].
      destruct HW as ((r1 & ->) & W1 & W2). pose proof (LI lq (t_ins t)) as HI. destruct (ins_int lq (t_ins t)) as [lq1 i].
      destruct HI as ((r2 & ->) & I1 & I2). specialize (IH (lt ++ r1) (lq ++ r2)).
      destruct (trs_integerise teqb ins_int (lt ++ r1) (lq ++ r2) ts) as [[lt' lq'] ts'].
      destruct IH as ((r3 & ->) & (r4 & ->) & H1 & H2).
      assert (KT : kTr (lt ++ r1) (lq ++ r2) t) by (split; assumption).
      destruct (kTr_app _ _ r3 r4 t KT) as [KT' ET].
      split; [exists (r1 ++ r3); now rewrite app_assoc|]. split; [exists (r2 ++ r4); now rewrite app_assoc|]. split.
      + intros u [<-|Hu]; auto.
      + rewrite H2. cbn [map]. f_equal. rewrite ET. unfold eTrL. now rewrite W2, I2.
  Qed.

  Lemma tr_un_enc lt lq t : kTr lt lq t -> tr_un_integerise ins_un lt lq (eTrL lt lq t) = Some t.
  Proof.
    intros [H1 H2]. unfold tr_un_integerise, eTrL. cbn [t_word t_ins t_weight]. rewrite (un_list_enc teqb TE lt _ H2), (LU lq _ H1). now destruct t.
  Qed.

  Lemma eTrL_inj lt lq t t' : kTr lt lq t -> kTr lt lq t' -> eTrL lt lq t = eTrL lt lq t' -> t = t'.
  Proof.
    intros H1 H2 E. apply tr_un_enc in H1, H2. rewrite E in H1. congruence.
  Qed.

  Lemma item_un_enc {S S'} (st_un : list Q -> S' -> option S) lt lq w (s : S) (s' : S') k ts :
    st_un lq s' = Some s -> (forall x, In x w -> In x lt) -> (forall t, In t ts -> kTr lt lq t) ->
    item_un ins_un st_un lt lq (Conf (map (enc teqb lt) w) s' k, pd_from (map (eTrL lt lq) ts)) = Some (Conf w s k, pd_from ts).
  Proof.
    intros H1 H2 H3. unfold item_un. cbn [c_word c_storage c_weight]. rewrite pd_to_from.
    rewrite opt_all_id by (intros t Ht; apply tr_un_enc; auto). rewrite (un_list_enc teqb TE lt _ H2), H1. reflexivity.
  Qed.

  Lemma tti_enc lt x : (In x lt /\ int_find_key teqb lt x = Some (enc teqb lt x)) \/ (~ In x lt /\ int_find_key teqb lt x = None).
  Proof.
    rewrite (find_key_enc teqb TE). destruct (memb teqb x lt) eqn:M.
    - left. apply (memb_In teqb TE) in M. auto.
    - right. apply (memb_notIn teqb TE) in M. auto.
  Qed.
End TransInt.

Lemma hm_get_push {X} k k' (x : X) m : hm_get k (hm_push k' x m) = if Nat.eqb k k' then x :: hm_get k m else hm_get k m.
Proof.
  induction m as [|[k1 v] m IH]; cbn.
  - now destruct (Nat.eqb k k').
  - destruct (Nat.eqb k' k1) eqn:E1; cbn.
    + apply Nat.eqb_eq in E1. subst. now destruct (Nat.eqb k k1).
    + destruct (Nat.eqb k k1) eqn:E2; [|assumption]. apply Nat.eqb_eq in E2. subst. rewrite Nat.eqb_sym, E1. reflexivity.
Qed.
Lemma hm_get_fold {X} (key : X -> nat) ts : forall m k,
  Permutation (hm_get k (fold_left (fun m t => hm_push (key t) t m) ts m)) (filter (fun t => Nat.eqb k (key t)) ts ++ hm_get k m).
Proof.
  induction ts as [|t ts IH]; intros m k; cbn; [reflexivity|]. rewrite IH, hm_get_push. destruct (Nat.eqb k (key t)); [|reflexivity].
  symmetry. apply Permutation_middle.
Qed.

Lemma NoDup_map_inj {A B} (f : A -> B) l : (forall x y, In x l -> In y l -> f x = f y -> x = y) -> NoDup l -> NoDup (map f l).
Proof.
  induction l as [|x l IH]; cbn; intros HI N; [constructor|]. apply NoDup_cons_iff in N. destruct N as [N1 N2]. constructor.
  - intros H. apply in_map_iff in H. destruct H as (y & E & Hy). apply HI in E; auto. now subst.
  - apply IH; auto.
Qed.
Lemma NoDup_filter' {A} (f : A -> bool) l : NoDup l -> NoDup (filter f l).
Proof.
  induction l as [|x l IH]; cbn; intros N; [constructor|]. apply NoDup_cons_iff in N. destruct N as [N1 N2].
  destruct (f x); [|auto]. constructor; [|auto]. intros H. apply filter_In in H. tauto.
Qed.

(* ---- finite state automata ---- *)
Section FSA.
  Context {Q T : Type} {K : Weight} (qeqb : Q -> Q -> bool) (teqb : T -> T -> bool) (QE : EqbSpec qeqb) (TE : EqbSpec teqb)
          (KL : RoundLaws K).

  Definition fk (l : list Q) (i : fs_instr Q) : Prop := In (fs_source i) l /\ In (fs_target i) l.
  Definition fe (l : list Q) (i : fs_instr Q) : fs_instr nat := FSI (enc qeqb l (fs_source i)) (enc qeqb l (fs_target i)).

  Lemma fsi_LI l i : let '(l', i') := fsi_integerise qeqb l i in (exists r, l' = l ++ r) /\ fk l' i /\ i' = fe l' i.
  Proof.
    unfold fsi_integerise. pose proof (int_enc qeqb QE l (fs_source i)) as H1. destruct (int_integerise qeqb l (fs_source i)) as [l1 a].
    destruct H1 as ((r1 & ->) & A1 & A2). pose proof (int_enc qeqb QE (l ++ r1) (fs_target i)) as H2.
    destruct (int_integerise qeqb (l ++ r1) (fs_target i)) as [l2 b]. destruct H2 as ((r2 & ->) & B1 & B2).
    split; [exists (r1 ++ r2); now rewrite app_assoc|]. split; [split; [apply in_or_app; now left|assumption]|].
    unfold fe. now rewrite (enc_app qeqb QE _ r2 _ A1), <- A2, <- B2.
  Qed.
  Lemma fsi_LE l r i : fk l i -> fk (l ++ r) i /\ fe (l ++ r) i = fe l i.
  Proof.
    intros [H1 H2]. split; [split; apply in_or_app; now left|]. unfold fe. now rewrite !(enc_app qeqb QE).
  Qed.
  Lemma fsi_LU l i : fk l i -> fsi_un_integerise l (fe l i) = Some i.
  Proof.
    intros [H1 H2]. unfold fsi_un_integerise, fe. cbn [fs_source fs_target]. rewrite (enc_In qeqb QE l _ H1), (enc_In qeqb QE l _ H2). now destruct i.
  Qed.

  Context (ts : list (transition (fs_instr Q) T K)) (initial : Q) (finals : list Q)
          (shuffle : list (transition (fs_instr nat) nat K) -> list (transition (fs_instr nat) nat K))
          (SH : forall l, Permutation (shuffle l) l).
  Notation M := (fsa_new qeqb teqb ts initial finals).
  Notation AU := (fsa_automaton shuffle M).

  Lemma fsa_new_spec :
    In initial (fa_q M) /\ fa_init M = enc qeqb (fa_q M) initial /\
    (forall q, In q finals -> In q (fa_q M)) /\ fa_final M = map (enc qeqb (fa_q M)) finals /\
    (forall t, In t ts -> kTr fk (fa_t M) (fa_q M) t) /\
    forall k, Permutation (hm_get k (fa_map M))
                (filter (fun t => Nat.eqb k (fs_source (t_ins t))) (map (eTrL teqb fe (fa_t M) (fa_q M)) ts)).
  Proof.
    unfold fsa_new. pose proof (int_enc qeqb QE [] initial) as H1. destruct (int_integerise qeqb [] initial) as [q1 init].
    destruct H1 as (_ & A1 & A2). pose proof (int_list_enc qeqb QE finals q1) as H2.
    destruct (int_list qeqb q1 finals) as [q2 fin]. destruct H2 as ((r2 & ->) & B1 & B2).
    pose proof (trs_int_spec teqb TE (fsi_integerise qeqb) fk fe fsi_LI fsi_LE ts [] (q1 ++ r2)) as H3.
    destruct (trs_integerise teqb (fsi_integerise qeqb) [] (q1 ++ r2) ts) as [[lt lq] ts']. destruct H3 as (_ & (r3 & ->) & C1 & C2).
    cbn [fa_q fa_t fa_map fa_init fa_final]. split; [apply in_or_app; left; apply in_or_app; now left|]. split.
    { rewrite A2. symmetry. rewrite (enc_app qeqb QE) by (apply in_or_app; now left). now rewrite (enc_app qeqb QE). }
    split; [intros q Hq; apply in_or_app; left; auto|]. split.
    { rewrite B2. symmetry. apply map_enc_app; auto. }
    split; [assumption|]. intros k. rewrite C2. rewrite hm_get_fold. cbn. now rewrite app_nil_r.
  Qed.

  Lemma fsa_trans_iff t' : au_trans AU t' <-> exists t, In t ts /\ t' = eTrL teqb fe (fa_t M) (fa_q M) t.
  Proof.
    destruct fsa_new_spec as (_ & _ & _ & _ & _ & HM). unfold au_trans. cbn -[fsa_new]. split.
    - intros [k Hk]. apply (Permutation_in _ (SH _)) in Hk. apply (Permutation_in _ (HM k)) in Hk. apply filter_In in Hk.
      destruct Hk as [Hk _]. apply in_map_iff in Hk. destruct Hk as (t & <- & Ht). eauto.
    - intros (t & Ht & ->). exists (fs_source (t_ins (eTrL teqb fe (fa_t M) (fa_q M) t))).
      apply (Permutation_in _ (Permutation_sym (SH _))). apply (Permutation_in _ (Permutation_sym (HM _))). apply filter_In. split.
      + now apply in_map.
      + apply Nat.eqb_refl.
  Qed.

  Lemma fsa_coded : coded AU (fs_apply qeqb) initial (fun t => In t ts) (fun q => In q finals)
    (fun q => In q (fa_q M)) (fk (fa_q M)) (fun x => In x (fa_t M))
    (enc qeqb (fa_q M)) (fe (fa_q M)) (enc teqb (fa_t M)) (int_find_key teqb (fa_t M))
    (item_un fsi_un_integerise int_find_value (fa_t M) (fa_q M)).
  Proof.
    destruct fsa_new_spec as (HI & HIe & HF & HFe & HT & HM). pose proof fsa_trans_iff as TI.
    set (m := fsa_new qeqb teqb ts initial finals) in *. clearbody m.
    constructor; try (cbn -[fsa_new]; assumption).
    - exact nat_eqb_spec.
    - intros i s [K1 K2] KS. cbn. unfold fs_apply, fe. cbn [fs_source fs_target].
      destruct (qeqb (fs_source i) s) eqn:E.
      + apply QE in E. subst s. now rewrite Nat.eqb_refl.
      + destruct (Nat.eqb (enc qeqb (fa_q m) (fs_source i)) (enc qeqb (fa_q m) s)) eqn:E2; [|reflexivity].
        apply Nat.eqb_eq in E2. apply (enc_inj qeqb QE) in E2; auto. subst s.
        assert (qeqb (fs_source i) (fs_source i) = true) by now apply QE. congruence.
    - intros i s s' [K1 K2] KS H. unfold fs_apply in H. destruct (qeqb (fs_source i) s); [|destruct H]. destruct H as [<-|[]]. assumption.
    - intros w s k KS. cbn -[fsa_new]. destruct w as [|x w]; [|split; [discriminate|intros [? _]; discriminate]].
      rewrite (memb_In Nat.eqb nat_eqb_spec), HFe, in_map_iff. split.
      + intros (q & E & Hq). apply (enc_inj qeqb QE) in E; auto. subst q. auto.
      + intros [_ Hs]. eauto.
    - intros t c Ht HA. exists (c_storage c). split; [reflexivity|]. destruct (tr_apply _ _ t c) as [|c' l] eqn:E; [congruence|].
      assert (Hc : In c' (tr_apply (au_teqb (fsa_automaton shuffle m)) (au_apply (fsa_automaton shuffle m)) t c)) by (rewrite E; now left).
      apply (in_tr_apply (fsa_automaton shuffle m) nat_eqb_spec) in Hc. destruct Hc as (s' & H1 & _).
      change (In s' (fs_apply Nat.eqb (t_ins t) (c_storage c))) in H1. unfold fs_apply in H1.
      destruct (Nat.eqb (fs_source (t_ins t)) (c_storage c)) eqn:E3; [|destruct H1]. apply Nat.eqb_eq in E3.
      apply TI in Ht. destruct Ht as (t0 & Ht0 & ->). cbn -[fsa_new].
      apply (Permutation_in _ (Permutation_sym (SH _))). apply (Permutation_in _ (Permutation_sym (HM _))). apply filter_In.
      split; [now apply in_map|]. apply Nat.eqb_eq. symmetry. exact E3.
    - intros x. apply tti_enc. assumption.
    - intros x y Hx Hy. now apply (enc_inj teqb TE).
    - intros t t' Ht Ht' E. eapply (eTrL_inj teqb TE fsi_un_integerise fk fe fsi_LU); eauto.
    - intros w s k us HS HW HU. apply (item_un_enc teqb TE fsi_un_integerise fk fe fsi_LU); auto. now apply enc_In.
  Qed.

  Lemma fsa_det : NoDup ts -> deterministic AU.
  Proof.
    intros N. destruct fsa_new_spec as (_ & _ & _ & _ & HT & HM). split.
    - intros i s. cbn. unfold fs_apply. destruct (Nat.eqb _ _); cbn; lia.
    - intros k. cbn -[fsa_new]. eapply Permutation_NoDup; [symmetry; etransitivity; [apply SH|apply HM]|].
      apply NoDup_filter'. apply NoDup_map_inj; [|assumption].
      intros x y Hx Hy E. eapply (eTrL_inj teqb TE fsi_un_integerise fk fe fsi_LU); eauto.
  Qed.
End FSA.
