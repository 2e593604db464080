(* The lazy enumeration lists all derivations of a node, best first. *)
From Coq Require Import ZArith Sorting.Sorted.
From Verif Require Import Base M_Util M_Agenda M_Grammar M_Chart S_Chart M_CSAuto S_CS P_FillChart M_KBest.
Arguments Nat.ltb : simpl never. Arguments Nat.eqb : simpl never. Arguments Nat.compare : simpl never. Arguments Nat.leb : simpl never.

(* ---- the order of the candidates ---- *)
Fixpoint lexcmp (a b : list Z) : comparison :=
  match a, b with
  | [], [] => Eq | [], _ => Lt | _, [] => Gt
  | x :: a, y :: b => then_cmp (Z.compare x y) (lexcmp a b)
  end.
Lemma lex_eq a : forall b, lexcmp a b = Eq <-> a = b.
Proof.
  induction a as [|x a IH]; intros [|y b]; cbn; try (split; congruence). destruct (Z.compare_spec x y); cbn.
  - subst. rewrite IH. split; congruence.
  - split; [discriminate|intros [= -> _]; lia].
  - split; [discriminate|intros [= -> _]; lia].
Qed.
Lemma lex_anti a : forall b, lexcmp b a = CompOpp (lexcmp a b).
Proof. induction a as [|x a IH]; intros [|y b]; cbn; try reflexivity. rewrite (Z.compare_antisym x y). destruct (Z.compare x y); cbn; auto. Qed.
Lemma lex_trans a : forall b c, lexcmp a b = Gt -> lexcmp b c = Gt -> lexcmp a c = Gt.
Proof.
  induction a as [|x a IH]; intros [|y b] [|z c]; cbn; try congruence.
  destruct (Z.compare x y) eqn:E1; cbn; [|discriminate|].
  - apply Z.compare_eq in E1. subst y. destruct (Z.compare x z); cbn; [apply IH|congruence|congruence].
  - intros _. destruct (Z.compare y z) eqn:E2; cbn; [|discriminate|].
    + apply Z.compare_eq in E2. subst z. rewrite E1. reflexivity.
    + intros _. rewrite Z.compare_gt_iff in *. assert (Z.compare x z = Gt) as -> by (apply Z.compare_gt_iff; lia). reflexivity.
Qed.
Definition bt_key {W} (b : bt W) : list Z :=
  match b with
  | BNull r _ => [2; Z.of_nat r]
  | BUn r _ _ i => [1; - Z.of_nat i; Z.of_nat r]
  | BBin r _ m _ _ i1 i2 => [0; - Z.of_nat i1; - Z.of_nat i2; Z.of_nat r; Z.of_nat m]
  end%Z.
Lemma zcmp_nat x y : Z.compare (Z.of_nat x) (Z.of_nat y) = Nat.compare x y.
Proof. now rewrite Nat2Z.inj_compare. Qed.
Lemma zcmp_opp x y : Z.compare (- Z.of_nat x) (- Z.of_nat y) = Nat.compare y x.
Proof. rewrite <- zcmp_nat. apply Z.compare_opp. Qed.
Lemma bt_cmp_key {W} (a b : bt W) : bt_cmp a b = lexcmp (bt_key a) (bt_key b).
Proof.
  destruct a, b; cbn [bt_cmp bt_key lexcmp then_cmp Z.compare Pos.compare Pos.compare_cont]; try reflexivity; cbn [then_cmp]; rewrite ?zcmp_nat, ?zcmp_opp;
  repeat match goal with |- context [Nat.compare ?x ?y] => destruct (Nat.compare x y); cbn [then_cmp]; try reflexivity end.
Qed.
Lemma bt_eqb_key {W} (a b : bt W) : bt_eqb a b = true <-> bt_key a = bt_key b.
Proof.
  destruct a, b; cbn [bt_eqb bt_key]; rewrite ?andb_true_iff, ?Nat.eqb_eq; try (split; [discriminate|intros [=]; fail]); try (split; [discriminate|]; intros E; discriminate E).
  - split; [intros (((-> & ->) & ->) & ->); reflexivity|]. intros [= A B C D]. lia.
  - split; [intros (-> & ->); reflexivity|]. intros [= A B]. lia.
  - split; [intros ->; reflexivity|]. intros [= A]. lia.
Qed.
Lemma bt_eqb_refl {W} (a : bt W) : bt_eqb a a = true.
Proof. now apply bt_eqb_key. Qed.
Lemma bt_cmp_succ {W} (a b : bt W) : In b (bt_succ a) -> bt_cmp a b = Gt.
Proof.
  rewrite bt_cmp_key. destruct a as [r q1 m q2 w i1 i2|r q1 w i|r w]; cbn [bt_succ]; intros HI.
  - destruct HI as [<-|[<-|[]]]; cbn [bt_key lexcmp].
    + rewrite !Z.compare_refl. cbn [then_cmp]. destruct (Z.compare_spec (- Z.of_nat i2) (- Z.of_nat (i2 + 1))); try lia. reflexivity.
    + rewrite !Z.compare_refl. cbn [then_cmp]. destruct (Z.compare_spec (- Z.of_nat i1) (- Z.of_nat (i1 + 1))); try lia. reflexivity.
  - destruct HI as [<-|[]]; cbn [bt_key lexcmp]. rewrite !Z.compare_refl. cbn [then_cmp]. destruct (Z.compare_spec (- Z.of_nat i) (- Z.of_nat (i + 1))); try lia. reflexivity.
  - destruct HI.
Qed.

Section Cmp.
  Context {K : ZWeight} (KL : ZWeightLaws K).
  Notation item := (bt K * K)%type.
  Definition kcmp (x y : item) : comparison := kb_cmp (snd x, fst x) (snd y, fst y).
  Lemma weqb_refl (w : K) : weqb w w = true. Proof. now apply (zl_eqb _ KL). Qed.
  Lemma weqb_false (w v : K) : weqb w v = false <-> w <> v.
  Proof. rewrite <- not_true_iff_false, (zl_eqb _ KL w v). tauto. Qed.
  Lemma kcmp_gt x y : kcmp x y = Gt <-> (wleb (snd y) (snd x) = true /\ snd x <> snd y) \/ (snd x = snd y /\ bt_cmp (fst x) (fst y) = Gt).
  Proof.
    unfold kcmp, kb_cmp. cbn [fst snd]. destruct (weqb (snd x) (snd y)) eqn:E.
    - apply (zl_eqb _ KL) in E. split; [tauto|]. intros [[_ C]|[_ C]]; [contradiction|assumption].
    - apply weqb_false in E. destruct (wleb (snd x) (snd y)) eqn:L.
      + split; [discriminate|]. intros [[C _]|[C _]]; [|contradiction]. elim E. apply (wl_anti _ (zl_weight _ KL)); assumption.
      + split; [|reflexivity]. intros _. left. split; [|assumption]. destruct (w_total KL (snd x) (snd y)); congruence.
  Qed.
  Lemma kcmp_eq x y : kcmp x y = Eq <-> snd x = snd y /\ bt_eqb (fst x) (fst y) = true.
  Proof.
    unfold kcmp, kb_cmp. cbn [fst snd]. destruct (weqb (snd x) (snd y)) eqn:E.
    - apply (zl_eqb _ KL) in E. rewrite bt_eqb_key, bt_cmp_key, lex_eq. tauto.
    - apply weqb_false in E. destruct (wleb (snd x) (snd y)); split; try discriminate; tauto.
  Qed.
  Lemma kcmp_anti x y : kcmp y x = CompOpp (kcmp x y).
  Proof.
    destruct (kcmp x y) eqn:E; cbn.
    - apply kcmp_eq in E. apply kcmp_eq. rewrite bt_eqb_key in *. destruct E. split; congruence.
    - apply kcmp_gt. unfold kcmp, kb_cmp in E. cbn [fst snd] in E. destruct (weqb (snd x) (snd y)) eqn:W.
      + apply (zl_eqb _ KL) in W. right. split; [congruence|]. rewrite bt_cmp_key in *. rewrite lex_anti, E. reflexivity.
      + apply weqb_false in W. destruct (wleb (snd x) (snd y)) eqn:L; [|discriminate]. left. split; congruence.
    - apply kcmp_gt in E. unfold kcmp, kb_cmp. cbn [fst snd]. destruct E as [[L W]|[W L]].
      + destruct (weqb (snd y) (snd x)) eqn:W'; [apply (zl_eqb _ KL) in W'; congruence|]. now rewrite L.
      + rewrite W, weqb_refl. rewrite bt_cmp_key in *. rewrite lex_anti, L. reflexivity.
  Qed.
  Definition gt (x y : item) : Prop := kcmp x y = Gt.
  Lemma gt_trans x y z : gt x y -> gt y z -> gt x z.
  Proof.
    unfold gt. rewrite !kcmp_gt. intros [[A B]|[A B]] [[C D]|[C D]].
    - left. split; [eapply (w_trans KL); eassumption|]. intros E. apply B. apply (wl_anti _ (zl_weight _ KL)); [|assumption]. rewrite E. assumption.
    - left. split; congruence.
    - left. split; congruence.
    - right. split; [congruence|]. rewrite bt_cmp_key in *. eapply lex_trans; eassumption.
  Qed.
  Lemma gt_irrefl x : ~ gt x x.
  Proof. unfold gt. intros E. assert (kcmp x x = Eq) by (apply kcmp_eq; split; [reflexivity|apply bt_eqb_refl]). congruence. Qed.
  Lemma gt_w x y : gt x y -> wleb (snd y) (snd x) = true.
  Proof. unfold gt. rewrite kcmp_gt. intros [[L _]|[E _]]; [assumption|]. rewrite E. apply (w_refl KL). Qed.
  Lemma kb_leb_TO : TotalOrder (@kb_leb K).
  Proof.
    assert (LE : forall x y, kb_leb (snd x, fst x) (snd y, fst y) = true <-> ~ gt x y). { intros x y. unfold kb_leb, gt, kcmp. destruct (kb_cmp _ _); split; try congruence; intros C; elim C; reflexivity. }
    split.
    - intros [w x] [w' y]. change (kb_leb (snd (x, w), fst (x, w)) (snd (y, w'), fst (y, w')) = true \/ kb_leb (snd (y, w'), fst (y, w')) (snd (x, w), fst (x, w)) = true). rewrite !LE.
      destruct (kcmp (x, w) (y, w')) eqn:E; unfold gt; rewrite (kcmp_anti (x, w) (y, w')), E; cbn; [left|left|right]; discriminate.
    - intros [wx x] [wy y] [wz z]. change (kb_leb (snd (x, wx), fst (x, wx)) (snd (y, wy), fst (y, wy)) = true -> kb_leb (snd (y, wy), fst (y, wy)) (snd (z, wz), fst (z, wz)) = true -> kb_leb (snd (x, wx), fst (x, wx)) (snd (z, wz), fst (z, wz)) = true).
      rewrite !LE. intros A B C. destruct (kcmp (y, wy) (z, wz)) eqn:E.
      + apply kcmp_eq in E. destruct E as [E1 E2]. cbn in E1, E2. apply A. unfold gt in *. rewrite kcmp_gt in *. cbn [fst snd] in *. rewrite bt_eqb_key in E2. rewrite !bt_cmp_key in *. rewrite E1, E2. exact C.
      + apply A. apply (gt_trans _ (z, wz)); [exact C|]. unfold gt. rewrite kcmp_anti, E. reflexivity.
      + apply B. exact E.
  Qed.

  (* ---- strictly descending lists ---- *)
  Fixpoint kins (x : item) (l : list item) : list item :=
    match l with
    | [] => [x]
    | y :: l' => match kcmp x y with Gt => x :: l | Eq => l | Lt => y :: kins x l' end
    end.
  Definition ksort (l : list item) : list item := fold_right kins [] l.
  Definition desc := StronglySorted gt.
  Lemma kins_In x l z : In z (kins x l) -> z = x \/ In z l.
  Proof. induction l as [|y l IH]; cbn; [intros [<-|[]]; auto|]. destruct (kcmp x y); cbn; [intros [<-|?]; auto|intros [<-|H]; [auto|apply IH in H; tauto]|intros [<-|[<-|?]]; auto]. Qed.
  Lemma kins_desc x l : desc l -> desc (kins x l).
  Proof.
    induction l as [|y l IH]; cbn; intros D; [repeat constructor|]. inversion D as [|? ? D1 D2]; subst. destruct (kcmp x y) eqn:E.
    - exact D.
    - constructor; [apply IH; assumption|]. apply Forall_forall. intros z Hz. apply kins_In in Hz. destruct Hz as [->|Hz]; [unfold gt; rewrite kcmp_anti, E; reflexivity|]. rewrite Forall_forall in D2. apply D2. exact Hz.
    - constructor; [exact D|]. constructor; [exact E|]. rewrite Forall_forall in *. intros z Hz. eapply gt_trans; [exact E|]. apply D2. exact Hz.
  Qed.
  Lemma ksort_desc l : desc (ksort l).
  Proof. induction l as [|x l IH]; cbn; [constructor|]. apply kins_desc. exact IH. Qed.
  Lemma ksort_In l x : In x (ksort l) -> In x l.
  Proof. induction l as [|y l IH]; cbn; [tauto|]. intros H. apply kins_In in H. destruct H as [->|H]; auto. Qed.
  (* nothing is lost if equal keys stand for equal items *)
  Lemma kins_keeps x l z : (forall y, In y l -> kcmp x y = Eq -> x = y) -> z = x \/ In z l -> In z (kins x l).
  Proof.
    induction l as [|y l IH]; cbn; intros HE H; [destruct H as [->|[]]; auto|]. destruct (kcmp x y) eqn:E.
    - rewrite (HE y (or_introl eq_refl) E) in H. cbn. destruct H as [->|H]; auto.
    - destruct H as [->|[->|H]]; [right; apply IH; [intros; apply HE; auto|auto]|left; reflexivity|right; apply IH; [intros; apply HE; auto|auto]].
    - destruct H as [->|H]; [left; reflexivity|right; exact H].
  Qed.
  Lemma ksort_keeps l x : (forall y z, In y l -> In z l -> kcmp y z = Eq -> y = z) -> In x l -> In x (ksort l).
  Proof.
    induction l as [|y l IH]; cbn; intros HE H; [exact H|]. apply kins_keeps.
    - intros z Hz E. apply HE; auto. right. apply ksort_In. exact Hz.
    - destruct H as [->|H]; [auto|]. right. apply IH; [intros; apply HE; auto|exact H].
  Qed.
  Lemma desc_app_gt l1 l2 x y : desc (l1 ++ l2) -> In x l1 -> In y l2 -> gt x y.
  Proof.
    induction l1 as [|z l1 IH]; cbn; intros D Hx Hy; [destruct Hx|]. inversion D as [|? ? D1 D2]; subst. destruct Hx as [->|Hx]; [|apply IH; assumption].
    rewrite Forall_forall in D2. apply D2. apply in_or_app. auto.
  Qed.
  Lemma desc_NoDup l : desc l -> NoDup l.
  Proof. induction 1 as [|x l D IH F]; constructor; [|exact IH]. intros Hin. rewrite Forall_forall in F. apply (gt_irrefl x). apply F. exact Hin. Qed.
  Lemma desc_nth l : desc l -> forall i j x y, i < j -> nth_error l i = Some x -> nth_error l j = Some y -> gt x y.
  Proof.
    intros D i j x y Hij Hi Hj. apply (desc_app_gt (firstn j l) (skipn j l)).
    - now rewrite firstn_skipn.
    - apply nth_error_In with i. rewrite <- Hi. clear - Hij. revert i j Hij. induction l as [|z l IH]; intros i j Hij; [now rewrite firstn_nil|]. destruct j; [lia|]. destruct i; [reflexivity|]. cbn. apply IH. lia.
    - rewrite <- (firstn_skipn j l) in Hj. assert (j < length (firstn j l ++ skipn j l)) by (apply nth_error_Some; congruence). rewrite nth_error_app2 in Hj by (rewrite firstn_length; lia). eapply nth_error_In. exact Hj.
  Qed.
  Lemma desc_lookup l x : desc l -> In x l -> forall m, (In x (firstn m l) /\ ~ In x (skipn m l)) \/ (In x (skipn m l) /\ ~ In x (firstn m l)).
  Proof.
    intros D Hin m. rewrite <- (firstn_skipn m l) in Hin, D. apply in_app_or in Hin.
    assert (X : In x (firstn m l) -> In x (skipn m l) -> False). { intros A B. apply (gt_irrefl x). eapply desc_app_gt; eassumption. }
    destruct Hin; [left|right]; split; auto.
  Qed.
  Lemma skipn_head l m x rest : desc l -> skipn m l = x :: rest -> In x l /\ nth_error l m = Some x /\ skipn (S m) l = rest /\ firstn (S m) l = firstn m l ++ [x] /\
    (forall y, In y l -> gt y x -> In y (firstn m l)) /\ (forall y, In y (skipn m l) -> y = x \/ gt x y).
  Proof.
    intros D E. assert (F : forall (l : list item) m, skipn m l = x :: rest -> nth_error l m = Some x /\ skipn (S m) l = rest /\ firstn (S m) l = firstn m l ++ [x]).
    { clear. induction l as [|y l IH]; intros m E; [rewrite skipn_nil in E; discriminate|]. destruct m; cbn in E; [injection E as -> ->; auto|]. destruct (IH m E) as (A & B & C). cbn [nth_error]. split; [exact A|]. split; [exact B|]. cbn [firstn app]. now rewrite <- C. }
    destruct (F l m E) as (A & B & C). split; [eapply nth_error_In; exact A|]. split; [exact A|]. split; [exact B|]. split; [exact C|].
    assert (G : forall y, In y (skipn m l) -> y = x \/ gt x y).
    { intros y Hy. rewrite E in Hy. destruct Hy as [->|Hy]; [auto|]. right. rewrite <- (firstn_skipn m l), E in D. apply (desc_app_gt (firstn m l ++ [x]) rest); [rewrite <- app_assoc; exact D|apply in_or_app; cbn; auto|exact Hy]. }
    split; [|exact G]. intros y Hy Hg. destruct (desc_lookup l y D Hy m) as [[? _]|[H _]]; [assumption|]. destruct (G y H) as [->|H']; elim (gt_irrefl x); [assumption|]. eapply gt_trans; eassumption.
  Qed.
End Cmp.

(* ---- the heap of candidates as a set ---- *)
Lemma memb_key {W} (b : bt W) l : memb bt_eqb b l = true <-> exists y, In y l /\ bt_eqb b y = true.
Proof. unfold memb. rewrite existsb_exists. reflexivity. Qed.
Lemma bt_eqb_sym {W} (a b : bt W) : bt_eqb a b = true -> bt_eqb b a = true.
Proof. rewrite !bt_eqb_key. congruence. Qed.
Lemma bt_eqb_trans {W} (a b c : bt W) : bt_eqb a b = true -> bt_eqb b c = true -> bt_eqb a c = true.
Proof. rewrite !bt_eqb_key. congruence. Qed.

Section HSet.
  Context {K : ZWeight} (KL : ZWeightLaws K) (H : max_heap (K * bt K) (@kb_leb K)).
  Notation item := (bt K * K)%type.
  Definition swapi (x : item) : K * bt K := (snd x, fst x).
  Record hset (h : unique_heap H) (P : item -> Prop) : Prop := {
    hs_nodup : NoDup (mh_content H (uh_heap H h));
    hs_in : forall x, In (swapi x) (mh_content H (uh_heap H h)) <-> P x;
    hs_cur : forall b, memb bt_eqb b (uh_current H h) = true <-> exists x, P x /\ bt_eqb b (fst x) = true
  }.
  Lemma hset_ext h P Q : (forall x, P x <-> Q x) -> hset h P -> hset h Q.
  Proof. intros E [A B C]. split; [exact A|intros x; rewrite B; apply E|]. intros b. rewrite C. split; intros (x & HP & Hb); exists x; split; auto; now apply E. Qed.
  Lemma hset_default : hset (uh_default H) (fun _ => False).
  Proof. split; cbn; rewrite ?(mh_empty_c H); cbn; [constructor|tauto|]. intros b. split; [discriminate|intros (x & [] & _)]. Qed.
  Context (V : item -> Prop) (INJ : forall x y, V x -> V y -> bt_eqb (fst x) (fst y) = true -> x = y).
  Lemma hset_push h P x : hset h P -> (forall y, P y -> V y) -> V x -> hset (snd (uh_push bt_eqb H (fst x) (snd x) h)) (fun y => P y \/ y = x).
  Proof.
    intros [A B C] HP Hx. unfold uh_push, uh_insert. destruct (memb bt_eqb (fst x) (uh_current H h)) eqn:M; cbn [snd uh_heap uh_current].
    - apply C in M. destruct M as (y & Py & E). apply INJ in E; auto. subst y. split; cbn [uh_heap uh_current].
      + exact A.
      + intros y. rewrite B. split; [auto|]. intros [?| ->]; assumption.
      + intros b. rewrite C. split; intros (y & Hy & E); exists y; split; auto. destruct Hy as [?| ->]; assumption.
    - assert (NP : ~ P x). { intros Px. rewrite (proj2 (C (fst x))) in M; [discriminate|]. exists x. split; [assumption|apply bt_eqb_refl]. }
      split; cbn [uh_heap uh_current].
      + eapply Permutation_NoDup; [symmetry; apply (mh_push_c H)|]. constructor; [|exact A]. intros Hin. apply NP. apply B. exact Hin.
      + intros y. transitivity (In (swapi y) ((snd x, fst x) :: mh_content H (uh_heap H h))); [split; apply Permutation_in; [|symmetry]; apply (mh_push_c H)|]. cbn. rewrite B.
        split; [intros [E|?]; [right; unfold swapi in E; destruct x, y; cbn in E; congruence|auto]|]. intros [?| ->]; [auto|left; reflexivity].
      + intros b. cbn [memb existsb]. change (existsb (bt_eqb b) (uh_current H h)) with (memb bt_eqb b (uh_current H h)). rewrite orb_true_iff, C. split.
        * intros [E|(y & Py & E)]; [exists x; auto|exists y; auto].
        * intros (y & [Py| ->] & E); [right; exists y; auto|left; exact E].
  Qed.
  Lemma hset_pop h P : hset h P -> (forall y, P y -> V y) ->
    match uh_pop bt_eqb H h with
    | None => forall x, ~ P x
    | Some (x, h') => P x /\ (forall y, P y -> y = x \/ gt x y) /\ hset h' (fun y => P y /\ y <> x)
    end.
  Proof.
    intros [A B C] HP. unfold uh_pop. destruct (mh_pop H (uh_heap H h)) as [[[w b] h']|] eqn:E.
    - apply (mh_pop_some H) in E. destruct E as [PM MX]. set (x := (b, w)). assert (Px : P x) by (apply B; apply (Permutation_in _ (Permutation_sym PM)); left; reflexivity).
      split; [exact Px|]. split.
      + intros y Py. pose proof Py as Py'. apply B, MX in Py. unfold kb_leb in Py. change (match kcmp y x with Gt => false | _ => true end = true) in Py. destruct (kcmp y x) eqn:E; [|right; unfold gt; rewrite (kcmp_anti KL), E; reflexivity|discriminate].
        left. apply (kcmp_eq KL) in E. apply INJ; [apply HP; assumption|apply HP; assumption|tauto].
      + pose proof (Permutation_NoDup PM A) as ND. inversion ND as [|? ? N1 N2]; subst. split; cbn [uh_heap uh_current].
        * exact N2.
        * intros y. rewrite <- B. split.
          -- intros Hy. split; [apply (Permutation_in _ (Permutation_sym PM)); right; exact Hy|]. intros ->. apply N1. exact Hy.
          -- intros [Hy Ne]. apply (Permutation_in _ PM) in Hy. destruct Hy as [Hy|Hy]; [|exact Hy]. elim Ne. destruct y. unfold x, swapi in *. cbn in Hy. congruence.
        * intros b'. rewrite memb_key. split.
          -- intros (y & Hy & E). unfold uh_remove in Hy. apply filter_In in Hy. destruct Hy as [Hy Ne]. assert (M : memb bt_eqb b' (uh_current H h) = true) by (apply memb_key; exists y; auto). apply C in M. destruct M as (z & Pz & Ez).
             exists z. split; [|exact Ez]. split; [exact Pz|]. intros ->. cbn in Ez. assert (bt_eqb b y = true) as E3 by (eapply bt_eqb_trans; [apply bt_eqb_sym; exact Ez|exact E]). rewrite E3 in Ne. discriminate.
          -- intros (z & [Pz Ne] & Ez). assert (M : memb bt_eqb b' (uh_current H h) = true) by (apply C; exists z; auto). apply memb_key in M. destruct M as (y & Hy & E). exists y. split; [|exact E]. apply filter_In. split; [exact Hy|].
             destruct (bt_eqb b y) eqn:E3; [|reflexivity]. elim Ne. apply INJ; auto. cbn. eapply bt_eqb_trans; [|apply bt_eqb_sym; exact E3]. eapply bt_eqb_trans; [apply bt_eqb_sym; exact Ez|exact E].
    - intros x Px. apply (mh_pop_none H) in E. apply B in Px. rewrite E in Px. destruct Px.
  Qed.
  Lemma hset_empty h P : hset h P -> (uh_is_empty H h = true <-> forall x, ~ P x).
  Proof.
    intros [A B C]. unfold uh_is_empty. rewrite Nat.eqb_eq, (mh_len_c H). split.
    - intros E x Px. apply B in Px. destruct (mh_content H (uh_heap H h)); [destruct Px|discriminate].
    - intros E. destruct (mh_content H (uh_heap H h)) as [|[w b] l] eqn:EC; [reflexivity|]. elim (E (b, w)). apply B. left. reflexivity.
  Qed.
  Lemma hset_pushes l : forall h P, hset h P -> (forall y, P y -> V y) -> (forall x, In x l -> V x) ->
    hset (fold_left (fun h p => snd (uh_push bt_eqb H (fst p) (snd p) h)) l h) (fun y => P y \/ In y l).
  Proof.
    induction l as [|x l IH]; intros h P HH HP HV; cbn [fold_left].
    - eapply hset_ext; [|exact HH]. cbn. tauto.
    - eapply hset_ext; [|apply IH; [apply hset_push; [exact HH|exact HP|apply HV; left; reflexivity]| |intros; apply HV; right; assumption]].
      + cbn. intros y. split; [intros [[?| ->]|?]; auto|intros [?|[<-|?]]; auto].
      + cbn. intros y [?| ->]; [auto|apply HV; left; reflexivity].
  Qed.
End HSet.

Lemma fold_p_inv {X St} (f : St -> X -> option St) (P : list X -> St -> Prop) l : forall s done,
  P done s -> (forall x s done, In x l -> P done s -> exists s', f s x = Some s' /\ P (done ++ [x]) s') -> exists s', fold_p f l s = Some s' /\ P (done ++ l) s'.
Proof.
  induction l as [|x l IH]; intros s done HP HS; cbn.
  - exists s. rewrite app_nil_r. auto.
  - destruct (HS x s done (or_introl eq_refl) HP) as (s1 & -> & P1). destruct (IH s1 (done ++ [x]) P1) as (s2 & E & P2); [intros; apply HS; [right; assumption|assumption]|]. exists s2. rewrite <- app_assoc in P2. auto.
Qed.

Lemma indexed_In {X} (l : list X) k x : In (k, x) (combine (seq 0 (length l)) l) <-> nth_error l k = Some x.
Proof.
  assert (G : forall (l : list X) b k, In (k, x) (combine (seq b (length l)) l) <-> b <= k /\ nth_error l (k - b) = Some x).
  { clear. induction l as [|y l IH]; intros b k; cbn [length seq combine].
    - split; [intros []|]. intros [_ C]. destruct (k - b); discriminate.
    - cbn [In]. rewrite IH. split.
      + intros [[= -> ->]|[L E]]; [split; [lia|]; now rewrite Nat.sub_diag|]. split; [lia|]. replace (k - b) with (S (k - S b)) by lia. exact E.
      + intros [L E]. destruct (Nat.eq_dec b k) as [->|Ne]; [left; rewrite Nat.sub_diag in E; cbn in E; congruence|]. right. split; [lia|]. replace (k - b) with (S (k - S b)) in E by lia. exact E. }
  rewrite G, Nat.sub_0_r. split; [tauto|]. intros; split; [lia|assumption].
Qed.

Section KB.
  Context {T : Type} {K : ZWeight} (KL : ZWeightLaws K) (H : max_heap (K * bt K) (@kb_leb K)) (teqb : T -> T -> bool).
  Context (a : automaton T K) (R : list (crule nat T K)) (PZ : presents teqb a R (states a)).
  Context (c : chart K) (n : nat) (rule_filter : list bool) (gw : nat -> nat -> nat -> option K) (rank : nat -> nat) (RK : nat).
  Context (HF : length R <= length rule_filter) (RKB : forall q, rank q <= RK)
          (RANK : forall r q q1 w b, nth_error R r = Some (CRule q (RU q1) w b) -> nth_error rule_filter r = Some true -> rank q1 < rank q)
          (GW : forall i j q, span n i j -> q < states a -> get_weight c i j q = Some (gw i j q)).
  Notation item := (bt K * K)%type. Notation ns := (states a).
  Definition mu (v : knode) : nat := let '(i, j, q) := v in (j - i) * S RK + rank q.
  Definition good (v : knode) : Prop := let '(i, j, q) := v in span n i j /\ q < ns.
  Definition enabled (r : nat) (x : crule nat T K) : Prop := nth_error rule_filter r = Some true /\ nth_error R r = Some x.

  (* the candidates of a node over given lists for its children *)
  Inductive vitem (F : knode -> list item) : knode -> item -> Prop :=
  | vi_bin i j q r q1 m q2 w b i1 i2 x1 x2 g1 g2 : enabled r (CRule q (RB q1 q2) w b) -> i < m < j -> gw i m q1 = Some g1 -> gw m j q2 = Some g2 ->
      nth_error (F (i, m, q1)) i1 = Some x1 -> nth_error (F (m, j, q2)) i2 = Some x2 -> vitem F (i, j, q) (BBin r q1 m q2 w i1 i2, wmul (wmul w (snd x1)) (snd x2))
  | vi_un i j q r q1 w b k x1 g1 : enabled r (CRule q (RU q1) w b) -> gw i j q1 = Some g1 ->
      nth_error (F (i, j, q1)) k = Some x1 -> vitem F (i, j, q) (BUn r q1 w k, wmul w (snd x1))
  | vi_null i j q r t w b : enabled r (CRule q (RT t) w b) -> j - i = 1 -> vitem F (i, j, q) (BNull r w, w).

  Definition gen (F : knode -> list item) (v : knode) : list item :=
    let '(i, j, q) := v in
    flat_map (fun r => match nth_error rule_filter r, nth_error R r with
      | Some true, Some (CRule q' rhs w _) =>
          if Nat.eqb q' q then
            match rhs with
            | RB q1 q2 => flat_map (fun m => match gw i m q1, gw m j q2 with
                | Some _, Some _ => flat_map (fun e1 => map (fun e2 : nat * item => (BBin r q1 m q2 w (fst e1) (fst e2), wmul (wmul w (snd (snd e1))) (snd (snd e2))))
                                                       (combine (seq 0 (length (F (m, j, q2)))) (F (m, j, q2))))
                                             (combine (seq 0 (length (F (i, m, q1)))) (F (i, m, q1)) : list (nat * item))
                | _, _ => [] end) (seq (S i) (j - S i))
            | RU q1 => match gw i j q1 with
                | Some _ => map (fun e1 : nat * item => (BUn r q1 w (fst e1), wmul w (snd (snd e1)))) (combine (seq 0 (length (F (i, j, q1)))) (F (i, j, q1)))
                | None => [] end
            | RT _ => if Nat.eqb (j - i) 1 then [(BNull r w, w)] else []
            end
          else []
      | _, _ => [] end) (seq 0 (length R)).
  Lemma gen_In F v x : In x (gen F v) <-> vitem F v x.
  Proof.
    destruct v as [[i j] q]. unfold gen. rewrite in_flat_map. split.
    - intros (r & _ & Hx). destruct (nth_error rule_filter r) as [[|]|] eqn:Ef; try (destruct Hx; fail). destruct (nth_error R r) as [[q' rhs w b]|] eqn:Er; [|destruct Hx]. destruct (Nat.eqb_spec q' q) as [->|]; [|destruct Hx].
      destruct rhs as [t|q1|q1 q2].
      + destruct (Nat.eqb_spec (j - i) 1) as [Ej|]; [|destruct Hx]. destruct Hx as [<-|[]]. eapply vi_null; [split; eassumption|exact Ej].
      + destruct (gw i j q1) eqn:G; [|destruct Hx]. apply in_map_iff in Hx. destruct Hx as ([k x1] & <- & Hx). apply indexed_In in Hx. eapply vi_un; [split; eassumption|exact G|exact Hx].
      + apply in_flat_map in Hx. destruct Hx as (m & Hm & Hx). apply in_seq in Hm. destruct (gw i m q1) eqn:G1; [|destruct Hx]. destruct (gw m j q2) eqn:G2; [|destruct Hx].
        apply in_flat_map in Hx. destruct Hx as ([k1 x1] & H1 & Hx). apply in_map_iff in Hx. destruct Hx as ([k2 x2] & <- & H2). apply indexed_In in H1, H2. eapply vi_bin; [split; eassumption|lia|exact G1|exact G2|exact H1|exact H2].
    - intros HV. inversion HV as [i0 j0 q0 r q1 m q2 w b i1 i2 x1 x2 g1 g2 [Ef Er] Hm G1 G2 X1 X2|i0 j0 q0 r q1 w b k x1 g1 [Ef Er] G1 X1|i0 j0 q0 r t w b [Ef Er] Hj]; subst.
      all: exists r; split; [apply in_seq; split; [lia|]; apply nth_error_Some; congruence|]; rewrite Ef, Er, Nat.eqb_refl.
      + apply in_flat_map. exists m. split; [apply in_seq; lia|]. rewrite G1, G2. apply in_flat_map. exists (i1, x1). split; [now apply indexed_In|]. apply in_map_iff. exists (i2, x2). split; [reflexivity|now apply indexed_In].
      + rewrite G1. apply in_map_iff. exists (k, x1). split; [reflexivity|now apply indexed_In].
      + rewrite Hj, Nat.eqb_refl. left. reflexivity.
  Qed.
  Lemma mu_un i j q q1 r w b : enabled r (CRule q (RU q1) w b) -> mu (i, j, q1) < mu (i, j, q).
  Proof. intros [Ef Er]. pose proof (RANK _ _ _ _ _ Er Ef). cbn. lia. Qed.
  Lemma mu_left i m j q q1 : i < m < j -> mu (i, m, q1) < mu (i, j, q).
  Proof. intros Hm. pose proof (RKB q1). unfold mu. nia. Qed.
  Lemma mu_right i m j q q2 : i < m < j -> mu (m, j, q2) < mu (i, j, q).
  Proof. intros Hm. pose proof (RKB q2). unfold mu. nia. Qed.
  Lemma gen_ext F G v : (forall u, mu u < mu v -> F u = G u) -> gen F v = gen G v.
  Proof.
    destruct v as [[i j] q]. intros E. unfold gen. apply flat_map_ext. intros r. destruct (nth_error rule_filter r) as [[|]|] eqn:Ef; try reflexivity. destruct (nth_error R r) as [[q' rhs w b]|] eqn:Er; [|reflexivity].
    destruct (Nat.eqb_spec q' q) as [->|]; [|reflexivity]. destruct rhs as [t|q1|q1 q2]; [reflexivity| |].
    - rewrite (E (i, j, q1)); [reflexivity|]. eapply mu_un. split; eassumption.
    - rewrite !flat_map_concat_map. f_equal. apply map_ext_in. intros m Hm. apply in_seq in Hm. rewrite (E (i, m, q1)) by (apply mu_left; lia). rewrite (E (m, j, q2)) by (apply mu_right; lia). reflexivity.
  Qed.
  Fixpoint fullF (f : nat) (v : knode) : list item := match f with 0 => [] | S f => ksort (gen (fullF f) v) end.
  Definition full (v : knode) : list item := fullF (S (mu v)) v.
  Lemma fullF_enough : forall f v, mu v < f -> fullF f v = full v.
  Proof.
    induction f as [f IH] using lt_wf_ind. intros v Hv. destruct f as [|f]; [lia|]. unfold full. cbn [fullF]. f_equal. apply gen_ext. intros u Hu. rewrite (IH f) by lia. destruct (Nat.eq_dec f (mu v)) as [->|]; [symmetry; apply IH; lia|]. symmetry. apply IH; lia.
  Qed.
  Lemma full_eq v : full v = ksort (gen full v).
  Proof. unfold full at 1. cbn [fullF]. f_equal. apply gen_ext. intros u Hu. now apply fullF_enough. Qed.
  Lemma vitem_inj F v x y : vitem F v x -> vitem F v y -> bt_eqb (fst x) (fst y) = true -> x = y.
  Proof.
    intros HX HY E. inversion HX as [i0 j0 q0 r q1 m q2 w b i1 i2 x1 x2 g1 g2 [Ef Er] Hm G1 G2 X1 X2|i0 j0 q0 r q1 w b k x1 g1 [Ef Er] G1 X1|i0 j0 q0 r t w b [Ef Er] Hj]; subst;
    inversion HY as [i0' j0' q0' r' q1' m' q2' w' b' i1' i2' x1' x2' g1' g2' [Ef' Er'] Hm' G1' G2' X1' X2'|i0' j0' q0' r' q1' w' b' k' x1' g1' [Ef' Er'] G1' X1'|i0' j0' q0' r' t' w' b' [Ef' Er'] Hj']; subst; cbn [fst bt_eqb] in E; try discriminate E;
    rewrite ?andb_true_iff, ?Nat.eqb_eq in E.
    - destruct E as (((-> & ->) & ->) & ->). rewrite Er in Er'. injection Er' as <- <- <- <-. rewrite X1 in X1'. injection X1' as <-. rewrite X2 in X2'. injection X2' as <-. reflexivity.
    - destruct E as (-> & ->). rewrite Er in Er'. injection Er' as <- <- <-. rewrite X1 in X1'. injection X1' as <-. reflexivity.
    - subst r'. rewrite Er in Er'. injection Er' as <- <- <-. reflexivity.
  Qed.
  Lemma full_In v x : In x (full v) <-> vitem full v x.
  Proof.
    rewrite full_eq, <- gen_In. split; [apply ksort_In|]. intros Hx. apply ksort_keeps; [|exact Hx]. intros y z Hy Hz E. apply gen_In in Hy, Hz. eapply vitem_inj; [exact Hy|exact Hz|]. apply (kcmp_eq KL) in E. tauto.
  Qed.
  Lemma full_desc v : desc (full v).
  Proof. rewrite full_eq. apply (ksort_desc KL). Qed.
  Lemma full_inj v x y : In x (full v) -> In y (full v) -> bt_eqb (fst x) (fst y) = true -> x = y.
  Proof. rewrite !full_In. apply vitem_inj. Qed.

  (* ---- successors ---- *)
  Definition isbase {W} (b : bt W) : Prop := match b with BBin _ _ _ _ _ i1 i2 => i1 = 0 /\ i2 = 0 | BUn _ _ _ i => i = 0 | BNull _ _ => True end.
  Lemma isbase_dec {W} (b : bt W) : {isbase b} + {~ isbase b}.
  Proof. destruct b as [r q1 m q2 w i1 i2|r q1 w i|r w]; cbn; [destruct (Nat.eq_dec i1 0), (Nat.eq_dec i2 0); [left|right|right|right]; tauto|apply Nat.eq_dec|left; exact I]. Qed.
  Lemma full_w v i j x y : i <= j -> nth_error (full v) i = Some x -> nth_error (full v) j = Some y -> wleb (snd y) (snd x) = true.
  Proof.
    intros L Hi Hj. destruct (Nat.eq_dec i j) as [->|Ne]; [rewrite Hi in Hj; injection Hj as <-; apply (w_refl KL)|]. apply (gt_w KL). eapply (desc_nth (full v) (full_desc v) i j); [lia|exact Hi|exact Hj].
  Qed.
  Lemma nth_before {X} (l : list X) i j y : i <= j -> nth_error l j = Some y -> exists x, nth_error l i = Some x.
  Proof. intros L E. destruct (nth_error l i) eqn:F; [eauto|]. apply nth_error_None in F. assert (j < length l) by (apply nth_error_Some; congruence). lia. Qed.
  Lemma pred_exists v x : In x (full v) -> ~ isbase (fst x) -> exists y, In y (full v) /\ In (fst x) (bt_succ (fst y)).
  Proof.
    rewrite full_In. intros HX NB. inversion HX as [i0 j0 q0 r q1 m q2 w b i1 i2 x1 x2 g1 g2 En Hm G1 G2 X1 X2|i0 j0 q0 r q1 w b k x1 g1 En G1 X1|i0 j0 q0 r t w b En Hj]; subst; cbn [fst isbase] in NB.
    - destruct i1 as [|i1].
      + destruct i2 as [|i2]; [elim NB; auto|]. destruct (nth_before _ i2 (S i2) x2 ltac:(lia) X2) as (y2 & Y2). eexists. rewrite full_In. split; [eapply vi_bin; [exact En|exact Hm|exact G1|exact G2|exact X1|exact Y2]|]. cbn. left. f_equal. lia.
      + destruct (nth_before _ i1 (S i1) x1 ltac:(lia) X1) as (y1 & Y1). eexists. rewrite full_In. split; [eapply vi_bin; [exact En|exact Hm|exact G1|exact G2|exact Y1|exact X2]|]. cbn. right. left. f_equal. lia.
    - destruct k as [|k]; [elim NB; auto|]. destruct (nth_before _ k (S k) x1 ltac:(lia) X1) as (y1 & Y1). eexists. rewrite full_In. split; [eapply vi_un; [exact En|exact G1|exact Y1]|]. cbn. left. f_equal. lia.
    - elim NB. exact I.
  Qed.
  Lemma succ_gt v x y : In y (full v) -> In x (full v) -> In (fst x) (bt_succ (fst y)) -> gt y x.
  Proof.
    intros HY HX HS. assert (L : wleb (snd x) (snd y) = true).
    { apply full_In in HY, HX. inversion HY as [i0 j0 q0 r q1 m q2 w b i1 i2 x1 x2 g1 g2 [Ef Er] Hm G1 G2 X1 X2|i0 j0 q0 r q1 w b k x1 g1 [Ef Er] G1 X1|i0 j0 q0 r t w b [Ef Er] Hj]; subst; cbn [fst bt_succ] in HS.
      - inversion HX as [i0' j0' q0' r' q1' m' q2' w' b' i1' i2' x1' x2' g1' g2' [Ef' Er'] Hm' G1' G2' X1' X2'|i0' j0' q0' r' q1' w' b' k' x1' g1' [Ef' Er'] G1' X1'|i0' j0' q0' r' t' w' b' [Ef' Er'] Hj']; subst; cbn [fst] in HS; try (destruct HS as [HS|[HS|[]]]; discriminate HS).
        destruct HS as [HS|[HS|[]]]; injection HS as <- <- <- <- <- <- <-; cbn [snd].
        + rewrite X1 in X1'. injection X1' as <-. apply (w_mono_l KL). eapply full_w; [|exact X2|exact X2']. lia.
        + rewrite X2 in X2'. injection X2' as <-. apply (w_mono2 KL); [|apply (w_refl KL)]. apply (w_mono_l KL). eapply full_w; [|exact X1|exact X1']. lia.
      - inversion HX as [i0' j0' q0' r' q1' m' q2' w' b' i1' i2' x1' x2' g1' g2' [Ef' Er'] Hm' G1' G2' X1' X2'|i0' j0' q0' r' q1' w' b' k' x1' g1' [Ef' Er'] G1' X1'|i0' j0' q0' r' t' w' b' [Ef' Er'] Hj']; subst; cbn [fst] in HS; destruct HS as [HS|[]]; try discriminate HS.
        injection HS as <- <- <- <-. cbn [snd]. apply (w_mono_l KL). eapply full_w; [|exact X1|exact X1']. lia.
      - destruct HS. }
    unfold gt. rewrite (kcmp_gt KL). destruct (weqb (snd y) (snd x)) eqn:E.
    - right. apply (zl_eqb _ KL) in E. split; [exact E|]. now apply bt_cmp_succ.
    - left. split; [exact L|]. now apply (weqb_false KL).
  Qed.

  (* ---- the chart holds the weights of the best derivations ---- *)
  Inductive bitem : knode -> bt K -> K -> Prop :=
  | bi_bin i j q r q1 m q2 w b g1 g2 : enabled r (CRule q (RB q1 q2) w b) -> i < m < j -> gw i m q1 = Some g1 -> gw m j q2 = Some g2 ->
      bitem (i, j, q) (BBin r q1 m q2 w 0 0) (wmul w (wmul g1 g2))
  | bi_un i j q r q1 w b g1 : enabled r (CRule q (RU q1) w b) -> gw i j q1 = Some g1 -> bitem (i, j, q) (BUn r q1 w 0) (wmul g1 w)
  | bi_null i j q r t w b : enabled r (CRule q (RT t) w b) -> j - i = 1 -> bitem (i, j, q) (BNull r w) w.
  Context (VIT1 : forall i j q w, span n i j -> q < ns -> gw i j q = Some w -> exists b, bitem (i, j, q) b w)
          (VIT2 : forall i j q w b w', span n i j -> q < ns -> gw i j q = Some w -> bitem (i, j, q) b w' -> wleb w' w = true).
  Lemma rule_states r q rhs w b : nth_error R r = Some (CRule q rhs w b) -> q < ns /\ match rhs with RT _ => True | RU q => q < ns | RB q1 q2 => q1 < ns /\ q2 < ns end.
  Proof. intros E. apply nth_error_In in E. exact (pz_states _ _ _ _ PZ _ E). Qed.
  Definition headed (v : knode) : Prop := let '(i, j, q) := v in forall w, gw i j q = Some w -> exists b, nth_error (full v) 0 = Some (b, w).
  Lemma span_sub i m j : span n i j -> i < m < j -> span n i m /\ span n m j.
  Proof. unfold span. lia. Qed.
  (* what is over a child that is in the chart *)
  Lemma bitem_vitem i j q b w : span n i j -> q < ns -> (forall u, good u -> mu u < mu (i, j, q) -> headed u) -> (bitem (i, j, q) b w <-> vitem full (i, j, q) (b, w) /\ isbase b).
  Proof.
    intros HS Hq HD. split.
    - intros B. inversion B as [i0 j0 q0 r q1 m q2 w0 b0 g1 g2 En Hm G1 G2|i0 j0 q0 r q1 w0 b0 g1 En G1|i0 j0 q0 r t w0 b0 En Hj]; subst; cbn [isbase].
      + pose proof En as [Ef Er]. destruct (rule_states _ _ _ _ _ Er) as (_ & S1 & S2). destruct (span_sub _ _ _ HS Hm) as [P1 P2].
        destruct (HD (i, m, q1) (conj P1 S1) (mu_left _ _ _ _ _ Hm) _ G1) as (b1 & E1). destruct (HD (m, j, q2) (conj P2 S2) (mu_right _ _ _ _ _ Hm) _ G2) as (b2 & E2).
        split; [|auto]. pose proof (vi_bin full i j q r q1 m q2 w0 b0 0 0 _ _ _ _ En Hm G1 G2 E1 E2) as V. cbn [snd] in V. rewrite <- (wl_assoc _ (zl_weight _ KL)) in V. exact V.
      + pose proof En as [Ef Er]. destruct (rule_states _ _ _ _ _ Er) as (_ & S1). destruct (HD (i, j, q1) (conj HS S1) (mu_un _ _ _ _ _ _ _ En) _ G1) as (b1 & E1).
        split; [|auto]. pose proof (vi_un full i j q r q1 w0 b0 0 _ _ En G1 E1) as V. cbn [snd] in V. rewrite (wl_comm _ (zl_weight _ KL) w0) in V. exact V.
      + split; [|exact I]. eapply vi_null; eassumption.
    - intros [V B]. inversion V as [i0 j0 q0 r q1 m q2 w0 b0 i1 i2 x1 x2 g1 g2 En Hm G1 G2 X1 X2|i0 j0 q0 r q1 w0 b0 k x1 g1 En G1 X1|i0 j0 q0 r t w0 b0 En Hj]; subst; cbn [isbase] in B.
      + destruct B as [-> ->]. pose proof En as [Ef Er]. destruct (rule_states _ _ _ _ _ Er) as (_ & S1 & S2). destruct (span_sub _ _ _ HS Hm) as [P1 P2].
        destruct (HD (i, m, q1) (conj P1 S1) (mu_left _ _ _ _ _ Hm) _ G1) as (b1 & E1). destruct (HD (m, j, q2) (conj P2 S2) (mu_right _ _ _ _ _ Hm) _ G2) as (b2 & E2).
        rewrite E1 in X1. rewrite E2 in X2. injection X1 as <-. injection X2 as <-. cbn [snd]. rewrite <- (wl_assoc _ (zl_weight _ KL)). eapply bi_bin; eassumption.
      + subst k. pose proof En as [Ef Er]. destruct (rule_states _ _ _ _ _ Er) as (_ & S1). destruct (HD (i, j, q1) (conj HS S1) (mu_un _ _ _ _ _ _ _ En) _ G1) as (b1 & E1). rewrite E1 in X1. injection X1 as <-. cbn [snd]. rewrite (wl_comm _ (zl_weight _ KL)). eapply bi_un; eassumption.
      + eapply bi_null; eassumption.
  Qed.
  (* every item is at most as good as the item with indices zero of the same rule and split *)
  Lemma base_above v x : In x (full v) -> exists y, In y (full v) /\ isbase (fst y) /\ wleb (snd x) (snd y) = true.
  Proof.
    remember (length (full v) - 0) as k eqn:Ek. assert (Hk : forall i, nth_error (full v) i = Some x -> exists y, In y (full v) /\ isbase (fst y) /\ wleb (snd x) (snd y) = true); [|intros Hin; apply In_nth_error in Hin; destruct Hin as (i & Hi); eapply Hk; exact Hi].
    clear k Ek. intros i. revert x. induction i as [i IH] using lt_wf_ind. intros x Hi. destruct (isbase_dec (fst x)) as [B|NB]; [exists x; split; [eapply nth_error_In; exact Hi|]; split; [exact B|apply (w_refl KL)]|].
    destruct (pred_exists v x) as (y & Hy & Hs); [eapply nth_error_In; exact Hi|exact NB|]. assert (G : gt y x) by (eapply succ_gt; [exact Hy|eapply nth_error_In; exact Hi|exact Hs]).
    apply In_nth_error in Hy. destruct Hy as (k & Hk). destruct (Nat.lt_ge_cases k i) as [L|L].
    - destruct (IH k L y Hk) as (z & Hz & Bz & Lz). exists z. split; [exact Hz|]. split; [exact Bz|]. eapply (w_trans KL); [apply (gt_w KL); exact G|exact Lz].
    - exfalso. destruct (Nat.eq_dec k i) as [->|]; [rewrite Hi in Hk; injection Hk as <-; apply (gt_irrefl KL x G)|]. apply (gt_irrefl KL x). eapply (gt_trans KL); [|exact G]. eapply (desc_nth (full v) (full_desc v) i k); [lia|exact Hi|exact Hk].
  Qed.
  Lemma all_headed : forall v, good v -> headed v.
  Proof.
    assert (G : forall k v, mu v < k -> good v -> headed v); [|intros v; apply (G (S (mu v))); lia]. induction k as [|k IH]; [lia|]. intros [[i j] q] Hk [HS Hq] w Gw.
    assert (HD : forall u, good u -> mu u < mu (i, j, q) -> headed u) by (intros u Hu Hlt; apply IH; [lia|exact Hu]).
    destruct (VIT1 _ _ _ _ HS Hq Gw) as (b & B). pose proof (proj1 (bitem_vitem _ _ _ _ _ HS Hq HD) B) as [V _]. apply full_In in V.
    destruct (full (i, j, q)) as [|[b0 w0] rest] eqn:EF; [destruct V|]. exists b0. cbn. f_equal. f_equal. apply (wl_anti _ (zl_weight _ KL)).
    - destruct (base_above (i, j, q) (b0, w0)) as ([b1 w1] & H1 & B1 & L1); [rewrite EF; left; reflexivity|]. apply full_In in H1. cbn in B1. pose proof (proj2 (bitem_vitem _ _ _ _ _ HS Hq HD) (conj H1 B1)) as B2. eapply (w_trans KL); [exact L1|]. eapply VIT2; eassumption.
    - apply In_nth_error in V. destruct V as (k' & V). rewrite <- EF in V. apply (full_w (i, j, q) 0 k' (b0, w0) (b, w)); [lia|rewrite EF; reflexivity|exact V].
  Qed.

  (* ---- backtraces ---- *)
  Notation hs := (hset H).
  Lemma table_at {X} (tab : list (list X)) q : length tab = ns -> q < ns -> nth_error tab q = Some (nth q tab []).
  Proof. intros L Hq. apply nth_error_nth'. lia. Qed.
  Lemma filter_at r x : nth_error R r = Some x -> exists b, nth_error rule_filter r = Some b.
  Proof. intros E. destruct (nth_error rule_filter r) eqn:F; [eauto|]. apply nth_error_None in F. assert (r < length R) by (apply nth_error_Some; congruence). lia. Qed.
  Lemma backtraces_spec i j q : span n i j -> q < ns -> exists h, backtraces H a c rule_filter i j q = Some h /\ hs h (fun x => In x (full (i, j, q)) /\ isbase (fst x)).
  Proof.
    intros HS Hq. set (V := fun x : item => In x (full (i, j, q))).
    assert (BV : forall b w, bitem (i, j, q) b w <-> V (b, w) /\ isbase b). { intros b w. unfold V. rewrite full_In. apply bitem_vitem; auto. intros u Hu _. now apply all_headed. }
    assert (VI : forall x y, V x -> V y -> bt_eqb (fst x) (fst y) = true -> x = y) by (intros x y; apply full_inj).
    destruct (pz_len _ _ _ _ PZ) as (_ & _ & L3 & L4 & L5). unfold backtraces. rewrite (table_at _ q L3 Hq), (table_at _ q L4 Hq), (table_at _ q L5 Hq).
    set (Pb := fun (done : list (nat * nat * nat * K)) (x : item) => exists r q1 q2 w m g1 g2, In (r, q1, q2, w) done /\ nth_error rule_filter r = Some true /\ i < m < j /\ gw i m q1 = Some g1 /\ gw m j q2 = Some g2 /\ x = (BBin r q1 m q2 w 0 0, wmul w (wmul g1 g2))).
    match goal with |- context [fold_p ?f (nth q (au_tdbin a) []) ?s] => destruct (fold_p_inv f (fun done h => hs h (Pb done) /\ (forall x, Pb done x -> V x)) (nth q (au_tdbin a) []) s []) as (h1 & E1 & S1 & V1) end.
    { split; [|intros x (? & ? & ? & ? & ? & ? & ? & [] & _)]. eapply hset_ext; [|apply hset_default]. intros x. split; [intros []|intros (? & ? & ? & ? & ? & ? & ? & [] & _)]. }
    { intros [[[r q1] q2] w] h done Hin [Sh Vh]. apply (pz_tdbin _ _ _ _ PZ) in Hin. destruct Hin as (b & Er). destruct (filter_at _ _ Er) as (on & Ef). rewrite Ef. destruct (rule_states _ _ _ _ _ Er) as (_ & Q1 & Q2). destruct on.
      - set (Pm := fun (ms : list nat) (x : item) => Pb done x \/ exists m g1 g2, In m ms /\ i < m < j /\ gw i m q1 = Some g1 /\ gw m j q2 = Some g2 /\ x = (BBin r q1 m q2 w 0 0, wmul w (wmul g1 g2))).
        match goal with |- context [fold_p ?f (seq _ _) ?s] => destruct (fold_p_inv f (fun ms h => hs h (Pm ms) /\ (forall x, Pm ms x -> V x)) (seq (S i) (j - S i)) s []) as (h2 & E2 & S2 & V2) end.
        + split; [|intros x [?|(? & ? & ? & [] & _)]; auto]. eapply hset_ext; [|exact Sh]. intros x. unfold Pm. split; [auto|]. intros [?|(? & ? & ? & [] & _)]; assumption.
        + intros m h' ms Hm [Sm Vm]. apply in_seq in Hm. assert (Hm' : i < m < j) by lia. destruct (span_sub _ _ _ HS Hm') as [P1 P2]. rewrite (GW _ _ _ P1 Q1).
          assert (SKIP : (gw i m q1 = None \/ gw m j q2 = None) -> hs h' (Pm (ms ++ [m])) /\ (forall x, Pm (ms ++ [m]) x -> V x)).
          { intros NO. assert (EQ : forall x, Pm ms x <-> Pm (ms ++ [m]) x). { intros x. unfold Pm. split; [intros [?|(m' & g1 & g2 & Hin & Rest)]; [auto|]; right; exists m', g1, g2; split; [apply in_or_app; auto|exact Rest]|]. intros [?|(m' & g1 & g2 & Hin & Hm2 & G1 & G2 & Ex)]; [auto|]. apply in_app_or in Hin. destruct Hin as [Hin|[<-|[]]]; [right; exists m', g1, g2; auto|]. destruct NO; congruence. }
            split; [eapply hset_ext; [exact EQ|exact Sm]|intros x Hx; apply Vm; now apply EQ]. }
          destruct (gw i m q1) as [g1|] eqn:G1; [|exists h'; split; [reflexivity|apply SKIP; auto]]. rewrite (GW _ _ _ P2 Q2). destruct (gw m j q2) as [g2|] eqn:G2; [|exists h'; split; [reflexivity|apply SKIP; auto]].
          set (x := (BBin r q1 m q2 w 0 0, wmul w (wmul g1 g2)) : item). assert (Vx : V x). { apply BV. eapply bi_bin; [split; eassumption|exact Hm'|exact G1|exact G2]. }
          eexists. split; [reflexivity|]. pose proof (hset_push H V VI h' (Pm ms) x Sm Vm Vx) as PS. cbn [fst snd] in PS.
          assert (EQ : forall y, (Pm ms y \/ y = x) <-> Pm (ms ++ [m]) y).
          { intros y. unfold Pm. split.
            - intros [[?|(m' & g1' & g2' & Hin & Rest)]| ->]; [auto|right; exists m', g1', g2'; split; [apply in_or_app; auto|exact Rest]|]. right. exists m, g1, g2. split; [apply in_or_app; cbn; auto|]. auto.
            - intros [?|(m' & g1' & g2' & Hin & Hm2 & G1' & G2' & Ex)]; [auto|]. apply in_app_or in Hin. destruct Hin as [Hin|[<-|[]]]; [left; right; exists m', g1', g2'; auto|]. right. rewrite G1 in G1'. rewrite G2 in G2'. injection G1' as <-. injection G2' as <-. exact Ex. }
          split; [eapply hset_ext; [exact EQ|exact PS]|]. intros y Hy. apply EQ in Hy. destruct Hy as [Hy| ->]; auto.
        + exists h2. split; [exact E2|]. rewrite app_nil_l in *. assert (EQ : forall x, Pm (seq (S i) (j - S i)) x <-> Pb (done ++ [(r, q1, q2, w)]) x).
          { intros x. unfold Pm, Pb. split.
            - intros [(r' & q1' & q2' & w' & m & g1 & g2 & Hin & Rest)|(m & g1 & g2 & Hin & Rest)]; [exists r', q1', q2', w', m, g1, g2; split; [apply in_or_app; auto|exact Rest]|]. exists r, q1, q2, w, m, g1, g2. split; [apply in_or_app; cbn; auto|]. split; [exact Ef|exact Rest].
            - intros (r' & q1' & q2' & w' & m & g1 & g2 & Hin & Hf & Hm & Rest). apply in_app_or in Hin. destruct Hin as [Hin|[[= <- <- <- <-]|[]]]; [left; exists r', q1', q2', w', m, g1, g2; auto|]. right. exists m, g1, g2. split; [apply in_seq; lia|]. auto. }
          split; [eapply hset_ext; [exact EQ|exact S2]|]. intros x Hx. apply V2. now apply EQ.
      - exists h. split; [reflexivity|]. assert (EQ : forall x, Pb done x <-> Pb (done ++ [(r, q1, q2, w)]) x).
        { intros x. unfold Pb. split.
          - intros (r' & q1' & q2' & w' & m & g1 & g2 & Hin & Rest). exists r', q1', q2', w', m, g1, g2. split; [apply in_or_app; auto|exact Rest].
          - intros (r' & q1' & q2' & w' & m & g1 & g2 & Hin & Hf & Rest). apply in_app_or in Hin. destruct Hin as [Hin|[[= <- <- <- <-]|[]]]; [exists r', q1', q2', w', m, g1, g2; auto|congruence]. }
        split; [eapply hset_ext; [exact EQ|exact Sh]|]. intros x Hx. apply Vh. now apply EQ. }
    rewrite E1. rewrite app_nil_l in *. clear E1.
    set (Pu := fun (done : list (nat * nat * K)) (x : item) => Pb (nth q (au_tdbin a) []) x \/ exists r q1 w g1, In (r, q1, w) done /\ nth_error rule_filter r = Some true /\ gw i j q1 = Some g1 /\ x = (BUn r q1 w 0, wmul g1 w)).
    match goal with |- context [fold_p ?f (nth q (au_tdun a) []) ?s] => destruct (fold_p_inv f (fun done h => hs h (Pu done) /\ (forall x, Pu done x -> V x)) (nth q (au_tdun a) []) s []) as (h2 & E2 & S2 & V2) end.
    { split; [|intros x [?|(? & ? & ? & ? & [] & _)]; auto]. eapply hset_ext; [|exact S1]. intros x. unfold Pu. split; [auto|]. intros [?|(? & ? & ? & ? & [] & _)]; assumption. }
    { intros [[r q1] w] h done Hin [Sh Vh]. apply (pz_tdun _ _ _ _ PZ) in Hin. destruct Hin as (b & Er). destruct (filter_at _ _ Er) as (on & Ef). rewrite Ef. destruct (rule_states _ _ _ _ _ Er) as (_ & Q1).
      assert (SKIP : (on = false \/ gw i j q1 = None) -> hs h (Pu (done ++ [(r, q1, w)])) /\ (forall x, Pu (done ++ [(r, q1, w)]) x -> V x)).
      { intros NO. assert (EQ : forall x, Pu done x <-> Pu (done ++ [(r, q1, w)]) x).
        { intros x. unfold Pu. split; [intros [?|(r' & q1' & w' & g1 & Hin & Rest)]; [auto|]; right; exists r', q1', w', g1; split; [apply in_or_app; auto|exact Rest]|]. intros [?|(r' & q1' & w' & g1 & Hin & Hf & G1 & Ex)]; [auto|]. apply in_app_or in Hin. destruct Hin as [Hin|[[= <- <- <-]|[]]]; [right; exists r', q1', w', g1; auto|]. destruct NO; congruence. }
        split; [eapply hset_ext; [exact EQ|exact Sh]|]. intros x Hx. apply Vh. now apply EQ. }
      destruct on; [|exists h; split; [reflexivity|apply SKIP; auto]]. rewrite (GW _ _ _ HS Q1). destruct (gw i j q1) as [g1|] eqn:G1; [|exists h; split; [reflexivity|apply SKIP; auto]].
      set (x := (BUn r q1 w 0, wmul g1 w) : item). assert (Vx : V x). { apply BV. eapply bi_un; [split; eassumption|exact G1]. }
      eexists. split; [reflexivity|]. pose proof (hset_push H V VI h (Pu done) x Sh Vh Vx) as PS. cbn [fst snd] in PS.
      assert (EQ : forall y, (Pu done y \/ y = x) <-> Pu (done ++ [(r, q1, w)]) y).
      { intros y. unfold Pu. split.
        - intros [[?|(r' & q1' & w' & g1' & Hin & Rest)]| ->]; [auto|right; exists r', q1', w', g1'; split; [apply in_or_app; auto|exact Rest]|]. right. exists r, q1, w, g1. split; [apply in_or_app; cbn; auto|]. auto.
        - intros [?|(r' & q1' & w' & g1' & Hin & Hf & G1' & Ex)]; [auto|]. apply in_app_or in Hin. destruct Hin as [Hin|[[= <- <- <-]|[]]]; [left; right; exists r', q1', w', g1'; auto|]. right. rewrite G1 in G1'. injection G1' as <-. exact Ex. }
      split; [eapply hset_ext; [exact EQ|exact PS]|]. intros y Hy. apply EQ in Hy. destruct Hy as [Hy| ->]; auto. }
    rewrite E2. rewrite app_nil_l in *. clear E2.
    assert (BIT : forall x, (Pu (nth q (au_tdun a) []) x \/ exists r w, j - i = 1 /\ In (r, w) (nth q (au_tdnull a) []) /\ nth_error rule_filter r = Some true /\ x = (BNull r w, w)) <-> In x (full (i, j, q)) /\ isbase (fst x)).
    { intros [bx wx]. change (In (bx, wx) (full (i, j, q))) with (V (bx, wx)). cbn [fst]. rewrite <- BV. split.
      - intros [[(r & q1 & q2 & w & m & g1 & g2 & Hin & Hf & Hm & G1 & G2 & [= -> ->])|(r & q1 & w & g1 & Hin & Hf & G1 & [= -> ->])]|(r & w & Hj & Hin & Hf & [= -> ->])].
        + apply (pz_tdbin _ _ _ _ PZ) in Hin. destruct Hin as (b & Er). eapply bi_bin; [split; eassumption|exact Hm|exact G1|exact G2].
        + apply (pz_tdun _ _ _ _ PZ) in Hin. destruct Hin as (b & Er). eapply bi_un; [split; eassumption|exact G1].
        + apply (pz_tdnull _ _ _ _ PZ) in Hin. destruct Hin as (t & b & Er). eapply bi_null; [split; eassumption|exact Hj].
      - intros B. inversion B as [i0 j0 q0 r q1 m q2 w0 b0 g1 g2 [Ef Er] Hm G1 G2|i0 j0 q0 r q1 w0 b0 g1 [Ef Er] G1|i0 j0 q0 r t w0 b0 [Ef Er] Hj]; subst.
        + left. left. exists r, q1, q2, w0, m, g1, g2. split; [apply (pz_tdbin _ _ _ _ PZ); eauto|]. auto.
        + left. right. exists r, q1, w0, g1. split; [apply (pz_tdun _ _ _ _ PZ); eauto|]. auto.
        + right. exists r, wx. split; [exact Hj|]. split; [apply (pz_tdnull _ _ _ _ PZ); eauto|]. auto. }
    destruct (Nat.eqb_spec (j - i) 1) as [Ej|Ej].
    - set (Pn := fun (done : list (nat * K)) (x : item) => Pu (nth q (au_tdun a) []) x \/ exists r w, j - i = 1 /\ In (r, w) done /\ nth_error rule_filter r = Some true /\ x = (BNull r w, w)).
      match goal with |- context [fold_p ?f (nth q (au_tdnull a) []) ?s] => destruct (fold_p_inv f (fun done h => hs h (Pn done) /\ (forall x, Pn done x -> V x)) (nth q (au_tdnull a) []) s []) as (h3 & E3 & S3 & V3) end.
      { split; [|intros x [?|(? & ? & _ & [] & _)]; auto]. eapply hset_ext; [|exact S2]. intros x. unfold Pn. split; [auto|]. intros [?|(? & ? & _ & [] & _)]; assumption. }
      { intros [r w] h done Hin [Sh Vh]. apply (pz_tdnull _ _ _ _ PZ) in Hin. destruct Hin as (t & b & Er). destruct (filter_at _ _ Er) as (on & Ef). rewrite Ef. destruct on.
        - set (x := (BNull r w, w) : item). assert (Vx : V x). { apply BV. eapply bi_null; [split; eassumption|exact Ej]. }
          eexists. split; [reflexivity|]. pose proof (hset_push H V VI h (Pn done) x Sh Vh Vx) as PS. cbn [fst snd] in PS.
          assert (EQ : forall y, (Pn done y \/ y = x) <-> Pn (done ++ [(r, w)]) y).
          { intros y. unfold Pn. split.
            - intros [[?|(r' & w' & Hj & Hin & Rest)]| ->]; [auto|right; exists r', w'; split; [exact Hj|]; split; [apply in_or_app; auto|exact Rest]|]. right. exists r, w. split; [exact Ej|]. split; [apply in_or_app; cbn; auto|]. auto.
            - intros [?|(r' & w' & Hj & Hin & Hf & Ex)]; [auto|]. apply in_app_or in Hin. destruct Hin as [Hin|[[= <- <-]|[]]]; [left; right; exists r', w'; auto|]. right. exact Ex. }
          split; [eapply hset_ext; [exact EQ|exact PS]|]. intros y Hy. apply EQ in Hy. destruct Hy as [Hy| ->]; auto.
        - exists h. split; [reflexivity|]. assert (EQ : forall x, Pn done x <-> Pn (done ++ [(r, w)]) x).
          { intros x. unfold Pn. split; [intros [?|(r' & w' & Hj & Hin & Rest)]; [auto|]; right; exists r', w'; split; [exact Hj|]; split; [apply in_or_app; auto|exact Rest]|].
            intros [?|(r' & w' & Hj & Hin & Hf & Ex)]; [auto|]. apply in_app_or in Hin. destruct Hin as [Hin|[[= <- <-]|[]]]; [right; exists r', w'; auto|congruence]. }
          split; [eapply hset_ext; [exact EQ|exact Sh]|]. intros x Hx. apply Vh. now apply EQ. }
      exists h3. split; [exact E3|]. rewrite app_nil_l in *. eapply hset_ext; [exact BIT|exact S3].
    - exists h2. split; [reflexivity|]. eapply hset_ext; [|exact S2]. intros x. rewrite <- BIT. split; [auto|]. intros [?|(? & ? & ? & _)]; [assumption|contradiction].
  Qed.

  (* ---- the cache ---- *)
  Notation kstate := (list (knode * (list item * unique_heap (It := bt K) H))).
  Lemma knode_eqb_eq u v : knode_eqb u v = true <-> u = v.
  Proof. destruct u as [[a1 b1] c1], v as [[a2 b2] c2]. unfold knode_eqb. cbn [fst snd]. rewrite !andb_true_iff, !Nat.eqb_eq. split; [intros ((-> & ->) & ->); reflexivity|intros [= -> -> ->]; auto]. Qed.
  Lemma kd_get_set {X} (v : knode) (x : X) d : kd_get v (kd_set v x d) = Some x.
  Proof. unfold kd_get, kd_set. cbn [find fst]. rewrite (proj2 (knode_eqb_eq v v) eq_refl). reflexivity. Qed.
  Lemma kd_get_other {X} (u v : knode) (x : X) d : u <> v -> kd_get u (kd_set v x d) = kd_get u d.
  Proof.
    intros Ne. unfold kd_get, kd_set. cbn [find fst]. destruct (knode_eqb u v) eqn:E; [apply knode_eqb_eq in E; contradiction|]. f_equal. induction d as [|[w y] d IH]; [reflexivity|]. cbn [filter fst find].
    destruct (knode_eqb v w) eqn:E1; cbn [negb find fst].
    - apply knode_eqb_eq in E1. subst w. rewrite E. exact IH.
    - destruct (knode_eqb u w); [reflexivity|exact IH].
  Qed.
  Definition cand (v : knode) (m : nat) (x : item) : Prop :=
    In x (skipn m (full v)) /\ (isbase (fst x) \/ exists y, In y (firstn (m - 1) (full v)) /\ In (fst x) (bt_succ (fst y))).
  Definition node_ok (v : knode) (derivs : list item) (h : unique_heap (It := bt K) H) : Prop :=
    exists m, m <= length (full v) /\ derivs = firstn m (full v) /\ (m = 0 -> full v = []) /\ hs h (cand v m).
  Definition inv (d : kstate) : Prop := forall v derivs h, good v -> kd_get v d = Some (derivs, h) -> node_ok v derivs h.
  Lemma inv_set v derivs h d : inv d -> (good v -> node_ok v derivs h) -> inv (kd_set v (derivs, h) d).
  Proof.
    intros I HN u du hu Hu E. destruct (knode_eqb u v) eqn:Ev.
    - apply knode_eqb_eq in Ev. subst u. rewrite kd_get_set in E. injection E as <- <-. apply HN. exact Hu.
    - assert (u <> v) by (intros ->; rewrite (proj2 (knode_eqb_eq v v) eq_refl) in Ev; discriminate). rewrite kd_get_other in E by assumption. apply (I u); assumption.
  Qed.

  (* how the weight of a successor is found *)
  Definition wspec (v : knode) (W : kstate -> bt K -> option (option K * kstate)) : Prop :=
    forall y b d, In y (full v) -> In b (bt_succ (fst y)) -> inv d ->
      exists r d', W d b = Some (r, d') /\ (forall w, r = Some w <-> In (b, w) (full v)) /\ inv d' /\ forall u, mu v <= mu u -> kd_get u d' = kd_get u d.
  Lemma worse_spec v W y : wspec v W -> In y (full v) -> forall l d, (forall b, In b l -> In b (bt_succ (fst y))) -> inv d ->
    exists ws d', worse H W l d = Some (ws, d') /\ (forall x, In x ws <-> In (fst x) l /\ In x (full v)) /\ inv d' /\ forall u, mu v <= mu u -> kd_get u d' = kd_get u d.
  Proof.
    intros HW Hy. induction l as [|b l IH]; intros d Hl I; cbn [worse].
    - exists [], d. cbn. split; [reflexivity|]. split; [tauto|]. auto.
    - destruct (HW y b d Hy (Hl b (or_introl eq_refl)) I) as (r & d1 & -> & Hr & I1 & F1). destruct (IH d1 (fun b Hb => Hl b (or_intror Hb)) I1) as (ws & d2 & -> & Hws & I2 & F2).
      eexists. exists d2. split; [reflexivity|]. split; [|split; [exact I2|intros u Hu; rewrite F2, F1 by exact Hu; reflexivity]].
      intros [bx wx]. cbn [In fst]. destruct r as [w|].
      + cbn [In]. rewrite Hws. cbn [fst]. split.
        * intros [[= <- <-]|[? ?]]; [split; [auto|]; now apply Hr|tauto].
        * intros [[->|Hb] Hx]; [|auto]. apply Hr in Hx. injection Hx as ->. auto.
      + rewrite Hws. cbn [fst]. split; [tauto|]. intros [[->|Hb] Hx]; [|auto]. apply Hr in Hx. discriminate.
  Qed.
  (* after the successors of the last derivation have been pushed the best candidate is the next derivation *)
  Definition cand' (v : knode) (m : nat) (x : item) : Prop :=
    In x (skipn m (full v)) /\ (isbase (fst x) \/ exists y, In y (firstn m (full v)) /\ In (fst x) (bt_succ (fst y))).
  Lemma cand_next v m x rest : skipn m (full v) = x :: rest -> cand' v m x /\ (forall y, cand' v m y -> y = x \/ gt x y).
  Proof.
    intros E. destruct (skipn_head KL _ _ _ _ (full_desc v) E) as (Hin & _ & _ & _ & AB & BE). split; [|intros y [Hy _]; apply BE; exact Hy]. split; [rewrite E; left; reflexivity|].
    destruct (isbase_dec (fst x)) as [B|NB]; [auto|]. right. destruct (pred_exists v x Hin NB) as (y & Hy & Hs). exists y. split; [|exact Hs]. apply AB; [exact Hy|]. eapply succ_gt; eassumption.
  Qed.
  Lemma skipn_In {X} (l : list X) m x : In x (skipn m l) -> In x l.
  Proof. intros Hx. rewrite <- (firstn_skipn m l). apply in_or_app. auto. Qed.
  Lemma firstn_In' {X} (l : list X) m x : In x (firstn m l) -> In x l.
  Proof. intros Hx. rewrite <- (firstn_skipn m l). apply in_or_app. auto. Qed.
  Lemma pop_next v m h x rest : hs h (cand' v m) -> skipn m (full v) = x :: rest -> exists h', uh_pop bt_eqb H h = Some (x, h') /\ hs h' (cand v (S m)).
  Proof.
    intros Sh E. destruct (cand_next v m x rest E) as (CX & MX). pose proof (hset_pop KL H (fun x => In x (full v)) (full_inj v) h _ Sh) as PP.
    assert (SUB : forall y, cand' v m y -> In y (full v)) by (intros y [Hy _]; eapply skipn_In; exact Hy). specialize (PP SUB).
    destruct (uh_pop bt_eqb H h) as [[z h']|]; [|elim (PP x CX)]. destruct PP as (CZ & MZ & SZ).
    assert (z = x). { destruct (MX z CZ) as [|G1]; [assumption|]. destruct (MZ x CX) as [|G2]; [auto|]. elim (gt_irrefl KL x). eapply (gt_trans KL); eassumption. } subst z.
    exists h'. split; [reflexivity|]. eapply hset_ext; [|exact SZ]. destruct (skipn_head KL _ _ _ _ (full_desc v) E) as (Hin & _ & ES & _ & AB & BE).
    intros y. unfold cand, cand'. replace (S m - 1) with m by lia. rewrite ES, E. cbn [In]. split.
    - intros [[[->|Hy] C] Ne]; [contradiction|]. auto.
    - intros [Hy C]. split; [auto|]. intros ->. pose proof (desc_NoDup KL _ (full_desc v)) as ND. rewrite <- (firstn_skipn m (full v)), E in ND. apply NoDup_remove_2 in ND. apply ND. apply in_or_app. auto.
  Qed.
  Lemma kloop_spec v W : good v -> wspec v W -> forall iters d m last h, inv d -> kd_get v d = Some (firstn m (full v), h) -> hs h (cand v m) -> 1 <= m <= length (full v) -> nth_error (full v) (m - 1) = Some last ->
    exists d' m' last' h', kloop H W v iters d last m = Some (d', last', m') /\ inv d' /\ (forall u, mu v <= mu u -> u <> v -> kd_get u d' = kd_get u d) /\
      kd_get v d' = Some (firstn m' (full v), h') /\ nth_error (full v) (m' - 1) = Some last' /\ m <= m' <= length (full v) /\ (m' = m + iters \/ (m' = length (full v) /\ m' < m + iters)).
  Proof.
    intros Hv HW. induction iters as [|iters IH]; intros d m last h I E Sh Hm EL; cbn [kloop].
    - exists d, m, last, h. split; [reflexivity|]. split; [exact I|]. split; [auto|]. split; [exact E|]. split; [exact EL|]. split; [lia|]. left. lia.
    - assert (HL : In last (full v)) by (eapply nth_error_In; exact EL). destruct (worse_spec v W last HW HL (bt_succ (fst last)) d (fun b Hb => Hb) I) as (ws & d1 & -> & Hws & I1 & F1).
      rewrite F1 by lia. rewrite E. set (h1 := fold_left (fun h p => snd (uh_push bt_eqb H (fst p) (snd p) h)) ws h).
      assert (FM : firstn m (full v) = firstn (m - 1) (full v) ++ [last]).
      { clear - EL Hm. assert (G : forall (l : list item) m, nth_error l m = Some last -> firstn (S m) l = firstn m l ++ [last]) by (clear; induction l as [|x l IH]; intros [|m] E; cbn in E |- *; try discriminate; [injection E as ->; reflexivity|]; f_equal; apply IH; exact E). rewrite <- (G _ _ EL). f_equal. lia. }
      assert (S1 : hs h1 (cand' v m)).
      { eapply hset_ext; [|apply (hset_pushes H (fun x => In x (full v)) (full_inj v) ws h _ Sh)].
        - intros x. cbn beta. rewrite Hws. unfold cand, cand'. rewrite FM. split.
          + intros [[Hs [B|(y & Hy & Hb)]]|[Hb Hx]].
            * auto.
            * split; [exact Hs|]. right. exists y. split; [apply in_or_app; auto|exact Hb].
            * split; [|right; exists last; split; [apply in_or_app; cbn; auto|exact Hb]]. pose proof (succ_gt v x last HL Hx Hb) as G. destruct (desc_lookup KL _ _ (full_desc v) Hx m) as [[Hf _]|[Hs _]]; [|exact Hs]. exfalso.
              rewrite FM in Hf. apply in_app_or in Hf. destruct Hf as [Hf|[->|[]]]; [|apply (gt_irrefl KL _ G)]. apply (gt_irrefl KL x). eapply (gt_trans KL); [|exact G]. assert (D := full_desc v). rewrite <- (firstn_skipn m (full v)), FM, <- app_assoc in D. eapply desc_app_gt; [exact D|exact Hf|cbn; auto].
          + intros [Hs [B|(y & Hy & Hb)]]; [auto|]. apply in_app_or in Hy. destruct Hy as [Hy|[->|[]]]; [left; split; [exact Hs|right; exists y; auto]|]. right. split; [exact Hb|]. eapply skipn_In. exact Hs.
        - intros y [Hy _]. eapply skipn_In. exact Hy.
        - intros x Hx. apply Hws in Hx. tauto. }
      destruct (uh_is_empty H h1) eqn:EM.
      + assert (SE : skipn m (full v) = []). { destruct (skipn m (full v)) as [|x rest] eqn:ES; [reflexivity|]. elim (proj1 (hset_empty H h1 _ S1) EM x). apply (cand_next v m x rest ES). }
        assert (ML : m = length (full v)). { pose proof (skipn_length m (full v)) as L. rewrite SE in L. cbn [length] in L. lia. }
        exists (kd_set v (firstn m (full v), h1) d1), m, last, h1. split; [reflexivity|]. split.
        { apply inv_set; [exact I1|]. intros _. exists m. split; [lia|]. split; [reflexivity|]. split; [lia|]. eapply hset_ext; [|exact S1]. intros x. unfold cand, cand'. rewrite SE. cbn. tauto. }
        split; [intros u Hu Ne; rewrite kd_get_other by exact Ne; apply F1; exact Hu|]. split; [apply kd_get_set|]. split; [exact EL|]. split; [lia|]. right. lia.
      + destruct (skipn m (full v)) as [|x rest] eqn:ES.
        { rewrite (proj2 (hset_empty H h1 _ S1)) in EM; [discriminate|]. intros x [Hx _]. rewrite ES in Hx. destruct Hx. }
        destruct (pop_next v m h1 x rest S1 ES) as (h2 & -> & S2). destruct (skipn_head KL _ _ _ _ (full_desc v) ES) as (Hin & NX & _ & FX & _ & _). rewrite <- FX.
        assert (LX : m < length (full v)) by (apply nth_error_Some; congruence).
        destruct (IH (kd_set v (firstn (S m) (full v), h2) d1) (S m) x h2) as (d' & m' & last' & h' & EK & I' & F' & G' & L' & B' & C').
        * apply inv_set; [exact I1|]. intros _. exists (S m). split; [lia|]. split; [reflexivity|]. split; [lia|]. exact S2.
        * apply kd_get_set.
        * exact S2.
        * lia.
        * replace (S m - 1) with m by lia. exact NX.
        * exists d', m', last', h'. split; [exact EK|]. split; [exact I'|]. split; [intros u Hu Ne; rewrite F' by assumption; rewrite kd_get_other by exact Ne; apply F1; exact Hu|]. split; [exact G'|]. split; [exact L'|]. split; [lia|]. lia.
  Qed.

  Lemma last_opt_firstn (l : list item) m : 1 <= m <= length l -> last_opt (firstn m l) = nth_error l (m - 1).
  Proof.
    intros Hm. assert (G : forall (l : list item) x k, k < length (x :: l) -> Some (List.last (firstn k l) x) = nth_error (x :: l) k).
    { clear. induction l as [|y l IH]; intros x k Hk; cbn in Hk; [destruct k; [reflexivity|lia]|]. destruct k as [|k]; [reflexivity|]. cbn [firstn nth_error]. rewrite <- (IH y k) by (cbn; lia). f_equal. clear. revert x y. induction (firstn k l) as [|z l' IH']; intros x y; [reflexivity|]. cbn [List.last]. destruct l'; [reflexivity|]. apply (IH' x y). }
    destruct l as [|x l]; [cbn in Hm; lia|]. destruct m as [|m]; [lia|]. cbn [firstn last_opt]. rewrite (G l x m) by lia. f_equal. lia.
  Qed.
  Lemma kth_spec : forall fuel v k d, let '(i, j, q) := v in good v -> mu v < fuel -> inv d ->
    exists d', kth H a c rule_filter fuel d i j q k = Some (nth_error (full v) k, d') /\ inv d' /\ forall u, mu v < mu u -> kd_get u d' = kd_get u d.
  Proof.
    induction fuel as [|fuel IH]; intros [[i j] q] k d Hv Hf I; [lia|]. cbn [kth].
    match goal with |- context [kloop H ?W _ _ _ _ _] => set (weight := W) end.
    assert (HW : wspec (i, j, q) weight).
    { intros y b d0 Hy Hb I0. apply full_In in Hy. inversion Hy as [i0 j0 q0 r q1 m q2 w b0 i1 i2 x1 x2 g1 g2 En Hm G1 G2 X1 X2|i0 j0 q0 r q1 w b0 k0 x1 g1 En G1 X1|i0 j0 q0 r t w b0 En Hj]; subst; cbn [fst bt_succ] in Hb.
      - pose proof En as [Ef Er]. destruct (rule_states _ _ _ _ _ Er) as (_ & S1 & S2). destruct (span_sub _ _ _ (proj1 Hv) Hm) as [P1 P2].
        assert (exists k1 k2, b = BBin r q1 m q2 w k1 k2) as (k1 & k2 & ->) by (destruct Hb as [<-|[<-|[]]]; eauto).
        unfold weight. pose proof (mu_left i m j q q1 Hm) as M1. pose proof (mu_right i m j q q2 Hm) as M2.
        destruct (IH (i, m, q1) k1 d0 (conj P1 S1) ltac:(lia) I0) as (d1 & -> & I1 & F1).
        assert (IFF : forall w', In (BBin r q1 m q2 w k1 k2, w') (full (i, j, q)) <-> exists y1 y2, nth_error (full (i, m, q1)) k1 = Some y1 /\ nth_error (full (m, j, q2)) k2 = Some y2 /\ w' = wmul (wmul w (snd y1)) (snd y2)).
        { intros w'. rewrite full_In. split; [intros V; inversion V; subst; eauto|]. intros (y1 & y2 & Y1 & Y2 & ->). eapply vi_bin; eassumption. }
        destruct (nth_error (full (i, m, q1)) k1) as [y1|] eqn:Y1.
        + destruct (IH (m, j, q2) k2 d1 (conj P2 S2) ltac:(lia) I1) as (d2 & -> & I2 & F2). eexists. exists d2. split; [reflexivity|]. split; [|split; [exact I2|intros u Hu; rewrite F2, F1 by lia; reflexivity]].
          intros w'. rewrite IFF. destruct (nth_error (full (m, j, q2)) k2) as [y2|] eqn:Y2; cbn [option_map]; split.
          * intros [= <-]. eauto.
          * intros (z1 & z2 & [= <-] & [= <-] & ->). reflexivity.
          * discriminate.
          * intros (z1 & z2 & _ & C & _). discriminate.
        + exists None, d1. split; [reflexivity|]. split; [|split; [exact I1|intros u Hu; apply F1; lia]]. intros w'. rewrite IFF. split; [discriminate|]. intros (z1 & z2 & C & _). discriminate.
      - pose proof En as [Ef Er]. destruct (rule_states _ _ _ _ _ Er) as (_ & S1). destruct Hb as [<-|[]]. unfold weight. pose proof (mu_un i j q q1 _ _ _ En) as M1.
        destruct (IH (i, j, q1) (k0 + 1) d0 (conj (proj1 Hv) S1) ltac:(lia) I0) as (d1 & -> & I1 & F1). eexists. exists d1. split; [reflexivity|]. split; [|split; [exact I1|intros u Hu; apply F1; lia]].
        intros w'. rewrite full_In. destruct (nth_error (full (i, j, q1)) (k0 + 1)) as [y1|] eqn:Y1; cbn [option_map]; split.
        + intros [= <-]. eapply vi_un; eassumption.
        + intros V. inversion V; subst. assert (y1 = x0) by congruence. subst. reflexivity.
        + discriminate.
        + intros V. inversion V; subst. congruence.
      - destruct Hb. }
    assert (FIN : forall d last m h, inv d -> kd_get (i, j, q) d = Some (firstn m (full (i, j, q)), h) -> hs h (cand (i, j, q) m) -> 1 <= m <= length (full (i, j, q)) -> nth_error (full (i, j, q)) (m - 1) = Some last ->
      exists d', (let? (d, last, vec_len) := kloop H weight (i, j, q) (S k - m) d last m in
          match Nat.compare vec_len (S k) with
          | Eq => Some (Some last, d)
          | Lt => Some (None, d)
          | Gt =>
              let? (derivs, _) := kd_get (i, j, q) d in
              let? x := nth_error derivs k in
              Some (Some x, d)
          end) = Some (nth_error (full (i, j, q)) k, d') /\ inv d' /\ forall u, mu (i, j, q) < mu u -> kd_get u d' = kd_get u d).
    { intros d0 last m h I0 E0 S0 Hm EL. destruct (kloop_spec (i, j, q) weight Hv HW (S k - m) d0 m last h I0 E0 S0 Hm EL) as (d' & m' & last' & h' & -> & I' & F' & G' & L' & B' & C').
      exists d'. destruct (Nat.compare_spec m' (S k)) as [E|L|L].
      - subst m'. replace (S k - 1) with k in L' by lia. rewrite L'. split; [reflexivity|]. split; [exact I'|]. intros u Hu. apply F'; [lia|]. intros ->. lia.
      - rewrite (proj2 (nth_error_None (full (i, j, q)) k)) by lia. split; [reflexivity|]. split; [exact I'|]. intros u Hu. apply F'; [lia|]. intros ->. lia.
      - rewrite G'. assert (EN : nth_error (firstn m' (full (i, j, q))) k = nth_error (full (i, j, q)) k). { clear - L. revert m' L. generalize (full (i, j, q)). intros l. revert k. induction l as [|x l IHl]; intros k m' L; [now rewrite firstn_nil|]. destruct m'; [lia|]. destruct k; [reflexivity|]. cbn. apply IHl. lia. }
        rewrite EN. destruct (nth_error (full (i, j, q)) k) as [x|] eqn:EX; [|apply nth_error_None in EX; lia]. split; [reflexivity|]. split; [exact I'|]. intros u Hu. apply F'; [lia|]. intros ->. lia. }
    destruct (kd_get (i, j, q) d) as [[derivs h]|] eqn:ED.
    - destruct (I _ _ _ Hv ED) as (m & Hm & -> & M0 & Sh). destruct m as [|m].
      + cbn [firstn last_opt]. rewrite (M0 eq_refl). exists d. split; [destruct k; reflexivity|]. auto.
      + rewrite last_opt_firstn by lia. destruct (nth_error (full (i, j, q)) (S m - 1)) as [last|] eqn:EL; [|apply nth_error_None in EL; lia]. rewrite firstn_length, Nat.min_l by exact Hm. apply (FIN d last (S m) h I ED Sh); [lia|exact EL].
    - destruct Hv as [HS Hq]. destruct (backtraces_spec i j q HS Hq) as (h & -> & Sh). assert (S0 : hs h (cand' (i, j, q) 0)). { eapply hset_ext; [|exact Sh]. intros x. unfold cand'. cbn [skipn firstn]. split; [tauto|]. intros [Hx [B|(y & [] & _)]]. auto. }
      destruct (full (i, j, q)) as [|x rest] eqn:EF.
      + pose proof (hset_pop KL H (fun x => In x (full (i, j, q))) (full_inj (i, j, q)) h _ S0) as PP. destruct (uh_pop bt_eqb H h) as [[z h']|].
        * destruct PP as ([C _] & _); [intros y [Hy _]; exact Hy|]. rewrite EF in C. destruct C.
        * exists (kd_set (i, j, q) ([], uh_default H) d). split; [destruct k; reflexivity|]. split.
          -- apply inv_set; [exact I|]. intros _. exists 0. rewrite EF. split; [cbn; lia|]. split; [reflexivity|]. split; [reflexivity|]. eapply hset_ext; [|apply hset_default]. intros x. unfold cand. rewrite EF. cbn. tauto.
          -- intros u Hu. apply kd_get_other. intros ->. lia.
      + destruct (pop_next (i, j, q) 0 h x rest S0) as (h' & -> & S1); [rewrite EF; reflexivity|].
        destruct (FIN (kd_set (i, j, q) ([x], h') d) x 1 h') as (d' & -> & I' & F').
        * apply inv_set; [exact I|]. intros _. exists 1. rewrite EF. split; [cbn; lia|]. split; [reflexivity|]. split; [discriminate|]. exact S1.
        * rewrite kd_get_set. reflexivity.
        * exact S1.
        * cbn. lia.
        * reflexivity.
        * exists d'. split; [reflexivity|]. split; [exact I'|]. intros u Hu. rewrite F' by exact Hu. apply kd_get_other. intros ->. lia.
  Qed.

  (* ---- trees ---- *)
  Context (word : list T) (root : knode).
  Definition visited (v : knode) : Prop := (let '(i, j, q) := v in gw i j q <> None) \/ v = root.
  Definition okc (r q i j : nat) : Prop := nth_error rule_filter r = Some true /\ visited (i, j, q).
  Definition is_br (b : bcontent) : Prop := is_ignore b = false.
  Context (Hword : length word = n)
          (NULLOK : forall r q t w b i, enabled r (CRule q (RT t) w b) -> span n i (S i) -> visited (i, S i, q) -> nth_error word i = Some t)
          (BR : forall r x, nth_error R r = Some x -> let '(b1, b2, b3) := cr_br x in match cr_rhs x with RB _ _ => is_br b3 | _ => is_br b1 /\ is_br b2 end).
  Inductive treeof : knode -> bt K -> ctree -> Prop :=
  | tr_null i j q r w : treeof (i, j, q) (BNull r w) (CNull r)
  | tr_un i j q r q1 w k e t : nth_error (full (i, j, q1)) k = Some e -> treeof (i, j, q1) (fst e) t -> treeof (i, j, q) (BUn r q1 w k) (CUn r t)
  | tr_bin i j q r q1 m q2 w i1 i2 e1 e2 t1 t2 : nth_error (full (i, m, q1)) i1 = Some e1 -> nth_error (full (m, j, q2)) i2 = Some e2 ->
      treeof (i, m, q1) (fst e1) t1 -> treeof (m, j, q2) (fst e2) t2 -> treeof (i, j, q) (BBin r q1 m q2 w i1 i2) (CBin r t1 t2).
  Lemma treeof_fun v b t : treeof v b t -> forall t', treeof v b t' -> t = t'.
  Proof.
    induction 1 as [i j q r w|i j q r q1 w k e t E D IH|i j q r q1 m q2 w i1 i2 e1 e2 t1 t2 E1 E2 D1 IH1 D2 IH2]; intros t' D'; inversion D'; subst.
    - reflexivity.
    - f_equal. apply IH. match goal with H1 : nth_error _ _ = Some ?e0 |- treeof _ (fst e) _ => replace e with e0 by congruence end. assumption.
    - f_equal; [apply IH1|apply IH2]; repeat match goal with H1 : nth_error ?l ?k = Some ?x, H2 : nth_error ?l ?k = Some ?y |- _ => rewrite H1 in H2; injection H2 as -> end; assumption.
  Qed.
  Lemma child_visited i j q g : gw i j q = Some g -> visited (i, j, q).
  Proof. intros E. left. congruence. Qed.
  Lemma treeof_sound v b t : treeof v b t -> forall w, good v -> visited v -> In (b, w) (full v) -> let '(i, j, q) := v in aderiv R okc word q t i j /\ ct_weight R t = w.
  Proof.
    induction 1 as [i j q r w|i j q r q1 w k e t E D IH|i j q r q1 m q2 w i1 i2 e1 e2 t1 t2 E1 E2 D1 IH1 D2 IH2]; intros wt Hv Vi Hin; apply full_In in Hin; inversion Hin as [i0 j0 q0 r0 q10 m0 q20 w0 b0 i10 i20 x1 x2 g1 g2 En Hm G1 G2 X1 X2|i0 j0 q0 r0 q10 w0 b0 k0 x1 g1 En G1 X1|i0 j0 q0 r0 t0 w0 b0 En Hj]; subst; pose proof En as [Ef Er].
    - destruct Hv as [HS Hq]. assert (j = S i) as -> by (unfold span in HS; lia). split.
      + eapply ad_null; [exact Er|eapply NULLOK; eassumption|split; assumption].
      + cbn. unfold rule_weight. rewrite Er. reflexivity.
    - rewrite E in X1. injection X1 as <-. destruct Hv as [HS Hq]. destruct (rule_states _ _ _ _ _ Er) as (_ & S1). destruct e as [be we]. destruct (IH we (conj HS S1) (child_visited _ _ _ _ G1)) as [A B]; [eapply nth_error_In; exact E|]. split.
      + eapply ad_un; [exact Er|split; assumption|exact A].
      + cbn [ct_weight snd]. unfold rule_weight at 1. rewrite Er. cbn [cr_weight]. now rewrite B.
    - rewrite E1 in X1. injection X1 as <-. rewrite E2 in X2. injection X2 as <-. destruct Hv as [HS Hq]. destruct (rule_states _ _ _ _ _ Er) as (_ & S1 & S2). destruct (span_sub _ _ _ HS Hm) as [P1 P2]. destruct e1 as [b1 w1], e2 as [b2 w2].
      destruct (IH1 w1 (conj P1 S1) (child_visited _ _ _ _ G1)) as [A1 B1]; [eapply nth_error_In; exact E1|]. destruct (IH2 w2 (conj P2 S2) (child_visited _ _ _ _ G2)) as [A2 B2]; [eapply nth_error_In; exact E2|]. split.
      + eapply ad_bin; [exact Er|split; assumption|exact A1|exact A2].
      + cbn [ct_weight snd]. unfold rule_weight at 1. rewrite Er. cbn [cr_weight]. rewrite B1, B2. apply (wl_assoc _ (zl_weight _ KL)).
  Qed.
  Lemma treeof_ex : forall k v x, mu v < k -> In x (full v) -> exists t, treeof v (fst x) t.
  Proof.
    induction k as [|k IH]; [lia|]. intros v x Hk Hin. apply full_In in Hin. inversion Hin as [i0 j0 q0 r0 q10 m0 q20 w0 b0 i10 i20 x1 x2 g1 g2 En Hm G1 G2 X1 X2|i0 j0 q0 r0 q10 w0 b0 k0 x1 g1 En G1 X1|i0 j0 q0 r0 t0 w0 b0 En Hj]; subst; cbn [fst].
    - pose proof (mu_left i0 m0 j0 q0 q10 Hm). pose proof (mu_right i0 m0 j0 q0 q20 Hm). destruct (IH (i0, m0, q10) x1) as (t1 & D1); [lia|eapply nth_error_In; exact X1|]. destruct (IH (m0, j0, q20) x2) as (t2 & D2); [lia|eapply nth_error_In; exact X2|]. eexists. eapply tr_bin; eassumption.
    - pose proof (mu_un i0 j0 _ _ _ _ _ En). destruct (IH (i0, j0, q10) x1) as (t1 & D1); [lia|eapply nth_error_In; exact X1|]. eexists. eapply tr_un; eassumption.
    - eexists. constructor.
  Qed.
  Lemma aderiv_visited q t i j : aderiv R okc word q t i j -> visited (i, j, q).
  Proof. intros D. inversion D; subst; match goal with O : okc _ _ _ _ |- _ => apply O end. Qed.
  Lemma treeof_complete q t i j : aderiv R okc word q t i j -> mu (i, j, q) <= mu root -> exists x, In x (full (i, j, q)) /\ treeof (i, j, q) (fst x) t.
  Proof.
    induction 1 as [r q t w b l Er Hl Ok|r q q1 w b t i j Er Ok D IH|r q q1 q2 w b t1 t2 i m j Er Ok D1 IH1 D2 IH2]; intros Hmu.
    - exists (BNull r w, w). split; [apply full_In; eapply vi_null; [split; [apply Ok|exact Er]|lia]|constructor].
    - pose proof (conj (proj1 Ok) Er : enabled _ _) as En. pose proof (mu_un i j q q1 _ _ _ En) as M1. destruct (IH ltac:(lia)) as (x & Hx & Dx). apply In_nth_error in Hx. destruct Hx as (k & Hk).
      destruct (aderiv_visited _ _ _ _ D) as [Vi|Vi]; [|rewrite Vi in M1; lia]. destruct (gw i j q1) as [g|] eqn:G; [|contradiction]. eexists. split; [apply full_In; eapply vi_un; [exact En|exact G|exact Hk]|]. eapply tr_un; eassumption.
    - pose proof (conj (proj1 Ok) Er : enabled _ _) as En. apply aderiv_cderiv in D1 as H1. apply aderiv_cderiv in D2 as H2. assert (Hm : i < m < j) by lia. pose proof (mu_left i m j q q1 Hm) as M1. pose proof (mu_right i m j q q2 Hm) as M2.
      destruct (IH1 ltac:(lia)) as (x1 & Hx1 & Dx1). apply In_nth_error in Hx1. destruct Hx1 as (k1 & Hk1). destruct (IH2 ltac:(lia)) as (x2 & Hx2 & Dx2). apply In_nth_error in Hx2. destruct Hx2 as (k2 & Hk2).
      destruct (aderiv_visited _ _ _ _ D1) as [V1|V1]; [|rewrite V1 in M1; lia]. destruct (aderiv_visited _ _ _ _ D2) as [V2|V2]; [|rewrite V2 in M2; lia].
      destruct (gw i m q1) as [g1|] eqn:G1; [|contradiction]. destruct (gw m j q2) as [g2|] eqn:G2; [|contradiction]. eexists. split; [apply full_In; eapply vi_bin; [exact En|exact Hm|exact G1|exact G2|exact Hk1|exact Hk2]|]. eapply tr_bin; eassumption.
  Qed.
  Fixpoint leaves (t : ctree) : nat := match t with CNull _ => 1 | CUn _ t => leaves t | CBin _ t1 t2 => leaves t1 + leaves t2 end.
  Lemma aderiv_leaves q t i j : aderiv R okc word q t i j -> j = i + leaves t.
  Proof. induction 1; cbn; lia. Qed.
  Lemma treeof_inj v b t : treeof v b t -> forall w b' w', good v -> visited v -> In (b, w) (full v) -> In (b', w') (full v) -> treeof v b' t -> (b, w) = (b', w').
  Proof.
    induction 1 as [i j q r w0|i j q r q1 w0 k e t E D IH|i j q r q1 m q2 w0 i1 i2 e1 e2 t1 t2 E1 E2 D1 IH1 D2 IH2]; intros w b' w' Hv Vi Hin Hin' D'.
    - inversion D'; subst. eapply full_inj; [exact Hin|exact Hin'|]. cbn [fst bt_eqb]. apply Nat.eqb_refl.
    - inversion D' as [|? ? ? ? q1' w0' k' e' t' E' Dt|]; subst. eapply full_inj; [exact Hin|exact Hin'|]. cbn [fst bt_eqb]. apply full_In in Hin, Hin'. inversion Hin as [|? ? ? ? ? ? ? ? ? ? [_ Er] G1 X1|]; subst. inversion Hin' as [|? ? ? ? ? ? ? ? ? ? [_ Er'] G1' X1'|]; subst. rewrite Er in Er'. injection Er' as <- <- <-.
      destruct Hv as [HS Hq]. destruct (rule_states _ _ _ _ _ Er) as (_ & S1). destruct e as [be we], e' as [be' we'].
      assert (EE : (be, we) = (be', we')) by (eapply IH; [split; eassumption|eapply child_visited; exact G1|eapply nth_error_In; exact E|eapply nth_error_In; exact E'|exact Dt]). rewrite <- EE in E'.
      assert (k = k') as ->. { pose proof (desc_NoDup KL _ (full_desc (i, j, q1))) as ND. rewrite NoDup_nth_error in ND. apply ND; [apply nth_error_Some; congruence|congruence]. }
      now rewrite !Nat.eqb_refl.
    - inversion D' as [| |? ? ? ? q1' m' q2' w0' i1' i2' e1' e2' t1' t2' E1' E2' Dt1 Dt2]; subst. eapply full_inj; [exact Hin|exact Hin'|]. cbn [fst bt_eqb]. apply full_In in Hin, Hin'.
      inversion Hin as [? ? ? ? ? ? ? ? ? ? ? ? ? ? ? [_ Er] Hm G1 G2 X1 X2| |]; subst. inversion Hin' as [? ? ? ? ? ? ? ? ? ? ? ? ? ? ? [_ Er'] Hm' G1' G2' X1' X2'| |]; subst. rewrite Er in Er'. injection Er' as <- <- <- <-.
      destruct Hv as [HS Hq]. destruct (rule_states _ _ _ _ _ Er) as (_ & S1 & S2). destruct (span_sub _ _ _ HS Hm) as [P1 P2]. destruct (span_sub _ _ _ HS Hm') as [P1' P2']. destruct e1 as [b1 w1], e2 as [b2 w2], e1' as [b1' w1'], e2' as [b2' w2'].
      assert (m = m') as <-.
      { destruct (treeof_sound _ _ _ D1 w1 (conj P1 S1) (child_visited _ _ _ _ G1) (nth_error_In _ _ E1)) as [A1 _]. destruct (treeof_sound _ _ _ Dt1 w1' (conj P1' S1) (child_visited _ _ _ _ G1') (nth_error_In _ _ E1')) as [A2 _]. apply aderiv_leaves in A1, A2. lia. }
      assert (EE1 : (b1, w1) = (b1', w1')) by (eapply IH1; [split; eassumption|eapply child_visited; exact G1|eapply nth_error_In; exact E1|eapply nth_error_In; exact E1'|exact Dt1]). rewrite <- EE1 in E1'.
      assert (EE2 : (b2, w2) = (b2', w2')) by (eapply IH2; [split; eassumption|eapply child_visited; exact G2|eapply nth_error_In; exact E2|eapply nth_error_In; exact E2'|exact Dt2]). rewrite <- EE2 in E2'.
      assert (i1 = i1') as ->. { pose proof (desc_NoDup KL _ (full_desc (i, m, q1))) as ND. rewrite NoDup_nth_error in ND. apply ND; [apply nth_error_Some; congruence|congruence]. }
      assert (i2 = i2') as ->. { pose proof (desc_NoDup KL _ (full_desc (m, j, q2))) as ND. rewrite NoDup_nth_error in ND. apply ND; [apply nth_error_Some; congruence|congruence]. }
      now rewrite !Nat.eqb_refl.
  Qed.

  (* ---- read ---- *)
  Lemma brackets_at r x : nth_error R r = Some x -> nth_error (au_brackets a) r = Some (cr_br x) /\ rule_brackets R r = cr_br x.
  Proof. intros E. rewrite (pz_br _ _ _ _ PZ). split; [now apply map_nth_error|]. unfold rule_brackets. now rewrite E. Qed.
  Lemma wrap_br b u : is_br b -> wrap b u = Open b :: u ++ [Close b].
  Proof. unfold wrap, is_br. now intros ->. Qed.
  Lemma read_spec : forall fuel v x d, let '(i, j, q) := v in good v -> mu v < fuel -> inv d -> In x (full v) ->
    exists t d', treeof v (fst x) t /\ read H a c rule_filter fuel d i j (fst x) = Some (ct_word R t, d') /\ inv d'.
  Proof.
    induction fuel as [|fuel IH]; intros [[i j] q] x d Hv Hf I Hin; [lia|]. apply full_In in Hin.
    inversion Hin as [i0 j0 q0 r q1 m q2 w0 b0 i1 i2 x1 x2 g1 g2 En Hm G1 G2 X1 X2|i0 j0 q0 r q1 w0 b0 k x1 g1 En G1 X1|i0 j0 q0 r t w0 b0 En Hj]; subst; pose proof En as [Ef Er]; destruct Hv as [HS Hq]; cbn [fst read]; destruct (brackets_at _ _ Er) as [EB1 EB2]; cbn [cr_br] in EB1, EB2; pose proof (BR _ _ Er) as BB; cbn [cr_br cr_rhs] in BB; destruct b0 as [[ob lb] rb].
    - destruct (rule_states _ _ _ _ _ Er) as (_ & S1 & S2). destruct (span_sub _ _ _ HS Hm) as [P1 P2]. pose proof (mu_left i m j q q1 Hm) as M1. pose proof (mu_right i m j q q2 Hm) as M2.
      destruct (kth_spec (S fuel) (i, m, q1) i1 d (conj P1 S1) ltac:(lia) I) as (d1 & -> & I1 & _). rewrite X1. destruct (kth_spec (S fuel) (m, j, q2) i2 d1 (conj P2 S2) ltac:(lia) I1) as (d2 & -> & I2 & _). rewrite X2, EB1.
      destruct (IH (i, m, q1) x1 d2 (conj P1 S1) ltac:(lia) I2 (nth_error_In _ _ X1)) as (t1 & d3 & D1 & -> & I3). destruct (IH (m, j, q2) x2 d3 (conj P2 S2) ltac:(lia) I3 (nth_error_In _ _ X2)) as (t2 & d4 & D2 & -> & I4).
      exists (CBin r t1 t2), d4. split; [eapply tr_bin; eassumption|]. split; [|exact I4]. cbn [ct_word]. rewrite EB2. rewrite (wrap_br rb) by exact BB. reflexivity.
    - destruct (rule_states _ _ _ _ _ Er) as (_ & S1). pose proof (mu_un i j q q1 _ _ _ En) as M1. destruct (kth_spec (S fuel) (i, j, q1) k d (conj HS S1) ltac:(lia) I) as (d1 & -> & I1 & _). rewrite X1, EB1.
      destruct (IH (i, j, q1) x1 d1 (conj HS S1) ltac:(lia) I1 (nth_error_In _ _ X1)) as (t1 & d3 & D1 & -> & I3). exists (CUn r t1), d3. split; [eapply tr_un; eassumption|]. split; [|exact I3]. cbn [ct_word]. rewrite EB2. destruct BB as [B1 B2]. rewrite (wrap_br lb), (wrap_br ob) by assumption. cbn [app]. rewrite <- app_assoc. reflexivity.
    - rewrite EB1. exists (CNull r), d. split; [constructor|]. split; [|exact I]. cbn [ct_word]. rewrite EB2. destruct BB as [B1 B2]. rewrite (wrap_br lb), (wrap_br ob) by assumption. reflexivity.
  Qed.

  (* ---- the iterator ---- *)
  Context (Hroot : root = (0, n, au_initial a)) (Hinit : au_initial a < ns) (Hn0 : 0 < n) (Hn : n <= 255) (Hcn : ch_n c = n).
  Lemma root_good : good root. Proof. rewrite Hroot. split; [unfold span; lia|exact Hinit]. Qed.
  Lemma trees_list : exists ts, Forall2 (fun e t => treeof root (fst e) t) (full root) ts.
  Proof.
    assert (G : forall l, (forall x, In x l -> In x (full root)) -> exists ts, Forall2 (fun (e : item) t => treeof root (fst e) t) l ts); [|apply G; auto]. induction l as [|x l IH]; intros Hl; [exists []; constructor|].
    destruct (IH (fun y Hy => Hl y (or_intror Hy))) as (ts & F). destruct (treeof_ex (S (mu root)) root x) as (t & D); [lia|apply Hl; left; reflexivity|]. exists (t :: ts). constructor; assumption.
  Qed.
  Lemma F2_at {X Y} (P : X -> Y -> Prop) l l' : Forall2 P l l' -> forall k, match nth_error l k, nth_error l' k with Some x, Some y => P x y | None, None => True | _, _ => False end.
  Proof. induction 1 as [|x y l l' HP F IH]; intros [|k]; cbn; auto. apply IH. Qed.
  Theorem kiter_enumerates : exists ts, NoDup ts /\ (forall t, In t ts <-> aderiv R okc word (au_initial a) t 0 n) /\
    StronglySorted (fun t t' => wleb (ct_weight R t') (ct_weight R t) = true) ts /\
    forall fuel m, mu root < fuel -> kiter_run H a c rule_filter fuel m (kiter_new H) = Some (map (nth_error (map (ct_word R) ts)) (seq 0 m)).
  Proof.
    destruct trees_list as (ts & F). exists ts. assert (VR : visited root) by (right; reflexivity). pose proof root_good as GR.
    assert (SND : forall k e t, nth_error (full root) k = Some e -> nth_error ts k = Some t -> treeof root (fst e) t /\ aderiv R okc word (au_initial a) t 0 n /\ ct_weight R t = snd e).
    { intros k e t E1 E2. pose proof (F2_at _ _ _ F k) as P. rewrite E1, E2 in P. split; [exact P|]. destruct e as [b w]. pose proof (treeof_sound root b t P w GR VR (nth_error_In _ _ E1)) as S1. clear - S1 Hroot. rewrite Hroot in S1. exact S1. }
    assert (LEN : forall k, nth_error (full root) k = None <-> nth_error ts k = None). { intros k. pose proof (F2_at _ _ _ F k) as P. destruct (nth_error (full root) k), (nth_error ts k); try tauto; split; congruence. }
    split; [|split; [|split]].
    - apply NoDup_nth_error. intros i j Hi E. destruct (nth_error ts i) as [t|] eqn:Ei; [|apply nth_error_None in Ei; lia]. destruct (nth_error (full root) i) as [[b w]|] eqn:Fi; [|apply LEN in Fi; congruence]. destruct (nth_error (full root) j) as [[b' w']|] eqn:Fj; [|apply LEN in Fj; congruence].
      destruct (SND _ _ _ Fi Ei) as (D1 & _). destruct (SND _ _ _ Fj (eq_sym E)) as (D2 & _). pose proof (treeof_inj root b t D1 w b' w' GR VR (nth_error_In _ _ Fi) (nth_error_In _ _ Fj) D2) as EQ. pose proof (desc_NoDup KL _ (full_desc root)) as ND. rewrite NoDup_nth_error in ND. apply ND; [apply nth_error_Some; congruence|congruence].
    - intros t. split.
      + intros Hin. apply In_nth_error in Hin. destruct Hin as (k & Hk). destruct (nth_error (full root) k) as [e|] eqn:Ek; [|apply LEN in Ek; congruence]. apply (SND k e t Ek Hk).
      + intros D. destruct (treeof_complete _ _ _ _ D) as (x & Hx & Dx); [rewrite Hroot; lia|]. rewrite <- Hroot in Hx, Dx. apply In_nth_error in Hx. destruct Hx as (k & Hk). destruct (nth_error ts k) as [t'|] eqn:Et; [|apply LEN in Et; congruence]. destruct (SND k x t' Hk Et) as (D' & _). rewrite (treeof_fun _ _ _ Dx _ D'). eapply nth_error_In. exact Et.
    - clear SND LEN. assert (G : forall l ts, Forall2 (fun e t => treeof root (fst e) t) l ts -> (forall e, In e l -> In e (full root)) -> desc l -> StronglySorted (fun t t' => wleb (ct_weight R t') (ct_weight R t) = true) ts); [|apply (G _ _ F); [auto|apply full_desc]].
      assert (WT : forall e t, treeof root (fst e) t -> In e (full root) -> ct_weight R t = snd e). { intros [b w] t D Hin. pose proof (treeof_sound root b t D w GR VR Hin) as S1. clear - S1. destruct root as [[i j] q]. apply S1. }
      clear F ts. intros l ts F. induction F as [|e t l ts D F IH]; intros Hl HD; [constructor|]. inversion HD as [|? ? D1 D2]; subst. constructor; [apply IH; [intros; apply Hl; right; assumption|exact D1]|].
      rewrite (WT e t D (Hl e (or_introl eq_refl))). rewrite Forall_forall in D2 |- *. intros t' Ht'. clear - F Ht' D2 WT Hl KL. induction F as [|e0 t0 l ts D0 F IH]; [destruct Ht'|]. destruct Ht' as [->|Ht']; [|apply IH; [intros e1 [<-|He]; apply Hl; cbn; auto|intros; apply D2; right; assumption|exact Ht']].
      rewrite (WT e0 t' D0) by (apply Hl; cbn; auto). apply (gt_w KL). apply D2. left. reflexivity.
    - intros fuel m Hf. assert (G : forall m k d, inv d -> kiter_run H a c rule_filter fuel m (KIter H d k) = Some (map (nth_error (map (ct_word R) ts)) (seq k m))); [|apply G; intros v ds h _ E; discriminate E].
      clear m. induction m as [|m IH]; intros k d I; [reflexivity|]. cbn [kiter_run kiter_next ki_d ki_k seq map]. unfold kiter_next. cbn [ki_d ki_k]. rewrite Hcn, u8_small by exact Hn.
      pose proof (kth_spec fuel root k d) as KS. rewrite Hroot in KS. rewrite <- Hroot in KS. destruct (KS GR Hf I) as (d1 & EK & I1 & _). rewrite EK.
      destruct (nth_error (full root) k) as [e|] eqn:Ek.
      + pose proof (read_spec fuel root e d1) as RS. rewrite Hroot in RS. rewrite <- Hroot in RS. destruct (RS GR Hf I1 (nth_error_In _ _ Ek)) as (t & d2 & D & ER & I2). rewrite ER. cbn [option_map]. rewrite (IH (S k) d2 I2). destruct (nth_error ts k) as [t'|] eqn:Et; [|apply LEN in Et; congruence]. destruct (SND k e t' Ek Et) as (D' & _). rewrite (treeof_fun _ _ _ D _ D'). rewrite (map_nth_error (ct_word R) _ _ Et). reflexivity.
      + rewrite (IH (S k) d1 I1). apply LEN in Ek. assert (nth_error (map (ct_word R) ts) k = None) as -> by (apply nth_error_None; rewrite map_length; now apply nth_error_None). reflexivity.
  Qed.
End KB.
