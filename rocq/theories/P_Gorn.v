(* GornTree refines a partial function. *)
From Verif Require Import Base BMap M_Util M_TreeStack P_TreeStack M_Gorn S_Gorn.

Lemma lt_before : forall a b, addr_cmp a b = Lt <-> before a b.
Proof.
  unfold addr_cmp. induction a as [|x a IH]; intros [|y b]; cbn [lex_cmp].
  - split; [discriminate|]. intros [(x & s & E)|(p & x & y & s & s' & E & _)]; [discriminate|destruct p; discriminate].
  - split; [|reflexivity]. intros _. left. exists y, b. reflexivity.
  - split; [discriminate|]. intros [(z & s & E)|(p & x' & y & s & s' & _ & E & _)]; [discriminate|destruct p; discriminate].
  - destruct (Nat.compare_spec x y) as [->|L|L].
    + rewrite IH. split.
      * intros [(z & s & ->)|(p & z & z' & s & s' & -> & -> & L)]; [left; exists z, s; reflexivity|right; exists (y :: p), z, z', s, s'; auto].
      * intros [(z & s & E)|(p & z & z' & s & s' & E1 & E2 & L)]; [injection E as ->; left; eauto|]. destruct p as [|q p]; cbn in E1, E2; [injection E1 as -> ->; injection E2 as -> ->; lia|]. injection E1 as <- ->. injection E2 as ->. right. exists p, z, z', s, s'. auto.
    + split; [|reflexivity]. intros _. right. exists [], x, y, a, b. auto.
    + split; [discriminate|]. intros [(z & s & E)|(p & z & z' & s & s' & E1 & E2 & L')]; [injection E as -> _; lia|]. destruct p as [|q p]; cbn in E1, E2; injection E1 as -> ->; injection E2 as -> ->; lia.
Qed.

Section P.
  Context {V : Type}.
  Definition holds (m : gorn V) (f : pmap) : Prop := sorted_keys addr_cmp (map fst m) /\ forall a, gt_get a m = f a.
  Lemma same_cmp a k (X : Type) (x y : X) : (match addr_cmp a k with Eq => x | _ => y end) = if same_addr a k then x else y.
  Proof. destruct (same_addr a k) as [->|NEQ]; [now rewrite (cmp_refl addr_cmp addr_ord)|]. destruct (addr_cmp a k) eqn:E; [apply (ol_eq _ addr_ord) in E; contradiction|reflexivity|reflexivity]. Qed.
  Lemma holds_insert k v m f : holds m f -> holds (gt_insert k v m) (upd k (Some v) f).
  Proof. intros [H1 H2]. split; [now apply (bm_insert_sorted addr_cmp addr_ord)|]. intros a. unfold gt_get, gt_insert. rewrite (bm_get_insert addr_cmp addr_ord) by exact H1. rewrite same_cmp. unfold upd. now rewrite <- H2. Qed.
  Lemma holds_remove k m f : holds m f -> holds (bm_remove addr_cmp k m) (upd k None f).
  Proof. intros [H1 H2]. split; [now apply (bm_remove_sorted addr_cmp)|]. intros a. unfold gt_get. rewrite (bm_get_remove addr_cmp addr_ord) by exact H1. rewrite same_cmp. unfold upd. now rewrite <- H2. Qed.
  Lemma holds_ext m f g : (forall a, g a = f a) -> holds m f -> holds m g.
  Proof. intros E [H1 H2]. split; [exact H1|]. intros a. now rewrite E. Qed.
  Lemma holds_nil : holds [] (fun _ => None).
  Proof. split; [exact I|reflexivity]. Qed.
  Lemma holds_inserts l : forall m f, holds m f -> holds (fold_left (fun m e => gt_insert (fst e) (snd e) m) l m) (fun a => match last_of l a with Some v => Some v | None => f a end).
  Proof.
    induction l as [|[k v] l IH]; intros m f Hm; [exact Hm|]. cbn [fold_left fst snd]. eapply holds_ext; [|apply IH, holds_insert, Hm]. intros a. cbn. unfold upd. destruct (last_of l a); [reflexivity|]. destruct (same_addr a k); reflexivity.
  Qed.
  Lemma holds_iter m f : holds m f -> forall k v, In (k, v) m <-> f k = Some v.
  Proof. intros [H1 H2] k v. rewrite <- H2. symmetry. now apply (bm_get_In addr_cmp addr_ord). Qed.
  Lemma last_of_sorted (m : gorn V) : sorted_keys addr_cmp (map fst m) -> forall a, last_of m a = gt_get a m.
  Proof.
    induction m as [|[k v] m IH]; intros H1 a; [reflexivity|]. cbn in H1. destruct H1 as [S1 S2]. cbn [last_of gt_get bm_get]. unfold gt_get. cbn [bm_get]. rewrite (IH S2). rewrite same_cmp. destruct (same_addr a k) as [->|].
    - destruct (gt_get k m) as [w|] eqn:E; [|reflexivity]. apply (bm_get_In addr_cmp addr_ord) in E; [|exact S2]. specialize (S1 k (in_map fst _ _ E)). cbn in S1. rewrite (cmp_refl addr_cmp addr_ord) in S1. discriminate.
    - unfold gt_get. now destruct (bm_get addr_cmp a m).
  Qed.
  Lemma sorted_filter p (m : gorn V) : sorted_keys addr_cmp (map fst m) -> sorted_keys addr_cmp (map fst (filter p m)).
  Proof.
    induction m as [|e m IH]; intros Hs; [exact I|]. cbn in Hs. destruct Hs as [S1 S2]. cbn. destruct (p e); [|now apply IH]. cbn. split; [|now apply IH]. intros x Hx. apply S1. apply in_map_iff in Hx. destruct Hx as (y & <- & Hy). apply filter_In in Hy. apply in_map. apply Hy.
  Qed.
  Lemma get_filter p (m : gorn V) a : sorted_keys addr_cmp (map fst m) -> gt_get a (filter p m) = match gt_get a m with Some v => if p (a, v) then Some v else None | None => None end.
  Proof.
    intros Hs. pose proof (sorted_filter p m Hs) as Hf. destruct (gt_get a m) as [v|] eqn:E.
    - apply (bm_get_In addr_cmp addr_ord) in E; [|exact Hs]. destruct (p (a, v)) eqn:Ep.
      + apply (bm_get_In addr_cmp addr_ord); [exact Hf|]. apply filter_In. auto.
      + destruct (gt_get a (filter p m)) as [w|] eqn:E2; [|reflexivity]. apply (bm_get_In addr_cmp addr_ord) in E2; [|exact Hf]. apply filter_In in E2. destruct E2 as [E2 Ep2]. apply (bm_get_In addr_cmp addr_ord) in E; [|exact Hs]. apply (bm_get_In addr_cmp addr_ord) in E2; [|exact Hs]. congruence.
    - destruct (gt_get a (filter p m)) as [w|] eqn:E2; [|reflexivity]. apply (bm_get_In addr_cmp addr_ord) in E2; [|exact Hf]. apply filter_In in E2. destruct E2 as [E2 _]. apply (bm_get_In addr_cmp addr_ord) in E2; [|exact Hs]. unfold gt_get in E. congruence.
  Qed.
  Lemma get_update h (m : gorn V) a : gt_get a (gn_update h m) = option_map (h a) (gt_get a m).
  Proof. unfold gt_get. induction m as [|[k v] m IH]; [reflexivity|]. cbn. destruct (addr_cmp a k) eqn:E; [apply (ol_eq _ addr_ord) in E; subst; reflexivity|exact IH|exact IH]. Qed.

  Lemma step_ok (o : gop V) m f : holds m f -> exists g, does o f (fst (gn_step o m)) g /\ holds (snd (gn_step o m)) g.
  Proof.
    intros Hm. pose proof Hm as [H1 H2]. destruct o as [|k v|k|k v|k v|h|l|k|k|]; cbn [gn_step does fst snd].
    - exists (fun _ => None). split; [auto|apply holds_nil].
    - exists (upd k (Some v) f). split; [split; [apply H2|auto]|now apply holds_insert].
    - exists (upd k None f). split; [split; [apply H2|auto]|now apply holds_remove].
    - unfold gn_set, gn_get. rewrite H2. destruct (f k); eexists; (split; [split; [reflexivity|intros; reflexivity]|]); [now apply holds_insert|exact Hm].
    - unfold gn_or_insert, gn_get. rewrite H2. destruct (f k); cbn [fst snd]; eexists; (split; [split; [reflexivity|intros; reflexivity]|]); [exact Hm|now apply holds_insert].
    - eexists. split; [split; [reflexivity|intros; reflexivity]|]. split.
      + unfold gn_update. rewrite map_map. cbn. exact H1.
      + intros a. now rewrite get_update, H2.
    - eexists. split; [split; [reflexivity|intros; reflexivity]|]. unfold gn_append. cbn [fst]. eapply holds_ext; [|apply holds_inserts, Hm]. intros a. cbn.
      pose proof (holds_inserts l [] _ holds_nil) as [X1 X2]. fold (gn_from_iter l) in X1, X2. rewrite (last_of_sorted _ X1), X2. now destruct (last_of l a).
    - exists (fun a => match addr_cmp a k with Lt => f a | _ => None end). split.
      + split; [reflexivity|]. intros a. rewrite <- lt_before. destruct (addr_cmp a k); split; intros X; try reflexivity; congruence.
      + split; [now apply sorted_filter|]. intros a. unfold gn_split_off. cbn [fst]. rewrite get_filter by exact H1. cbn [fst]. rewrite H2. destruct (f a), (addr_cmp a k); reflexivity.
    - exists (fun a => match addr_cmp a k with Lt => None | _ => f a end). split.
      + split; [reflexivity|]. intros a. rewrite <- lt_before. destruct (addr_cmp a k); split; intros X; try reflexivity; try congruence; elim X; reflexivity.
      + split; [now apply sorted_filter|]. intros a. unfold gn_split_off. cbn [snd]. rewrite get_filter by exact H1. cbn [fst]. rewrite H2. destruct (f a), (addr_cmp a k); reflexivity.
    - exists f. split; [auto|]. unfold gn_cloned, gn_iter. eapply holds_ext; [|apply holds_inserts, holds_nil]. intros a. cbn. rewrite (last_of_sorted _ H1), H2. now destruct (f a).
  Qed.
  Lemma run_ok (ops : list (gop V)) : forall m f, holds m f -> exists g, history ops f (fst (gn_run ops m)) g /\ holds (snd (gn_run ops m)) g.
  Proof.
    induction ops as [|o ops IH]; intros m f Hm; [exists f; split; [constructor; reflexivity|exact Hm]|]. destruct (step_ok o m f Hm) as (f' & D & Hm'). cbn [gn_run]. destruct (gn_step o m) as [r m'] eqn:E. cbn [fst snd] in *. destruct (IH m' f' Hm') as (g & HI & Hg). destruct (gn_run ops m') as [rs m2] eqn:E2. cbn [fst snd] in *. exists g. split; [econstructor; eassumption|exact Hg].
  Qed.
  (* the specification leaves no choice *)
  Lemma does_fun (o : gop V) f r g r' g' : does o f r g -> does o f r' g' -> r = r' /\ forall a, g a = g' a.
  Proof.
    destruct o as [|k v|k|k v|k v|h|l|k|k|]; cbn [does]; try (intros [-> E] [-> E']; split; [reflexivity|]; intros a; rewrite E, E'; reflexivity).
    - destruct (f k); intros [-> E] [-> E']; (split; [reflexivity|]; intros a; rewrite E, E'; reflexivity).
    - intros [-> E] [-> E']. split; [reflexivity|]. intros a. destruct (E a) as [X1 X2], (E' a) as [Y1 Y2]. destruct (addr_cmp a k) eqn:C; [|apply lt_before in C; now rewrite X1, Y1|]; (assert (N : ~ before a k) by (rewrite <- lt_before; congruence); now rewrite X2, Y2).
    - intros [-> E] [-> E']. split; [reflexivity|]. intros a. destruct (E a) as [X1 X2], (E' a) as [Y1 Y2]. destruct (addr_cmp a k) eqn:C; [|apply lt_before in C; now rewrite X1, Y1|]; (assert (N : ~ before a k) by (rewrite <- lt_before; congruence); now rewrite X2, Y2).
  Qed.
  Lemma does_ext (o : gop V) f f' r g : (forall a, f a = f' a) -> does o f r g -> does o f' r g.
  Proof. intros E. destruct o as [|k v|k|k v|k v|h|l|k|k|]; cbn [does]; rewrite <- ?E; try tauto; try (intros [-> X]; split; [reflexivity|]; intros a; specialize (X a); unfold upd in *; rewrite <- ?E; exact X). destruct (f k); intros [-> X]; (split; [reflexivity|]; intros a; specialize (X a); unfold upd in *; rewrite <- ?E; exact X). Qed.
  Lemma history_fun (ops : list (gop V)) : forall f f' rs g rs' g', (forall a, f a = f' a) -> history ops f rs g -> history ops f' rs' g' -> rs = rs' /\ forall a, g a = g' a.
  Proof.
    induction ops as [|o ops IH]; intros f f' rs g rs' g' E H1 H2; inversion H1; subst; inversion H2; subst; [split; [reflexivity|]; intros a; congruence|].
    match goal with D : does o f _ _, D' : does o f' _ _ |- _ => apply (does_ext o f f' _ _ E) in D; destruct (does_fun _ _ _ _ _ _ D D') as [-> EF] end.
    match goal with A : history ops ?x _ g, B : history ops ?y _ g' |- _ => destruct (IH _ _ _ _ _ _ EF A B) as [-> EG] end. auto.
  Qed.
  Lemma gn_eq_iff veqb (VE : forall x y, veqb x y = true <-> x = y) (m1 : gorn V) : forall m2, gn_eq veqb m1 m2 = true <-> m1 = m2.
  Proof.
    induction m1 as [|[k v] m1 IH]; intros [|[k' v'] m2]; cbn [gn_eq fst snd]; try (split; [discriminate|discriminate]); [tauto|].
    rewrite !Bool.andb_true_iff, IH, VE, same_cmp. destruct (same_addr k k') as [->|NEQ]; split.
    - intros [[_ ->] ->]. reflexivity.
    - intros E. injection E as -> ->. auto.
    - intros [[E _] _]. discriminate.
    - intros E. injection E as E _ _. contradiction.
  Qed.
End P.
