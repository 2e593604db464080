(* std::collections::{BTreeMap, BTreeSet}, by their documented contract: finite maps/sets kept sorted by a total order.
   A map is a list of key-value pairs with strictly increasing keys; a set is a strictly increasing list. *)
From Verif Require Import Base.

Record OrdLaws {K : Type} (cmp : K -> K -> comparison) : Prop := {
  ol_eq : forall a b, cmp a b = Eq <-> a = b;
  ol_opp : forall a b, cmp b a = CompOpp (cmp a b);
  ol_trans : forall a b c, cmp a b = Lt -> cmp b c = Lt -> cmp a c = Lt
}.

Section BMap.
  Context {K V : Type} (cmp : K -> K -> comparison).

  (* BTreeMap::get *)
  Fixpoint bm_get (k : K) (m : list (K * V)) : option V :=
    match m with
    | [] => None
    | (k', v) :: r => match cmp k k' with Eq => Some v | _ => bm_get k r end
    end.

  (* BTreeMap::insert (the new map; the old value returned by insert is bm_get before) *)
  Fixpoint bm_insert (k : K) (v : V) (m : list (K * V)) : list (K * V) :=
    match m with
    | [] => [(k, v)]
    | (k', v') :: r => match cmp k k' with
                       | Lt => (k, v) :: m
                       | Eq => (k', v) :: r
                       | Gt => (k', v') :: bm_insert k v r
                       end
    end.

  (* BTreeMap::remove *)
  Fixpoint bm_remove (k : K) (m : list (K * V)) : list (K * V) :=
    match m with
    | [] => []
    | (k', v') :: r => match cmp k k' with Eq => r | _ => (k', v') :: bm_remove k r end
    end.
End BMap.

(* strictly increasing *)
Fixpoint sorted_keys {K : Type} (cmp : K -> K -> comparison) (l : list K) : Prop :=
  match l with
  | [] => True
  | k :: r => (forall x, In x r -> cmp k x = Lt) /\ sorted_keys cmp r
  end.

(* BTreeSet::insert *)
Fixpoint bs_insert {K : Type} (cmp : K -> K -> comparison) (k : K) (s : list K) : list K :=
  match s with
  | [] => [k]
  | k' :: r => match cmp k k' with Lt => k :: s | Eq => s | Gt => k' :: bs_insert cmp k r end
  end.

(* BTreeSet from an iterator *)
Definition bs_of_list {K : Type} (cmp : K -> K -> comparison) (l : list K) : list K :=
  fold_left (fun s k => bs_insert cmp k s) l [].

Section Laws.
  Context {K V : Type} (cmp : K -> K -> comparison) (OL : OrdLaws cmp).

  Lemma cmp_refl a : cmp a a = Eq.
  Proof. now apply (ol_eq _ OL). Qed.

  Lemma bm_get_insert k k' v (m : list (K * V)) : sorted_keys cmp (map fst m) ->
    bm_get cmp k (bm_insert cmp k' v m) = match cmp k k' with Eq => Some v | _ => bm_get cmp k m end.
  Proof.
    induction m as [|[k1 v1] m IH]; intros S; cbn.
    - destruct (cmp k k'); reflexivity.
    - cbn in S. destruct S as [S1 S2]. destruct (cmp k' k1) eqn:E; cbn.
      + apply (ol_eq _ OL) in E. subst. destruct (cmp k k1); reflexivity.
      + destruct (cmp k k') eqn:E1; reflexivity.
      + rewrite IH by assumption. destruct (cmp k k1) eqn:E1; [|reflexivity|reflexivity].
        apply (ol_eq _ OL) in E1. subst k1. destruct (cmp k k') eqn:E2; [|reflexivity|reflexivity].
        apply (ol_eq _ OL) in E2. subst k'. rewrite cmp_refl in E. discriminate.
  Qed.

  Lemma bm_insert_in k v (m : list (K * V)) x : In x (map fst (bm_insert cmp k v m)) <-> x = k \/ In x (map fst m).
  Proof.
    induction m as [|[k1 v1] m IH]; cbn; [intuition|]. destruct (cmp k k1) eqn:E; cbn.
    - apply (ol_eq _ OL) in E. subst. intuition.
    - intuition.
    - rewrite IH. intuition.
  Qed.

  Lemma bm_insert_sorted k v (m : list (K * V)) : sorted_keys cmp (map fst m) ->
    sorted_keys cmp (map fst (bm_insert cmp k v m)).
  Proof.
    induction m as [|[k1 v1] m IH]; cbn; [intuition|]. intros [S1 S2].
    destruct (cmp k k1) eqn:E; cbn [map fst sorted_keys].
    - auto.
    - split; [|split; auto]. intros x [<-|Hx]; [assumption|]. eapply (ol_trans _ OL); eauto.
    - split; [|auto]. intros x Hx. apply bm_insert_in in Hx. destruct Hx as [->|Hx]; [|auto].
      rewrite (ol_opp _ OL), E. reflexivity.
  Qed.

  Lemma bm_get_In k v (m : list (K * V)) : sorted_keys cmp (map fst m) -> bm_get cmp k m = Some v <-> In (k, v) m.
  Proof.
    induction m as [|[k1 v1] m IH]; cbn; [split; [discriminate|tauto]|]. intros [S1 S2].
    specialize (IH S2). destruct (cmp k k1) eqn:E.
    - apply (ol_eq _ OL) in E. subst. split.
      + intros G. injection G as ->. now left.
      + intros [G|G]; [congruence|]. specialize (S1 k1 (in_map fst _ _ G)). rewrite cmp_refl in S1. discriminate.
    - rewrite IH. split; [tauto|]. intros [G|G]; [|tauto]. injection G as -> ->. rewrite cmp_refl in E. discriminate.
    - rewrite IH. split; [tauto|]. intros [G|G]; [|tauto]. injection G as -> ->. rewrite cmp_refl in E. discriminate.
  Qed.

  Lemma bm_get_None k (m : list (K * V)) : bm_get cmp k m = None <-> ~ In k (map fst m).
  Proof.
    induction m as [|[k1 v1] m IH]; cbn; [tauto|]. destruct (cmp k k1) eqn:E.
    - apply (ol_eq _ OL) in E. subst. split; [discriminate|]. intros G. exfalso. apply G. now left.
    - rewrite IH. split; [|tauto]. intros G [->|G']; [|tauto]. rewrite cmp_refl in E. discriminate.
    - rewrite IH. split; [|tauto]. intros G [->|G']; [|tauto]. rewrite cmp_refl in E. discriminate.
  Qed.

  Lemma bm_get_remove k k' (m : list (K * V)) : sorted_keys cmp (map fst m) ->
    bm_get cmp k (bm_remove cmp k' m) = match cmp k k' with Eq => None | _ => bm_get cmp k m end.
  Proof.
    induction m as [|[k1 v1] m IH]; cbn; [destruct (cmp k k'); reflexivity|]. intros [S1 S2].
    destruct (cmp k' k1) eqn:E; cbn.
    - apply (ol_eq _ OL) in E. subst. destruct (cmp k k1) eqn:E1; try reflexivity.
      apply (ol_eq _ OL) in E1. subst. apply bm_get_None. intros G. apply S1 in G. rewrite cmp_refl in G. discriminate.
    - rewrite IH by assumption. destruct (cmp k k1) eqn:E1; try reflexivity.
      apply (ol_eq _ OL) in E1. subst. rewrite (ol_opp _ OL), E. reflexivity.
    - rewrite IH by assumption. destruct (cmp k k1) eqn:E1; try reflexivity.
      apply (ol_eq _ OL) in E1. subst. rewrite (ol_opp _ OL), E. reflexivity.
  Qed.

  Lemma bm_remove_incl k (m : list (K * V)) x : In x (bm_remove cmp k m) -> In x m.
  Proof. induction m as [|[k1 v1] m IH]; cbn; [tauto|]. destruct (cmp k k1); cbn; tauto. Qed.

  Lemma bm_remove_sorted k (m : list (K * V)) : sorted_keys cmp (map fst m) ->
    sorted_keys cmp (map fst (bm_remove cmp k m)).
  Proof.
    induction m as [|[k1 v1] m IH]; cbn; [tauto|]. intros [S1 S2]. destruct (cmp k k1); cbn; auto; split; auto;
      intros x Hx; apply in_map_iff in Hx; destruct Hx as (y & <- & Hy); apply bm_remove_incl in Hy;
      apply S1; now apply in_map.
  Qed.

  Lemma sorted_ext (l1 : list K) : forall l2, sorted_keys cmp l1 -> sorted_keys cmp l2 ->
    (forall x, In x l1 <-> In x l2) -> l1 = l2.
  Proof.
    assert (irr : forall a, cmp a a <> Lt) by (intros a; rewrite cmp_refl; discriminate).
    induction l1 as [|a l1 IH]; intros [|b l2] S1 S2 H.
    - reflexivity.
    - exfalso. apply (proj2 (H b)). now left.
    - exfalso. apply (proj1 (H a)). now left.
    - cbn in S1, S2. destruct S1 as [A1 A2], S2 as [B1 B2].
      assert (a = b).
      { destruct (proj1 (H a)) as [->|G]; [now left|reflexivity|].
        destruct (proj2 (H b)) as [->|G']; [now left|reflexivity|].
        exfalso. apply (irr a). eapply (ol_trans _ OL); [apply A1; exact G'|apply B1; exact G]. }
      subst b. f_equal. apply IH; auto. intros x. split; intros Hx.
      + destruct (proj1 (H x)) as [->|G]; [now right| |assumption]. exfalso. apply (irr x). now apply A1.
      + destruct (proj2 (H x)) as [->|G]; [now right| |assumption]. exfalso. apply (irr x). now apply B1.
  Qed.

  Lemma bs_insert_in k s x : In x (bs_insert cmp k s) <-> x = k \/ In x s.
  Proof.
    induction s as [|k1 s IH]; cbn; [intuition|]. destruct (cmp k k1) eqn:E; cbn.
    - apply (ol_eq _ OL) in E. subst. intuition.
    - intuition.
    - rewrite IH. intuition.
  Qed.

  Lemma bs_insert_sorted k s : sorted_keys cmp s -> sorted_keys cmp (bs_insert cmp k s).
  Proof.
    induction s as [|k1 s IH]; cbn; [intuition|]. intros [S1 S2].
    destruct (cmp k k1) eqn:E; cbn [sorted_keys].
    - auto.
    - split; [|split; auto]. intros x [<-|Hx]; [assumption|]. eapply (ol_trans _ OL); eauto.
    - split; [|auto]. intros x Hx. apply bs_insert_in in Hx. destruct Hx as [->|Hx]; [|auto].
      rewrite (ol_opp _ OL), E. reflexivity.
  Qed.

  Lemma bs_of_list_in l x : In x (bs_of_list cmp l) <-> In x l.
  Proof.
    unfold bs_of_list. assert (G : forall s, In x (fold_left (fun s k => bs_insert cmp k s) l s) <-> In x s \/ In x l).
    { induction l as [|k l IH]; intros s; cbn; [tauto|]. rewrite IH, bs_insert_in. intuition. }
    rewrite G. cbn. tauto.
  Qed.

  Lemma bs_of_list_sorted l : sorted_keys cmp (bs_of_list cmp l).
  Proof.
    unfold bs_of_list. assert (G : forall s, sorted_keys cmp s -> sorted_keys cmp (fold_left (fun s k => bs_insert cmp k s) l s)).
    { induction l as [|k l IH]; intros s S; cbn; [assumption|]. apply IH. now apply bs_insert_sorted. }
    apply G. exact I.
  Qed.

  Lemma sorted_NoDup l : sorted_keys cmp l -> NoDup l.
  Proof.
    induction l as [|k l IH]; intros S; constructor; cbn in S.
    - intros G. destruct S as [S _]. apply S in G. rewrite cmp_refl in G. discriminate.
    - apply IH. apply S.
  Qed.
End Laws.

Lemma nat_ord : OrdLaws Nat.compare.
Proof.
  split.
  - apply Nat.compare_eq_iff.
  - intros a b. apply Nat.compare_antisym.
  - intros a b c. rewrite !Nat.compare_lt_iff. lia.
Qed.

(* lexicographic order: the derived order of Rust on Vec<usize> *)
Fixpoint lex_cmp {K : Type} (cmp : K -> K -> comparison) (a b : list K) : comparison :=
  match a, b with
  | [], [] => Eq
  | [], _ :: _ => Lt
  | _ :: _, [] => Gt
  | x :: a, y :: b => match cmp x y with Eq => lex_cmp cmp a b | c => c end
  end.

Lemma lex_ord {K} (cmp : K -> K -> comparison) : OrdLaws cmp -> OrdLaws (lex_cmp cmp).
Proof.
  intros O. split.
  - induction a as [|x a IH]; intros [|y b]; cbn; try (split; congruence).
    destruct (cmp x y) eqn:E.
    + apply (ol_eq _ O) in E. subst. rewrite IH. split; congruence.
    + split; [discriminate|]. intros G. injection G as -> ->. rewrite (cmp_refl cmp O) in E. discriminate.
    + split; [discriminate|]. intros G. injection G as -> ->. rewrite (cmp_refl cmp O) in E. discriminate.
  - induction a as [|x a IH]; intros [|y b]; cbn; try reflexivity.
    rewrite (ol_opp _ O x y). destruct (cmp x y) eqn:E; cbn; auto.
  - induction a as [|x a IH]; intros [|y b] [|z c]; cbn; try congruence.
    destruct (cmp x y) eqn:E1; [|intros _|discriminate].
    + apply (ol_eq _ O) in E1. subst. destruct (cmp y z); auto. apply IH.
    + destruct (cmp y z) eqn:E2; [|intros _|discriminate].
      * apply (ol_eq _ O) in E2. subst. rewrite E1. reflexivity.
      * rewrite (ol_trans _ O _ _ _ E1 E2). reflexivity.
Qed.
