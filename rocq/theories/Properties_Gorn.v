(* C51: GornTree. *)
From Coq Require Import Sorting.Sorted.
From Verif Require Import Base BMap M_Util M_TreeStack P_TreeStack M_Gorn S_Gorn P_Gorn.

Lemma sorted_before (l : list (list nat)) : sorted_keys addr_cmp l -> StronglySorted before l.
Proof. induction l as [|k l IH]; intros Hs; [constructor|]. cbn in Hs. destruct Hs as [H1 H2]. constructor; [now apply IH|]. apply Forall_forall. intros x Hx. apply lt_before. now apply H1. Qed.

(* Whatever is done to a tree that was collected from a list of pairs: every operation returns what it returns on a partial
   function from addresses to values, and afterwards get, contains_key, the iterators, len and is_empty agree with that
   function.  The iterators give every node once, a node before its descendants and its children from left to right. *)
Theorem C51_history :
  forall (V : Type) (l : list (list nat * V)) (ops : list (gop V)),
    exists g, history ops (last_of l) (fst (gn_run ops (gn_from_iter l))) g /\
      let m := snd (gn_run ops (gn_from_iter l)) in
      (forall a, gn_get a m = g a) /\ (forall a, gn_contains_key a m = true <-> g a <> None) /\
      (forall a v, In (a, v) (gn_iter m) <-> g a = Some v) /\ StronglySorted before (gn_keys m) /\
      gn_keys m = map fst (gn_iter m) /\ gn_values m = map snd (gn_iter m) /\ gn_len m = length (gn_iter m) /\ (gn_is_empty m = true <-> forall a, g a = None).
Proof.
  intros V l ops. assert (H0 : holds (gn_from_iter l) (last_of l)) by (eapply holds_ext; [|apply (holds_inserts l [] _ holds_nil)]; intros a; cbn; now destruct (last_of l a)).
  destruct (run_ok ops _ _ H0) as (g & HI & Hg). exists g. split; [exact HI|]. pose proof Hg as [S1 S2]. cbn zeta. split; [exact S2|]. split; [|split; [apply (holds_iter _ _ Hg)|split; [now apply sorted_before|split; [reflexivity|split; [reflexivity|split; [reflexivity|]]]]]].
  - intros a. unfold gn_contains_key, gn_get. rewrite S2. destruct (g a); split; congruence.
  - destruct (snd (gn_run ops (gn_from_iter l))) as [|[k v] m] eqn:E; cbn [gn_is_empty]; (split; [|try reflexivity]); [intros _ a; now rewrite <- S2|discriminate|]. intros X. pose proof (proj1 (holds_iter _ _ Hg k v) (or_introl eq_refl)) as Y. rewrite X in Y. discriminate.
Qed.
Print Assumptions C51_history.

(* The specification leaves no choice: it determines what is returned and the function in the end. *)
Theorem C51_determined :
  forall (V : Type) (ops : list (gop V)) (f : pmap) rs g rs' g', history ops f rs g -> history ops f rs' g' -> rs = rs' /\ forall a, g a = g' a.
Proof. intros. eapply history_fun; eauto. Qed.
Print Assumptions C51_determined.

(* Two trees are equal exactly if they have the same values at the same addresses, however they came about. *)
Theorem C51_equality :
  forall (V : Type) (veqb : V -> V -> bool) (l1 l2 : list (list nat * V)) (ops1 ops2 : list (gop V)),
    (forall x y, veqb x y = true <-> x = y) ->
    let m1 := snd (gn_run ops1 (gn_from_iter l1)) in let m2 := snd (gn_run ops2 (gn_from_iter l2)) in
    gn_eq veqb m1 m2 = true <-> forall a, gn_get a m1 = gn_get a m2.
Proof.
  intros V veqb l1 l2 ops1 ops2 VE m1 m2. rewrite (gn_eq_iff veqb VE). split; [intros ->; reflexivity|]. intros E.
  assert (ST : forall l ops, sorted_keys addr_cmp (map fst (snd (gn_run ops (gn_from_iter (V := V) l))))) by (intros l ops; destruct (run_ok ops _ _ (holds_inserts l [] _ holds_nil)) as (g & _ & [X _]); exact X).
  assert (EK : map fst m1 = map fst m2).
  { apply (sorted_ext addr_cmp addr_ord); [apply ST|apply ST|]. intros x. assert (X1 : forall t : gorn V, sorted_keys addr_cmp (map fst t) -> In x (map fst t) <-> exists v, gt_get x t = Some v).
    { intros t St. rewrite in_map_iff. split; [intros ([x0 v] & <- & Hx); exists v; now apply (bm_get_In addr_cmp addr_ord)|intros (v & Hv); exists (x, v); split; [reflexivity|now apply (bm_get_In addr_cmp addr_ord)]]. }
    unfold m1, m2 in *. rewrite !X1 by apply ST. unfold gn_get in E. split; intros (v & Hv); exists v; congruence. }
  assert (EP : forall p, In p m1 -> In p m2) by (intros [a v] Hp; apply (bm_get_In addr_cmp addr_ord); [apply ST|]; apply (bm_get_In addr_cmp addr_ord) in Hp; [|apply ST]; unfold gn_get, gt_get in E; now rewrite <- E).
  pose proof (sorted_NoDup addr_cmp addr_ord _ (ST l2 ops2)) as ND. fold m2 in ND. clear E ST. clearbody m1 m2. revert m2 EK EP ND. induction m1 as [|[a v] t1 IH]; intros [|[a2 v2] t2] EK EP ND2; try discriminate; [reflexivity|]. cbn in EK. injection EK as <- EK. cbn in ND2. inversion ND2 as [|? ? N1 N2]; subst.
  assert (v2 = v) as ->. { destruct (EP (a, v)) as [X1|X1]; [now left|congruence|]. elim N1. apply in_map_iff. now exists (a, v). }
  f_equal. apply IH; [exact EK| |exact N2]. intros p Hp. destruct (EP p (or_intror Hp)) as [<-|X1]; [|exact X1]. elim N1. rewrite <- EK. apply in_map_iff. now exists (a, v).
Qed.
Print Assumptions C51_equality.

(* append empties the other tree; what split_off leaves and what it returns are together the tree as it was *)
Theorem C51_append_split_off :
  forall (V : Type) (l1 l2 : list (list nat * V)) (k : list nat),
    snd (gn_append (gn_from_iter l1) (gn_from_iter l2)) = [] /\
    let m := gn_from_iter l1 in let '(low, high) := gn_split_off k m in
    gn_iter low ++ gn_iter high = gn_iter m /\ (forall a v, In (a, v) (gn_iter low) -> before a k) /\ (forall a v, In (a, v) (gn_iter high) -> a = k \/ before k a).
Proof.
  intros V l1 l2 k. split; [reflexivity|]. cbn zeta. destruct (holds_inserts l1 [] _ holds_nil) as [S1 _]. fold (gn_from_iter l1) in S1. unfold gn_split_off, gn_iter. split; [|split].
  - revert S1. generalize (gn_from_iter l1). intros m. induction m as [|[a v] m IH]; intros Hs; [reflexivity|]. cbn in Hs. destruct Hs as [H1 H2]. cbn [filter fst]. destruct (addr_cmp a k) eqn:C; cbn [app]; [|now rewrite (IH H2)|].
    + rewrite <- (IH H2) at 3. assert (X : filter (fun e => match addr_cmp (fst e) k with Lt => true | _ => false end) m = []); [|now rewrite X].
      clear IH H2. induction m as [|[b w] m IHm]; [reflexivity|]. cbn [filter fst]. assert (addr_cmp b k = Gt) as ->; [|apply IHm; intros x Hx; apply H1; now right]. apply (ol_eq _ addr_ord) in C. subst a. rewrite (ol_opp _ addr_ord). rewrite (H1 b) by now left. reflexivity.
    + rewrite <- (IH H2) at 3. assert (X : filter (fun e => match addr_cmp (fst e) k with Lt => true | _ => false end) m = []); [|now rewrite X].
      clear IH H2. induction m as [|[b w] m IHm]; [reflexivity|]. cbn [filter fst]. assert (addr_cmp k b = Lt) as Y; [|rewrite (ol_opp _ addr_ord), Y; apply IHm; intros x Hx; apply H1; now right]. apply (ol_trans _ addr_ord) with a; [rewrite (ol_opp _ addr_ord), C; reflexivity|apply H1; now left].
  - intros a v Hin. apply filter_In in Hin. destruct Hin as [_ C]. cbn in C. apply lt_before. now destruct (addr_cmp a k).
  - intros a v Hin. apply filter_In in Hin. destruct Hin as [_ C]. cbn in C. destruct (addr_cmp a k) eqn:E; [left; now apply (ol_eq _ addr_ord)|discriminate|]. right. apply lt_before. rewrite (ol_opp _ addr_ord), E. reflexivity.
Qed.
Print Assumptions C51_append_split_off.

(* a history with insertions, an assignment, a removal, append and split_off; nodes come out in pre-order *)
Example C51_example :
  let ops := [OInsert [1] 5; OInsert [] 1; OInsert [1] 6; OSet [7] 9; OOrInsert [0] 2; OOrInsert [0] 3; OAppend [([0; 10], 8); ([0; 9], 4); ([0; 10], 7)]; ORemove [1]; ORemove [1]; OUpdate (fun k v => v + length k); OSplitOff [0; 10]] in
  let '(rs, m) := gn_run ops (gn_from_iter [([2], 0); ([2; 0], 1); ([2], 3)]) in
  rs = [None; None; Some 5; None; Some 2; Some 2; None; Some 6; None; None; None] /\ gn_iter m = [([], 1); ([0], 3); ([0; 9], 6)] /\
  snd (gn_run [OSplitTake [0; 10]] (gn_from_iter [([2], 0); ([], 4); ([0; 10; 1], 1)])) = [([0; 10; 1], 1); ([2], 0)].
Proof. vm_compute. auto. Qed.
