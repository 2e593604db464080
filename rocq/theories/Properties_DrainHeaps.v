(* C05, C06: emptying a LimitedHeap and a BeamHeap. *)
From Verif Require Import Base M_Agenda M_Search S_Search S_Heaps P_Agenda P_Search P_Heaps M_Drain Properties_Search.
From Coq Require Import Sorting.Sorted.

Lemma lh_drain_spec {I W} {leb : W -> W -> bool} (H : minmax_heap (I * W) (wi_leb leb)) : forall n h, length (lh_items H h) <= n ->
  exists kept, lh_drain H n h = map fst kept /\ Permutation (lh_items H h) kept /\ StronglySorted (fun p q => leb (snd q) (snd p) = true) kept.
Proof.
  induction n as [|n IH]; intros h L.
  - exists []. destruct (lh_items H h) eqn:E; [|cbn in L; lia]. repeat split; constructor.
  - cbn [lh_drain]. unfold lh_pop, lh_items in *. destruct (mm_pop_max H (lh_heap H h)) as [[[x w] h']|] eqn:P; cbn [option_map fst snd].
    + apply (mm_pop_some H) in P. destruct P as [P M]. destruct (IH (LimitedHeap H h' (lh_capacity H h))) as (kept & E & PK & SK); [cbn [lh_heap]; apply Permutation_length in P; cbn in P; lia|]. cbn [lh_heap] in PK.
      exists ((x, w) :: kept). rewrite E. split; [reflexivity|]. split; [rewrite P; now constructor|]. constructor; [exact SK|]. apply Forall_forall. intros q Hq. apply (M q). rewrite P. right. now rewrite PK.
    + apply (mm_pop_none H) in P. exists []. rewrite P. repeat split; constructor.
Qed.
Lemma bh_drain_spec {I W} {leb : W -> W -> bool} (H : max_heap (I * W) (wi_leb leb)) : forall n h, length (bh_items H h) <= n ->
  exists kept, bh_drain H n h = map fst kept /\ Permutation (bh_items H h) kept /\ StronglySorted (fun p q => leb (snd q) (snd p) = true) kept.
Proof.
  induction n as [|n IH]; intros h L.
  - exists []. destruct (bh_items H h) eqn:E; [|cbn in L; lia]. repeat split; constructor.
  - cbn [bh_drain]. unfold bh_pop, bh_items in *. destruct (mh_pop H (bh_heap H h)) as [[[x w] h']|] eqn:P; cbn [option_map fst snd].
    + apply (mh_pop_some H) in P. destruct P as [P M]. destruct (IH (BeamHeap H h' (bh_beta H h))) as (kept & E & PK & SK); [cbn [bh_heap]; apply Permutation_length in P; cbn in P; lia|]. cbn [bh_heap] in PK.
      exists ((x, w) :: kept). rewrite E. split; [reflexivity|]. split; [rewrite P; now constructor|]. constructor; [exact SK|]. apply Forall_forall. intros q Hq. apply (M q). rewrite P. right. now rewrite PK.
    + apply (mh_pop_none H) in P. exists []. rewrite P. repeat split; constructor.
Qed.

(* C05: pushing any items onto a LimitedHeap of capacity c and then popping until it is empty returns c of them (all, if
   there are fewer), sorted by descending priority, and none of the others has a greater priority than any of these *)
Theorem C05_drain :
  forall (I W : Type) (leb : W -> W -> bool), TotalOrder leb ->
  forall (H : minmax_heap (I * W) (wi_leb leb)) (c : nat) (ps : list (I * W)) (n : nat), c <= n ->
    let h := snd (lh_run H (lh_with_capacity H c) (map (fun q => LPush (fst q) (snd q)) ps)) in
    exists kept dropped, lh_drain H n h = map fst kept /\ Permutation ps (kept ++ dropped) /\ length kept = Nat.min c (length ps) /\
      StronglySorted (fun p q => leb (snd q) (snd p) = true) kept /\ forall d k, In d dropped -> In k kept -> leb (snd d) (snd k) = true.
Proof.
  intros I W leb TO H c ps n L h. destruct (C05_limited_heap_keeps_best I W leb TO H c ps) as (dropped & P & LN & _ & B). fold h in P, LN, B.
  destruct (lh_drain_spec H n h) as (kept & E & PK & SK); [rewrite LN; lia|]. exists kept, dropped. split; [exact E|]. split; [now rewrite <- PK|]. split; [rewrite <- PK; exact LN|]. split; [exact SK|].
  intros d k Hd Hk. apply B; [exact Hd|]. now rewrite PK.
Qed.
Print Assumptions C05_drain.

(* C06: whatever has been done to a BeamHeap, popping it until it is empty returns every item it holds once, sorted by
   descending priority *)
Theorem C06_drain :
  forall (I W : Type) (leb : W -> W -> bool) (H : max_heap (I * W) (wi_leb leb)) (h : beam_heap H) (n : nat), bh_len H h <= n ->
    exists kept, bh_drain H n h = map fst kept /\ Permutation (bh_items H h) kept /\ StronglySorted (fun p q => leb (snd q) (snd p) = true) kept.
Proof. intros I W leb H h n L. apply bh_drain_spec. unfold bh_len in L. rewrite (mh_len_c H) in L. exact L. Qed.
Print Assumptions C06_drain.

Example C05_drain_ex :
  let H := list_minmax _ (wi_TO (I := nat) Nat.leb nat_leb_TO) in
  let h := snd (lh_run H (lh_with_capacity H 3) (map (fun q => LPush (fst q) (snd q)) [(10, 1); (11, 5); (12, 3); (13, 0); (14, 7)])) in
  lh_drain H 3 h = [14; 11; 12] /\ lh_drain H 2 h = [14; 11].
Proof. split; reflexivity. Qed.
Example C06_drain_ex : (* costs: beta = 2 accepts items costing at most 2 more than the best *)
  let leb := fun a b => Nat.leb b a in
  let TO : TotalOrder leb := geb_TO Nat.leb nat_leb_TO in
  let H := list_heap _ (wi_TO (I := nat) leb TO) in
  let h := snd (bh_run Nat.add H (bh_new H 2) [BPush 1 5; BPush 2 7; BPush 3 8; BPush 4 1; BPush 5 4]) in
  bh_len H h = 3 /\ bh_drain H 3 h = [4; 1; 2].
Proof. split; reflexivity. Qed.
