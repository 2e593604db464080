(* Property theorems C01-C07: graph search, agendas and heaps.  Proofs live in P_*.v. *)
From Verif Require Import Base M_Agenda M_Search S_Search S_Heaps P_Agenda P_Search P_Heaps.

(* C01.  Whatever agenda is used (it may drop items, it must not invent any), every node ever returned by next() is
   reachable from the items that were on the agenda initially. *)
Theorem C01_search_only_reachable :
  forall (I : Type) (A : agenda I) (content : ag_T A -> list I), agenda_sound A content ->
  forall (succs : I -> list I) (a : ag_T A) (n : nat) (x : I),
    In (Some x) (fst (search_calls A succs n a)) -> reachable succs (content a) x.
Proof. intros I A c S succs a n x H. eapply search_reachable; eauto. intros y Hy. now constructor. Qed.
Print Assumptions C01_search_only_reachable.

(* ... and all agendas of the crate are such agendas. *)
Theorem C01_agendas_sound :
  forall (I W : Type) (weight : I -> W) (leb : W -> W -> bool) (mul : W -> W -> W),
    agenda_sound (vec_agenda I) (fun v => v) /\
    agenda_sound (deque_agenda I) (fun v => v) /\
    (forall H : max_heap (I * W) (wi_leb leb), agenda_sound (heap_agenda weight leb H) (fun h => map fst (mh_content H h))) /\
    (forall H : minmax_heap (I * W) (wi_leb leb), agenda_sound (limited_agenda H weight) (fun h => map fst (lh_items H h))) /\
    (forall H : max_heap (I * W) (wi_leb leb), agenda_sound (beam_agenda mul H weight) (fun h => map fst (bh_items H h))).
Proof.
  intros. repeat apply conj; intros.
  - apply lossless_sound, vec_lossless.
  - apply lossless_sound, deque_lossless.
  - apply lossless_sound, heap_lossless.
  - apply limited_sound.
  - apply beam_sound.
Qed.
Print Assumptions C01_agendas_sound.

(* non-vacuity: a depth-first search on a graph with a cycle, and one with a bounded heap *)
Example C01_example :
  let succs := fun x => match x with 0 => [1; 2] | 1 => [0] | _ => [] end in
  fst (search_calls (vec_agenda nat) succs 4 (dfs_init [0])) = [Some 0; Some 2; Some 1; Some 0] /\
  reachable succs [0] 2.
Proof. split; [reflexivity|]. eapply reach_step with (x := 0); [constructor; now left|cbn; auto]. Qed.

(* C02.  With an agenda that loses nothing: if iteration ends, the returned nodes are exactly the ends of all walks from
   the initial nodes, one per walk, and there are no further walks; conversely if there are only finitely many walks,
   iteration ends. *)
Theorem C02_search_exhaustive :
  forall (I : Type) (A : agenda I) (content : ag_T A -> list I), agenda_lossless A content ->
  forall (succs : I -> list I) (a : ag_T A) (init : list I), Permutation (content a) init ->
    (forall n, In None (fst (search_calls A succs n a)) ->
       exists D, level succs D init = [] /\
                 Permutation (until_none (fst (search_calls A succs n a))) (walks succs D init)) /\
    (forall D n, level succs D init = [] -> length (walks succs D init) < n ->
       In None (fst (search_calls A succs n a))).
Proof.
  intros I A c L succs a init P. split.
  - intros n H. destruct (search_end A c L succs n a init P H) as (D & H1 & H2). exists D. rewrite walks_forest. auto.
  - intros D n H1 H2. rewrite walks_forest in H2. eapply search_terminates; eauto.
Qed.
Print Assumptions C02_search_exhaustive.

Theorem C02_agendas_lossless :
  forall (I W : Type) (weight : I -> W) (leb : W -> W -> bool),
    agenda_lossless (vec_agenda I) (fun v => v) /\
    agenda_lossless (deque_agenda I) (fun v => v) /\
    (forall H : max_heap (I * W) (wi_leb leb),
       agenda_lossless (heap_agenda weight leb H) (fun h => map fst (mh_content H h)) /\
       forall xs, Permutation (map fst (mh_content H (heap_collect weight leb H xs))) xs).
Proof.
  intros. repeat apply conj; intros.
  - apply vec_lossless.
  - apply deque_lossless.
  - split; [apply heap_lossless|apply heap_collect_content].
Qed.
Print Assumptions C02_agendas_lossless.

(* Breadth-first search returns exactly the walks by increasing length, level by level. *)
Theorem C02_bfs_level_order :
  forall (I : Type) (succs : I -> list I) (init : list I) (n D : nat), n <= D ->
    until_none (fst (search_calls (deque_agenda I) succs n (bfs_init init))) = firstn n (walks succs D (rev init)).
Proof. intros. now apply bfs_exact. Qed.
Print Assumptions C02_bfs_level_order.

(* ... so it returns every reachable node after finitely many calls, even in infinite graphs. *)
Theorem C02_bfs_fair :
  forall (I : Type) (succs : I -> list I) (init : list I) (x : I), reachable succs init x ->
    exists n, In x (until_none (fst (search_calls (deque_agenda I) succs n (bfs_init init)))).
Proof. intros I succs init x H. apply reachable_level in H. destruct H as [d H]. eapply bfs_reaches; eauto. Qed.
Print Assumptions C02_bfs_fair.

(* Depth-first search is the recursive depth-first traversal, last initial node and last successor first. *)
Theorem C02_dfs_recursive_order :
  forall (I : Type) (succs : I -> list I) (init : list I),
    (forall ys n, dfs_order succs (rev init) ys ->
       until_none (fst (search_calls (vec_agenda I) succs (length ys + n) (dfs_init init))) = ys) /\
    (forall n, In None (fst (search_calls (vec_agenda I) succs n (dfs_init init))) ->
       dfs_order succs (rev init) (until_none (fst (search_calls (vec_agenda I) succs n (dfs_init init))))).
Proof. intros. split; intros; [now apply dfs_exact|now apply dfs_ends]. Qed.
Print Assumptions C02_dfs_recursive_order.

Example C02_example :
  let succs := fun x => if Nat.ltb x 4 then [2 * x; 2 * x + 1] else [] in
  level succs 3 [1] = [] /\ walks succs 3 [1] = [1; 2; 3; 4; 5; 6; 7] /\
  fst (search_calls (deque_agenda nat) succs 8 (bfs_init [1])) =
    [Some 1; Some 2; Some 3; Some 4; Some 5; Some 6; Some 7; None] /\
  fst (search_calls (vec_agenda nat) succs 8 (dfs_init [1])) =
    [Some 1; Some 3; Some 7; Some 6; Some 2; Some 5; Some 4; None].
Proof. repeat split; reflexivity. Qed.

(* C03.  Search::weighted with successors that never weigh more than their parent: whatever heap and tie-breaking,
   nodes come in non-increasing weight, and once y has been returned every walk end strictly heavier than y has been
   returned already (as often as there are such walks). *)
Theorem C03_weighted_order :
  forall (I W : Type) (weight : I -> W) (leb : W -> W -> bool), TotalOrder leb ->
  forall (H : max_heap (I * W) (wi_leb leb)) (succs : I -> list I),
    (forall x y, In y (succs x) -> leb (weight y) (weight x) = true) ->
  forall (init : list I) (n : nat),
    let outs := until_none (fst (search_calls (heap_agenda weight leb H) succs n (heap_collect weight leb H init))) in
    nonincreasing weight leb outs /\
    forall before y, outs = before ++ [y] -> forall D, exists others,
      Permutation (filter (fun x => negb (leb (weight x) (weight y))) before)
                  (filter (fun x => negb (leb (weight x) (weight y))) (walks succs D init) ++ others).
Proof.
  intros I W weight leb TO H succs MONO init n outs. pose proof (heap_maxfirst weight leb H) as AM.
  assert (Wf := heap_wf_collect weight leb H init). split.
  - apply (weighted_sorted_gen _ _ _ _ _ TO AM succs MONO n _ Wf).
  - intros before y E D.
    destruct (weighted_complete _ _ _ _ _ TO AM succs MONO n (heap_collect weight leb H init) init (weight y) D) as [r P].
    + apply heap_collect_content.
    + eapply (weighted_frontier _ _ _ _ _ AM succs MONO); eauto.
    + exists r. rewrite walks_forest. rewrite <- P. fold outs. rewrite E, filter_app. cbn.
      rewrite (leb_refl leb TO). cbn. rewrite app_nil_r. reflexivity.
Qed.
Print Assumptions C03_weighted_order.

(* C03: a node x reached by a walk is returned after finitely many calls whenever only boundedly long walks end in nodes at
   least as heavy as x, even if the search never ends. *)
Theorem C03_weighted_finds :
  forall (I W : Type) (weight : I -> W) (leb : W -> W -> bool), TotalOrder leb ->
  forall (H : max_heap (I * W) (wi_leb leb)) (succs : I -> list I),
    (forall x y, In y (succs x) -> leb (weight y) (weight x) = true) ->
  forall (init : list I) (x : I) (bound : nat),
    In x (walks succs bound init) ->
    (forall len, bound <= len -> length (filter (fun y => leb (weight x) (weight y)) (walks succs len init)) =
                                 length (filter (fun y => leb (weight x) (weight y)) (walks succs bound init))) ->
  exists n, In x (until_none (fst (search_calls (heap_agenda weight leb H) succs n (heap_collect weight leb H init)))).
Proof.
  intros I W weight leb TO H succs MONO init x bound Hx HB. exists (S (length (forest succs bound init))).
  pose proof (heap_maxfirst weight leb H) as AM.
  apply (weighted_finds _ _ _ _ _ TO AM succs MONO _ _ init bound).
  - apply heap_wf_collect.
  - apply heap_collect_content.
  - now rewrite <- walks_forest.
  - intros E y HE Hy. destruct (leb (weight x) (weight y)) eqn:L; [|reflexivity]. exfalso.
    pose proof (HB (S E) ltac:(lia)) as H1. pose proof (HB E HE) as H2. rewrite !walks_forest in H1, H2.
    rewrite forest_level_S, filter_app, app_length in H1.
    assert (Hf : In y (filter (fun y => leb (weight x) (weight y)) (level succs E init))) by (apply filter_In; auto).
    destruct (filter (fun y => leb (weight x) (weight y)) (level succs E init)); [destruct Hf|]. cbn in H1. lia.
  - lia.
Qed.
Print Assumptions C03_weighted_finds.

(* C03: conversely, weight one loops starve the rest of the graph *)
Theorem C03_weighted_starves :
  forall (I W : Type) (weight : I -> W) (leb : W -> W -> bool), TotalOrder leb ->
  forall (H : max_heap (I * W) (wi_leb leb)) (succs : I -> list I),
    (forall x y, In y (succs x) -> leb (weight y) (weight x) = true) ->
  forall (init : list I) (x : I),
    (forall len, exists y, In y (level succs len init) /\ leb (weight y) (weight x) = false) ->
  forall n, ~ In x (until_none (fst (search_calls (heap_agenda weight leb H) succs n (heap_collect weight leb H init)))).
Proof.
  intros I W weight leb TO H succs MONO init x HD n. pose proof (heap_maxfirst weight leb H) as AM.
  apply (weighted_starves _ _ _ _ _ TO AM succs MONO n _ init x); [apply heap_wf_collect|apply heap_collect_content|assumption].
Qed.
Print Assumptions C03_weighted_starves.

Example C03_example :
  let succs := fun x => if Nat.ltb 1 x then [x / 2; x - 2] else [] in
  (forall x y, In y (succs x) -> Nat.leb y x = true) /\
  let H := list_heap _ (wi_TO Nat.leb nat_leb_TO) in
  until_none (fst (search_calls (heap_agenda (fun x => x) Nat.leb H) succs 20 (heap_collect (fun x => x) Nat.leb H [5])))
  = [5; 3; 2; 1; 1; 1; 0].
Proof.
  split; [|vm_compute; reflexivity].
  intros x y H. destruct (Nat.ltb_spec 1 x); [|destruct H].
  apply Nat.leb_le. destruct H as [<-|[<-|[]]]; [apply Nat.div_le_upper_bound; lia|lia].
Qed.

(* an endless search in which 2 is found nevertheless, and one in which 2 is never found *)
Example C03_finds_example :
  let succs := fun x => if Nat.leb 2 x then [x - 1; x - 1] else [x] in
  (forall x y, In y (succs x) -> Nat.leb y x = true) /\ In 2 (walks succs 2 [3]) /\
  forall len, 2 <= len -> length (filter (fun y => Nat.leb 2 y) (walks succs len [3])) = length (filter (fun y => Nat.leb 2 y) (walks succs 2 [3])).
Proof.
  intros succs. split; [|split; [cbn; auto|]].
  - intros x y. unfold succs. destruct (Nat.leb_spec 2 x); cbn; intros Hy; apply Nat.leb_le; intuition lia.
  - intros len HL. rewrite !walks_forest.
    assert (L : forall k xs, (forall y, In y xs -> y = 1) -> forall y, In y (level succs k xs) -> y = 1).
    { induction k as [|k IH]; intros xs Hxs y Hy; [auto|]. cbn in Hy. eapply IH; [|exact Hy]. intros z Hz. apply in_flat_map in Hz.
      destruct Hz as (u & Hu & Hz). rewrite (Hxs u Hu) in Hz. destruct Hz as [<-|[]]. reflexivity. }
    replace len with (2 + (len - 2)) by lia. generalize (len - 2). intros k. induction k as [|k IH]; [reflexivity|].
    rewrite Nat.add_succ_r, forest_level_S, filter_app, app_length, IH.
    replace (filter (fun y => Nat.leb 2 y) (level succs (2 + k) [3])) with (@nil nat); [cbn; lia|]. symmetry.
    destruct (filter _ (level succs (2 + k) [3])) as [|z l] eqn:F; [reflexivity|].
    assert (Hz : In z (z :: l)) by now left. rewrite <- F in Hz. apply filter_In in Hz. destruct Hz as [Hz1 Hz2].
    change (level succs (2 + k) [3]) with (level succs k [1;1;1;1]) in Hz1. apply L in Hz1; [subst z; discriminate|].
    cbn. intuition.
Qed.
Example C03_starves_example :
  let succs := fun x => if Nat.leb 3 x then [x; x - 1] else [] in
  (forall x y, In y (succs x) -> Nat.leb y x = true) /\
  forall len, exists y, In y (level succs len [3]) /\ Nat.leb y 2 = false.
Proof.
  intros succs. split.
  - intros x y. unfold succs. destruct (Nat.leb_spec 3 x); cbn; intros Hy; apply Nat.leb_le; intuition lia.
  - intros len. exists 3. split; [|reflexivity]. assert (G : forall xs, In 3 xs -> In 3 (level succs len xs)); [|apply G; now left].
    induction len as [|len IH]; intros xs Hx; [assumption|]. cbn. apply IH. apply in_flat_map. exists 3. split; [assumption|now left].
Qed.

(* C04.  uniques() never returns a node twice, over any number of calls to next() (even after a None), and returns only
   reachable nodes; if the agenda has run empty, every reachable node has been returned. *)
Theorem C04_uniques_never_repeat :
  forall (I : Type) (eqb : I -> I -> bool), EqbSpec eqb ->
  forall (A : agenda I) (content : ag_T A -> list I), agenda_sound A content ->
  forall (succs : I -> list I) (a : ag_T A) (n : nat),
    NoDup (returned (fst (unique_calls A succs eqb n (unique_from A a)))) /\
    forall x, In x (returned (fst (unique_calls A succs eqb n (unique_from A a)))) -> reachable succs (content a) x.
Proof.
  intros I eqb E A c S succs a n. split.
  - destruct (unique_nodup_gen A succs eqb E n (unique_from A a)) as [N _]; [constructor|]. exact N.
  - intros x Hx. unfold returned in Hx. apply in_flat_map in Hx. destruct Hx as ([z|] & Hz & Hx); [|destruct Hx].
    destruct Hx as [<-|[]]. eapply (unique_reachable A c S succs eqb) with (s := unique_from A a); [|exact Hz].
    intros y Hy. now constructor.
Qed.
Print Assumptions C04_uniques_never_repeat.

(* Exhaustive, but only when the agenda is empty; a None alone does not imply that (see C04_uniques_stop_early_refuted).
   Missing from the full claim: "if next() returns None then every reachable node has been returned". *)
Theorem C04_uniques_exhaustive_partial :
  forall (I : Type) (eqb : I -> I -> bool), EqbSpec eqb ->
  forall (A : agenda I) (content : ag_T A -> list I), agenda_lossless A content ->
  forall (succs : I -> list I) (a : ag_T A) (n : nat),
    let r := unique_calls A succs eqb n (unique_from A a) in
    content (fst (snd r)) = [] -> forall x, reachable succs (content a) x -> In x (returned (fst r)).
Proof. intros I eqb E A c L succs a n. eapply (unique_exhaustive A c L succs eqb E n a (c a)). reflexivity. Qed.
Print Assumptions C04_uniques_exhaustive_partial.

(* If no node is the end of two different walks, uniques() returns exactly what the plain search returns, so the first
   None does mean that everything was returned (by C02). *)
Theorem C04_uniques_tree_partial :
  forall (I : Type) (eqb : I -> I -> bool), EqbSpec eqb ->
  forall (A : agenda I) (content : ag_T A -> list I), agenda_lossless A content ->
  forall (succs : I -> list I) (a : ag_T A), (forall D, NoDup (walks succs D (content a))) ->
  forall n, fst (unique_calls A succs eqb n (unique_from A a)) = fst (search_calls A succs n a).
Proof.
  intros I eqb E A c L succs a N n. eapply (unique_eq_search A c L succs eqb E (c a) n) with (outs := []).
  - intros D. rewrite <- walks_forest. apply N.
  - apply partitions_init. reflexivity.
  - tauto.
Qed.
Print Assumptions C04_uniques_tree_partial.

(* Finding: next() returns None as soon as an already visited node is popped, so a for loop over uniques() can stop
   although reachable nodes have not been returned: 0 -> 1, 0 -> 2, 1 -> 3, 2 -> 3, 3 -> 4 (breadth first). *)
Theorem C04_uniques_stop_early_refuted :
  exists (succs : nat -> list nat) (init : list nat) (x : nat),
    reachable succs init x /\
    forall n, ~ In x (until_none (fst (unique_calls (deque_agenda nat) succs Nat.eqb n
                                         (unique_from (deque_agenda nat) (bfs_init init))))).
Proof.
  exists (fun x => match x with 0 => [1; 2] | 1 => [3] | 2 => [3] | 3 => [4] | _ => [] end), [0], 4. split.
  - apply reachable_level. exists 3. cbn. auto.
  - intros n H. do 6 (destruct n as [|n]; [revert H; vm_compute; intuition discriminate|]).
    rewrite !ucalls_S in H. cbn -[unique_calls] in H. intuition discriminate.
Qed.
Print Assumptions C04_uniques_stop_early_refuted.

Example C04_example : (* hypotheses of the tree theorem are met by a branching graph *)
  let succs := fun x => if Nat.ltb x 4 then [2 * x; 2 * x + 1] else [] in
  (forall D, NoDup (walks succs D [1])) /\
  fst (unique_calls (vec_agenda nat) succs Nat.eqb 8 (unique_from (vec_agenda nat) [1])) =
    [Some 1; Some 3; Some 7; Some 6; Some 2; Some 5; Some 4; None].
Proof.
  split; [|reflexivity]. intros D.
  assert (N : NoDup [1; 2; 3; 4; 5; 6; 7]) by (repeat constructor; cbn; intuition discriminate).
  destruct (Nat.le_gt_cases 3 D) as [G|G].
  - rewrite walks_forest. rewrite (forest_stable _ 3 D) by (reflexivity || assumption). exact N.
  - destruct D as [|[|[|D]]]; [| | |lia]; vm_compute;
      repeat first [apply NoDup_nil | apply NoDup_cons; [cbn; intuition discriminate|]].
Qed.

(* C05.  LimitedHeap: for every history of pushes, pops and clears the size stays within the capacity ... *)
Theorem C05_limited_heap_capacity :
  forall (I W : Type) (leb : W -> W -> bool) (H : minmax_heap (I * W) (wi_leb leb)) (c : nat) (ops : list (lh_op I W)),
    let h := snd (lh_run H (lh_with_capacity H c) ops) in
    lh_len H h = length (lh_items H h) /\ lh_len H h <= c /\ lh_items H (lh_clear H h) = [].
Proof.
  intros. split; [apply lh_len_items|]. split; [|apply (mm_empty_c H)]. apply (lh_bound H ops (lh_with_capacity H c)).
  unfold lh_len. cbn. rewrite (mm_len_c H), (mm_empty_c H). cbn. lia.
Qed.
Print Assumptions C05_limited_heap_capacity.

(* ... no item vanishes: what was pushed was handed back by a push, returned by a pop, or is still held; a pop (and
   peek) gives an item of maximal priority and None exactly if the heap is empty ... *)
Theorem C05_limited_heap_conserves :
  forall (I W : Type) (leb : W -> W -> bool) (H : minmax_heap (I * W) (wi_leb leb)) (c : nat) (ops : list (lh_op I W)),
    let h := snd (lh_run H (lh_with_capacity H c) ops) in
    (~ In LClear ops ->
       Permutation (pushed_items ops)
                   (handed_out (fst (lh_run H (lh_with_capacity H c) ops)) ++ map fst (lh_items H h))) /\
    match lh_pop H h with
    | None => lh_items H h = []
    | Some (x, h') => lh_peek H h = Some x /\
        exists w, Permutation (lh_items H h) ((x, w) :: lh_items H h') /\
                  forall q, In q (lh_items H h) -> leb (snd q) w = true
    end.
Proof.
  intros. split.
  - intros N. pose proof (lh_conserve H ops (lh_with_capacity H c) N) as P.
    unfold lh_items in P at 1. cbn in P. rewrite (mm_empty_c H) in P. exact P.
  - pose proof (lh_pop_spec H h) as S. rewrite lh_peek_pop. destruct (lh_pop H h) as [[x h']|]; [|exact S].
    split; [reflexivity|]. apply S.
Qed.
Print Assumptions C05_limited_heap_conserves.

(* ... and after any sequence of pushes it holds min(c, number of pushes) of the pushed items, none of which is worse
   than any item it handed back. *)
Theorem C05_limited_heap_keeps_best :
  forall (I W : Type) (leb : W -> W -> bool), TotalOrder leb ->
  forall (H : minmax_heap (I * W) (wi_leb leb)) (c : nat) (ps : list (I * W)),
    let r := lh_run H (lh_with_capacity H c) (map (fun q => LPush (fst q) (snd q)) ps) in
    exists dropped,
      Permutation ps (lh_items H (snd r) ++ dropped) /\
      length (lh_items H (snd r)) = Nat.min c (length ps) /\
      handed_out (fst r) = map fst dropped /\
      forall d k, In d dropped -> In k (lh_items H (snd r)) -> leb (snd d) (snd k) = true.
Proof.
  intros I W leb TO H c ps r.
  destruct (lh_best TO H ps c (lh_with_capacity H c) [] []) as (k' & d' & Q1 & Q2 & Q3 & Q4 & Q5); auto.
  - unfold lh_items. cbn. rewrite (mm_empty_c H). reflexivity.
  - cbn. lia.
  - congruence.
  - exists d'. fold r in Q2, Q4. repeat split; auto.
    + cbn in Q1. rewrite Q1. now rewrite Q2.
    + rewrite (Permutation_length Q2). exact Q3.
    + intros d k Hd Hk. apply Q5; [exact Hd|]. now apply (Permutation_in _ Q2).
Qed.
Print Assumptions C05_limited_heap_keeps_best.

Example C05_example :
  let H := list_minmax _ (wi_TO (I := nat) Nat.leb nat_leb_TO) in
  let r := lh_run H (lh_with_capacity H 2) (map (fun q => LPush (fst q) (snd q)) [(10, 1); (11, 5); (12, 3); (13, 0)]) in
  fst r = [None; None; Some 10; Some 13] /\ lh_items H (snd r) = [(11, 5); (12, 3)].
Proof. split; reflexivity. Qed.

(* C06.  BeamHeap, after any history of pushes and pops: a push is accepted exactly if the heap is empty or the priority
   is at least beta times the maximum held; it then adds exactly that item, otherwise it changes nothing; pop and peek
   give a maximal item; everything accepted is popped later or still held. *)
Theorem C06_beam_heap :
  forall (I W : Type) (leb : W -> W -> bool), Antisym leb ->
  forall (mul : W -> W -> W) (H : max_heap (I * W) (wi_leb leb)) (beta : W) (ops : list (bh_op I W)),
    let r := bh_run mul H (bh_new H beta) ops in
    let h := snd r in
    (forall e p,
      (fst (bh_push mul H e p h) = true <->
         bh_items H h = [] \/
         exists m, In m (bh_items H h) /\ (forall q, In q (bh_items H h) -> leb (snd q) (snd m) = true) /\
                   leb (mul (snd m) beta) p = true) /\
      (fst (bh_push mul H e p h) = true ->
         Permutation (bh_items H (snd (bh_push mul H e p h))) ((e, p) :: bh_items H h)) /\
      (fst (bh_push mul H e p h) = false -> snd (bh_push mul H e p h) = h)) /\
    match bh_pop H h with
    | None => bh_items H h = []
    | Some (x, h') => bh_peek H h = Some x /\
        exists w, Permutation (bh_items H h) ((x, w) :: bh_items H h') /\
                  forall q, In q (bh_items H h) -> leb (snd q) w = true
    end /\
    Permutation (bh_accepted ops (fst r)) (bh_popped (fst r) ++ map fst (bh_items H h)) /\
    bh_len H h = length (bh_items H h) /\ bh_items H (bh_clear H h) = [].
Proof.
  intros I W leb AS mul H beta ops r h. split; [|split].
  - intros e p. pose proof (bh_push_iff mul H AS e p h) as Q.
    replace (bh_beta H h) with beta in Q; [exact Q|]. symmetry. apply (bh_beta_run mul H ops (bh_new H beta)).
  - pose proof (bh_pop_spec H h) as S. rewrite bh_peek_pop. destruct (bh_pop H h) as [[x h']|]; [|exact S].
    split; [reflexivity|]. apply S.
  - pose proof (bh_conserve mul H ops (bh_new H beta)) as P. unfold bh_items in P at 1. cbn in P.
    rewrite (mh_empty_c H) in P. split; [exact P|]. split; [apply (mh_len_c H)|apply (mh_empty_c H)].
Qed.
Print Assumptions C06_beam_heap.

Example C06_example : (* costs: beta = 2 accepts items costing at most 2 more than the best *)
  let leb := fun a b => Nat.leb b a in
  let TO : TotalOrder leb := geb_TO Nat.leb nat_leb_TO in
  let H := list_heap _ (wi_TO (I := nat) leb TO) in
  fst (bh_run Nat.add H (bh_new H 2) [BPush 1 5; BPush 2 7; BPush 3 8; BPush 4 1; BPush 5 4; BPop; BPop])
  = [BPushed true; BPushed true; BPushed false; BPushed true; BPushed false; BPopped (Some 4); BPopped (Some 1)].
Proof. reflexivity. Qed.

(* C07.  UniqueHeap built by default(), collect(), or from a vector without repeated elements, after any history: each
   element is held at most once; push returns true exactly if the element was not held and then adds exactly it, and
   otherwise changes nothing; pop removes an element of maximal weight.
   Missing from the full claim: construction by From<Vec> with repeated elements (refuted below). *)
Theorem C07_unique_heap_partial :
  forall (It Wt : Type) (eqb : It -> It -> bool), EqbSpec eqb ->
  forall (la : Wt -> Wt -> bool) (lb : It -> It -> bool) (H : max_heap (Wt * It) (lex_leb la lb)) (h0 : unique_heap H),
    (h0 = uh_default H \/ (exists l, h0 = uh_from_iter eqb H l) \/
     (exists v, NoDup (map snd v) /\ h0 = uh_from_vec eqb H v)) ->
  forall (ops : list (uh_op It Wt)),
    let h := uh_run eqb H h0 ops in
    NoDup (map snd (uh_items H h)) /\
    (forall i w,
      (fst (uh_push eqb H i w h) = true <-> ~ In i (map snd (uh_items H h))) /\
      (fst (uh_push eqb H i w h) = true ->
         Permutation (uh_items H (snd (uh_push eqb H i w h))) ((w, i) :: uh_items H h)) /\
      (fst (uh_push eqb H i w h) = false -> uh_items H (snd (uh_push eqb H i w h)) = uh_items H h)) /\
    match uh_pop eqb H h with
    | None => uh_items H h = []
    | Some ((i, w), h') => Permutation (uh_items H h) ((w, i) :: uh_items H h') /\
        forall q, In q (uh_items H h) -> la (fst q) w = true
    end /\
    (* peek shows what pop would return, len counts, is_empty tells whether there is nothing *)
    uh_peek H h = option_map (fun p => (snd (fst p), fst (fst p))) (uh_pop eqb H h) /\
    uh_len H h = length (uh_items H h) /\ (uh_is_empty H h = true <-> uh_items H h = []).
Proof.
  intros It Wt eqb E la lb H h0 B ops h.
  assert (Inv : uh_inv H h).
  { apply uh_inv_run; [assumption|]. destruct B as [->|[[l ->]|(v & N & ->)]].
    - apply uh_inv_default.
    - rewrite uh_from_iter_pushes. apply uh_inv_run; [assumption|apply uh_inv_default].
    - now apply uh_from_vec_inv. }
  split; [apply Inv|]. split.
  - intros i w. destruct (uh_push_spec eqb E H i w h Inv) as [_ [(H1 & H2 & H3)|(H1 & H2 & H3)]]; rewrite H2.
    + repeat split; try congruence.
    + repeat split; auto. congruence.
  - split; [|split; [|split]].
    + pose proof (uh_pop_spec eqb E H h Inv) as S. destruct (uh_pop eqb H h) as [[[i w] h']|]; [|exact S].
      destruct S as (_ & P & _ & M). split; [exact P|]. intros q Hq. apply M in Hq. revert Hq. unfold lex_leb. cbn.
      destruct (la (fst q) w); congruence.
    + unfold uh_peek, uh_pop. rewrite (mh_peek_pop H). now destruct (mh_pop H (uh_heap H h)) as [[[w i] h']|].
    + apply (mh_len_c H).
    + unfold uh_is_empty, uh_items. rewrite (mh_len_c H), Nat.eqb_eq. apply length_zero_iff_nil.
Qed.
Print Assumptions C07_unique_heap_partial.

Definition C07_heap := list_heap _ (lex_TO Nat.leb Nat.leb nat_leb_TO nat_leb_TO).

(* Finding: From<Vec> keeps repeated elements, so the heap holds and returns an element twice; after the first copy has
   been popped, push even adds a third one. *)
Theorem C07_from_vec_duplicates_refuted :
  exists v : list (nat * nat),
    let h := uh_from_vec Nat.eqb C07_heap v in
    ~ NoDup (map snd (uh_items C07_heap h)) /\
    exists h1 h2, uh_pop Nat.eqb C07_heap h = Some ((7, 2), h1) /\ uh_pop Nat.eqb C07_heap h1 = Some ((7, 1), h2).
Proof.
  exists [(1, 7); (2, 7)]. split.
  - cbn. intros N. inversion N as [|? ? G _]; subst. apply G. now left.
  - eexists. eexists. split; reflexivity.
Qed.
Print Assumptions C07_from_vec_duplicates_refuted.

Example C07_example :
  let h := uh_from_iter Nat.eqb C07_heap [(3, 10); (1, 1); (2, 5); (3, 12)] in
  uh_items C07_heap h = [(5, 2); (1, 1); (10, 3)] /\
  fst (uh_push Nat.eqb C07_heap 1 2 h) = false /\
  option_map fst (uh_pop Nat.eqb C07_heap h) = Some (3, 10).
Proof. repeat split; reflexivity. Qed.
