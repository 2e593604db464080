(* Proofs about Search and unique::Search. *)
From Verif Require Import Base M_Agenda M_Search S_Search P_Agenda.
Arguments Nat.ltb : simpl never.

Section Walks.
  Context {I : Type} (succs : I -> list I).
  Notation level := (level succs). Notation walks := (walks succs).

  Fixpoint forest (D : nat) (xs : list I) : list I :=
    match D with 0 => [] | S D => xs ++ forest D (flat_map succs xs) end.

  Lemma walks_forest D : forall xs, walks D xs = forest D xs.
  Proof.
    unfold S_Search.walks. induction D as [|D IH]; intros xs; [reflexivity|].
    cbn. f_equal. rewrite <- IH. rewrite <- seq_shift. generalize (seq 0 D). intros l. clear.
    induction l as [|e l IHl]; cbn; [reflexivity|]. now rewrite IHl.
  Qed.

  Lemma forest_nil D : forest D [] = [].
  Proof. induction D; cbn; auto. Qed.

  Lemma level_nil d : level d [] = [].
  Proof. induction d; cbn; auto. Qed.

  Lemma forest_app D : forall xs ys, Permutation (forest D (xs ++ ys)) (forest D xs ++ forest D ys).
  Proof.
    induction D as [|D IH]; intros xs ys; [reflexivity|]. cbn. rewrite flat_map_app, IH.
    rewrite <- !app_assoc. apply Permutation_app_head. rewrite !app_assoc. apply Permutation_app_tail.
    apply Permutation_app_comm.
  Qed.

  Lemma flat_map_perm {A B} (f : A -> list B) l l' : Permutation l l' -> Permutation (flat_map f l) (flat_map f l').
  Proof.
    induction 1; cbn; auto.
    - now apply Permutation_app_head.
    - rewrite !app_assoc. apply Permutation_app_tail. apply Permutation_app_comm.
    - etransitivity; eauto.
  Qed.

  Lemma forest_perm D : forall xs ys, Permutation xs ys -> Permutation (forest D xs) (forest D ys).
  Proof.
    induction D as [|D IH]; intros xs ys P; [reflexivity|]. cbn. apply Permutation_app; [assumption|].
    apply IH. now apply flat_map_perm.
  Qed.

  Lemma forest_flat D : forall ts : list (nat * I), forall d,
    (forall t, In t ts -> fst t = d) ->
    Permutation (flat_map (fun t => forest (D - fst t) [snd t]) ts) (forest (D - d) (map snd ts)).
  Proof.
    intros ts d. induction ts as [|[e x] ts IH]; intros H; cbn.
    - rewrite forest_nil. reflexivity.
    - rewrite IH by (intros; apply H; now right). replace e with d by (symmetry; apply (H (e, x)); now left).
      change (x :: map snd ts) with ([x] ++ map snd ts). now rewrite forest_app.
  Qed.

  Lemma forest_level_S D : forall xs, forest (S D) xs = forest D xs ++ level D xs.
  Proof.
    induction D as [|D IH]; intros xs.
    - cbn. now rewrite app_nil_r.
    - change (forest (S (S D)) xs) with (xs ++ forest (S D) (flat_map succs xs)). rewrite IH.
      cbn. now rewrite app_assoc.
  Qed.

  Lemma level_nil_succ d : forall xs, level d xs = [] -> level (S d) xs = [].
  Proof.
    induction d as [|d IH]; intros xs H.
    - cbn in *. subst. reflexivity.
    - cbn in H. change (level (S (S d)) xs) with (level (S d) (flat_map succs xs)). now apply IH.
  Qed.

  Lemma level_nil_ge d e xs : level d xs = [] -> d <= e -> level e xs = [].
  Proof. intros H. induction 1; [assumption|]. now apply level_nil_succ. Qed.

  Lemma forest_stable D E xs : level D xs = [] -> D <= E -> forest E xs = forest D xs.
  Proof.
    intros H. induction 1 as [|E HE IH]; [reflexivity|]. rewrite forest_level_S, IH.
    rewrite (level_nil_ge D E) by assumption. apply app_nil_r.
  Qed.

  Lemma in_level_forest d D x xs : In x (level d xs) -> d < D -> In x (forest D xs).
  Proof.
    intros H L. rewrite <- walks_forest. unfold S_Search.walks. apply in_flat_map. exists d. split; [|assumption].
    apply in_seq. lia.
  Qed.

  Lemma reachable_level init x : reachable succs init x <-> exists d, In x (level d init).
  Proof.
    split.
    - induction 1 as [x H|x y H IH Hy]; [exists 0; assumption|]. destruct IH as [d IH]. exists (S d).
      clear H. revert init IH. induction d as [|d IHd]; intros init IH; cbn in *.
      + apply in_flat_map. eauto.
      + now apply IHd.
    - intros [d H]. revert init H.
      assert (gen : forall xs init, (forall y, In y xs -> reachable succs init y) -> In x (level d xs) ->
                                    reachable succs init x).
      { induction d as [|d IH]; intros xs init G H; cbn in H; [now apply G|].
        eapply IH; [|exact H]. intros y Hy. apply in_flat_map in Hy. destruct Hy as (z & Hz & Hy).
        eapply reach_step; eauto. }
      intros init H. eapply gen; [|exact H]. intros y Hy. now constructor.
  Qed.
End Walks.

Lemma calls_S {I} (A : agenda I) succs n a : search_calls A succs (S n) a =
  (fst (search_next A succs a) :: fst (search_calls A succs n (snd (search_next A succs a))),
   snd (search_calls A succs n (snd (search_next A succs a)))).
Proof. cbn. destruct (search_next A succs a) as [o a1]. cbn. now destruct (search_calls A succs n a1). Qed.

Section Sound.
  Context {I : Type} (A : agenda I) (content : ag_T A -> list I) (AS : agenda_sound A content) (succs : I -> list I).

  Lemma extend_sound xs : forall a y, In y (content (ag_extend A xs a)) -> In y xs \/ In y (content a).
  Proof.
    induction xs as [|x xs IH]; intros a y H; cbn in *; [now right|].
    apply IH in H. destruct H as [H|H]; [left; now right|].
    apply (as_push _ _ AS) in H. destruct H as [->|H]; [left; now left|now right].
  Qed.

  Lemma search_reachable init n : forall a,
    (forall y, In y (content a) -> reachable succs init y) ->
    forall x, In (Some x) (fst (search_calls A succs n a)) -> reachable succs init x.
  Proof.
    induction n as [|n IH]; intros a H x Hx; [contradiction|].
    rewrite calls_S in Hx. cbn [fst] in Hx. unfold search_next in Hx.
    destruct (ag_pop A a) as [[item a']|] eqn:P; cbn [fst snd] in Hx.
    - destruct (as_pop _ _ AS _ _ _ P) as [Hi Ha]. destruct Hx as [Hx|Hx].
      + injection Hx as ->. now apply H.
      + apply IH in Hx; [assumption|]. intros y Hy. apply extend_sound in Hy. destruct Hy as [Hy|Hy].
        * eapply reach_step; [|exact Hy]. now apply H.
        * apply H. now apply Ha.
    - destruct Hx as [Hx|Hx]; [discriminate|]. now apply IH in Hx.
  Qed.

  Context (eqb : I -> I -> bool).

  Lemma ucalls_S n s : unique_calls A succs eqb (S n) s =
    (fst (unique_next A succs eqb s) :: fst (unique_calls A succs eqb n (snd (unique_next A succs eqb s))),
     snd (unique_calls A succs eqb n (snd (unique_next A succs eqb s)))).
  Proof.
    cbn. destruct (unique_next A succs eqb s) as [o s1]. cbn. now destruct (unique_calls A succs eqb n s1).
  Qed.

  Lemma unique_reachable init n : forall s,
    (forall y, In y (content (fst s)) -> reachable succs init y) ->
    forall x, In (Some x) (fst (unique_calls A succs eqb n s)) -> reachable succs init x.
  Proof.
    induction n as [|n IH]; intros [a el] H x Hx; [contradiction|].
    rewrite ucalls_S in Hx. cbn [fst] in Hx. unfold unique_next in Hx.
    destruct (ag_pop A a) as [[item a']|] eqn:P; cbn [fst snd] in Hx.
    - destruct (as_pop _ _ AS _ _ _ P) as [Hi Ha]. destruct (memb eqb item el) eqn:M; cbn [fst snd] in Hx.
      + destruct Hx as [Hx|Hx]; [discriminate|]. apply IH in Hx; [assumption|]. cbn. intros y Hy. apply H. now apply Ha.
      + destruct Hx as [Hx|Hx].
        * injection Hx as ->. now apply H.
        * apply IH in Hx; [assumption|]. cbn [fst]. intros y Hy. apply extend_sound in Hy. destruct Hy as [Hy|Hy].
          -- apply filter_In in Hy. eapply reach_step; [|apply Hy]. now apply H.
          -- apply H. now apply Ha.
    - destruct Hx as [Hx|Hx]; [discriminate|]. now apply IH in Hx.
  Qed.

  (* unique search never repeats, over any number of calls, also after a None *)
  Lemma unique_nodup_gen (E : EqbSpec eqb) n : forall s,
    NoDup (snd s) ->
    NoDup (rev (snd s) ++ returned (fst (unique_calls A succs eqb n s))) /\
    snd (snd (unique_calls A succs eqb n s)) = rev (returned (fst (unique_calls A succs eqb n s))) ++ snd s.
  Proof.
    induction n as [|n IH]; intros [a el] H.
    - cbn. rewrite app_nil_r. split; [|reflexivity]. apply (Permutation_NoDup (Permutation_rev _)). assumption.
    - rewrite ucalls_S. cbn [fst]. unfold unique_next.
      destruct (ag_pop A a) as [[item a']|] eqn:P; cbn [fst snd].
      + destruct (memb eqb item el) eqn:M; cbn [fst snd].
        * apply (IH (a', el)). assumption.
        * match goal with |- context [unique_calls A succs eqb n ?s] => destruct (IH s) as [N1 N2] end.
          { cbn. constructor; [|assumption]. now apply (memb_notIn eqb E). }
          cbn [snd] in N1, N2. rewrite N2. cbn in N1. unfold returned in *. cbn. rewrite <- app_assoc in N1.
          cbn in N1. split; [exact N1|]. now rewrite <- app_assoc.
      + apply (IH (a, el)). assumption.
  Qed.
End Sound.

Section Lossless.
  Context {I : Type} (A : agenda I) (content : ag_T A -> list I) (AL : agenda_lossless A content)
          (succs : I -> list I).
  Notation forest := (forest succs). Notation level := (level succs).

  Lemma extend_lossless xs : forall a, Permutation (content (ag_extend A xs a)) (xs ++ content a).
  Proof.
    induction xs as [|x xs IH]; intros a; cbn; [reflexivity|].
    etransitivity; [apply IH|]. rewrite (al_push _ _ AL). symmetry. apply Permutation_middle.
  Qed.

  Lemma calls_none n : forall a, ag_pop A a = None -> search_calls A succs n a = (repeat None n, a).
  Proof.
    induction n as [|n IH]; intros a P; [reflexivity|]. rewrite calls_S. unfold search_next. rewrite P. cbn.
    now rewrite IH.
  Qed.

  Lemma until_none_repeat n : @until_none I (repeat None n) = [].
  Proof. destruct n; reflexivity. Qed.

  (* outs: nodes returned so far; c: agenda content.  Both can be tagged with walk lengths so that they partition
     the walks from init. *)
  Definition partitions (init outs c : list I) : Prop :=
    exists (os ts : list (nat * I)), map snd os = outs /\ Permutation (map snd ts) c /\
      forall D, Permutation (flat_map (fun t => if Nat.ltb (fst t) D then [snd t] else []) os ++
                             flat_map (fun t => forest (D - fst t) [snd t]) ts)
                            (forest D init).

  Lemma partitions_init init c : Permutation init c -> partitions init [] c.
  Proof.
    intros P. exists [], (map (fun x => (0, x)) init). cbn. rewrite map_map, map_id. repeat split; [assumption|].
    intros D. rewrite (forest_flat succs D _ 0).
    - rewrite map_map. cbn. rewrite map_id, Nat.sub_0_r. reflexivity.
    - intros t Ht. apply in_map_iff in Ht. destruct Ht as (x & <- & _). reflexivity.
  Qed.

  Lemma partitions_perm init outs c c' : Permutation c c' -> partitions init outs c -> partitions init outs c'.
  Proof. intros P (os & ts & E1 & E2 & E3). exists os, ts. repeat split; auto. etransitivity; eauto. Qed.

  Lemma partitions_step init outs x c : partitions init outs (x :: c) -> partitions init (outs ++ [x]) (succs x ++ c).
  Proof.
    intros (os & ts & E1 & E2 & E3). symmetry in E2. apply Permutation_map_inv in E2.
    destruct E2 as (l3 & El & Pt). destruct l3 as [|[d y] l3]; [discriminate|]. cbn in El. injection El as <- Ec.
    exists (os ++ [(d, x)]), (map (fun z => (S d, z)) (succs x) ++ l3). repeat split.
    - rewrite map_app, E1. reflexivity.
    - rewrite map_app, map_map. cbn. rewrite map_id, Ec. reflexivity.
    - intros D. rewrite <- E3. rewrite (flat_map_perm _ ts ((d, x) :: l3) Pt).
      rewrite !flat_map_app, <- app_assoc. apply Permutation_app_head. cbn [flat_map fst snd].
      rewrite app_nil_r, app_assoc. apply Permutation_app_tail.
      rewrite (forest_flat succs D _ (S d)).
      + rewrite map_map. cbn [snd]. rewrite map_id. destruct (Nat.ltb_spec d D).
        * replace (D - d) with (S (D - S d)) by lia. cbn. rewrite app_nil_r. reflexivity.
        * replace (D - d) with 0 by lia. replace (D - S d) with 0 by lia. reflexivity.
      + intros t Ht. apply in_map_iff in Ht. destruct Ht as (z & <- & _). reflexivity.
  Qed.

  Lemma calls_partitions init n : forall a outs, partitions init outs (content a) ->
    partitions init (outs ++ until_none (fst (search_calls A succs n a))) (content (snd (search_calls A succs n a))).
  Proof.
    induction n as [|n IH]; intros a outs H; [cbn; now rewrite app_nil_r|].
    destruct (ag_pop A a) as [[item a']|] eqn:P.
    - rewrite calls_S. unfold search_next. rewrite P. cbn [fst snd until_none].
      specialize (IH (ag_extend A (succs item) a') (outs ++ [item])). rewrite <- app_assoc in IH. apply IH.
      eapply partitions_perm; [symmetry; apply extend_lossless|]. apply partitions_step.
      eapply partitions_perm; [|exact H]. now apply (al_pop_some _ _ AL).
    - rewrite calls_none by assumption. cbn [fst snd]. rewrite until_none_repeat, app_nil_r. assumption.
  Qed.

  Fixpoint max_tag (os : list (nat * I)) : nat :=
    match os with [] => 0 | t :: r => Nat.max (fst t) (max_tag r) end.

  Lemma all_tags os : forall D, max_tag os < D ->
    flat_map (fun t : nat * I => if Nat.ltb (fst t) D then [snd t] else []) os = map snd os.
  Proof.
    induction os as [|t os IH]; intros D H; [reflexivity|]. cbn [max_tag flat_map map] in *.
    destruct (Nat.ltb_spec (fst t) D); [|lia]. cbn [app]. f_equal. apply IH. lia.
  Qed.

  Lemma partitions_end init outs : partitions init outs [] ->
    exists D, level D init = [] /\ Permutation outs (forest D init).
  Proof.
    intros (os & ts & E1 & E2 & E3). apply Permutation_sym, Permutation_nil, map_eq_nil in E2. subst ts.
    set (D := S (max_tag os)).
    assert (PD : forall E, D <= E -> Permutation outs (forest E init)).
    { intros E HE. rewrite <- (E3 E). cbn. rewrite app_nil_r, all_tags by (subst D; lia). now rewrite E1. }
    exists D. split; [|apply PD; lia].
    assert (L : length (forest (S D) init) = length (forest D init)).
    { pose proof (PD D ltac:(lia)) as P1. pose proof (PD (S D) ltac:(lia)) as P2.
      apply Permutation_length in P1, P2. congruence. }
    rewrite forest_level_S, app_length in L. destruct (level D init); [reflexivity|cbn in L; lia].
  Qed.

  Lemma until_none_short n : forall a, length (until_none (fst (search_calls A succs n a))) < n ->
    content (snd (search_calls A succs n a)) = [].
  Proof.
    induction n as [|n IH]; intros a H; [lia|].
    destruct (ag_pop A a) as [[item a']|] eqn:P.
    - rewrite calls_S in *. unfold search_next in *. rewrite P in *. cbn in H. cbn [snd fst]. apply IH. cbn. lia.
    - rewrite calls_none by assumption. cbn. now apply (al_pop_none _ _ AL).
  Qed.

  Lemma until_none_le n : forall a, length (until_none (fst (search_calls A succs n a))) <= n.
  Proof.
    induction n as [|n IH]; intros a; [cbn; lia|]. rewrite calls_S. unfold search_next.
    destruct (ag_pop A a) as [[item a']|]; cbn; [|lia]. apply le_n_S, IH.
  Qed.

  Lemma in_none_short n : forall a, In None (fst (search_calls A succs n a)) ->
    length (until_none (fst (search_calls A succs n a))) < n.
  Proof.
    induction n as [|n IH]; intros a H; [contradiction|]. rewrite calls_S in *. unfold search_next in *.
    destruct (ag_pop A a) as [[item a']|] eqn:P; cbn in *; [|lia].
    destruct H as [H|H]; [discriminate|]. apply IH in H. lia.
  Qed.

  (* C02: if it ends, it returned exactly the walks *)
  Lemma search_end n a init : Permutation (content a) init ->
    In None (fst (search_calls A succs n a)) ->
    exists D, level D init = [] /\ Permutation (until_none (fst (search_calls A succs n a))) (forest D init).
  Proof.
    intros P H. apply partitions_end.
    rewrite <- (until_none_short n a) by now apply in_none_short.
    apply (calls_partitions init n a []). apply partitions_init. now symmetry.
  Qed.

  (* prefixes: what was returned is a sub-multiset of the walks *)
  Lemma search_prefix n a init : Permutation (content a) init ->
    exists D rest, Permutation (until_none (fst (search_calls A succs n a)) ++ rest) (forest D init).
  Proof.
    intros P.
    destruct (calls_partitions init n a []) as (os & ts & E1 & E2 & E3).
    { apply partitions_init. now symmetry. }
    cbn [app] in E1. exists (S (max_tag os)). eexists. rewrite <- E1, <- E3, all_tags by lia. reflexivity.
  Qed.

  (* C02: if the set of walks is finite, it ends *)
  Lemma search_terminates a init D n : Permutation (content a) init -> level D init = [] ->
    length (forest D init) < n -> In None (fst (search_calls A succs n a)).
  Proof.
    intros P HD HN.
    assert (L : length (until_none (fst (search_calls A succs n a))) <= length (forest D init)).
    { destruct (search_prefix n a init P) as (E & rest & PE).
      apply Permutation_length in PE. rewrite app_length in PE.
      destruct (Nat.le_ge_cases D E) as [G|G].
      - rewrite (forest_stable succs D E) in PE by assumption. lia.
      - assert (M : forall k, length (forest E init) <= length (forest (E + k) init)).
        { induction k as [|k IHk]; [now rewrite Nat.add_0_r|].
          replace (E + S k) with (S (E + k)) by lia. rewrite forest_level_S, app_length. lia. }
        specialize (M (D - E)). replace (E + (D - E)) with D in M by lia. lia. }
    clear HD P. assert (G : length (until_none (fst (search_calls A succs n a))) < n) by lia. clear L HN.
    revert a G. induction n as [|n IH]; intros a G; [lia|]. rewrite calls_S in *. unfold search_next in *.
    destruct (ag_pop A a) as [[item a']|] eqn:Q; cbn in *; [|now left]. right. apply IH. lia.
  Qed.

  (* unique search is exhaustive once its agenda is empty *)
  Context (eqb : I -> I -> bool) (E : EqbSpec eqb).

  Definition ucov (init : list I) (s : unique_state A) : Prop :=
    (forall x, In x init -> In x (snd s) \/ In x (content (fst s))) /\
    (forall x y, In x (snd s) -> In y (succs x) -> In y (snd s) \/ In y (content (fst s))).

  Lemma ucov_step init s : ucov init s -> ucov init (snd (unique_next A succs eqb s)).
  Proof.
    destruct s as [a el]. intros [H1 H2]. unfold unique_next.
    destruct (ag_pop A a) as [[item a']|] eqn:P; cbn [fst snd] in *; [|split; assumption].
    pose proof (al_pop_some _ _ AL _ _ _ P) as PP.
    assert (Q : forall y, In y (content a) -> y = item \/ In y (content a')).
    { intros y Hy. apply (Permutation_in _ PP) in Hy. destruct Hy; auto. }
    destruct (memb eqb item el) eqn:M; cbn [fst snd].
    - apply (memb_In eqb E) in M. split.
      + intros x Hx. apply H1 in Hx. destruct Hx as [Hx|Hx]; [now left|]. apply Q in Hx.
        destruct Hx as [->|Hx]; [now left|now right].
      + intros x y Hx Hy. apply (H2 x y Hx) in Hy. destruct Hy as [Hy|Hy]; [now left|]. apply Q in Hy.
        destruct Hy as [->|Hy]; [now left|now right].
    - assert (R : forall y, In y (content a') -> In y (content
                 (ag_extend A (filter (fun i => negb (memb eqb i (item :: el))) (succs item)) a'))).
      { intros y Hy. apply (Permutation_in _ (Permutation_sym (extend_lossless _ _))). apply in_or_app. now right. }
      unfold ucov; cbn [fst snd]. split.
      + intros x Hx. apply H1 in Hx. destruct Hx as [Hx|Hx]; [left; now right|]. apply Q in Hx.
        destruct Hx as [->|Hx]; [left; now left|right; now apply R].
      + intros x y Hx Hy. cbn [In] in Hx. destruct Hx as [<-|Hx].
        * destruct (memb eqb y (item :: el)) eqn:My.
          -- left. now apply (memb_In eqb E).
          -- right. apply (Permutation_in _ (Permutation_sym (extend_lossless _ _))). apply in_or_app. left.
             apply filter_In. split; [assumption|]. now rewrite My.
        * apply (H2 x y Hx) in Hy. destruct Hy as [Hy|Hy]; [left; now right|]. apply Q in Hy.
          destruct Hy as [->|Hy]; [left; now left|right; now apply R].
  Qed.

  Lemma ucov_calls init n : forall s, ucov init s -> ucov init (snd (unique_calls A succs eqb n s)).
  Proof.
    induction n as [|n IH]; intros s H; [assumption|]. rewrite ucalls_S. cbn [snd]. apply IH. now apply ucov_step.
  Qed.

  Lemma unique_exhaustive n a init : Permutation (content a) init ->
    let r := unique_calls A succs eqb n (unique_from A a) in
    content (fst (snd r)) = [] -> forall x, reachable succs init x -> In x (returned (fst r)).
  Proof.
    intros P r Hc x Hx. pose proof (lossless_sound _ _ AL) as AS.
    assert (C : ucov init (snd r)).
    { apply ucov_calls. split; cbn; [|tauto]. intros y Hy. right. now apply (Permutation_in _ (Permutation_sym P)). }
    destruct C as [C1 C2]. rewrite Hc in *. cbn in C1, C2.
    assert (G : In x (snd (snd r))).
    { induction Hx as [x Hx|x y Hx IH Hy].
      - destruct (C1 x Hx); tauto.
      - destruct (C2 x y IH Hy); tauto. }
    destruct (unique_nodup_gen A succs eqb E n (unique_from A a)) as [_ N2]; [constructor|].
    cbn [snd unique_from] in N2. rewrite app_nil_r in N2. change (unique_calls A succs eqb n (unique_from A a)) with r in N2.
    rewrite N2 in G. now apply in_rev.
  Qed.

  (* tree-shaped graphs: unique search coincides with plain search *)
  Lemma partitions_nodup init outs c : (forall D, NoDup (forest D init)) -> partitions init outs c ->
    NoDup (outs ++ c).
  Proof.
    intros N (os & ts & E1 & E2 & E3). set (D := S (Nat.max (max_tag os) (max_tag ts))).
    specialize (N D). apply (Permutation_NoDup (Permutation_sym (E3 D))) in N.
    rewrite all_tags in N by (subst D; lia). rewrite E1 in N.
    apply (Permutation_NoDup (Permutation_app_head outs E2)).
    assert (G : forall l, max_tag l < D -> exists r,
               Permutation (flat_map (fun t => forest (D - fst t) [snd t]) l) (map snd l ++ r)).
    { clear. clearbody D. induction l as [|[d x] l IH]; intros H; cbn in *; [exists []; reflexivity|].
      destruct IH as [r IH]; [lia|]. destruct (D - d) as [|k] eqn:K; [lia|]. cbn.
      exists (forest k (succs x ++ []) ++ r). rewrite IH. apply perm_skip. apply Permutation_app_swap_app. }
    destruct (G ts) as [r G']; [subst D; lia|]. rewrite G' in N. rewrite app_assoc in N.
    revert N. generalize (outs ++ map snd ts). clear. intros l N.
    induction l as [|x l IH]; [constructor|]. cbn in N. inversion N; subst. constructor; auto.
    intros Hx. apply H1. apply in_or_app. now left.
  Qed.

  Lemma filter_all {B} (f : B -> bool) l : (forall x, In x l -> f x = true) -> filter f l = l.
  Proof.
    induction l as [|x l IH]; intros H; cbn; [reflexivity|]. rewrite (H x) by now left. f_equal. apply IH.
    intros y Hy. apply H. now right.
  Qed.

  Lemma unique_eq_search init n : (forall D, NoDup (forest D init)) -> forall a el outs,
    partitions init outs (content a) -> (forall x, In x el <-> In x outs) ->
    fst (unique_calls A succs eqb n (a, el)) = fst (search_calls A succs n a).
  Proof.
    intros N. induction n as [|n IH]; intros a el outs H Hel; [reflexivity|].
    rewrite ucalls_S, calls_S. cbn [fst]. unfold unique_next, search_next.
    destruct (ag_pop A a) as [[item a']|] eqn:P; cbn [fst snd].
    - pose proof (al_pop_some _ _ AL _ _ _ P) as PP.
      pose proof (partitions_perm _ _ _ _ PP H) as H1.
      pose proof (partitions_nodup _ _ _ N H1) as ND.
      destruct (memb eqb item el) eqn:M.
      { apply (memb_In eqb E) in M. apply Hel in M. apply NoDup_remove_2 in ND. exfalso. apply ND.
        apply in_or_app. now left. }
      cbn [fst snd]. f_equal.
      pose proof (partitions_step _ _ _ _ H1) as H2.
      pose proof (partitions_nodup _ _ _ N H2) as ND2.
      rewrite filter_all.
      + eapply IH; [eapply partitions_perm; [symmetry; apply extend_lossless|exact H2]|].
        intros x. cbn. rewrite in_app_iff. cbn. rewrite Hel. tauto.
      + intros x Hx. apply negb_true_iff. apply (memb_notIn eqb E). intros Hin.
        assert (Hin' : In x (outs ++ [item])).
        { apply in_or_app. cbn in Hin. destruct Hin as [->|Hin]; [right; now left|left; now apply Hel]. }
        revert ND2 Hin' Hx. clear. generalize (outs ++ [item]). intros l ND Hl Hx.
        induction l as [|y l IHl]; [contradiction|]. cbn in ND. inversion ND; subst. destruct Hl as [->|Hl].
        * apply H1. apply in_or_app. right. apply in_or_app. now left.
        * now apply IHl.
    - f_equal. eapply IH; eauto.
  Qed.
End Lossless.

Section Weighted.
  Context {I W : Type} (A : agenda I) (content : ag_T A -> list I) (wf : ag_T A -> Prop) (weight : I -> W)
          (leb : W -> W -> bool) (TO : TotalOrder leb)
          (AM : agenda_maxfirst A content wf weight leb) (succs : I -> list I)
          (MONO : forall x y, In y (succs x) -> leb (weight y) (weight x) = true).
  Let AL := am_lossless _ _ _ _ _ AM.

  Lemma extend_wf xs : forall a, wf a -> wf (ag_extend A xs a).
  Proof. induction xs as [|x xs IH]; intros a H; cbn; [assumption|]. apply IH. now apply (am_wf_push _ _ _ _ _ AM). Qed.

  Lemma weighted_sorted_gen n : forall a, wf a -> 
    nonincreasing weight leb (until_none (fst (search_calls A succs n a))) /\
    forall b, (forall y, In y (content a) -> leb (weight y) b = true) ->
              forall y, In y (until_none (fst (search_calls A succs n a))) -> leb (weight y) b = true.
  Proof.
    induction n as [|n IH]; intros a Hwf; [cbn; split; [constructor|tauto]|].
    rewrite calls_S. unfold search_next. destruct (ag_pop A a) as [[item a']|] eqn:P; cbn [fst snd until_none].
    - pose proof (al_pop_some _ _ AL _ _ _ P) as PP.
      assert (Hwf' : wf (ag_extend A (succs item) a')) by (apply extend_wf; eapply am_wf_pop; eauto).
      destruct (IH _ Hwf') as [S1 S2].
      assert (B : forall y, In y (content (ag_extend A (succs item) a')) -> leb (weight y) (weight item) = true).
      { intros y Hy. apply (Permutation_in _ (extend_lossless A content AL _ _)) in Hy. apply in_app_or in Hy.
        destruct Hy as [Hy|Hy]; [now apply MONO|].
        eapply (am_max _ _ _ _ _ AM a); [assumption|exact P|]. apply (Permutation_in _ (Permutation_sym PP)). now right. }
      split.
      + constructor; [|assumption]. now apply S2.
      + intros b Hb y [<-|Hy].
        * apply Hb. apply (Permutation_in _ (Permutation_sym PP)). now left.
        * apply (S2 (weight item)) in Hy; [|assumption]. eapply to_trans; [exact TO|exact Hy|]. apply Hb.
          apply (Permutation_in _ (Permutation_sym PP)). now left.
    - split; [constructor|]. intros b _ y [].
  Qed.

  Lemma forest_below b D : forall xs, (forall y, In y xs -> leb (weight y) b = true) ->
    forall y, In y (forest succs D xs) -> leb (weight y) b = true.
  Proof.
    induction D as [|D IH]; intros xs H y Hy; cbn in Hy; [contradiction|].
    apply in_app_or in Hy. destruct Hy as [Hy|Hy]; [now apply H|].
    eapply IH; [|exact Hy]. intros z Hz. apply in_flat_map in Hz. destruct Hz as (x & Hx & Hz).
    eapply to_trans; [exact TO|eapply MONO; exact Hz|]. now apply H.
  Qed.

  (* after n calls, every walk strictly heavier than b was returned, if everything still waiting weighs at most b *)
  Lemma weighted_complete n a init b D : Permutation (content a) init ->
    (forall y, In y (content (snd (search_calls A succs n a))) -> leb (weight y) b = true) ->
    exists rest, Permutation (filter (fun y => negb (leb (weight y) b)) (until_none (fst (search_calls A succs n a))))
                             (filter (fun y => negb (leb (weight y) b)) (forest succs D init) ++ rest).
  Proof.
    intros P Hb. destruct (calls_partitions A content AL succs init n a []) as (os & ts & E1 & E2 & E3).
    { apply partitions_init. now symmetry. }
    cbn [app] in E1. specialize (E3 D).
    set (f := fun y => negb (leb (weight y) b)).
    assert (PF : forall l l' : list I, Permutation l l' -> Permutation (filter f l) (filter f l')).
    { clear. induction 1; cbn; auto.
      - destruct (f x); auto.
      - destruct (f x), (f y); auto. apply perm_swap.
      - etransitivity; eauto. }
    apply PF in E3. rewrite filter_app in E3.
    assert (Z : filter f (flat_map (fun t : nat * I => forest succs (D - fst t) [snd t]) ts) = []).
    { destruct (filter f (flat_map _ ts)) as [|z l] eqn:F; [reflexivity|].
      assert (Hz : In z (z :: l)) by now left. rewrite <- F in Hz. apply filter_In in Hz. destruct Hz as [Hz1 Hz2].
      apply in_flat_map in Hz1. destruct Hz1 as (t & Ht & Hz1). subst f. cbn in Hz2.
      rewrite (forest_below b (D - fst t) [snd t]) in Hz2; [discriminate| |assumption].
      intros y [<-|[]]. apply Hb. apply (Permutation_in _ E2). now apply in_map. }
    rewrite Z, app_nil_r in E3.
    assert (G : forall l : list (nat * I), exists r, Permutation (filter f (map snd l))
              (filter f (flat_map (fun t => if Nat.ltb (fst t) D then [snd t] else []) l) ++ r)).
    { clear - f. induction l as [|[d x] l [r IH]]; cbn; [now exists []|].
      destruct (Nat.ltb d D).
      - cbn. destruct (f x).
        + exists r. cbn. now rewrite IH.
        + exists r. assumption.
      - cbn. destruct (f x).
        + exists (x :: r). rewrite IH. apply Permutation_middle.
        + exists r. assumption. }
    destruct (G os) as [r Gr]. exists r. rewrite <- E1, Gr. now rewrite E3.
  Qed.

  (* the remaining agenda weighs at most the last returned node *)
  Lemma weighted_frontier n : forall a x l, wf a ->
    until_none (fst (search_calls A succs n a)) = l ++ [x] ->
    forall y, In y (content (snd (search_calls A succs n a))) -> leb (weight y) (weight x) = true.
  Proof.
    induction n as [|n IH]; intros a x l Hwf E y Hy; [destruct l; discriminate|].
    rewrite calls_S in *. unfold search_next in *.
    destruct (ag_pop A a) as [[item a']|] eqn:P; cbn [fst snd until_none] in *; [|destruct l; discriminate].
    assert (Hwf' : wf (ag_extend A (succs item) a')) by (apply extend_wf; eapply am_wf_pop; eauto).
    destruct l as [|z l].
    - cbn in E. injection E as -> E.
      assert (G : snd (search_calls A succs n (ag_extend A (succs x) a')) = ag_extend A (succs x) a').
      { destruct n as [|n]; [reflexivity|].
        destruct (ag_pop A (ag_extend A (succs x) a')) as [[i2 a2]|] eqn:P2.
        - rewrite calls_S in E. unfold search_next in E. rewrite P2 in E. discriminate.
        - now rewrite calls_none. }
      rewrite G in Hy. apply (Permutation_in _ (extend_lossless A content AL _ _)) in Hy. apply in_app_or in Hy.
      destruct Hy as [Hy|Hy]; [now apply MONO|]. eapply (am_max _ _ _ _ _ AM a); [assumption|exact P|].
      apply (Permutation_in _ (Permutation_sym (al_pop_some _ _ AL _ _ _ P))). now right.
    - cbn in E. injection E as -> E. eapply IH; eauto.
  Qed.

  (* everything returned weighs at least as much as everything still waiting *)
  Lemma weighted_pending n a : wf a -> forall x y, In x (until_none (fst (search_calls A succs n a))) ->
    In y (content (snd (search_calls A succs n a))) -> leb (weight y) (weight x) = true.
  Proof.
    intros Hwf x y Hx Hy. pose proof (proj1 (weighted_sorted_gen n a Hwf)) as NI. pose proof (weighted_frontier n a) as FR.
    destruct (until_none (fst (search_calls A succs n a))) as [|z l] eqn:E using rev_ind; [destruct Hx|].
    clear IHl. specialize (FR z l Hwf eq_refl y Hy). apply in_app_or in Hx. destruct Hx as [Hx|[<-|[]]]; [|assumption].
    eapply to_trans; [exact TO|exact FR|]. clear -NI Hx.
    induction l as [|w l IH]; [destruct Hx|]. cbn in NI. inversion NI; subst. destruct Hx as [<-|Hx]; [|now apply IH].
    apply H1. apply in_or_app. right. now left.
  Qed.

  (* a walk x is returned as soon as the walks that are at least as heavy run out *)
  Lemma weighted_finds n a init D x : wf a -> Permutation (content a) init -> In x (forest succs D init) ->
    (forall E y, D <= E -> In y (level succs E init) -> leb (weight x) (weight y) = false) ->
    length (forest succs D init) < n -> In x (until_none (fst (search_calls A succs n a))).
  Proof.
    intros Hwf P Hx HD Hn. pose proof (weighted_pending n a Hwf) as WP. pose proof (until_none_short A content AL succs n a) as US.
    destruct (calls_partitions A content AL succs init n a []) as (os & ts & E1 & E2 & E3).
    { apply partitions_init. now symmetry. }
    cbn [app] in E1. set (outs := until_none (fst (search_calls A succs n a))) in *.
    set (c := content (snd (search_calls A succs n a))) in *.
    pose proof (Permutation_in _ (Permutation_sym (E3 D)) Hx) as H1. apply in_app_or in H1. destruct H1 as [H1|H1].
    { rewrite <- E1. apply in_flat_map in H1. destruct H1 as (t & Ht & H1). destruct (Nat.ltb (fst t) D); [|destruct H1].
      destruct H1 as [<-|[]]. now apply in_map. }
    exfalso. apply in_flat_map in H1. destruct H1 as (t & Ht & H1).
    assert (Htc : In (snd t) c) by (apply (Permutation_in _ E2); now apply in_map).
    assert (Hb : leb (weight x) (weight (snd t)) = true).
    { eapply forest_below; [|exact H1]. intros y [<-|[]]. destruct (to_total _ TO (weight (snd t)) (weight (snd t))); assumption. }
    assert (LO : length outs = n).
    { pose proof (until_none_le A succs n a) as L. fold outs in L. destruct (Nat.eq_dec (length outs) n) as [|NE]; [assumption|].
      exfalso. rewrite US in Htc by lia. destruct Htc. }
    assert (OB : forall y, In y outs -> leb (weight x) (weight y) = true).
    { intros y Hy. eapply to_trans; [exact TO|exact Hb|]. now apply WP. }
    set (f := fun y => leb (weight x) (weight y)).
    assert (PF : forall l l' : list I, Permutation l l' -> Permutation (filter f l) (filter f l')).
    { clear. induction 1; cbn; auto.
      - destruct (f x0); auto.
      - destruct (f x0), (f y); auto. apply perm_swap.
      - etransitivity; eauto. }
    set (E := Nat.max D (S (max_tag os))).
    specialize (E3 E). rewrite all_tags in E3 by (subst E; lia). rewrite E1 in E3. apply PF in E3. rewrite filter_app in E3.
    assert (FO : filter f outs = outs) by now apply filter_all.
    rewrite FO in E3. apply Permutation_length in E3. rewrite app_length in E3.
    assert (FE : forall k, filter f (forest succs (D + k) init) = filter f (forest succs D init)).
    { induction k as [|k IH]; [now rewrite Nat.add_0_r|]. rewrite Nat.add_succ_r, forest_level_S, filter_app, IH.
      assert (Z : filter f (level succs (D + k) init) = []).
      { destruct (filter f (level succs (D + k) init)) as [|z l] eqn:F; [reflexivity|].
        assert (Hz : In z (z :: l)) by now left. rewrite <- F in Hz. apply filter_In in Hz. destruct Hz as [Hz1 Hz2].
        unfold f in Hz2. rewrite (HD (D + k) z) in Hz2 by (auto; lia). discriminate. }
      rewrite Z. apply app_nil_r. }
    specialize (FE (E - D)). replace (D + (E - D)) with E in FE by (subst E; lia). rewrite FE in E3.
    assert (FL : forall l : list I, length (filter f l) <= length l).
    { clear. induction l as [|y l IH]; cbn; [lia|]. destruct (f y); cbn; lia. }
    specialize (FL (forest succs D init)). lia.
  Qed.

  (* and never, if they do not run out *)
  Lemma weighted_starves n a init x : wf a -> Permutation (content a) init ->
    (forall d, exists y, In y (level succs d init) /\ leb (weight y) (weight x) = false) ->
    ~ In x (until_none (fst (search_calls A succs n a))).
  Proof.
    intros Hwf P HD Hx. apply in_split in Hx. destruct Hx as (l1 & l2 & E).
    assert (N : length l1 + 1 <= n).
    { pose proof (until_none_le A succs n a) as L. rewrite E, app_length in L. cbn in L. lia. }
    assert (E' : until_none (fst (search_calls A succs (length l1 + 1) a)) = l1 ++ [x]).
    { clear -E. revert a l1 E. induction n as [|n IH]; intros a l1 E; [destruct l1; discriminate|].
      rewrite calls_S in E. unfold search_next in E.
      destruct (ag_pop A a) as [[item a']|] eqn:Q; cbn [fst snd until_none] in E; [|destruct l1; discriminate].
      destruct l1 as [|y l1]; cbn [length Nat.add]; rewrite calls_S; unfold search_next; rewrite Q; cbn [fst snd until_none].
      - injection E as -> E. reflexivity.
      - injection E as -> E. cbn. f_equal. now apply IH. }
    set (m := length l1 + 1) in *.
    destruct (weighted_complete m a init (weight x) (S m) P) as [r PC].
    { eapply weighted_frontier; eauto. }
    apply Permutation_length in PC. rewrite app_length in PC.
    assert (FL : forall f : I -> bool, forall l : list I, length (filter f l) <= length l).
    { clear. induction l as [|y l IH]; cbn; [lia|]. destruct (f y); cbn; lia. }
    pose proof (FL (fun y => negb (leb (weight y) (weight x))) (until_none (fst (search_calls A succs m a)))) as L1.
    pose proof (until_none_le A succs m a) as L2.
    assert (L3 : forall D, D <= length (filter (fun y => negb (leb (weight y) (weight x))) (forest succs D init))).
    { induction D as [|D IH]; [lia|]. rewrite forest_level_S, filter_app, app_length. destruct (HD D) as (y & Hy & Hw).
      assert (Hf : In y (filter (fun y => negb (leb (weight y) (weight x))) (level succs D init))) by (apply filter_In; rewrite Hw; auto).
      destruct (filter (fun y => negb (leb (weight y) (weight x))) (level succs D init)); [destruct Hf|]. cbn. lia. }
    specialize (L3 (S m)). lia.
  Qed.
End Weighted.
(* ---------- breadth first: exact order ------------------------------------------------------------------------- *)
Section BFS.
  Context {I : Type} (succs : I -> list I).
  Notation A := (deque_agenda I).

  Lemma deque_extend xs : forall q, ag_extend A xs q = rev xs ++ q.
  Proof. induction xs as [|x xs IH]; intros q; cbn; [reflexivity|]. unfold ag_extend in IH. rewrite IH. now rewrite <- app_assoc. Qed.

  Lemma bfs_gen n : forall D xs ys, n <= D ->
    until_none (fst (search_calls A succs n (rev (xs ++ ys)))) =
    firstn n (xs ++ forest succs D (ys ++ flat_map succs xs)).
  Proof.
    assert (step : forall n x v, search_calls A succs (S n) (rev (x :: v)) =
              (Some x :: fst (search_calls A succs n (rev (v ++ succs x))), snd (search_calls A succs n (rev (v ++ succs x))))).
    { intros n0 x v. rewrite calls_S. unfold search_next.
      replace (ag_pop A (rev (x :: v))) with (Some (x, rev v)).
      2:{ symmetry. apply vec_pop_some. reflexivity. }
      cbn [fst snd]. rewrite deque_extend, rev_app_distr. reflexivity. }
    induction n as [|n IH]; intros D xs ys HD; [reflexivity|].
    destruct xs as [|x xs].
    - cbn [app flat_map]. rewrite app_nil_r. destruct ys as [|y ys].
      + rewrite forest_nil. cbn [firstn rev app]. rewrite calls_none by reflexivity. cbn. reflexivity.
      + rewrite step. cbn [fst until_none]. destruct D as [|D]; [lia|]. cbn [forest app firstn]. f_equal.
        rewrite (IH D ys (succs y)) by lia. reflexivity.
    - cbn [app]. rewrite step. cbn [fst until_none firstn]. f_equal.
      replace ((xs ++ ys) ++ succs x) with (xs ++ (ys ++ succs x)) by now rewrite app_assoc.
      rewrite (IH D xs (ys ++ succs x)) by lia. cbn [flat_map]. now rewrite <- app_assoc.
  Qed.

  Lemma bfs_exact n D init : n <= D ->
    until_none (fst (search_calls A succs n (bfs_init init))) = firstn n (walks succs D (rev init)).
  Proof.
    intros H. rewrite walks_forest. unfold bfs_init. rewrite <- (rev_involutive init) at 1.
    destruct D as [|D].
    - replace n with 0 by lia. reflexivity.
    - destruct n as [|n]; [reflexivity|].
      rewrite <- (app_nil_r (rev init)). rewrite (bfs_gen (S n) (S D) (rev init) []) by lia.
      cbn [app]. change (forest succs (S D) (rev init ++ [])) with
          ((rev init ++ []) ++ forest succs D (flat_map succs (rev init ++ []))). rewrite app_nil_r.
      destruct init as [|i init] using rev_ind.
      + cbn. rewrite !forest_nil. reflexivity.
      + rewrite rev_app_distr. cbn [rev app firstn]. f_equal.
        (* compare prefixes of length n of forests of depth S D and D *)
        set (v := flat_map succs (i :: rev init)).
        assert (G : forall k E xs, k <= E -> firstn k (forest succs (S E) xs) = firstn k (forest succs E xs)).
        { clear. intros k E xs H.
          rewrite forest_level_S. rewrite firstn_app.
          destruct (Nat.le_gt_cases k (length (forest succs E xs))) as [L|L].
          - replace (k - length (forest succs E xs)) with 0 by lia. cbn. apply app_nil_r.
          - assert (Z : level succs E xs = []).
            { assert (forall e, level succs e xs <> [] -> e <= length (forest succs e xs)).
              { induction e as [|e IHe]; intros Ne; [lia|].
                rewrite forest_level_S, app_length.
                assert (level succs e xs <> []) by (intros Z; apply Ne; now apply level_nil_succ).
                specialize (IHe H0). destruct (level succs e xs); [congruence|cbn; lia]. }
              destruct (level succs E xs) eqn:EE; [reflexivity|].
              specialize (H0 E). rewrite EE in H0. specialize (H0 ltac:(discriminate)). lia. }
            rewrite Z. destruct (k - length (forest succs E xs)); cbn; now rewrite app_nil_r. }
        rewrite !firstn_app. f_equal. destruct (Nat.le_gt_cases n (length (rev init))) as [L|L].
        * replace (n - length (rev init)) with 0 by lia. reflexivity.
        * apply G. lia.
  Qed.

  Lemma bfs_reaches init d x : In x (level succs d init) ->
    exists n, In x (until_none (fst (search_calls A succs n (bfs_init init)))).
  Proof.
    intros H. set (w := walks succs (S d) (rev init)).
    assert (Hin : In x w).
    { subst w. rewrite walks_forest. eapply (Permutation_in (l := forest succs (S d) init)).
      - apply forest_perm, Permutation_rev.
      - eapply in_level_forest; eauto. }
    exists (length w + 0). rewrite (bfs_exact _ (S d + length w)) by lia.
    assert (M : forall k, exists r, forest succs (S d + k) (rev init) = w ++ r).
    { induction k as [|k [r IHk]].
      - exists []. rewrite Nat.add_0_r, app_nil_r. subst w. now rewrite walks_forest.
      - replace (S d + S k) with (S (S d + k)) by lia. rewrite forest_level_S, IHk.
        eexists. rewrite <- app_assoc. reflexivity. }
    destruct (M (length w)) as [r Mr]. rewrite walks_forest, Mr, firstn_app_2. apply in_or_app. now left.
  Qed.
End BFS.

(* ---------- depth first: exact order --------------------------------------------------------------------------- *)
Section DFS.
  Context {I : Type} (succs : I -> list I).
  Notation A := (vec_agenda I).

  Lemma vec_extend xs : forall q, ag_extend A xs q = q ++ xs.
  Proof.
    induction xs as [|x xs IH]; intros q; cbn; [now rewrite app_nil_r|].
    unfold ag_extend in IH. rewrite IH. now rewrite <- app_assoc.
  Qed.

  Lemma dfs_step n x v : search_calls A succs (S n) (rev (x :: v)) =
    (Some x :: fst (search_calls A succs n (rev (rev (succs x) ++ v))), snd (search_calls A succs n (rev (rev (succs x) ++ v)))).
  Proof.
    rewrite calls_S. unfold search_next.
    replace (ag_pop A (rev (x :: v))) with (Some (x, rev v)) by (symmetry; apply vec_pop_some; reflexivity).
    cbn [fst snd]. rewrite vec_extend, rev_app_distr, rev_involutive. reflexivity.
  Qed.

  Lemma dfs_gen xs ys : dfs_order succs xs ys -> forall n v,
    until_none (fst (search_calls A succs (length ys + n) (rev (xs ++ v)))) =
    ys ++ until_none (fst (search_calls A succs n (rev v))).
  Proof.
    induction 1 as [|x xs ys zs H1 IH1 H2 IH2]; intros n v; [reflexivity|].
    cbn [app length]. rewrite app_length. change (S (length ys + length zs) + n) with (S ((length ys + length zs) + n)).
    rewrite dfs_step. cbn [fst until_none]. f_equal. replace (length ys + length zs + n) with (length ys + (length zs + n)) by lia.
    rewrite IH1, IH2. now rewrite app_assoc.
  Qed.

  Lemma dfs_exact init ys n : dfs_order succs (rev init) ys ->
    until_none (fst (search_calls A succs (length ys + n) (dfs_init init))) = ys.
  Proof.
    intros H. unfold dfs_init. rewrite <- (rev_involutive init) at 1. rewrite <- (app_nil_r (rev init)).
    rewrite (dfs_gen _ _ H). cbn [rev]. rewrite calls_none by reflexivity. cbn [fst].
    rewrite until_none_repeat. apply app_nil_r.
  Qed.

  (* and if the search ends, the recursive order exists *)
  Lemma dfs_ends_gen n : forall xs v, In None (fst (search_calls A succs n (rev (xs ++ v)))) ->
    exists ys, dfs_order succs xs ys /\ length ys < n.
  Proof.
    induction n as [n IH] using lt_wf_ind. intros xs v H.
    destruct xs as [|x xs].
    { exists []. split; [constructor|]. destruct n; [contradiction|cbn; lia]. }
    destruct n as [|n]; [contradiction|]. cbn [app] in H. rewrite dfs_step in H. cbn [fst In] in H.
    destruct H as [H|H]; [discriminate|].
    destruct (IH n ltac:(lia) (rev (succs x)) (xs ++ v) H) as (ys & O1 & L1).
    assert (H2 : In None (fst (search_calls A succs (n - length ys) (rev (xs ++ v))))).
    { assert (G := dfs_gen _ _ O1 (n - length ys) (xs ++ v)).
      replace (length ys + (n - length ys)) with n in G by lia.
      apply (in_none_short A succs) in H. rewrite G, app_length in H.
      assert (L : length (until_none (fst (search_calls A succs (n - length ys) (rev (xs ++ v))))) < n - length ys) by lia.
      clear - L. revert L. generalize (n - length ys) (rev (xs ++ v)). clear.
      induction n as [|n IHn]; intros l L; [cbn in L; lia|]. rewrite calls_S in *. cbn [fst] in *. unfold search_next in *.
      destruct (ag_pop A l) as [[i a']|] eqn:P; cbn in *; [right; apply IHn; lia|now left]. }
    destruct (IH (n - length ys) ltac:(lia) xs v H2) as (zs & O2 & L2).
    exists (x :: ys ++ zs). split; [now constructor|]. cbn. rewrite app_length. lia.
  Qed.

  Lemma dfs_ends init n : In None (fst (search_calls A succs n (dfs_init init))) ->
    dfs_order succs (rev init) (until_none (fst (search_calls A succs n (dfs_init init)))).
  Proof.
    intros H. destruct (dfs_ends_gen n (rev init) []) as (ys & O & L).
    { now rewrite app_nil_r, rev_involutive. }
    replace n with (length ys + (n - length ys)) by lia. now rewrite (dfs_exact init ys _ O).
  Qed.
End DFS.
