(* Proofs about search with an agenda of bounded size, and about beam search. *)
From Verif Require Import Base M_Agenda M_Search M_Util M_Recog M_Automata S_Search S_Util S_Recog P_Agenda P_Search P_Util P_Recog P_Automata.

(* An agenda that may drop items but invents none. *)
Record agenda_lossy {I : Type} (A : agenda I) (content : ag_T A -> list I) : Prop := {
  ly_push : forall x a, exists gone, Permutation (content (ag_push A x a) ++ gone) (x :: content a);
  ly_pop_some : forall a x a', ag_pop A a = Some (x, a') -> Permutation (content a) (x :: content a');
  ly_pop_none : forall a, ag_pop A a = None <-> content a = []
}.

Section Lossy.
  Context {I : Type} (A : agenda I) (content : ag_T A -> list I) (AL : agenda_lossy A content) (succs : I -> list I).

  Lemma extend_lossy xs : forall a, exists gone, Permutation (content (ag_extend A xs a) ++ gone) (xs ++ content a).
  Proof.
    induction xs as [|x xs IH]; intros a; [exists []; now rewrite app_nil_r|]. change (ag_extend A (x :: xs) a) with (ag_extend A xs (ag_push A x a)).
    destruct (IH (ag_push A x a)) as (g1 & P1). destruct (ly_push _ _ AL x a) as (g2 & P2). exists (g1 ++ g2). rewrite app_assoc, P1, <- app_assoc, P2. symmetry. apply Permutation_middle.
  Qed.

  Lemma lossy_partitions init n : forall a outs gone, partitions succs init outs (content a ++ gone) ->
    exists gone', partitions succs init (outs ++ until_none (fst (search_calls A succs n a))) (content (snd (search_calls A succs n a)) ++ gone').
  Proof.
    induction n as [|n IH]; intros a outs gone HP; [exists gone; cbn; now rewrite app_nil_r|]. rewrite calls_S. unfold search_next. destruct (ag_pop A a) as [[x a']|] eqn:P; cbn [fst snd until_none].
    - apply (ly_pop_some _ _ AL) in P. apply (partitions_perm succs init outs _ (x :: content a' ++ gone)) in HP; [|now rewrite P]. apply partitions_step in HP.
      destruct (extend_lossy (succs x) a') as (g & PE). destruct (IH (ag_extend A (succs x) a') (outs ++ [x]) (g ++ gone)) as (g' & HP').
      + eapply partitions_perm; [|exact HP]. now rewrite !app_assoc, PE.
      + exists g'. rewrite <- app_assoc in HP'. exact HP'.
    - rewrite calls_none by assumption. cbn [snd]. exists gone. now rewrite app_nil_r.
  Qed.

  Lemma lossy_prefix n a gone init : Permutation (content a ++ gone) init ->
    exists D rest, Permutation (until_none (fst (search_calls A succs n a)) ++ content (snd (search_calls A succs n a)) ++ rest) (forest succs D init).
  Proof.
    intros P. destruct (lossy_partitions init n a [] gone) as (gone' & os & ts & E1 & E2 & E3). { apply partitions_init. now symmetry. }
    cbn [app] in E1. set (D := S (Nat.max (max_tag os) (max_tag ts))). exists D.
    assert (G : exists rest, Permutation (flat_map (fun t => forest succs (D - fst t) [snd t]) ts) (map snd ts ++ rest)).
    { assert (HT : forall t, In t ts -> fst t < D). { intros t Ht. unfold D. enough (fst t <= max_tag ts) by lia. clear -Ht. induction ts as [|u ts IH]; [destruct Ht|]. cbn [max_tag]. destruct Ht as [<-|Ht]; [lia|]. specialize (IH Ht). lia. }
      clearbody D. clear -HT. induction ts as [|t ts IH]; [exists []; reflexivity|]. destruct IH as (rest & P); [intros; apply HT; now right|]. cbn [flat_map map]. destruct (D - fst t) as [|k] eqn:E; [specialize (HT t (or_introl eq_refl)); lia|].
      cbn [forest]. exists (forest succs k (flat_map succs [snd t]) ++ rest). rewrite P. cbn [app]. apply perm_skip. rewrite !app_assoc. apply Permutation_app_tail, Permutation_app_comm. }
    destruct G as (rest & G). exists (gone' ++ rest). rewrite <- (E3 D), all_tags by (unfold D; lia). rewrite E1, G, E2, <- !app_assoc. reflexivity.
  Qed.

  Lemma lossy_size a gone init D n : Permutation (content a ++ gone) init -> level succs D init = [] ->
    length (until_none (fst (search_calls A succs n a))) + length (content (snd (search_calls A succs n a))) <= length (forest succs D init).
  Proof.
    intros P HD. destruct (lossy_prefix n a gone init P) as (E & rest & PE). apply Permutation_length in PE. rewrite !app_length in PE.
    destruct (Nat.le_ge_cases D E) as [G|G].
    - rewrite (forest_stable succs D E) in PE by assumption. lia.
    - assert (M : forall k, length (forest succs E init) <= length (forest succs (E + k) init)).
      { induction k as [|k IHk]; [now rewrite Nat.add_0_r|]. replace (E + S k) with (S (E + k)) by lia. rewrite forest_level_S, app_length. lia. }
      specialize (M (D - E)). replace (E + (D - E)) with D in M by lia. lia.
  Qed.

  Lemma lossy_terminates a gone init D n : Permutation (content a ++ gone) init -> level succs D init = [] ->
    length (forest succs D init) < n -> In None (fst (search_calls A succs n a)).
  Proof.
    intros P HD HN. pose proof (lossy_size a gone init D n P HD) as L.
    assert (G : length (until_none (fst (search_calls A succs n a))) < n) by lia. clear L HN HD P.
    revert a G. induction n as [|n IH]; intros a G; [lia|]. rewrite calls_S in *. unfold search_next in *.
    destruct (ag_pop A a) as [[x a']|] eqn:Q; cbn in *; [|now left]. right. apply IH. lia.
  Qed.

  Lemma lossy_ended n : forall a, In None (fst (search_calls A succs n a)) -> content (snd (search_calls A succs n a)) = [].
  Proof.
    induction n as [|n IH]; intros a Hn; [destruct Hn|]. rewrite calls_S in *. unfold search_next in *. destruct (ag_pop A a) as [[x a']|] eqn:P; cbn [fst snd] in *.
    - destruct Hn as [Hn|Hn]; [discriminate|]. now apply IH.
    - rewrite calls_none by assumption. now apply (ly_pop_none _ _ AL).
  Qed.

  (* order *)
  Context {W : Type} (weight : I -> W) (leb : W -> W -> bool) (TO : TotalOrder leb) (wf : ag_T A -> Prop)
    (wf_push : forall x a, wf a -> wf (ag_push A x a)) (wf_pop : forall a x a', ag_pop A a = Some (x, a') -> wf a -> wf a')
    (wf_max : forall a x a' y, wf a -> ag_pop A a = Some (x, a') -> In y (content a) -> leb (weight y) (weight x) = true)
    (MONO : forall x y, In y (succs x) -> leb (weight y) (weight x) = true).
  Lemma lossy_sorted n : forall a, wf a -> nonincreasing weight leb (until_none (fst (search_calls A succs n a))) /\
    forall b, (forall y, In y (content a) -> leb (weight y) b = true) -> forall y, In y (until_none (fst (search_calls A succs n a))) -> leb (weight y) b = true.
  Proof.
    assert (WE : forall xs a, wf a -> wf (ag_extend A xs a)) by (induction xs as [|x xs IH]; intros a Wa; [exact Wa|]; apply IH; now apply wf_push).
    induction n as [|n IH]; intros a Wa; [cbn; split; [constructor|tauto]|]. rewrite calls_S. unfold search_next. destruct (ag_pop A a) as [[x a']|] eqn:P; cbn [fst snd until_none]; [|split; [constructor|intros ? ? ? []]].
    destruct (IH (ag_extend A (succs x) a') (WE _ _ (wf_pop _ _ _ P Wa))) as (N & B).
    assert (HX : forall b, leb (weight x) b = true -> (forall y, In y (content a) -> leb (weight y) b = true) -> forall y, In y (until_none (fst (search_calls A succs n (ag_extend A (succs x) a')))) -> leb (weight y) b = true).
    { intros b Hb HC. apply B. intros y Hy. destruct (extend_lossy (succs x) a') as (g & PE).
      assert (Hy' : In y (succs x ++ content a')) by (apply (Permutation_in _ PE), in_or_app; now left). apply in_app_or in Hy'. destruct Hy' as [Hy'|Hy'].
      - eapply to_trans; [exact TO|apply MONO; exact Hy'|exact Hb].
      - apply HC. apply (Permutation_in _ (Permutation_sym (ly_pop_some _ _ AL _ _ _ P))). now right. }
    split.
    - constructor; [|exact N]. intros y Hy. refine (HX (weight x) _ _ y Hy); [|intros z Hz; eapply wf_max; eauto]. eapply wf_max; [exact Wa|exact P|]. apply (Permutation_in _ (Permutation_sym (ly_pop_some _ _ AL _ _ _ P))). now left.
    - intros b Hb y [<-|Hy]; [apply Hb, (Permutation_in _ (Permutation_sym (ly_pop_some _ _ AL _ _ _ P))); now left|].
      refine (HX b _ Hb y Hy). apply Hb, (Permutation_in _ (Permutation_sym (ly_pop_some _ _ AL _ _ _ P))). now left.
  Qed.
End Lossy.

(* ---- the bounded heap ---- *)
Section Limited.
  Context {I W : Type} (leb : W -> W -> bool) (weight : I -> W) (H : minmax_heap (I * W) (wi_leb leb)).
  Notation A := (limited_agenda H weight).
  Definition lh_content (h : ag_T A) : list I := map fst (lh_items H h).

  Lemma limited_lossy : agenda_lossy A lh_content.
  Proof.
    unfold lh_content, lh_items. split; cbn.
    - intros x h. unfold lh_push. destruct (Nat.ltb _ _); cbn.
      + exists []. rewrite app_nil_r, (mm_push_c H). reflexivity.
      + destruct (mm_push_pop_min H (x, weight x) (lh_heap H h)) as [m h'] eqn:E. cbn. apply (mm_ppm H) in E. destruct E as [P _]. exists [fst m].
        apply (Permutation_map fst) in P. cbn in P. rewrite P. symmetry. apply Permutation_cons_append.
    - intros h x h'. unfold lh_pop. destruct (mm_pop_max H (lh_heap H h)) as [[[z p] h1]|] eqn:P; [|discriminate]. cbn. intros E. injection E as -> <-. apply (mm_pop_some H) in P. destruct P as [P _]. cbn. now rewrite P.
    - intros h. unfold lh_pop. destruct (mm_pop_max H (lh_heap H h)) as [[[z p] h1]|] eqn:P; cbn.
      + split; [discriminate|]. intros E. apply map_eq_nil in E. apply (mm_pop_none H) in E. congruence.
      + split; [intros _|reflexivity]. apply (mm_pop_none H) in P. now rewrite P.
  Qed.
  Definition lh_wf (h : ag_T A) : Prop := forall p, In p (lh_items H h) -> snd p = weight (fst p).
  Lemma lh_wf_push x h : lh_wf h -> lh_wf (ag_push A x h).
  Proof.
    unfold lh_wf, lh_items. cbn. intros Wf p. unfold lh_push. destruct (Nat.ltb _ _); cbn.
    - rewrite (mm_push_c H). intros [<-|Hp]; [reflexivity|auto].
    - destruct (mm_push_pop_min H (x, weight x) (lh_heap H h)) as [m h'] eqn:E. cbn. apply (mm_ppm H) in E. destruct E as [P _]. intros Hp.
      assert (Hp' : In p ((x, weight x) :: mm_content H (lh_heap H h))) by (apply (Permutation_in _ (Permutation_sym P)); now right). destruct Hp' as [<-|Hp']; [reflexivity|auto].
  Qed.
  Lemma lh_wf_pop h x h' : ag_pop A h = Some (x, h') -> lh_wf h -> lh_wf h'.
  Proof.
    cbn. unfold lh_pop, lh_wf, lh_items. destruct (mm_pop_max H (lh_heap H h)) as [[[z p] h1]|] eqn:P; [|discriminate]. cbn. intros E. injection E as -> <-. cbn. apply (mm_pop_some H) in P. destruct P as [P _].
    intros Wf q Hq. apply Wf. rewrite P. now right.
  Qed.
  Lemma lh_wf_max h x h' y : lh_wf h -> ag_pop A h = Some (x, h') -> In y (lh_content h) -> leb (weight y) (weight x) = true.
  Proof.
    cbn. unfold lh_pop, lh_wf, lh_content, lh_items. destruct (mm_pop_max H (lh_heap H h)) as [[[z p] h1]|] eqn:P; [|discriminate]. cbn. intros Wf E. injection E as -> <-. apply (mm_pop_some H) in P. destruct P as [P M].
    intros Hy. apply in_map_iff in Hy. destruct Hy as ([y' q] & <- & Hq). specialize (M _ Hq). unfold wi_leb in M. cbn in *.
    pose proof (Wf _ Hq) as E1. cbn in E1. assert (E2 : p = weight x) by (apply (Wf (x, p)); rewrite P; now left). congruence.
  Qed.
  Lemma lh_wf_new c : lh_wf (lh_with_capacity H c).
  Proof. unfold lh_wf, lh_items. cbn. rewrite (mm_empty_c H). intros p []. Qed.
  Lemma lh_content_new c : lh_content (lh_with_capacity H c) = [].
  Proof. unfold lh_content, lh_items. cbn. now rewrite (mm_empty_c H). Qed.

  (* nothing is dropped while there is room *)
  Lemma lh_cap_push x h : lh_capacity H (ag_push A x h) = lh_capacity H h.
  Proof. cbn. unfold lh_push. destruct (Nat.ltb _ _); [reflexivity|]. now destruct (mm_push_pop_min H _ _). Qed.
  Lemma lh_room_push x h : length (lh_content h) < lh_capacity H h -> Permutation (lh_content (ag_push A x h)) (x :: lh_content h).
  Proof.
    unfold lh_content, lh_items. cbn. unfold lh_push. rewrite map_length, <- (mm_len_c H). intros L. apply Nat.ltb_lt in L. rewrite L. cbn. now rewrite (mm_push_c H).
  Qed.
  Lemma lh_room_extend xs : forall h, length xs + length (lh_content h) <= lh_capacity H h ->
    Permutation (lh_content (ag_extend A xs h)) (xs ++ lh_content h) /\ lh_capacity H (ag_extend A xs h) = lh_capacity H h.
  Proof.
    induction xs as [|x xs IH]; intros h L; [split; reflexivity|]. cbn [length] in L. change (ag_extend A (x :: xs) h) with (ag_extend A xs (ag_push A x h)).
    pose proof (lh_room_push x h ltac:(lia)) as P. pose proof (lh_cap_push x h) as C. destruct (IH (ag_push A x h)) as (P2 & C2). { rewrite C, (Permutation_length P). cbn. lia. }
    split; [|now rewrite C2]. rewrite P2, P. symmetry. apply Permutation_middle.
  Qed.
  Lemma lh_pop_cap h x h' : ag_pop A h = Some (x, h') -> lh_capacity H h' = lh_capacity H h.
  Proof. cbn. unfold lh_pop. destruct (mm_pop_max H (lh_heap H h)); [|discriminate]. cbn. intros E. injection E as _ <-. reflexivity. Qed.

  (* with a capacity of at least the number of nodes of the search forest, nothing is dropped at all *)
  Lemma lh_room_partitions (succs : I -> list I) init D c n : level succs D init = [] -> length (forest succs D init) <= c ->
    forall a outs, partitions succs init outs (lh_content a) -> lh_capacity H a = c ->
      partitions succs init (outs ++ until_none (fst (search_calls A succs n a))) (lh_content (snd (search_calls A succs n a))).
  Proof.
    intros HD HC. induction n as [|n IH]; intros a outs HP EC; [cbn; now rewrite app_nil_r|]. rewrite calls_S. unfold search_next. destruct (ag_pop A a) as [[x a']|] eqn:P; cbn [fst snd until_none].
    - pose proof (lh_pop_cap _ _ _ P) as C'. apply (ly_pop_some _ _ limited_lossy) in P. apply (partitions_perm succs init outs _ (x :: lh_content a') P) in HP. apply partitions_step in HP.
      assert (L : length (succs x) + length (lh_content a') <= lh_capacity H a').
      { rewrite C', EC. destruct HP as (os & ts & E1 & E2 & E3). apply Permutation_length in E2. rewrite app_length in E2. rewrite <- E2.
        set (E := S (Nat.max D (max_tag ts))). specialize (E3 E). apply Permutation_length in E3. rewrite app_length in E3. rewrite (forest_stable succs D E) in E3 by (assumption || (unfold E; lia)).
        assert (G : length (map snd ts) <= length (flat_map (fun t => forest succs (E - fst t) [snd t]) ts)).
        { assert (HT : forall t, In t ts -> fst t < E). { intros t Ht. unfold E. enough (fst t <= max_tag ts) by lia. clear -Ht. induction ts as [|u ts IHt]; [destruct Ht|]. cbn [max_tag]. destruct Ht as [<-|Ht]; [lia|]. specialize (IHt Ht). lia. }
          clearbody E. clear -HT. induction ts as [|t ts IHt]; [cbn; lia|]. cbn [flat_map map length]. rewrite app_length. specialize (IHt (fun u Hu => HT u (or_intror Hu))). destruct (E - fst t) as [|k] eqn:EE; [specialize (HT t (or_introl eq_refl)); lia|]. cbn [forest app length]. lia. }
        lia. }
      destruct (lh_room_extend (succs x) a' L) as (PE & CE). specialize (IH (ag_extend A (succs x) a') (outs ++ [x])). rewrite <- app_assoc in IH. apply IH; [|now rewrite CE, C'].
      eapply partitions_perm; [symmetry; exact PE|exact HP].
    - rewrite calls_none by assumption. cbn [snd]. now rewrite app_nil_r.
  Qed.
End Limited.

(* ---- beam search of an automaton ---- *)
Section Automaton.
  Context (a : automaton) (TE : EqbSpec (au_teqb a)) (KL : RoundLaws (au_K a)).
  Context (M : minmax_heap (item (au_S a) (au_I a) (au_T a) (au_K a) * au_K a) (wi_leb wleb)) (beam : nat).
  Notation succs := (dflt (item_succs a)).
  Notation AG := (limited_agenda M item_weight).
  Notation start w := (ag_extend AG (init_items a w) (lh_with_capacity M beam)).

  Lemma beam_unfold w n outs : recognise_beam_int a M beam w n = Some outs ->
    outs = filter (fun i => au_terminal a (fst i)) (until_none (fst (search_calls AG succs n (start w)))).
  Proof.
    unfold recognise_beam_int. destruct (search_calls_p _ _ _ _) as [[os h]|] eqn:E; [|discriminate]. intros Q. injection Q as <-. apply calls_p_total in E. now rewrite E.
  Qed.
  Lemma beam_start w : exists gone, Permutation (lh_content wleb item_weight M (start w) ++ gone) (init_items a w).
  Proof. destruct (extend_lossy AG _ (limited_lossy wleb item_weight M) (init_items a w) (lh_with_capacity M beam)) as (g & P). exists g. rewrite lh_content_new, app_nil_r in P. exact P. Qed.

  Lemma beam_once (DT : deterministic a) w n outs : recognise_beam_int a M beam w n = Some outs -> NoDup (map snd outs).
  Proof.
    intros E. apply beam_unfold in E. subst outs. destruct (beam_start w) as (g & PS).
    destruct (lossy_prefix AG _ (limited_lossy wleb item_weight M) succs n (start w) g (init_items a w) PS) as (D & rest & P).
    assert (N : NoDup (map snd (forest succs D (init_items a w)))).
    { apply (forest_runs_nodup a DT D (init_items a w) 0).
      - destruct w; cbn; repeat constructor. tauto.
      - destruct w; cbn; [|tauto]. intros x [<-|[]]. reflexivity. }
    apply (Permutation_map snd) in P. symmetry in P. eapply Permutation_NoDup in N; [|exact P].
    rewrite map_app in N. apply NoDup_app_l in N. apply NoDup_map_filter. exact N.
  Qed.

  Lemma beam_sorted (LE : forall t, au_trans a t -> wleb (t_weight t) wone = true) w n outs : recognise_beam_int a M beam w n = Some outs -> nonincreasing item_weight wleb outs.
  Proof.
    intros E. apply beam_unfold in E. subst outs. apply ni_filter.
    apply (lossy_sorted AG _ (limited_lossy wleb item_weight M) succs item_weight wleb (rl_order _ KL) (lh_wf wleb item_weight M) (lh_wf_push wleb item_weight M) (lh_wf_pop wleb item_weight M) (lh_wf_max wleb item_weight M) (run_weight_le a TE KL LE) n).
    assert (G : forall xs h, lh_wf wleb item_weight M h -> lh_wf wleb item_weight M (ag_extend AG xs h)) by (induction xs as [|x xs IH]; intros h Wf; [exact Wf|]; apply IH; now apply lh_wf_push).
    apply G, lh_wf_new.
  Qed.

  Lemma beam_defined w n : (forall i, item_inv a w i -> au_key a (fst i) <> None) -> search_calls_p AG (item_succs a) n (start (Some w)) <> None.
  Proof.
    intros HN. destruct (calls_p_defined AG (item_succs a) _ (limited_sound wleb item_weight M) (init_items a (Some w)) n (start (Some w))) as (r & E); [| |congruence].
    - intros x Hx. constructor. apply (extend_sound _ _ (limited_sound wleb item_weight M)) in Hx. destruct Hx as [Hy|Hy]; [assumption|]. exfalso. revert Hy. unfold lh_items. cbn. rewrite (mm_empty_c M). tauto.
    - intros x Hx G. apply (HN x). { now apply item_inv_reachable. } unfold item_succs in G. destruct x as [c r]. cbn. destruct (au_key a c); [discriminate|reflexivity].
  Qed.
  Lemma beam_ends_none n : recognise_beam_ended a M beam None (S n).
  Proof.
    unfold recognise_beam_ended. assert (P : ag_pop AG (start None) = None).
    { apply (ly_pop_none _ _ (limited_lossy wleb item_weight M)). cbn [init_items]. apply lh_content_new. }
    rewrite (calls_p_none _ _ (S n) _ P). do 2 eexists. split; [reflexivity|]. now left.
  Qed.
  Lemma level_bounded w bound : (forall i, item_inv a w i -> length (pd_to_vec (snd i)) < bound) -> level succs bound (init_items a (Some w)) = [].
  Proof.
    intros HB. set (init := init_items a (Some w)) in *. destruct (level succs bound init) as [|x l] eqn:EL; [reflexivity|]. exfalso.
    assert (Hx : In x (level succs bound init)) by (rewrite EL; now left). pose proof (level_length a w bound x Hx) as L1.
    assert (R : reachable succs init x) by (apply reachable_level; eauto). pose proof (HB x ltac:(now apply item_inv_reachable)). lia.
  Qed.
  Lemma beam_ends_bounded w bound : (forall i, item_inv a w i -> au_key a (fst i) <> None /\ length (pd_to_vec (snd i)) < bound) -> exists n0, forall n, n0 <= n -> recognise_beam_ended a M beam (Some w) n.
  Proof.
    intros HB. pose proof (level_bounded w bound (fun i Hi => proj2 (HB i Hi))) as LN. set (init := init_items a (Some w)) in *.
    exists (S (length (forest succs bound init))). intros n Hn. unfold recognise_beam_ended. pose proof (beam_defined w n (fun i Hi => proj1 (HB i Hi))) as DF.
    destruct (search_calls_p AG (item_succs a) n (start (Some w))) as [[os h]|] eqn:E; [|congruence]. exists os, h. split; [reflexivity|]. apply calls_p_total in E.
    destruct (beam_start (Some w)) as (g & PS). pose proof (lossy_terminates AG _ (limited_lossy wleb item_weight M) succs (start (Some w)) g init bound n PS LN ltac:(lia)) as ST. now rewrite E in ST.
  Qed.

  (* a beam that is wide enough misses nothing *)
  Lemma beam_exhaustive (KO : key_ok a) word bound n outs ts s :
    (forall i, item_inv a word i -> length (pd_to_vec (snd i)) < bound) -> length (forest succs bound (init_items a (Some word))) <= beam ->
    recognise_beam_int a M beam (Some word) n = Some outs -> recognise_beam_ended a M beam (Some word) n ->
    executes (au_apply a) (au_init a) ts s -> (forall t, In t ts -> au_trans a t) -> run_word ts = word ->
    au_terminal a (Conf [] s (run_weight ts)) = true -> In (the_item a ts [] s) outs.
  Proof.
    intros HB HW E (os & h & EN & Hn) HE HT HR HF. pose proof (level_bounded word bound HB) as LN. apply beam_unfold in E. subst outs. apply calls_p_total in EN.
    apply filter_In. split; [|exact HF]. set (init := init_items a (Some word)) in *.
    assert (HI : In (the_item a ts [] s) (forest succs bound init)).
    { eapply in_level_forest; [apply complete_level; auto; now rewrite app_nil_r|]. rewrite <- (pd_to_from ts). apply (HB (the_item a ts [] s)). unfold the_item, item_inv. cbn [fst snd c_word c_storage c_weight]. rewrite pd_to_from, app_nil_r. auto. }
    assert (LI : 1 <= beam).
    { clear -HI HW. destruct (forest succs bound init) as [|y l]; [destruct HI|]. cbn in HW. lia. }
    assert (PS : Permutation (lh_content wleb item_weight M (start (Some word))) init /\ lh_capacity M (start (Some word)) = beam).
    { destruct (lh_room_extend wleb item_weight M (init_items a (Some word)) (lh_with_capacity M beam)) as (P & C).
      - rewrite lh_content_new. cbn. lia.
      - rewrite lh_content_new, app_nil_r in P. split; [exact P|exact C]. }
    destruct PS as (PS & CS).
    pose proof (lh_room_partitions wleb item_weight M succs init bound beam n LN HW (start (Some word)) [] ltac:(apply partitions_init; now symmetry) CS) as HP. fold init in HP. rewrite EN in *. cbn [fst snd app] in *.
    assert (EC : lh_content wleb item_weight M h = []).
    { pose proof (lossy_ended AG _ (limited_lossy wleb item_weight M) succs n (start (Some word))) as G. fold init in G. rewrite EN in G. now apply G. }
    rewrite EC in HP. apply partitions_end in HP. destruct HP as (D & L & P). eapply Permutation_in; [symmetry; exact P|].
    destruct (Nat.le_ge_cases D bound) as [G|G].
    - rewrite (forest_stable succs D _ _ L G) in HI. exact HI.
    - rewrite (forest_stable succs bound _ _ LN G). exact HI.
  Qed.
  Lemma forest_few (DT : deterministic a) w bound (runs : list (list (transition (au_I a) (au_T a) (au_K a)))) : (forall i, item_inv a w i -> In (pd_to_vec (snd i)) runs) ->
    length (forest succs bound (init_items a (Some w))) <= length runs.
  Proof.
    intros HR. assert (N : NoDup (map snd (forest succs bound (init_items a (Some w))))).
    { apply (forest_runs_nodup a DT bound (init_items a (Some w)) 0); cbn; [repeat constructor; tauto|]. intros x [<-|[]]. reflexivity. }
    apply (Nat.le_trans _ (length (map snd (forest succs bound (init_items a (Some w)))))); [now rewrite map_length|]. apply (Nat.le_trans _ (length (map pd_from runs))); [|now rewrite map_length]. apply NoDup_incl_length; [exact N|]. intros r Hr. apply in_map_iff in Hr. destruct Hr as (i & <- & Hi).
    apply in_map_iff. exists (pd_to_vec (snd i)). split; [apply pd_from_to|]. apply HR. apply item_inv_reachable; auto. apply reachable_level.
    clear N HR. revert Hi. generalize (init_items a (Some w)) as xs. induction bound as [|b IH]; intros xs Hi; [destruct Hi|]. cbn [forest] in Hi. apply in_app_or in Hi. destruct Hi as [Hi|Hi]; [exists 0; exact Hi|].
    destruct (IH _ Hi) as (d & Hd). exists (S d). exact Hd.
  Qed.
End Automaton.

Section CodedBeam.
  Context (ai : automaton) {S I T : Type} (apply : I -> S -> list S) (init : S)
          (tr : transition I T (au_K ai) -> Prop) (final : S -> Prop)
          (kS : S -> Prop) (kI : I -> Prop) (kT : T -> Prop)
          (eS : S -> au_S ai) (eI : I -> au_I ai) (eT : T -> au_T ai)
          (tti : T -> option (au_T ai))
          (item_map : item (au_S ai) (au_I ai) (au_T ai) (au_K ai) -> option (item S I T (au_K ai))).
  Context (CD : coded ai apply init tr final kS kI kT eS eI eT tti item_map) (KL : RoundLaws (au_K ai)).
  Context (M : minmax_heap (item (au_S ai) (au_I ai) (au_T ai) (au_K ai) * au_K ai) (wi_leb wleb)) (beam : nat).

  Lemma coded_beam_ends word bound :
    (forall ts s rest, executes apply init ts s -> (forall t, In t ts -> tr t) -> run_word ts ++ rest = word -> kS s ->
       au_key ai (Conf (map eT rest) (eS s) (run_weight ts)) <> None /\ length ts < bound) ->
    exists n0, forall n, n0 <= n -> recognise_beam_ended ai M beam (opt_all tti word) n.
  Proof.
    intros HK. destruct (opt_all tti word) as [w'|] eqn:EW.
    - destruct (tti_word_inv _ _ _ _ _ _ _ _ _ _ _ _ _ CD word w' EW) as [-> KW].
      apply (beam_ends_bounded ai (cd_teqb _ _ _ _ _ _ _ _ _ _ _ _ _ CD) KL M beam (map eT word) bound). intros i Hi.
      destruct (inv_run _ _ _ _ _ _ _ _ _ _ _ _ _ CD word i Hi KW) as (ts & s & rest & A1 & A2 & A3 & A4 & -> & L). cbn [fst] in *. rewrite L. eapply HK; eauto.
    - exists 1. intros [|n] L; [lia|]. apply beam_ends_none.
  Qed.

  (* what beam search yields *)
  Lemma coded_beam word n outs : recognise_beam_int ai M beam (opt_all tti word) n = Some outs ->
    exists outs', recognise_beam_with ai tti item_map M beam word n = Some outs' /\ enum_sound apply init tr final word outs' /\ length outs' = length outs /\
      (deterministic ai -> NoDup (map snd outs')) /\
      ((forall t, tr t -> wleb (t_weight t) wone = true) -> nonincreasing item_weight wleb outs') /\
      (forall bound, (forall ts s rest, executes apply init ts s -> (forall t, In t ts -> tr t) -> run_word ts ++ rest = word -> length ts < bound) ->
         deterministic ai -> forall runs, (forall ts s rest, executes apply init ts s -> (forall t, In t ts -> tr t) -> run_word ts ++ rest = word -> In ts runs) ->
         length runs <= beam -> recognise_beam_ended ai M beam (opt_all tti word) n -> enum_exhaustive apply init tr final word outs').
  Proof.
    intros R. unfold recognise_beam_with. rewrite R. destruct (opt_all tti word) as [w'|] eqn:EW.
    - destruct (tti_word_inv _ _ _ _ _ _ _ _ _ _ _ _ _ CD word w' EW) as [-> KW].
      destruct (decode_all _ _ _ _ _ _ _ _ _ _ _ _ _ CD word outs) as (outs' & -> & F2).
      { intros i Hi. destruct (recognise_beam_sound ai (cd_teqb _ _ _ _ _ _ _ _ _ _ _ _ _ CD) KL M beam _ n outs i R Hi) as (w1 & E1 & HI & HT). injection E1 as <-. auto. }
      { assumption. }
      exists outs'. split; [reflexivity|].
      assert (P1 : forall l l' e, Forall2 (good ai apply init tr final kS eS eI eT word) l l' -> In e l' -> exists o, In o l /\ good ai apply init tr final kS eS eI eT word o e).
      { clear. intros l l' e F2 Hin. induction F2; [destruct Hin|]. destruct Hin as [->|He]; [exists x; split; [now left|assumption]|]. destruct (IHF2 He) as (o & Ho & G). exists o. split; [now right|assumption]. }
      assert (P1' : forall l l' o, Forall2 (good ai apply init tr final kS eS eI eT word) l l' -> In o l -> exists e, In e l' /\ good ai apply init tr final kS eS eI eT word o e).
      { clear. intros l l' o F2 Hin. induction F2; [destruct Hin|]. destruct Hin as [->|He]; [exists y; split; [now left|assumption]|]. destruct (IHF2 He) as (e & Ho & G). exists e. split; [now right|assumption]. }
      split; [|split; [|split; [|split]]].
      + intros conf run Hin. destruct (P1 _ _ _ F2 Hin) as (o & Ho & ts & s & G1 & G2 & G3 & G4). injection G4 as -> ->. rewrite pd_to_from. auto.
      + clear -F2. induction F2; cbn; congruence.
      + intros DT. pose proof (beam_once ai M beam DT _ _ _ R) as N. clear -F2 N P1. induction F2 as [|o e outs outs' G F IH]; cbn; [constructor|]. cbn in N. apply NoDup_cons_iff in N. destruct N as [N1 N2].
        constructor; [|auto]. intros Hin. apply N1. apply in_map_iff in Hin. destruct Hin as (e2 & E2 & He2). destruct (P1 _ _ _ F He2) as (o2 & Ho2 & ts2 & s2 & B1 & B2 & B3 & B4). destruct G as (ts & s & A1 & A2 & A3 & A4).
        subst e e2. cbn in E2. assert (ts2 = ts) by (rewrite <- (pd_to_from ts2), E2; apply pd_to_from). subst ts2. replace (snd o) with (snd o2); [now apply in_map|]. subst o o2. reflexivity.
      + intros LE. assert (LE' : forall t, au_trans ai t -> wleb (t_weight t) wone = true). { intros t Ht. apply (cd_tr _ _ _ _ _ _ _ _ _ _ _ _ _ CD) in Ht. destruct Ht as (t0 & Ht0 & ->). cbn. auto. }
        pose proof (beam_sorted ai (cd_teqb _ _ _ _ _ _ _ _ _ _ _ _ _ CD) KL M beam LE' _ _ _ R) as NI. clear -F2 NI P1.
        assert (GW : forall o e, good ai apply init tr final kS eS eI eT word o e -> item_weight o = item_weight e) by (intros o e (ts1 & s1 & _ & _ & -> & ->); reflexivity).
        induction F2 as [|o e outs outs' G F IH]; [constructor|]. inversion NI as [|? ? N1 N2]; subst. constructor; [|auto]. intros y Hy. destruct (P1 _ _ _ F Hy) as (o2 & Ho2 & G2). rewrite <- (GW _ _ G), <- (GW _ _ G2). auto.
      + intros bound HB DT runs HR HL EN ts s A. pose proof A as (A1 & A2 & A3 & A4).
        destruct (exec_down _ _ _ _ _ _ _ _ _ _ _ _ _ CD ts init s (cd_kinit _ _ _ _ _ _ _ _ _ _ _ _ _ CD) A1 A2) as [D1 D2].
        assert (HX : In (the_item ai (map (eTr ai eI eT) ts) [] (eS s)) outs).
        { apply (beam_exhaustive ai (cd_teqb _ _ _ _ _ _ _ _ _ _ _ _ _ CD) KL M beam (cd_key _ _ _ _ _ _ _ _ _ _ _ _ _ CD) (map eT word) bound n outs (map (eTr ai eI eT) ts) (eS s)); auto.
          - intros i Hi. destruct (inv_run _ _ _ _ _ _ _ _ _ _ _ _ _ CD word i Hi KW) as (ts1 & s1 & rest & B1 & B2 & B3 & B4 & _ & L). rewrite L. eauto.
          - eapply Nat.le_trans; [|exact HL]. apply (Nat.le_trans _ (length (map (map (eTr ai eI eT)) runs))); [|now rewrite map_length]. apply (forest_few ai (cd_teqb _ _ _ _ _ _ _ _ _ _ _ _ _ CD) KL DT). intros i Hi.
            destruct (inv_run _ _ _ _ _ _ _ _ _ _ _ _ _ CD word i Hi KW) as (ts1 & s1 & rest & B1 & B2 & B3 & B4 & -> & L). cbn [snd]. rewrite pd_to_from. apply in_map. eauto.
          - now rewrite (cd_init _ _ _ _ _ _ _ _ _ _ _ _ _ CD).
          - intros t Ht. apply in_map_iff in Ht. destruct Ht as (t0 & <- & Ht0). apply (cd_tr _ _ _ _ _ _ _ _ _ _ _ _ _ CD). eauto.
          - rewrite run_word_eTr. now f_equal.
          - apply (cd_final _ _ _ _ _ _ _ _ _ _ _ _ _ CD _ _ _ D2). auto. }
        destruct (P1' _ _ _ F2 HX) as (e & He & ts1 & s1 & G1 & G2 & G3 & G4).
        unfold the_item in G3. assert (Q1 : pd_from (map (eTr ai eI eT) ts) = pd_from (map (eTr ai eI eT) ts1)) by congruence. assert (Q2 : eS s = eS s1) by congruence.
        assert (Q3 : map (eTr ai eI eT) ts = map (eTr ai eI eT) ts1) by (rewrite <- (pd_to_from (map (eTr ai eI eT) ts)), <- (pd_to_from (map (eTr ai eI eT) ts1)); now rewrite Q1).
        apply (accepting_inj _ _ _ _ _ _ _ _ _ _ _ _ _ CD word ts s ts1 s1 A G1) in Q3. subst ts1. replace (Conf [] s (run_weight ts), pd_from ts) with e; [exact He|]. subst e. f_equal. f_equal.
        assert (M1 := cd_map _ _ _ _ _ _ _ _ _ _ _ _ _ CD [] s (run_weight ts) ts D2 ltac:(intros x []) A2).
        assert (M2 := cd_map _ _ _ _ _ _ _ _ _ _ _ _ _ CD [] s1 (run_weight ts) ts G2 ltac:(intros x []) A2).
        rewrite Q2 in M1. congruence.
    - assert (outs = []).
      { destruct outs as [|i outs]; [reflexivity|]. exfalso. destruct (recognise_beam_sound ai (cd_teqb _ _ _ _ _ _ _ _ _ _ _ _ _ CD) KL M beam _ n _ i R (or_introl eq_refl)) as (w1 & E1 & _). discriminate. }
      subst outs. exists []. cbn. split; [reflexivity|]. split; [intros ? ? []|]. split; [reflexivity|]. split; [constructor|]. split; [constructor|].
      intros _ _ _ _ _ _ _ ts s (A1 & A2 & A3 & A4). exfalso. apply opt_all_None in EW. destruct EW as (x & Hx & Ex).
      rewrite <- A3 in Hx. pose proof (known_word _ _ _ _ _ _ _ _ _ _ _ _ _ CD ts A2 x Hx) as Kx. destruct (cd_tti _ _ _ _ _ _ _ _ _ _ _ _ _ CD x) as [[_ E]|[E _]]; [congruence|contradiction].
  Qed.
End CodedBeam.

Lemma ni_splits {I} {K : Weight} (w : I -> K) outs : nonincreasing w wleb outs -> forall before y after, outs = before ++ y :: after -> forall x, In x before -> wleb (w y) (w x) = true.
Proof.
  induction 1 as [|x l HL NI IH]; intros b y a E z Hz; [destruct b; discriminate|]. destruct b as [|b0 b]; [destruct Hz|]. cbn in E. injection E as <- ->. destruct Hz as [<-|Hz]; [|eapply IH; eauto].
  apply HL. apply in_or_app. right. now left.
Qed.

Section EnumBeam.
  Context (ai : automaton) {S I T : Type} (apply : I -> S -> list S) (init : S)
          (tr : transition I T (au_K ai) -> Prop) (final : S -> Prop)
          (kS : S -> Prop) (kI : I -> Prop) (kT : T -> Prop)
          (eS : S -> au_S ai) (eI : I -> au_I ai) (eT : T -> au_T ai)
          (tti : T -> option (au_T ai))
          (item_map : item (au_S ai) (au_I ai) (au_T ai) (au_K ai) -> option (item S I T (au_K ai))).
  Context (CD : coded ai apply init tr final kS kI kT eS eI eT tti item_map) (KL : RoundLaws (au_K ai)).
  Context (M : minmax_heap (item (au_S ai) (au_I ai) (au_T ai) (au_K ai) * au_K ai) (wi_leb wleb)) (beam : nat).
  Lemma coded_enum_beam word n outs : recognise_beam_int ai M beam (opt_all tti word) n = Some outs ->
    exists outs', recognise_beam_with ai tti item_map M beam word n = Some outs' /\
      enum_beam apply init tr final word beam (deterministic ai) (recognise_beam_ended ai M beam (opt_all tti word) n) outs'.
  Proof.
    intros R. destruct (coded_beam ai apply init tr final kS kI kT eS eI eT tti item_map CD KL M beam word n outs R) as (outs' & E1 & E2 & _ & E3 & E4 & E5).
    exists outs'. split; [exact E1|]. split; [exact E2|]. split; [exact E3|]. split.
    - intros LE. apply ni_splits. now apply E4.
    - intros DT EN runs HR HL. apply (E5 (Datatypes.S (list_max (map (@length _) runs)))) with (runs := runs); auto.
      + intros ts s rest A1 A2 A3. apply le_n_S. assert (Hin : In ts runs) by (apply HR; exists s, rest; auto).
        pose proof (proj1 (list_max_le (map (@length _) runs) _) (le_n _)) as F. rewrite Forall_forall in F. apply F. now apply in_map.
      + intros ts s rest A1 A2 A3. apply HR. exists s, rest. auto.
  Qed.
End EnumBeam.
