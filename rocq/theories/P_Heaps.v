(* Proofs about LimitedHeap, BeamHeap and UniqueHeap. *)
From Verif Require Import Base M_Agenda P_Agenda S_Heaps.
Arguments Nat.ltb : simpl never.

Section Limited.
  Context {I W : Type} {leb : W -> W -> bool} (TO : TotalOrder leb) (H : minmax_heap (I * W) (wi_leb leb)).

  Lemma lh_len_items h : lh_len H h = length (lh_items H h).
  Proof. unfold lh_len, lh_items. apply (mm_len_c H). Qed.

  Lemma lh_push_notfull e p h : lh_len H h < lh_capacity H h ->
    fst (lh_push H e p h) = None /\ Permutation (lh_items H (snd (lh_push H e p h))) ((e, p) :: lh_items H h).
  Proof.
    unfold lh_push, lh_len, lh_items. intros L. destruct (Nat.ltb_spec (mm_len H (lh_heap H h)) (lh_capacity H h)); [|lia].
    cbn. split; [reflexivity|apply (mm_push_c H)].
  Qed.

  Lemma lh_push_full e p h : lh_capacity H h <= lh_len H h ->
    exists d, fst (lh_push H e p h) = Some (fst d) /\
      Permutation ((e, p) :: lh_items H h) (d :: lh_items H (snd (lh_push H e p h))) /\
      forall q, In q ((e, p) :: lh_items H h) -> leb (snd d) (snd q) = true.
  Proof.
    unfold lh_push, lh_len, lh_items. intros L. destruct (Nat.ltb_spec (mm_len H (lh_heap H h)) (lh_capacity H h)); [lia|].
    destruct (mm_push_pop_min H (e, p) (lh_heap H h)) as [m h'] eqn:E. cbn. exists m.
    apply (mm_ppm H) in E. destruct E as [P M]. repeat split; auto.
  Qed.

  Lemma lh_push_cap e p h : lh_capacity H (snd (lh_push H e p h)) = lh_capacity H h.
  Proof.
    unfold lh_push. destruct (Nat.ltb _ _); [reflexivity|]. now destruct (mm_push_pop_min _ _ _).
  Qed.

  Lemma lh_pop_spec h :
    match lh_pop H h with
    | None => lh_items H h = []
    | Some (x, h') => lh_capacity H h' = lh_capacity H h /\
        exists w, Permutation (lh_items H h) ((x, w) :: lh_items H h') /\
                  forall q, In q (lh_items H h) -> leb (snd q) w = true
    end.
  Proof.
    unfold lh_pop, lh_items. destruct (mm_pop_max H (lh_heap H h)) as [[[x w] h']|] eqn:P; cbn.
    - split; [reflexivity|]. exists w. apply (mm_pop_some H) in P. destruct P as [P M]. split; [assumption|].
      intros q Hq. apply (M q Hq).
    - now apply (mm_pop_none H).
  Qed.

  Lemma lh_peek_pop h : lh_peek H h = option_map fst (lh_pop H h).
  Proof.
    unfold lh_peek, lh_pop. rewrite (mm_peek_pop H). destruct (mm_pop_max H (lh_heap H h)) as [[[x w] h']|]; reflexivity.
  Qed.

  Lemma lh_run_S h o ops : lh_run H h (o :: ops) =
    (fst (lh_step H h o) :: fst (lh_run H (snd (lh_step H h o)) ops), snd (lh_run H (snd (lh_step H h o)) ops)).
  Proof. cbn. destruct (lh_step H h o) as [x h1]. cbn. now destruct (lh_run H h1 ops). Qed.

  Lemma lh_bound ops : forall h, lh_len H h <= lh_capacity H h ->
    lh_len H (snd (lh_run H h ops)) <= lh_capacity H h /\
    lh_capacity H (snd (lh_run H h ops)) = lh_capacity H h.
  Proof.
    induction ops as [|o ops IH]; intros h L; [cbn; auto|]. rewrite lh_run_S. cbn [snd].
    assert (S1 : lh_len H (snd (lh_step H h o)) <= lh_capacity H h /\
                 lh_capacity H (snd (lh_step H h o)) = lh_capacity H h).
    { destruct o as [e p| |]; cbn.
      - pose proof (lh_push_cap e p h) as C. destruct (lh_push H e p h) as [r h1] eqn:Eq.
        cbn [snd] in *. rewrite C. split; [|reflexivity].
        destruct (Nat.lt_ge_cases (lh_len H h) (lh_capacity H h)) as [G|G].
        + destruct (lh_push_notfull e p h G) as [_ P]. rewrite Eq in P. cbn in P.
          rewrite lh_len_items, (Permutation_length P). cbn. rewrite <- lh_len_items. lia.
        + destruct (lh_push_full e p h G) as (d & _ & P & _). rewrite Eq in P. cbn in P.
          apply Permutation_length in P. cbn in P. rewrite lh_len_items in *. lia.
      - pose proof (lh_pop_spec h) as S. destruct (lh_pop H h) as [[x h']|]; cbn.
        + destruct S as [-> (w & P & _)]. apply Permutation_length in P. cbn in P. rewrite lh_len_items in *.
          split; [lia|reflexivity].
        + auto.
      - split; [|reflexivity]. unfold lh_len, lh_clear. cbn. rewrite (mm_len_c H), (mm_empty_c H). cbn. lia. }
    destruct S1 as [S1 S2]. destruct (IH (snd (lh_step H h o))) as [I1 I2]; [lia|]. rewrite S2 in *. auto.
  Qed.

  (* nothing is lost: pushed = handed back or popped + still there *)
  Lemma lh_conserve ops : forall h, ~ In LClear ops ->
    Permutation (map fst (lh_items H h) ++ pushed_items ops)
                (handed_out (fst (lh_run H h ops)) ++ map fst (lh_items H (snd (lh_run H h ops)))).
  Proof.
    induction ops as [|o ops IH]; intros h N; [cbn; now rewrite app_nil_r|].
    rewrite lh_run_S. cbn [fst snd]. assert (N' : ~ In LClear ops) by (intros G; apply N; now right).
    specialize (IH (snd (lh_step H h o)) N').
    destruct o as [e p| |]; [| |exfalso; apply N; now left].
    - cbn in *. destruct (lh_push H e p h) as [r h1] eqn:Eq. cbn [fst snd] in *.
      destruct (Nat.lt_ge_cases (lh_len H h) (lh_capacity H h)) as [G|G].
      + destruct (lh_push_notfull e p h G) as [E1 P]. rewrite Eq in *. cbn in E1, P. subst r. cbn.
        rewrite <- IH, P. cbn. symmetry. apply Permutation_middle.
      + destruct (lh_push_full e p h G) as (d & E1 & P & _). rewrite Eq in *. cbn in E1, P. subst r. cbn.
        rewrite <- IH. rewrite <- Permutation_middle. rewrite !app_comm_cons. apply Permutation_app_tail.
        apply (Permutation_map fst) in P. exact P.
    - cbn in *. pose proof (lh_pop_spec h) as S. destruct (lh_pop H h) as [[x h']|]; cbn in *.
      + destruct S as [_ (w & P & _)]. rewrite <- IH, P. reflexivity.
      + exact IH.
  Qed.

  (* pushes only: the heap keeps the best *)
  Lemma lh_best ps : forall c h kept dropped, lh_capacity H h = c ->
    Permutation (lh_items H h) kept -> length kept <= c ->
    (dropped <> [] -> length kept = c) ->
    (forall d k, In d dropped -> In k kept -> leb (snd d) (snd k) = true) ->
    exists kept' dropped',
      Permutation (kept ++ ps) (kept' ++ dropped') /\
      Permutation (lh_items H (snd (lh_run H h (map (fun q => LPush (fst q) (snd q)) ps)))) kept' /\
      length kept' = Nat.min c (length kept + length ps) /\
      handed_out (fst (lh_run H h (map (fun q => LPush (fst q) (snd q)) ps))) = map fst dropped' /\
      (forall d k, In d (dropped ++ dropped') -> In k kept' -> leb (snd d) (snd k) = true).
  Proof.
    induction ps as [|[e p] ps IH]; intros c h kept dropped C P L F B.
    - exists kept, []. cbn. rewrite !app_nil_r. repeat split; auto. lia.
    - cbn [map fst snd]. rewrite lh_run_S. cbn [fst snd lh_step].
      destruct (lh_push H e p h) as [r h1] eqn:Eq. cbn [fst snd].
      pose proof (lh_push_cap e p h) as C1. rewrite Eq in C1. cbn in C1.
      pose proof (Permutation_length P) as PL. rewrite <- lh_len_items in PL.
      destruct (Nat.lt_ge_cases (lh_len H h) (lh_capacity H h)) as [G|G].
      + destruct (lh_push_notfull e p h G) as [E1 P1]. rewrite Eq in *. cbn in E1, P1. subst r.
        assert (D0 : dropped = []) by (destruct dropped; [reflexivity|]; specialize (F ltac:(discriminate)); lia).
        subst dropped.
        destruct (IH c h1 ((e, p) :: kept) []) as (k' & d' & Q1 & Q2 & Q3 & Q4 & Q5).
        * lia.
        * rewrite P1. now apply perm_skip.
        * cbn. lia.
        * congruence.
        * intros d k [].
        * exists k', d'. repeat split; auto.
          -- rewrite <- Q1. cbn. symmetry. apply Permutation_middle.
          -- cbn in Q3. cbn. rewrite Q3. f_equal. lia.
      + destruct (lh_push_full e p h G) as (d & E1 & P1 & M). rewrite Eq in *. cbn in E1, P1. subst r.
        assert (Lk : length (lh_items H h1) = c).
        { apply Permutation_length in P1. cbn in P1. rewrite lh_len_items in *. lia. }
        destruct (IH c h1 (lh_items H h1) (dropped ++ [d])) as (k' & d' & Q1 & Q2 & Q3 & Q4 & Q5).
        * lia.
        * reflexivity.
        * lia.
        * auto.
        * intros x k Hx Hk. apply in_app_or in Hx. destruct Hx as [Hx|[<-|[]]].
          -- assert (Hk' : In k ((e, p) :: lh_items H h)).
             { apply (Permutation_in _ (Permutation_sym P1)). now right. }
             destruct Hk' as [<-|Hk'].
             ++ (* the new element is kept, so the dropped one is an old one below it *)
                assert (Hd : In d ((e, p) :: lh_items H h)).
                { apply (Permutation_in _ (Permutation_sym P1)). now left. }
                destruct Hd as [<-|Hd].
                ** apply Permutation_cons_inv in P1. apply (B x _ Hx). apply (Permutation_in _ P).
                   apply (Permutation_in _ (Permutation_sym P1)). exact Hk.
                ** eapply to_trans; [exact TO| |apply M; now left].
                   apply (B x d Hx). apply (Permutation_in _ P). exact Hd.
             ++ apply (B x k Hx). apply (Permutation_in _ P). exact Hk'.
          -- apply M. apply (Permutation_in _ (Permutation_sym P1)). now right.
        * exists k', (d :: d'). repeat split; auto.
          -- etransitivity; [|apply Permutation_middle]. rewrite <- Q1. rewrite app_comm_cons.
             rewrite <- P1. rewrite P. symmetry. apply Permutation_middle.
          -- rewrite Q3, Lk. cbn. rewrite <- PL. rewrite C in G. lia.
          -- cbn. f_equal. exact Q4.
          -- intros x k Hx Hk. apply Q5; [|assumption]. rewrite <- app_assoc. exact Hx.
  Qed.
End Limited.

Section Beam.
  Context {I W : Type} {leb : W -> W -> bool} (mul : W -> W -> W) (H : max_heap (I * W) (wi_leb leb)).

  Lemma bh_push_spec e p h :
    let '(ok, h') := bh_push mul H e p h in
    bh_beta H h' = bh_beta H h /\
       (ok = true /\ Permutation (bh_items H h') ((e, p) :: bh_items H h) /\
       (bh_items H h = [] \/ exists m, In m (bh_items H h) /\ (forall q, In q (bh_items H h) -> leb (snd q) (snd m) = true) /\
       leb (mul (snd m) (bh_beta H h)) p = true) \/
     ok = false /\ h' = h /\ exists m, In m (bh_items H h) /\
       (forall q, In q (bh_items H h) -> leb (snd q) (snd m) = true) /\ leb (mul (snd m) (bh_beta H h)) p = false).
  Proof.
    unfold bh_push, bh_items. rewrite (mh_peek_pop H).
    destruct (mh_pop H (bh_heap H h)) as [[m h1]|] eqn:P; cbn.
    - destruct (mh_pop_some H _ _ _ P) as [P1 M].
      assert (Hm : In m (mh_content H (bh_heap H h))) by (apply (Permutation_in _ (Permutation_sym P1)); now left).
      destruct (leb (mul (snd m) (bh_beta H h)) p) eqn:L; cbn.
      + split; [reflexivity|]. left. repeat split; [apply (mh_push_c H)|]. right. exists m. auto.
      + split; [reflexivity|]. right. repeat split. exists m. auto.
    - apply (mh_pop_none H) in P. split; [reflexivity|]. left. repeat split; [apply (mh_push_c H)|now left].
  Qed.

  Lemma bh_pop_spec h :
    match bh_pop H h with
    | None => bh_items H h = []
    | Some (x, h') => bh_beta H h' = bh_beta H h /\
        exists w, Permutation (bh_items H h) ((x, w) :: bh_items H h') /\
                  forall q, In q (bh_items H h) -> leb (snd q) w = true
    end.
  Proof.
    unfold bh_pop, bh_items. destruct (mh_pop H (bh_heap H h)) as [[[x w] h']|] eqn:P; cbn.
    - split; [reflexivity|]. exists w. apply (mh_pop_some H) in P. destruct P as [P M]. split; [assumption|].
      intros q Hq. apply (M q Hq).
    - now apply (mh_pop_none H).
  Qed.

  Lemma bh_peek_pop h : bh_peek H h = option_map fst (bh_pop H h).
  Proof.
    unfold bh_peek, bh_pop. rewrite (mh_peek_pop H). destruct (mh_pop H (bh_heap H h)) as [[[x w] h']|]; reflexivity.
  Qed.

  Lemma bh_len_items h : bh_len H h = length (bh_items H h).
  Proof. apply (mh_len_c H). Qed.

  Lemma bh_run_S h o ops : bh_run mul H h (o :: ops) =
    (fst (bh_step mul H h o) :: fst (bh_run mul H (snd (bh_step mul H h o)) ops),
     snd (bh_run mul H (snd (bh_step mul H h o)) ops)).
  Proof. cbn. destruct (bh_step mul H h o) as [x h1]. cbn. now destruct (bh_run mul H h1 ops). Qed.

  Lemma bh_conserve ops : forall h,
    Permutation (map fst (bh_items H h) ++ bh_accepted ops (fst (bh_run mul H h ops)))
                (bh_popped (fst (bh_run mul H h ops)) ++ map fst (bh_items H (snd (bh_run mul H h ops)))).
  Proof.
    induction ops as [|o ops IH]; intros h; [cbn; now rewrite app_nil_r|]. rewrite bh_run_S. cbn [fst snd].
    specialize (IH (snd (bh_step mul H h o))). destruct o as [e p|]; cbn in *.
    - pose proof (bh_push_spec e p h) as S. destruct (bh_push mul H e p h) as [ok h'] eqn:E. cbn in *.
      destruct S as [_ [(-> & P & _)|(-> & -> & _)]]; cbn.
      + fold (bh_accepted ops (fst (bh_run mul H h' ops))). rewrite <- IH, P. cbn. symmetry. apply Permutation_middle.
      + exact IH.
    - pose proof (bh_pop_spec h) as S. destruct (bh_pop H h) as [[x h']|]; cbn in *.
      + destruct S as [_ (w & P & _)]. fold (bh_popped (fst (bh_run mul H h' ops))).
        fold (bh_accepted ops (fst (bh_run mul H h' ops))). rewrite <- IH, P. reflexivity.
      + exact IH.
  Qed.
End Beam.

Section Unique.
  Context {It Wt : Type} (eqb : It -> It -> bool) (E : EqbSpec eqb) {leb : (Wt * It) -> (Wt * It) -> bool}
          (H : max_heap (Wt * It) leb).

  Definition uh_inv (h : unique_heap H) : Prop :=
    NoDup (map snd (uh_items H h)) /\ forall x, In x (uh_current H h) <-> In x (map snd (uh_items H h)).

  Lemma uh_inv_default : uh_inv (uh_default H).
  Proof. unfold uh_inv, uh_items. cbn. rewrite (mh_empty_c H). cbn. split; [constructor|tauto]. Qed.

  Lemma uh_push_spec i w h : uh_inv h ->
    uh_inv (snd (uh_push eqb H i w h)) /\
    (In i (map snd (uh_items H h)) /\ fst (uh_push eqb H i w h) = false /\
       uh_items H (snd (uh_push eqb H i w h)) = uh_items H h \/
     ~ In i (map snd (uh_items H h)) /\ fst (uh_push eqb H i w h) = true /\
       Permutation (uh_items H (snd (uh_push eqb H i w h))) ((w, i) :: uh_items H h)).
  Proof.
    intros [N C]. unfold uh_push, uh_insert. destruct (memb eqb i (uh_current H h)) eqn:M; cbn.
    - apply (memb_In eqb E) in M. apply C in M. split; [split; assumption|]. left. auto.
    - apply (memb_notIn eqb E) in M. rewrite C in M.
      assert (P : Permutation (uh_items H (UniqueHeap H (mh_push H (w, i) (uh_heap H h)) (i :: uh_current H h)))
                              ((w, i) :: uh_items H h)) by apply (mh_push_c H).
      split.
      + split.
        * rewrite P. cbn. now constructor.
        * intros x. rewrite P. cbn. rewrite C. tauto.
      + right. auto.
  Qed.

  Lemma uh_remove_In x y s : In y (uh_remove eqb x s) <-> In y s /\ y <> x.
  Proof.
    unfold uh_remove. rewrite filter_In. split; intros [H1 H2]; split; auto.
    - intros ->. apply negb_true_iff in H2. pose proof (proj2 (E x x) eq_refl). congruence.
    - apply negb_true_iff. destruct (eqb x y) eqn:Q; [|reflexivity]. apply E in Q. congruence.
  Qed.

  Lemma uh_pop_spec h : uh_inv h ->
    match uh_pop eqb H h with
    | None => uh_items H h = []
    | Some ((i, w), h') => uh_inv h' /\ Permutation (uh_items H h) ((w, i) :: uh_items H h') /\
        ~ In i (map snd (uh_items H h')) /\ forall q, In q (uh_items H h) -> leb q (w, i) = true
    end.
  Proof.
    intros [N C]. unfold uh_pop, uh_items in *. destruct (mh_pop H (uh_heap H h)) as [[[w i] h']|] eqn:P; cbn.
    - apply (mh_pop_some H) in P. destruct P as [P M].
      pose proof (Permutation_map snd P) as Pm. pose proof (Permutation_NoDup Pm N) as N'. cbn in N'.
      inversion N' as [|? ? Hi Hn]; subst. repeat split; auto.
      + unfold uh_items; cbn. rewrite uh_remove_In, C. rewrite P. cbn. intros [[->|G] G']; congruence.
      + unfold uh_items; cbn. intros G. rewrite uh_remove_In, C. rewrite P. cbn. split; [now right|]. intros ->. contradiction.
    - now apply (mh_pop_none H).
  Qed.

  Lemma uh_inv_run ops : forall h, uh_inv h -> uh_inv (uh_run eqb H h ops).
  Proof.
    induction ops as [|o ops IH]; intros h Hh; [assumption|]. cbn. apply IH. destruct o as [i w|]; cbn.
    - now apply uh_push_spec.
    - pose proof (uh_pop_spec h Hh) as S. destruct (uh_pop eqb H h) as [[[i w] h']|]; [tauto|assumption].
  Qed.

  Lemma uh_from_iter_pushes l : uh_from_iter eqb H l = uh_run eqb H (uh_default H) (map (fun p => UPush (fst p) (snd p)) l).
  Proof.
    unfold uh_from_iter, uh_run. generalize (uh_default H). induction l as [|[i w] l IH]; intros h; [reflexivity|].
    cbn. rewrite <- IH. f_equal. unfold uh_push. now destruct (uh_insert eqb i (uh_current H h)) as [[] s].
  Qed.

  (* construction from a vector with pairwise different elements *)
  Lemma uh_from_vec_inv v : NoDup (map snd v) -> uh_inv (uh_from_vec eqb H v).
  Proof.
    intros N. unfold uh_inv, uh_items, uh_from_vec. cbn. split.
    - rewrite (mh_of_list_c H). assumption.
    - intros x. rewrite (mh_of_list_c H).
      assert (G : forall s, In x (fold_left (fun s (p : Wt * It) => snd (uh_insert eqb (snd p) s)) v s) <->
                            In x s \/ In x (map snd v)).
      { clear N. induction v as [|[w i] v IH]; intros s; cbn; [tauto|]. rewrite IH. unfold uh_insert.
        destruct (memb eqb i s) eqn:M; cbn.
        - apply (memb_In eqb E) in M. split; [tauto|]. intros [G|[<-|G]]; tauto.
        - tauto. }
      rewrite G. cbn. tauto.
  Qed.

  Lemma uh_lex_max la lb (q : Wt * It) w i : leb = lex_leb la lb -> leb q (w, i) = true -> la (fst q) w = true.
  Proof. intros -> . unfold lex_leb. cbn. destruct (la (fst q) w); congruence. Qed.
End Unique.

Lemma lex_TO {A B} (la : A -> A -> bool) (lb : B -> B -> bool) : TotalOrder la -> TotalOrder lb -> TotalOrder (lex_leb la lb).
Proof.
  intros [TA RA] [TB RB]. split; unfold lex_leb.
  - intros [a b] [c d]; cbn. destruct (la a c) eqn:E1, (la c a) eqn:E2; auto.
    destruct (TA a c); congruence.
  - intros [a b] [c d] [e f]; cbn. destruct (la a c) eqn:E1; [|discriminate]. destruct (la c e) eqn:E2; [|discriminate].
    rewrite (RA _ _ _ E1 E2). destruct (la e a) eqn:E3; [|reflexivity].
    rewrite (RA _ _ _ E2 E3), (RA _ _ _ E3 E1). apply RB.
Qed.

Lemma bh_push_iff {I W} {leb : W -> W -> bool} (mul : W -> W -> W) (H : max_heap (I * W) (wi_leb leb)) (AS : Antisym leb) e p h :
  (fst (bh_push mul H e p h) = true <->
   bh_items H h = [] \/
   exists m, In m (bh_items H h) /\ (forall q, In q (bh_items H h) -> leb (snd q) (snd m) = true) /\
             leb (mul (snd m) (bh_beta H h)) p = true) /\
  (fst (bh_push mul H e p h) = true ->
     Permutation (bh_items H (snd (bh_push mul H e p h))) ((e, p) :: bh_items H h)) /\
  (fst (bh_push mul H e p h) = false -> snd (bh_push mul H e p h) = h).
Proof.
  pose proof (bh_push_spec mul H e p h) as S. destruct (bh_push mul H e p h) as [ok h']. cbn.
  destruct S as [_ [(-> & P & S)|(-> & -> & m & Hm & Mm & Lm)]].
  - repeat split; auto. discriminate.
  - repeat split; try congruence. intros [Z|(m' & Hm' & Mm' & Lm')].
    + rewrite Z in Hm. destruct Hm.
    + assert (snd m = snd m') by (apply AS; auto). congruence.
Qed.

Lemma bh_beta_run {I W} {leb : W -> W -> bool} (mul : W -> W -> W) (H : max_heap (I * W) (wi_leb leb)) ops : forall h,
  bh_beta H (snd (bh_run mul H h ops)) = bh_beta H h.
Proof.
  induction ops as [|o ops IH]; intros h; [reflexivity|]. rewrite bh_run_S. cbn [snd]. rewrite IH.
  destruct o as [e p|]; cbn.
  - pose proof (bh_push_spec mul H e p h) as S. destruct (bh_push mul H e p h). cbn. tauto.
  - pose proof (bh_pop_spec H h) as S. destruct (bh_pop H h) as [[x h']|]; cbn; tauto.
Qed.
