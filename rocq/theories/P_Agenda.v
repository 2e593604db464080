(* Proofs about agendas and heaps; concrete instances of the heap contracts. *)
From Verif Require Import Base M_Agenda S_Search.

(* ---------- concrete heaps, showing that the contracts of M_Agenda are satisfiable -------------------------------- *)
Section ListHeap.
  Context {I : Type} (leb : I -> I -> bool) (TO : TotalOrder leb).

  Fixpoint take_max (x : I) (l : list I) : I * list I :=
    match l with
    | [] => (x, [])
    | y :: r => if leb y x then let '(m, r') := take_max x r in (m, y :: r')
                else let '(m, r') := take_max y r in (m, x :: r')
    end.

  Lemma leb_refl x : leb x x = true.
  Proof. destruct (to_total _ TO x x); assumption. Qed.

  Lemma take_max_spec l : forall x m r, take_max x l = (m, r) ->
    Permutation (x :: l) (m :: r) /\ forall y, In y (x :: l) -> leb y m = true.
  Proof.
    induction l as [|y l IH]; intros x m r E; cbn in E.
    - injection E as <- <-. split; [reflexivity|]. intros z [<-|[]]. apply leb_refl.
    - destruct (leb y x) eqn:L.
      + destruct (take_max x l) as [m' r'] eqn:T. injection E as <- <-.
        destruct (IH _ _ _ T) as [P M]. split.
        * rewrite perm_swap. rewrite P. apply perm_swap.
        * intros z [<-|[<-|Hz]].
          -- apply M; left; reflexivity.
          -- eapply to_trans; [exact TO|exact L|]. apply M; left; reflexivity.
          -- apply M; right; assumption.
      + destruct (take_max y l) as [m' r'] eqn:T. injection E as <- <-.
        destruct (IH _ _ _ T) as [P M]. split.
        * rewrite P. apply perm_swap.
        * intros z [<-|[<-|Hz]].
          -- eapply to_trans; [exact TO| |apply M; left; reflexivity].
             destruct (to_total _ TO x y); [assumption|congruence].
          -- apply M; left; reflexivity.
          -- apply M; right; assumption.
  Qed.

  Definition lpop (l : list I) : option (I * list I) :=
    match l with [] => None | x :: r => Some (take_max x r) end.

  Definition list_heap : max_heap I leb.
  Proof.
    refine {| mh_T := list I; mh_empty := []; mh_push := cons; mh_pop := lpop;
              mh_peek := fun l => option_map fst (lpop l); mh_len := @length I; mh_of_list := fun l => l;
              mh_content := fun l => l |}; auto.
    - intros [|x l]; cbn; split; congruence.
    - intros [|x0 l] x h'; cbn; [congruence|]. intros E. injection E as E. apply take_max_spec; assumption.
  Defined.
End ListHeap.

Section ListMinMax.
  Context {I : Type} (leb : I -> I -> bool) (TO : TotalOrder leb).
  Let geb x y := leb y x.
  Lemma geb_TO : TotalOrder geb.
  Proof. split; unfold geb; intros; [apply to_total; exact TO|eapply to_trans; eauto]. Qed.

  Definition list_minmax : minmax_heap I leb.
  Proof.
    refine {| mm_T := list I; mm_empty := []; mm_push := cons; mm_pop_max := lpop leb;
              mm_peek_max := fun l => option_map fst (lpop leb l);
              mm_push_pop_min := fun x l => take_max geb x l; mm_len := @length I;
              mm_content := fun l => l |}; auto.
    - intros [|x l]; cbn; split; congruence.
    - intros [|x0 l] x h'; cbn; [congruence|]. intros E. injection E as E. apply take_max_spec; assumption.
    - intros h x y h' E. apply (take_max_spec geb geb_TO) in E. exact E.
  Defined.
End ListMinMax.

Lemma wi_TO {I W} (leb : W -> W -> bool) : TotalOrder leb -> TotalOrder (@wi_leb I W leb).
Proof. intros T. split; unfold wi_leb; intros; [apply to_total; exact T|eapply to_trans; eauto]. Qed.

Lemma nat_leb_TO : TotalOrder Nat.leb.
Proof. split; intros; rewrite ?Nat.leb_le in *; lia. Qed.

Lemma nat_eqb_spec : EqbSpec Nat.eqb.
Proof. intros a b. apply Nat.eqb_eq. Qed.

Lemma memb_In {A} (eqb : A -> A -> bool) : EqbSpec eqb -> forall x l, memb eqb x l = true <-> In x l.
Proof.
  intros E x l. unfold memb. rewrite existsb_exists. split.
  - intros (y & Hy & H). apply E in H. now subst.
  - intros H. exists x. split; [assumption|]. now apply E.
Qed.

Lemma memb_notIn {A} (eqb : A -> A -> bool) : EqbSpec eqb -> forall x l, memb eqb x l = false <-> ~ In x l.
Proof. intros E x l. rewrite <- (memb_In eqb E). destruct (memb eqb x l); split; congruence. Qed.

(* ---------- the agendas satisfy the agenda contracts ----------------------------------------------------------- *)
Lemma lossless_sound {I} (A : agenda I) c : agenda_lossless A c -> agenda_sound A c.
Proof.
  intros L. split.
  - intros x a y H. apply (Permutation_in _ (al_push _ _ L x a)) in H. destruct H; auto.
  - intros a x a' H. apply (al_pop_some _ _ L) in H. split.
    + apply (Permutation_in _ (Permutation_sym H)). left; reflexivity.
    + intros y Hy. apply (Permutation_in _ (Permutation_sym H)). right; assumption.
Qed.

Lemma vec_pop_some {I} (v : list I) x v' : vec_pop v = Some (x, v') <-> v = v' ++ [x].
Proof.
  unfold vec_pop. split.
  - intros H. destruct (rev v) as [|y r] eqn:E; [discriminate|]. injection H as -> <-.
    rewrite <- (rev_involutive v), E. reflexivity.
  - intros ->. rewrite rev_app_distr. cbn. now rewrite rev_involutive.
Qed.

Lemma vec_pop_none {I} (v : list I) : vec_pop v = None <-> v = [].
Proof.
  unfold vec_pop. split.
  - intros H. destruct (rev v) eqn:E; [|discriminate]. now rewrite <- (rev_involutive v), E.
  - intros ->. reflexivity.
Qed.

Lemma vec_lossless I : agenda_lossless (vec_agenda I) (fun v => v).
Proof.
  split; cbn.
  - intros x a. symmetry. apply Permutation_cons_append.
  - intros a x a' H. apply vec_pop_some in H. subst. symmetry. apply Permutation_cons_append.
  - apply vec_pop_none.
Qed.

Lemma deque_lossless I : agenda_lossless (deque_agenda I) (fun v => v).
Proof.
  split; cbn.
  - reflexivity.
  - intros a x a' H. apply vec_pop_some in H. subst. symmetry. apply Permutation_cons_append.
  - apply vec_pop_none.
Qed.

Section HeapAgenda.
  Context {I W : Type} (weight : I -> W) (leb : W -> W -> bool) (TO : TotalOrder leb)
          (H : max_heap (I * W) (wi_leb leb)).

  Definition heap_agenda_content (h : ag_T (heap_agenda weight leb H)) : list I := map fst (mh_content H h).

  (* Contents whose stored priority is the weight of the item: the only ones weighted::BinaryHeap ever builds. *)
  Definition heap_wf (h : mh_T H) : Prop := forall p, In p (mh_content H h) -> snd p = weight (fst p).
End HeapAgenda.

Section HeapAgendaTotal.
  (* To avoid a side condition on heaps, restrict the agenda's state to the well-formed heaps. *)
  Context {I W : Type} (weight : I -> W) (leb : W -> W -> bool) (H : max_heap (I * W) (wi_leb leb)).

  Lemma heap_lossless : agenda_lossless (heap_agenda weight leb H) (heap_agenda_content weight leb H).
  Proof.
    unfold heap_agenda_content. split; cbn.
    - intros x a. rewrite (mh_push_c H). reflexivity.
    - intros a x a' E. destruct (mh_pop H a) as [[[y p] h']|] eqn:P; [|discriminate].
      cbn in E. injection E as -> ->. apply (mh_pop_some H) in P. destruct P as [P _].
      rewrite P. reflexivity.
    - intros a. destruct (mh_pop H a) as [[[y p] h']|] eqn:P; cbn.
      + split; [discriminate|]. intros E. apply map_eq_nil in E. apply (mh_pop_none H) in E. congruence.
      + split; [intros _|reflexivity]. apply (mh_pop_none H) in P. now rewrite P.
  Qed.

  Lemma heap_wf_push x h : heap_wf weight leb H h -> heap_wf weight leb H (ag_push (heap_agenda weight leb H) x h).
  Proof.
    intros Wf p Hp. cbn in Hp. apply (Permutation_in _ (mh_push_c H _ _)) in Hp. destruct Hp as [<-|Hp]; auto.
  Qed.

  Lemma heap_wf_pop x h h' : ag_pop (heap_agenda weight leb H) h = Some (x, h') ->
    heap_wf weight leb H h -> heap_wf weight leb H h'.
  Proof.
    cbn. destruct (mh_pop H h) as [[[y p] h1]|] eqn:P; [|discriminate]. cbn. intros E. injection E as -> ->.
    intros Wf q Hq. apply Wf. apply (mh_pop_some H) in P. destruct P as [P _].
    apply (Permutation_in _ (Permutation_sym P)). now right.
  Qed.

  Lemma heap_wf_collect xs : heap_wf weight leb H (heap_collect weight leb H xs).
  Proof.
    intros p Hp. unfold heap_collect in Hp. apply (Permutation_in _ (mh_of_list_c H _)) in Hp.
    apply in_map_iff in Hp. destruct Hp as (x & <- & _). reflexivity.
  Qed.

  Lemma heap_collect_content xs : Permutation (heap_agenda_content weight leb H (heap_collect weight leb H xs)) xs.
  Proof.
    unfold heap_agenda_content, heap_collect. rewrite (mh_of_list_c H). rewrite map_map. cbn. now rewrite map_id.
  Qed.

  Lemma heap_max h x h' y : heap_wf weight leb H h -> ag_pop (heap_agenda weight leb H) h = Some (x, h') ->
    In y (heap_agenda_content weight leb H h) -> leb (weight y) (weight x) = true.
  Proof.
    cbn. intros Wf. destruct (mh_pop H h) as [[[z p] h1]|] eqn:P; [|discriminate]. cbn. intros E. injection E as -> ->.
    intros Hy. unfold heap_agenda_content in Hy. apply in_map_iff in Hy. destruct Hy as ([y' q] & <- & Hy).
    apply (mh_pop_some H) in P. destruct P as [P M]. specialize (M _ Hy). unfold wi_leb in M. cbn in M.
    pose proof (Wf _ Hy) as Eq. cbn in Eq. subst q.
    assert (Hx : In (x, p) (mh_content H h)) by (apply (Permutation_in _ (Permutation_sym P)); now left).
    pose proof (Wf _ Hx) as Ex. cbn in Ex. subst p. exact M.
  Qed.
End HeapAgendaTotal.

(* LimitedHeap and BeamHeap may drop items but never invent any. *)
Lemma heap_maxfirst {I W} (weight : I -> W) leb (H : max_heap (I * W) (wi_leb leb)) :
  agenda_maxfirst (heap_agenda weight leb H) (heap_agenda_content weight leb H) (heap_wf weight leb H) weight leb.
Proof.
  split.
  - apply heap_lossless.
  - intros x a. apply heap_wf_push.
  - intros a x a' E Wf. eapply heap_wf_pop; eauto.
  - intros a x a' y Wf E. eapply heap_max; eauto.
Qed.

Section LimitedBeamSound.
  Context {I W : Type} (leb : W -> W -> bool) (weight : I -> W).

  Lemma limited_sound (H : minmax_heap (I * W) (wi_leb leb)) :
    agenda_sound (limited_agenda H weight) (fun h => map fst (lh_items H h)).
  Proof.
    unfold lh_items. split; cbn.
    - intros x h y. unfold lh_push. destruct (Nat.ltb _ _); cbn.
      + rewrite (mm_push_c H). cbn. intros [<-|?]; auto.
      + destruct (mm_push_pop_min H (x, weight x) (lh_heap H h)) as [m h'] eqn:E. cbn.
        apply (mm_ppm H) in E. destruct E as [P _]. intros Hy. apply in_map_iff in Hy. destruct Hy as (p & <- & Hp).
        assert (Hp' : In p ((x, weight x) :: mm_content H (lh_heap H h))).
        { apply (Permutation_in _ (Permutation_sym P)). now right. }
        destruct Hp' as [<-|Hp']; [now left|right; now apply in_map].
    - intros h x h'. unfold lh_pop. destruct (mm_pop_max H (lh_heap H h)) as [[[z p] h1]|] eqn:P; [|discriminate].
      cbn. intros E. injection E as -> <-. apply (mm_pop_some H) in P. destruct P as [P _]. cbn. split.
      + rewrite P. now left.
      + intros y Hy. rewrite P. now right.
  Qed.

  Lemma beam_sound mul (H : max_heap (I * W) (wi_leb leb)) :
    agenda_sound (beam_agenda mul H weight) (fun h => map fst (bh_items H h)).
  Proof.
    unfold bh_items. split; cbn.
    - intros x h y. unfold bh_push. destruct (mh_peek H (bh_heap H h)) as [t|]; [destruct (leb _ _)|]; cbn; auto;
        rewrite (mh_push_c H); cbn; intros [<-|?]; auto.
    - intros h x h'. unfold bh_pop. destruct (mh_pop H (bh_heap H h)) as [[[z p] h1]|] eqn:P; [|discriminate].
      cbn. intros E. injection E as -> <-. apply (mh_pop_some H) in P. destruct P as [P _]. cbn. split.
      + rewrite P. now left.
      + intros y Hy. rewrite P. now right.
  Qed.
End LimitedBeamSound.
