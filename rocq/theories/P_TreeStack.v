(* Proofs about tree stacks. *)
From Verif Require Import Base BMap M_Agenda M_Search M_Util M_Recog M_Automata M_TreeStack S_TreeStack P_Automata.

Lemma nth_error_set_nth {X} (l : list X) : forall n x m, nth_error (set_nth n x l) m =
  if Nat.eqb m n then (if Nat.ltb n (length l) then Some x else None) else nth_error l m.
Proof.
  induction l as [|y l IH]; intros [|n] x [|m]; cbn; try reflexivity.
  - now destruct (Nat.eqb m n).
  - rewrite IH. destruct (Nat.eqb m n); [|reflexivity]. reflexivity.
Qed.
Lemma set_nth_length {X} (l : list X) : forall n x, length (set_nth n x l) = length l.
Proof. induction l as [|y l IH]; intros [|n] x; cbn; auto. Qed.
Lemma set_nth_same {X} (l : list X) : forall n x, nth_error l n = Some x -> set_nth n x l = l.
Proof. induction l as [|y l IH]; intros [|n] x H; cbn in *; try congruence. f_equal. auto. Qed.
Lemma set_nth_twice {X} (l : list X) : forall n x y, set_nth n x (set_nth n y l) = set_nth n x l.
Proof. induction l as [|z l IH]; intros [|n] x y; cbn; auto. f_equal. auto. Qed.

Section TSInd.
  Context {A : Type} (P : tstack A -> Prop)
    (H : forall par v ch, (forall n p, par = Some (n, p) -> P p) -> (forall c, In (Some c) ch -> P c) -> P (TStack par v ch)).
  Fixpoint ts_ind (t : tstack A) : P t :=
    match t with
    | TStack par v ch =>
        H par v ch
          (match par as o return (forall n p, o = Some (n, p) -> P p) with
           | None => fun n p E => match E in (_ = y) return match y with None => True | Some (_, p) => P p end with eq_refl => I end
           | Some (n0, p0) => fun n p E =>
               match E in (_ = y) return match y with None => True | Some (_, p) => P p end with eq_refl => ts_ind p0 end
           end)
          ((fix go l : forall c, In (Some c) l -> P c :=
              match l as l return (forall c, In (Some c) l -> P c) with
              | [] => fun c E => match E with end
              | o :: r => fun c E => match E with
                                     | or_introl E1 => (match o as o return (o = Some c -> P c) with
                                                        | None => fun E1 => match E1 in (_ = y) return match y with None => True | Some c => P c end with eq_refl => I end
                                                        | Some c0 => fun E1 => match E1 in (_ = y) return match y with None => True | Some c => P c end with eq_refl => ts_ind c0 end
                                                        end) E1
                                     | or_intror E2 => go r c E2
                                     end
              end) ch)
    end.
End TSInd.

(* ---- invariant ---- *)
Inductive wf_sub {A} : tstack A -> Prop :=
  wf_sub_intro v ch : (forall c, In (Some c) ch -> wf_sub c) -> wf_sub (TStack None v ch).
Inductive wf {A} : tstack A -> Prop :=
| wf_root v ch : (forall c, In (Some c) ch -> wf_sub c) -> wf (TStack None v ch)
| wf_node n p v ch : (forall c, In (Some c) ch -> wf_sub c) -> wf p -> nth_error (ts_children p) n = Some None -> wf (TStack (Some (n, p)) v ch).

Lemma in_nth_error {X} (l : list X) x : In x l <-> exists n, nth_error l n = Some x.
Proof. split; [apply In_nth_error|]. intros [n H]. now apply nth_error_In in H. Qed.

Section Ops.
  Context {A : Type}.
  Notation ts := (tstack A).

  Lemma fill_nth (t : ts) n m : nth_error (ts_children (ts_fill t n)) m =
    match nth_error (ts_children t) m with Some x => Some x | None => if Nat.leb m n then Some None else None end.
  Proof.
    unfold ts_fill. destruct (Nat.leb (length (ts_children t)) n) eqn:E; cbn [ts_children].
    - apply Nat.leb_le in E. destruct (nth_error (ts_children t) m) eqn:E1.
      + rewrite nth_error_app1; [assumption|]. apply nth_error_Some. congruence.
      + apply nth_error_None in E1. rewrite nth_error_app2 by assumption.
        destruct (Nat.leb m n) eqn:E2.
        * apply Nat.leb_le in E2. rewrite nth_error_repeat; [reflexivity|lia].
        * apply Nat.leb_gt in E2. apply nth_error_None. rewrite repeat_length. lia.
    - apply Nat.leb_gt in E. destruct (nth_error (ts_children t) m) eqn:E1; [reflexivity|]. apply nth_error_None in E1.
      destruct (Nat.leb_spec m n); [lia|reflexivity].
  Qed.
  Lemma fill_parent (t : ts) n : ts_parent (ts_fill t n) = ts_parent t.
  Proof. unfold ts_fill. now destruct (Nat.leb _ _). Qed.
  Lemma fill_value (t : ts) n : ts_value (ts_fill t n) = ts_value t.
  Proof. unfold ts_fill. now destruct (Nat.leb _ _). Qed.

  (* child n of t *)
  Definition child (t : ts) (n : nat) : option ts := match nth_error (ts_children t) n with Some (Some c) => Some c | _ => None end.

  Lemma push_spec (t : ts) n a :
    ts_push_p t n a <> None /\
    (child t n = None -> ts_push t n a = Ok (TStack (Some (n, ts_fill t n)) a [])) /\
    (child t n <> None -> ts_push t n a = Err t).
  Proof.
    unfold ts_push, ts_push_p, child. rewrite fill_nth, Nat.leb_refl.
    destruct (nth_error (ts_children t) n) as [[c|]|] eqn:E; (split; [discriminate|]); split; try congruence; intros _.
    f_equal. unfold ts_fill. destruct (Nat.leb_spec (length (ts_children t)) n); [|reflexivity].
    apply nth_error_None in H. congruence.
  Qed.

  Lemma fill_sub (t : ts) n : forall addr, sub (ts_fill t n) addr = sub t addr.
  Proof.
    intros [|m r]; cbn [sub]; [now rewrite fill_value|]. rewrite fill_nth.
    destruct (nth_error (ts_children t) m) as [[c|]|]; try reflexivity. now destruct (Nat.leb m n).
  Qed.
  Lemma fill_pointer (t : ts) n : pointer (ts_fill t n) = pointer t.
  Proof. pose proof (fill_parent t n) as H. destruct (ts_fill t n) as [p v c], t as [p' v' c']. cbn in *. now subst. Qed.
  Lemma node_eq (t : ts) addr : node t addr = match strip (pointer t) addr with
      | Some r => sub t r
      | None => match ts_parent t with Some (_, p) => node p addr | None => None end
      end.
  Proof. now destruct t. Qed.
  Lemma fill_node (t : ts) n addr : node (ts_fill t n) addr = node t addr.
  Proof. rewrite !node_eq, fill_pointer, fill_parent. destruct (strip _ _); [apply fill_sub|reflexivity]. Qed.

  Lemma strip_app p r : strip p (p ++ r) = Some r.
  Proof. induction p as [|n p IH]; cbn; [reflexivity|]. now rewrite Nat.eqb_refl. Qed.
  Lemma strip_Some p : forall addr r, strip p addr = Some r <-> addr = p ++ r.
  Proof.
    induction p as [|n p IH]; intros [|m addr] r; cbn; try (split; congruence).
    destruct (Nat.eqb_spec n m).
    - subst. rewrite IH. split; [now intros ->|]. intros E. now injection E.
    - split; [discriminate|]. intros E. congruence.
  Qed.
  Lemma strip_snoc p n : forall addr, strip (p ++ [n]) addr = match strip p addr with
      | Some (m :: r) => if Nat.eqb n m then Some r else None | _ => None end.
  Proof.
    induction p as [|k p IH]; intros [|m addr]; cbn; try reflexivity.
    now destruct (Nat.eqb k m).
  Qed.

  Lemma pointer_eq (t : ts) : pointer t = match ts_parent t with None => [] | Some (n, p) => pointer p ++ [n] end.
  Proof. destruct t as [[[n p]|] v ch]; reflexivity. Qed.

  (* relative addresses *)
  Lemma node_sub (t : ts) r : node t (pointer t ++ r) = sub t r.
  Proof. rewrite node_eq. now rewrite strip_app. Qed.
  Lemma node_child (t : ts) n : node t (pointer t ++ [n]) = option_map ts_value (child t n).
  Proof. rewrite node_sub. cbn. unfold child. now destruct (nth_error (ts_children t) n) as [[c|]|]. Qed.
  Lemma node_here (t : ts) : node t (pointer t) = Some (ts_value t).
  Proof. rewrite <- (app_nil_r (pointer t)), node_sub. reflexivity. Qed.

  Lemma put_snoc_iff (p addr : list nat) n : addr = p ++ [n] <-> exists r, strip p addr = Some r /\ r = [n].
  Proof.
    split.
    - intros ->. exists [n]. split; [apply strip_app|reflexivity].
    - intros (r & E & ->). now apply strip_Some in E.
  Qed.

  Lemma push_ok (t : ts) n a t' : ts_push t n a = Ok t' -> child t n = None /\ t' = TStack (Some (n, ts_fill t n)) a [].
  Proof.
    destruct (push_spec t n a) as (_ & P1 & P2). intros E. destruct (child t n) as [c|] eqn:C.
    - rewrite P2 in E by discriminate. discriminate.
    - rewrite P1 in E by reflexivity. injection E as <-. auto.
  Qed.
  Lemma push_err (t : ts) n a t' : ts_push t n a = Err t' -> child t n <> None /\ t' = t.
  Proof.
    destruct (push_spec t n a) as (_ & P1 & P2). intros E. destruct (child t n) as [c|] eqn:C.
    - rewrite P2 in E by discriminate. injection E as <-. split; congruence.
    - rewrite P1 in E by reflexivity. discriminate.
  Qed.

  Lemma push_pointer (t : ts) n a t' : ts_push t n a = Ok t' -> pointer t' = pointer t ++ [n].
  Proof. intros E. apply push_ok in E. destruct E as [_ ->]. cbn. now rewrite fill_pointer. Qed.
  Lemma push_node (t : ts) n a t' : ts_push t n a = Ok t' -> forall addr, node t' addr = put (node t) (pointer t ++ [n]) a addr.
  Proof.
    intros E addr. pose proof (push_pointer _ _ _ _ E) as HP. apply push_ok in E. destruct E as [C E].
    rewrite node_eq, HP, E. cbn [ts_parent]. rewrite fill_node. unfold put.
    destruct (list_eq_dec Nat.eq_dec addr (pointer t ++ [n])) as [->|N].
    - rewrite <- (app_nil_r (pointer t ++ [n])) at 2. rewrite strip_app. reflexivity.
    - destruct (strip (pointer t ++ [n]) addr) as [r|] eqn:S1; [|reflexivity]. apply strip_Some in S1. subst addr.
      destruct r as [|m r]; [rewrite app_nil_r in N; congruence|]. cbn. destruct m; cbn; rewrite <- app_assoc, node_sub; cbn; unfold child in C;
        destruct (nth_error (ts_children t) n) as [[c|]|]; congruence.
  Qed.

  Lemma set_node (t : ts) a addr : node (ts_set t a) addr = put (node t) (pointer t) a addr.
  Proof.
    rewrite node_eq. replace (pointer (ts_set t a)) with (pointer t) by (rewrite !pointer_eq; reflexivity). cbn [ts_set ts_parent]. unfold put.
    destruct (list_eq_dec Nat.eq_dec addr (pointer t)) as [->|N].
    - rewrite <- (app_nil_r (pointer t)) at 2. now rewrite strip_app.
    - rewrite node_eq. destruct (strip (pointer t) addr) as [r|] eqn:E; [|reflexivity]. apply strip_Some in E. subst addr.
      destruct r as [|m r]; [rewrite app_nil_r in N; congruence|]. reflexivity.
  Qed.
  Lemma set_pointer (t : ts) a : pointer (ts_set t a) = pointer t.
  Proof. rewrite !pointer_eq; reflexivity. Qed.

  Lemma up_spec (t : ts) n : ts_up t n = match child t n with
      | Some c => Ok (TStack (Some (n, TStack (ts_parent t) (ts_value t) (set_nth n None (ts_children t)))) (ts_value c) (ts_children c))
      | None => Err t
      end.
  Proof.
    unfold ts_up, child, swap_remove_none. destruct (nth_error (ts_children t) n) as [[c|]|] eqn:E.
    - assert (n < length (ts_children t)) by (apply nth_error_Some; congruence).
      destruct (Nat.ltb_spec n (length (ts_children t))); [reflexivity|lia].
    - assert (n < length (ts_children t)) by (apply nth_error_Some; congruence).
      destruct (Nat.ltb_spec n (length (ts_children t))); [|lia]. rewrite set_nth_same by assumption. now destruct t.
    - apply nth_error_None in E. destruct (Nat.ltb_spec n (length (ts_children t))); [lia|reflexivity].
  Qed.

  Lemma up_pointer (t t' : ts) n : ts_up t n = Ok t' -> pointer t' = pointer t ++ [n].
  Proof.
    rewrite up_spec. destruct (child t n); [|discriminate]. intros E. injection E as <-. cbn [pointer]. f_equal. now rewrite (pointer_eq t).
  Qed.
  Lemma up_node (t t' : ts) n : ts_up t n = Ok t' -> forall addr, node t' addr = node t addr.
  Proof.
    intros E addr. pose proof (up_pointer _ _ _ E) as HP. rewrite up_spec in E. destruct (child t n) as [c|] eqn:C; [|discriminate]. injection E as <-.
    rewrite node_eq, HP. rewrite strip_snoc. rewrite (node_eq t).
    assert (CH : nth_error (ts_children t) n = Some (Some c)).
    { unfold child in C. destruct (nth_error (ts_children t) n) as [[c'|]|]; congruence. }
    set (p := TStack (ts_parent t) (ts_value t) (set_nth n None (ts_children t))).
    assert (PP : pointer p = pointer t) by (rewrite (pointer_eq t), pointer_eq; reflexivity).
    cbn [ts_parent]. rewrite (node_eq p), PP. cbn [p ts_parent].
    destruct (strip (pointer t) addr) as [r|] eqn:S1; [|reflexivity]. destruct r as [|m r]; [reflexivity|].
    destruct (Nat.eqb_spec n m).
    - subst m. cbn [sub]. rewrite CH. destruct r; reflexivity.
    - cbn [sub p ts_children]. rewrite nth_error_set_nth. destruct (Nat.eqb_spec m n); [congruence|]. reflexivity.
  Qed.
  Lemma up_fails (t : ts) n : child t n = None <-> ts_up t n = Err t.
  Proof. rewrite up_spec. destruct (child t n); split; congruence. Qed.

  Lemma down_p_wf (t : ts) : wf t -> ts_down_p t <> None.
  Proof.
    intros W. unfold ts_down_p. destruct W as [|n p v ch _ _ E]; cbn; [discriminate|].
    assert (n < length (ts_children p)) by (apply nth_error_Some; congruence).
    destruct (Nat.ltb_spec n (length (ts_children p))); [discriminate|lia].
  Qed.
  Lemma down_spec (t : ts) : wf t -> ts_down t = match ts_parent t with
      | None => Err t
      | Some (n, p) => Ok (TStack (ts_parent p) (ts_value p) (set_nth n (Some (TStack None (ts_value t) (ts_children t))) (ts_children p)))
      end.
  Proof.
    intros W. unfold ts_down, ts_down_p. destruct W as [|n p v ch _ _ E]; cbn; [reflexivity|].
    assert (n < length (ts_children p)) by (apply nth_error_Some; congruence).
    destruct (Nat.ltb_spec n (length (ts_children p))); [reflexivity|lia].
  Qed.

  Lemma sub_parent p1 p2 (v : A) ch r : sub (TStack p1 v ch) r = sub (TStack p2 v ch) r.
  Proof. now destruct r. Qed.

  Lemma down_pointer (t t' : ts) : wf t -> ts_down t = Ok t' -> pointer t' = removelast (pointer t) /\ pointer t <> [].
  Proof.
    intros W. rewrite down_spec by assumption. rewrite (pointer_eq t). destruct (ts_parent t) as [[n p]|] eqn:E; [|discriminate].
    intros E1. injection E1 as <-. rewrite removelast_last. split; [|destruct (pointer p); discriminate]. rewrite (pointer_eq p), pointer_eq. reflexivity.
  Qed.
  Lemma down_node (t t' : ts) : wf t -> ts_down t = Ok t' -> forall addr, node t' addr = node t addr.
  Proof.
    intros W. rewrite down_spec by assumption. destruct W as [|n p v ch WC WP E]; cbn [ts_parent ts_value ts_children]; [discriminate|].
    intros E1 addr. injection E1 as <-. rewrite node_eq. rewrite (node_eq (TStack (Some _) _ _)). cbn [ts_parent].
    set (q := TStack (ts_parent p) (ts_value p) _). assert (PP : pointer q = pointer p) by (rewrite (pointer_eq p), pointer_eq; reflexivity).
    rewrite PP. cbn [pointer]. rewrite strip_snoc, (node_eq p).
    assert (n < length (ts_children p)) by (apply nth_error_Some; congruence).
    destruct (strip (pointer p) addr) as [[|m r]|] eqn:S1; [reflexivity| |reflexivity].
    destruct (Nat.eqb_spec n m).
    - subst m. cbn [sub q ts_children]. rewrite nth_error_set_nth, Nat.eqb_refl.
      destruct (Nat.ltb_spec n (length (ts_children p))); [|lia]. apply sub_parent.
    - cbn [sub q ts_children]. rewrite nth_error_set_nth. destruct (Nat.eqb_spec m n); [congruence|reflexivity].
  Qed.

  (* ---- the invariant is preserved ---- *)
  Lemma wf_children (t : ts) : wf t -> forall c, In (Some c) (ts_children t) -> wf_sub c.
  Proof. now intros [v ch H|n p v ch H _ _]. Qed.
  Lemma wf_replace p (v : A) ch v' ch' : wf (TStack p v ch) -> (forall c, In (Some c) ch' -> wf_sub c) -> wf (TStack p v' ch').
  Proof. intros W HC. inversion W; subst; constructor; auto. Qed.
  Lemma child_wf (t : ts) n c : wf t -> child t n = Some c -> wf_sub c.
  Proof.
    intros W C. unfold child in C. destruct (nth_error (ts_children t) n) as [[c'|]|] eqn:E; try discriminate. injection C as ->.
    apply (wf_children t W). eapply nth_error_In; eauto.
  Qed.
  Lemma in_set_nth {X} (l : list X) n x y : In y (set_nth n x l) -> y = x \/ In y l.
  Proof. revert n. induction l as [|z l IH]; intros [|n]; cbn; intuition. apply IH in H0. tauto. Qed.

  Lemma wf_fill (t : ts) n : wf t -> wf (ts_fill t n).
  Proof.
    intros W. unfold ts_fill. destruct (Nat.leb _ _); [|assumption]. destruct t as [p v ch]. apply (wf_replace p v ch); [assumption|].
    cbn. intros c H. apply in_app_or in H. destruct H as [H|H]; [exact (wf_children _ W c H)|]. apply repeat_spec in H. discriminate.
  Qed.
  Lemma wf_push (t t' : ts) n a : wf t -> ts_push t n a = Ok t' -> wf t'.
  Proof.
    intros W E. apply push_ok in E. destruct E as [C ->]. constructor; [now cbn|now apply wf_fill|].
    rewrite fill_nth, Nat.leb_refl. unfold child in C. destruct (nth_error (ts_children t) n) as [[c|]|]; congruence.
  Qed.
  Lemma wf_set (t : ts) a : wf t -> wf (ts_set t a).
  Proof. intros W. destruct t as [p v ch]. eapply wf_replace; [exact W|exact (wf_children _ W)]. Qed.
  Lemma wf_up (t t' : ts) n : wf t -> ts_up t n = Ok t' -> wf t'.
  Proof.
    intros W. rewrite up_spec. destruct (child t n) as [c|] eqn:C; [|discriminate]. intros E. injection E as <-.
    pose proof (child_wf _ _ _ W C) as WC. constructor.
    - destruct WC. auto.
    - destruct t as [p v ch]. eapply wf_replace; [exact W|]. intros x Hx. apply in_set_nth in Hx. destruct Hx as [Hx|Hx]; [discriminate|].
      exact (wf_children _ W _ Hx).
    - cbn. rewrite nth_error_set_nth, Nat.eqb_refl. assert (n < length (ts_children t)).
      { apply nth_error_Some. unfold child in C. destruct (nth_error (ts_children t) n); congruence. }
      destruct (Nat.ltb_spec n (length (ts_children t))); [reflexivity|lia].
  Qed.
  Lemma wf_down (t t' : ts) : wf t -> ts_down t = Ok t' -> wf t'.
  Proof.
    intros W. rewrite down_spec by assumption. pose proof (wf_children t W) as WC. destruct W as [|n p v ch _ WP E]; cbn [ts_parent ts_value ts_children] in *; [discriminate|].
    intros E1. injection E1 as <-. destruct p as [pp pv pch]. eapply wf_replace; [exact WP|]. intros x Hx. apply in_set_nth in Hx.
    destruct Hx as [Hx|Hx]; [|exact (wf_children _ WP _ Hx)]. injection Hx as ->. now constructor.
  Qed.
  Lemma opt_all_In {X Y} (f : X -> option Y) l : forall l', opt_all f l = Some l' -> forall y, In y l' <-> exists x, In x l /\ f x = Some y.
  Proof.
    induction l as [|x l IH]; cbn; intros l' E y.
    - injection E as <-. cbn. split; [tauto|]. intros (x & [] & _).
    - destruct (f x) as [y0|] eqn:E0; [|discriminate]. destruct (opt_all f l) as [r|]; [|discriminate]. injection E as <-.
      cbn. rewrite (IH _ eq_refl). split.
      + intros [<-|(x' & Hx & E)]; eauto.
      + intros (x' & [<-|Hx] & E); [left; congruence|eauto].
  Qed.

  Lemma built_wf (t : ts) : built t -> wf t.
  Proof.
    induction 1.
    - now constructor.
    - now apply wf_set.
    - destruct H0 as [E|E]; [eapply wf_push; eauto|]. apply push_err in E. destruct E as [_ ->]. assumption.
    - unfold ts_push_next in H0. destruct (ts_push t _ a) as [x|x] eqn:E; [|discriminate]. injection H0 as ->. eapply wf_push; eauto.
    - destruct H0 as [E|E]; [eapply wf_up; eauto|]. rewrite up_spec in E. destruct (child t n); [discriminate|]. injection E as <-. assumption.
    - unfold ts_ups in H0. rewrite (opt_all_In _ _ _ H0) in H1. destruct H1 as (i & _ & E). destruct (ts_up t i) as [x|x] eqn:E1; [|discriminate].
      injection E as ->. eapply wf_up; eauto.
    - destruct H0 as [E|E]; [eapply wf_down; eauto|]. rewrite down_spec in E by assumption. destruct (ts_parent t) as [[n p]|]; [discriminate|]. injection E as <-. assumption.
  Qed.

  (* ---- push_next, ups, all ---- *)
  Lemma first_none_spec (l : list (option ts)) :
    let i := match first_none l with None => length l | Some i => i end in
    (forall c, nth_error l i <> Some (Some c)) /\ forall j, j < i -> exists c, nth_error l j = Some (Some c).
  Proof.
    induction l as [|[c|] l IH]; cbn.
    - split; [discriminate|lia].
    - destruct (first_none l) as [i|]; cbn in *; destruct IH as [H1 H2]; split; auto; intros [|j] Hj; cbn; eauto; apply H2; lia.
    - split; [discriminate|lia].
  Qed.
  Lemma push_next_spec (t : ts) a : exists i t', ts_push_next t a = Some t' /\ ts_push t i a = Ok t' /\
    child t i = None /\ forall j, j < i -> child t j <> None.
  Proof.
    unfold ts_push_next. pose proof (first_none_spec (ts_children t)) as H. cbn zeta in H.
    set (i := match first_none (ts_children t) with None => length (ts_children t) | Some i => i end) in *. destruct H as [H1 H2].
    assert (C : child t i = None) by (unfold child; specialize (H1 (match nth_error (ts_children t) i with Some (Some c) => c | _ => t end));
      destruct (nth_error (ts_children t) i) as [[c|]|]; congruence).
    destruct (push_spec t i a) as (_ & P & _). specialize (P C). exists i, (TStack (Some (i, ts_fill t i)) a []). rewrite P.
    repeat split; auto. intros j Hj. destruct (H2 j Hj) as [c Hc]. unfold child. rewrite Hc. discriminate.
  Qed.

  Lemma occupied_In (l : list (option ts)) : forall i j, In j (occupied i l) <-> i <= j /\ exists c, nth_error l (j - i) = Some (Some c).
  Proof.
    induction l as [|[c|] l IH]; intros i j; cbn [occupied].
    - cbn. split; [tauto|]. intros (_ & c & H). destruct (j - i); discriminate.
    - cbn [In]. rewrite IH. split.
      + intros [<-|(H & c' & E)]; [split; [lia|]; rewrite Nat.sub_diag; cbn; eauto|]. split; [lia|]. exists c'.
        replace (j - i) with (S (j - S i)) by lia. assumption.
      + intros (H & c' & E). destruct (Nat.eq_dec i j); [now left|]. right. split; [lia|]. exists c'.
        replace (j - i) with (S (j - S i)) in E by lia. assumption.
    - rewrite IH. split.
      + intros (H & c' & E). split; [lia|]. exists c'. replace (j - i) with (S (j - S i)) by lia. assumption.
      + intros (H & c' & E). destruct (Nat.eq_dec i j).
        * subst. rewrite Nat.sub_diag in E. discriminate.
        * split; [lia|]. exists c'. replace (j - i) with (S (j - S i)) in E by lia. assumption.
  Qed.
  Lemma occupied_child (t : ts) j : In j (occupied 0 (ts_children t)) <-> child t j <> None.
  Proof.
    rewrite occupied_In, Nat.sub_0_r. unfold child. split.
    - intros (_ & c & ->). discriminate.
    - intros H. split; [lia|]. destruct (nth_error (ts_children t) j) as [[c|]|]; try congruence. eauto.
  Qed.
  Lemma occupied_sorted (l : list (option ts)) : forall i, sorted_keys Nat.compare (occupied i l).
  Proof.
    induction l as [|[c|] l IH]; intros i; cbn [occupied sorted_keys]; auto. split; [|auto].
    intros x Hx. apply occupied_In in Hx. apply Nat.compare_lt_iff. lia.
  Qed.
  Lemma opt_all_defined {X Y} (f : X -> option Y) l : (forall x, In x l -> f x <> None) -> exists l', opt_all f l = Some l'.
  Proof.
    induction l as [|x l IH]; cbn; intros H; [eauto|]. destruct (f x) eqn:E; [|exfalso; eapply H; eauto].
    destruct IH as [r ->]; [auto|]. eauto.
  Qed.
  Lemma opt_all_F2 {X Y} (f : X -> option Y) l : forall l', opt_all f l = Some l' -> Forall2 (fun x y => f x = Some y) l l'.
  Proof.
    induction l as [|x l IH]; cbn; intros l' E; [injection E as <-; constructor|].
    destruct (f x) as [y0|] eqn:E0; [|discriminate]. destruct (opt_all f l) as [r|]; [|discriminate]. injection E as <-. constructor; auto.
  Qed.
  Lemma ups_defined (t : ts) : exists l, ts_ups t = Some l /\ Forall2 (fun i t' => ts_up t i = Ok t') (occupied 0 (ts_children t)) l.
  Proof.
    unfold ts_ups. destruct (opt_all_defined (fun i => match ts_up t i with Ok t' => Some t' | Err _ => None end) (occupied 0 (ts_children t))) as [l Hl].
    - intros i Hi. apply occupied_child in Hi. rewrite up_spec. destruct (child t i); [discriminate|congruence].
    - exists l. split; [assumption|]. apply opt_all_F2 in Hl. clear -Hl. induction Hl as [|i t' l1 l2 E _ IH]; constructor; auto. destruct (ts_up t i); congruence.
  Qed.

  Lemma all_spec (p : A -> bool) (t : ts) : ts_all p t = true <-> forall r a, sub t r = Some a -> p a = true.
  Proof.
    induction t as [par v ch _ IH] using ts_ind. cbn [ts_all]. rewrite andb_true_iff, forallb_forall. split.
    - intros [H1 H2] [|n r] a; cbn [sub ts_value ts_children]; [intros E; congruence|].
      destruct (nth_error ch n) as [[c|]|] eqn:E; try discriminate. apply nth_error_In in E. intros Hr.
      specialize (H2 _ E). cbn in H2. exact (proj1 (IH c E) H2 r a Hr).
    - intros H. split; [apply (H []); reflexivity|]. intros [c|] Hc; [|reflexivity]. apply (IH c Hc).
      intros r a Hr. apply In_nth_error in Hc. destruct Hc as [n Hn]. apply (H (n :: r)). cbn [sub ts_children]. now rewrite Hn.
  Qed.
End Ops.

(* ---- map ---- *)
Section MapOps.
  Context {A B : Type} (f : A -> B).
  Notation mo := (option_map (ts_map f)).
  Notation mc := (map (fun o : option (tstack A) => match o with None => None | Some c => Some (ts_map f c) end)).

  Lemma map_parent (t : tstack A) : ts_parent (ts_map f t) = match ts_parent t with None => None | Some (n, p) => Some (n, ts_map f p) end.
  Proof. now destruct t. Qed.
  Lemma map_value (t : tstack A) : ts_value (ts_map f t) = f (ts_value t).
  Proof. now destruct t. Qed.
  Lemma map_children (t : tstack A) : ts_children (ts_map f t) = mc (ts_children t).
  Proof. now destruct t. Qed.
  Lemma map_child (t : tstack A) n : child (ts_map f t) n = mo (child t n).
  Proof. unfold child. rewrite map_children, nth_error_map. now destruct (nth_error (ts_children t) n) as [[c|]|]. Qed.
  Lemma map_sub : forall addr (t : tstack A), sub (ts_map f t) addr = option_map f (sub t addr).
  Proof.
    induction addr as [|n r IH]; intros t; cbn [sub]; [now rewrite map_value|].
    rewrite map_children, nth_error_map. destruct (nth_error (ts_children t) n) as [[c|]|]; cbn; auto.
  Qed.
  Lemma map_pointer (t : tstack A) : pointer (ts_map f t) = pointer t.
  Proof.
    induction t as [par v ch IH _] using ts_ind. rewrite !pointer_eq, map_parent. cbn [ts_parent].
    destruct par as [[n p]|]; [|reflexivity]. now rewrite (IH n p).
  Qed.
  Lemma map_node (t : tstack A) addr : node (ts_map f t) addr = option_map f (node t addr).
  Proof.
    induction t as [par v ch IH _] using ts_ind. rewrite !node_eq, map_pointer, map_parent. cbn [ts_parent].
    destruct (strip _ addr) as [r|]; [apply map_sub|]. destruct par as [[n p]|]; [|reflexivity]. apply (IH n p eq_refl).
  Qed.
  Lemma map_fill (t : tstack A) n : ts_fill (ts_map f t) n = ts_map f (ts_fill t n).
  Proof.
    unfold ts_fill. rewrite map_children, map_length. destruct (Nat.leb _ _); [|reflexivity].
    destruct t as [par v ch]. cbn. rewrite map_app. f_equal. f_equal. clear. induction (n - length ch + 1) as [|k IHk]; cbn; [reflexivity|]. now f_equal.
  Qed.
  Definition mres (r : result (tstack A) (tstack A)) : result (tstack B) (tstack B) :=
    match r with Ok t => Ok (ts_map f t) | Err t => Err (ts_map f t) end.
  Lemma map_push (t : tstack A) n a : ts_push (ts_map f t) n (f a) = mres (ts_push t n a).
  Proof.
    destruct (push_spec (ts_map f t) n (f a)) as (_ & P1 & P2). destruct (push_spec t n a) as (_ & Q1 & Q2).
    rewrite map_child in P1, P2. destruct (child t n) as [c|]; cbn in *.
    - rewrite P2, Q2 by discriminate. reflexivity.
    - rewrite P1, Q1 by reflexivity. cbn. now rewrite map_fill.
  Qed.
  Lemma map_set_nth (l : list (option (tstack A))) : forall n x, mc (set_nth n x l) = set_nth n (mo x) (mc l).
  Proof. induction l as [|y l IH]; intros [|n] x; cbn; try reflexivity; f_equal; auto. Qed.
  Lemma map_up (t : tstack A) n : ts_up (ts_map f t) n = mres (ts_up t n).
  Proof.
    rewrite !up_spec, map_child. destruct (child t n) as [c|]; cbn; [|reflexivity].
    rewrite map_parent, map_value, map_children, map_set_nth, map_value, map_children. reflexivity.
  Qed.
  Lemma map_down (t : tstack A) : ts_down (ts_map f t) = mres (ts_down t).
  Proof.
    unfold ts_down, ts_down_p. destruct t as [[[n p]|] v ch]; cbn; [|reflexivity].
    rewrite map_children, map_length. destruct (Nat.ltb _ _); cbn; [|reflexivity]. now rewrite map_parent, map_value, map_set_nth.
  Qed.
  Lemma map_set (t : tstack A) a : ts_set (ts_map f t) (f a) = ts_map f (ts_set t a).
  Proof. now destruct t. Qed.
  Lemma map_bottom (t : tstack A) : ts_is_at_bottom (ts_map f t) = ts_is_at_bottom t.
  Proof. destruct t as [[[n p]|] v ch]; reflexivity. Qed.
End MapOps.

(* the values in a tree stack *)
Fixpoint ts_vals {A} (t : tstack A) : list A :=
  match t with
  | TStack par v ch => v :: (match par with Some (_, p) => ts_vals p | None => [] end) ++
                            flat_map (fun o => match o with Some c => ts_vals c | None => [] end) ch
  end.

Section Vals.
  Context {A : Type}.
  Lemma vals_iff (t : tstack A) x : In x (ts_vals t) <-> x = ts_value t \/ (exists n p, ts_parent t = Some (n, p) /\ In x (ts_vals p)) \/
    exists c, In (Some c) (ts_children t) /\ In x (ts_vals c).
  Proof.
    destruct t as [par v ch]. cbn [ts_vals ts_value ts_parent ts_children In]. rewrite in_app_iff, in_flat_map. split.
    - intros [->|[H|([c|] & H1 & H2)]]; [now left| | |destruct H2].
      + destruct par as [[n p]|]; [|destruct H]. right; left. eauto.
      + right; right. eauto.
    - intros [->|[(n & p & -> & H)|(c & H1 & H2)]]; [now left|right; now left|]. right; right. exists (Some c). auto.
  Qed.
  Lemma vals_value (t : tstack A) : In (ts_value t) (ts_vals t).
  Proof. apply vals_iff. now left. Qed.
  Lemma vals_fill (t : tstack A) n x : In x (ts_vals (ts_fill t n)) -> In x (ts_vals t).
  Proof.
    rewrite !vals_iff, fill_value, fill_parent. intros [H|[H|(c & H1 & H2)]]; [auto|auto|]. right; right. exists c. split; [|assumption].
    unfold ts_fill in H1. destruct (Nat.leb _ _); [|assumption]. cbn in H1. apply in_app_or in H1. destruct H1 as [H1|H1]; [assumption|].
    apply repeat_spec in H1. discriminate.
  Qed.
  Lemma vals_push (t : tstack A) n a t' x : ts_push t n a = Ok t' -> In x (ts_vals t') -> x = a \/ In x (ts_vals t).
  Proof.
    intros E. apply push_ok in E. destruct E as [_ ->]. rewrite vals_iff. cbn. intros [->|[(m & p & E & H)|(c & [] & _)]]; [now left|].
    injection E as <- <-. right. eapply vals_fill; eauto.
  Qed.
  Lemma vals_up (t : tstack A) n t' x : ts_up t n = Ok t' -> In x (ts_vals t') -> In x (ts_vals t).
  Proof.
    rewrite up_spec. destruct (child t n) as [c|] eqn:C; [|discriminate]. intros E. injection E as <-.
    assert (HC : In (Some c) (ts_children t)).
    { unfold child in C. destruct (nth_error (ts_children t) n) as [[c'|]|] eqn:E; try discriminate. injection C as ->. eapply nth_error_In; eauto. }
    rewrite vals_iff. cbn [ts_value ts_parent ts_children]. intros [->|[(m & p & E & H)|(d & Hd & H)]].
    - apply vals_iff. right; right. exists c. split; [assumption|apply vals_value].
    - injection E as <- <-. apply vals_iff in H. cbn [ts_value ts_parent ts_children] in H. apply vals_iff. destruct H as [H|[H|(d & Hd & H)]]; [auto|auto|].
      right; right. exists d. split; [|assumption]. apply in_set_nth in Hd. destruct Hd as [Hd|Hd]; [discriminate|assumption].
    - apply vals_iff. right; right. exists c. split; [assumption|]. apply vals_iff. right; right. eauto.
  Qed.
  Lemma vals_down (t : tstack A) t' x : ts_down t = Ok t' -> In x (ts_vals t') -> In x (ts_vals t).
  Proof.
    unfold ts_down, ts_down_p. destruct t as [[[n p]|] v ch]; cbn; [|discriminate]. destruct (Nat.ltb _ _); [|discriminate].
    intros E. injection E as <-. rewrite vals_iff. cbn [ts_value ts_parent ts_children].
    rewrite (in_app_iff). intros [->|[(m & q & E & H)|(d & Hd & H)]].
    - right; left. apply vals_value.
    - right; left. apply vals_iff. right; left. eauto.
    - apply in_set_nth in Hd. destruct Hd as [Hd|Hd].
      + injection Hd as ->. cbn in H. tauto.
      + right; left. apply vals_iff. right; right. eauto.
  Qed.
  Lemma vals_set (t : tstack A) a x : In x (ts_vals (ts_set t a)) -> x = a \/ In x (ts_vals t).
  Proof. rewrite !vals_iff. cbn. tauto. Qed.
End Vals.

Lemma ts_map_ext {A B} (f g : A -> B) (t : tstack A) : (forall x, In x (ts_vals t) -> f x = g x) -> ts_map f t = ts_map g t.
Proof.
  induction t as [par v ch IHp IHc] using ts_ind. intros H. cbn. f_equal.
  - destruct par as [[n p]|]; [|reflexivity]. f_equal. f_equal. apply (IHp n p eq_refl). intros x Hx. apply H. apply vals_iff. right; left. cbn. eauto.
  - apply H. now left.
  - apply map_ext_in. intros [c|] Hc; [|reflexivity]. f_equal. apply (IHc c Hc). intros x Hx. apply H. apply vals_iff. right; right. eauto.
Qed.

Section Ints.
  Context {A : Type} (eqb : A -> A -> bool) (E : EqbSpec eqb).
  Definition kts (l : list A) (t : tstack A) : Prop := forall x, In x (ts_vals t) -> In x l.

  Lemma kts_app l r t : kts l t -> kts (l ++ r) t /\ ts_map (enc eqb (l ++ r)) t = ts_map (enc eqb l) t.
  Proof.
    intros H. split; [intros x Hx; apply in_or_app; left; auto|]. apply ts_map_ext. intros x Hx. apply (enc_app eqb E). auto.
  Qed.

  Lemma ts_map_st_enc (t : tstack A) : forall l, let '(l', t') := ts_map_st (int_integerise eqb) l t in
    (exists r, l' = l ++ r) /\ kts l' t /\ t' = ts_map (enc eqb l') t.
  Proof.
    induction t as [par v ch IHp IHc] using ts_ind. intros l. cbn [ts_map_st].
    pose proof (int_enc eqb E l v) as H1. destruct (int_integerise eqb l v) as [l1 k]. destruct H1 as ((r1 & ->) & A1 & ->).
    set (P := match par with None => _ | Some _ => _ end).
    assert (HP : let '(l2, par') := P in (exists r, l2 = (l ++ r1) ++ r) /\
              (forall n p, par = Some (n, p) -> kts l2 p) /\
              par' = match par with None => None | Some (n, p) => Some (n, ts_map (enc eqb l2) p) end).
    { subst P. destruct par as [[n p]|].
      - pose proof (IHp n p eq_refl (l ++ r1)) as H. destruct (ts_map_st _ (l ++ r1) p) as [l2 p']. destruct H as (R & K & ->).
        split; [assumption|]. split; [|reflexivity]. intros m q E0. injection E0 as <- <-. assumption.
      - split; [exists []; now rewrite app_nil_r|]. split; [discriminate|reflexivity]. }
    destruct P as [l2 par']. destruct HP as ((r2 & ->) & KP & ->).
    assert (HG : forall ch0, (forall c, In (Some c) ch0 -> In (Some c) ch) -> forall l2,
              let '(l3, ch') := opts_map_st (ts_map_st (int_integerise eqb)) l2 ch0 in
              (exists r, l3 = l2 ++ r) /\ (forall c, In (Some c) ch0 -> kts l3 c) /\
              ch' = map (fun o => match o with None => None | Some c => Some (ts_map (enc eqb l3) c) end) ch0).
    { clear -E IHc. induction ch0 as [|[c|] ch0 IH]; intros HI l2; cbn [opts_map_st map].
      - split; [exists []; now rewrite app_nil_r|]. split; [cbn; tauto|reflexivity].
      - pose proof (IHc c (HI c (or_introl eq_refl)) l2) as H. destruct (ts_map_st _ l2 c) as [l3 c']. destruct H as ((r & ->) & K & ->).
        pose proof (IH (fun d Hd => HI d (or_intror Hd)) (l2 ++ r)) as H. destruct (opts_map_st _ (l2 ++ r) ch0) as [l4 ch']. destruct H as ((r' & ->) & K' & ->).
        destruct (kts_app (l2 ++ r) r' c K) as [K1 K2]. split; [exists (r ++ r'); now rewrite app_assoc|]. split.
        + intros d [Ed|Hd]; [injection Ed as <-; assumption|auto].
        + now rewrite K2.
      - pose proof (IH (fun d Hd => HI d (or_intror Hd)) l2) as H. destruct (opts_map_st _ l2 ch0) as [l4 ch']. destruct H as (R & K' & ->).
        split; [assumption|]. split; [|reflexivity]. intros d [Ed|Hd]; [discriminate|auto]. }
    specialize (HG ch (fun c Hc => Hc) ((l ++ r1) ++ r2)). destruct (opts_map_st _ ((l ++ r1) ++ r2) ch) as [l3 ch']. destruct HG as ((r3 & ->) & KC & ->).
    split; [exists (r1 ++ r2 ++ r3); now rewrite !app_assoc|].
    assert (IV : In v (((l ++ r1) ++ r2) ++ r3)) by (apply in_or_app; left; apply in_or_app; now left).
    split.
    - intros x Hx. apply vals_iff in Hx. cbn in Hx. destruct Hx as [->|[(n & p & -> & Hx)|(c & Hc & Hx)]]; [assumption| |exact (KC c Hc x Hx)].
      apply in_or_app. left. exact (KP n p eq_refl x Hx).
    - cbn. f_equal.
      + destruct par as [[n p]|]; [|reflexivity]. f_equal. f_equal. symmetry. apply kts_app. exact (KP n p eq_refl).
      + rewrite <- !app_assoc, app_assoc. symmetry. now apply (enc_app eqb E).
  Qed.

  Lemma ts_un_enc (l : list A) (t : tstack A) : kts l t -> ts_un l (ts_map (enc eqb l) t) = Some t.
  Proof.
    unfold ts_un. induction t as [par v ch IHp IHc] using ts_ind. intros K. cbn.
    rewrite (enc_In eqb E) by (apply K; now left).
    assert (H1 : match match par with None => None | Some (n, p) => Some (n, ts_map (enc eqb l) p) end with
                 | None => Some None
                 | Some (n, p) => match ts_map_opt (int_find_value l) p with Some p' => Some (Some (n, p')) | None => None end
                 end = Some par).
    { destruct par as [[n p]|]; [|reflexivity]. rewrite (IHp n p eq_refl); [reflexivity|]. intros x Hx. apply K. apply vals_iff. right; left. cbn. eauto. }
    rewrite H1.
    assert (H2 : opts_map_opt (ts_map_opt (int_find_value l)) (map (fun o => match o with None => None | Some c => Some (ts_map (enc eqb l) c) end) ch) = Some ch).
    { assert (KC : forall c, In (Some c) ch -> kts l c). { intros c Hc x Hx. apply K. apply vals_iff. right; right. eauto. }
      clear -IHc KC. induction ch as [|[c|] ch IH]; cbn; [reflexivity| |].
      - rewrite (IHc c (or_introl eq_refl) (KC c (or_introl eq_refl))). rewrite IH; [reflexivity| |]; intros; [apply IHc|apply KC]; try (now right); assumption.
      - rewrite IH; [reflexivity| |]; intros; [apply IHc|apply KC]; try (now right); assumption. }
    now rewrite H2.
  Qed.
End Ints.

(* ---- to_tree ---- *)
Lemma addr_ord : OrdLaws addr_cmp.
Proof. exact (lex_ord _ nat_ord). Qed.

Section ToTree.
  Context {A : Type}.
  Definition gsorted (m : gorn A) : Prop := sorted_keys addr_cmp (map fst m).
  Lemma gt_get_insert k k' (v : A) m : gsorted m -> gt_get k (gt_insert k' v m) = if list_eq_dec Nat.eq_dec k k' then Some v else gt_get k m.
  Proof.
    intros S. unfold gt_get, gt_insert. rewrite (bm_get_insert addr_cmp addr_ord) by exact S.
    destruct (list_eq_dec Nat.eq_dec k k') as [->|N]; [now rewrite (cmp_refl addr_cmp addr_ord)|].
    destruct (addr_cmp k k') eqn:E; try reflexivity. apply (ol_eq _ addr_ord) in E. congruence.
  Qed.
  Lemma gt_insert_sorted k (v : A) m : gsorted m -> gsorted (gt_insert k v m).
  Proof. apply (bm_insert_sorted addr_cmp addr_ord). Qed.
  Lemma insert_all_spec p (src : gorn A) : forall dst, gsorted src -> gsorted dst ->
    gsorted (gt_insert_all (fun path => p ++ path) src dst) /\
    forall k, gt_get k (gt_insert_all (fun path => p ++ path) src dst) =
      match strip p k with Some r => match gt_get r src with Some v => Some v | None => gt_get k dst end | None => gt_get k dst end.
  Proof.
    induction src as [|[k0 v0] src IH]; intros dst S1 S2.
    - cbn. split; [assumption|]. intros k. now destruct (strip p k).
    - destruct S1 as [S0 S1]. destruct (IH (gt_insert (p ++ k0) v0 dst) S1 (gt_insert_sorted _ _ _ S2)) as [H1 H2].
      unfold gt_insert_all. cbn [fold_left fst snd]. unfold gt_insert_all in H1, H2. split; [exact H1|]. intros k. rewrite H2.
      rewrite gt_get_insert by exact S2. destruct (strip p k) as [r|] eqn:E.
      + apply strip_Some in E. subst k. unfold gt_get at 3. cbn [bm_get]. fold (gt_get r src).
        destruct (list_eq_dec Nat.eq_dec (p ++ r) (p ++ k0)) as [E|N].
        * apply app_inv_head in E. subst r. rewrite (cmp_refl addr_cmp addr_ord).
          assert (G : gt_get k0 src = None).
          { apply (bm_get_None addr_cmp addr_ord). intros H. apply S0 in H. rewrite (cmp_refl addr_cmp addr_ord) in H. discriminate. }
          now rewrite G.
        * destruct (addr_cmp r k0) eqn:E1; try reflexivity. apply (ol_eq _ addr_ord) in E1. congruence.
      + destruct (list_eq_dec Nat.eq_dec k (p ++ k0)) as [->|]; [|reflexivity]. rewrite strip_app in E. discriminate.
  Qed.

  Definition tree_children (curr : list nat) :=
    fix go (num : nat) (l : list (option (tstack A))) (m : gorn A) : gorn A :=
      match l with
      | [] => m
      | None :: r => go (S num) r m
      | Some c :: r => go (S num) r (gt_insert_all (fun path => (curr ++ [num]) ++ path) (fst (ts_to_tree c)) m)
      end.
  Lemma to_tree_eq par (v : A) ch : ts_to_tree (TStack par v ch) =
    let '(tree_map, curr_path) :=
      match par with
      | None => ([], [])
      | Some (num, p) => let '(pm, pp) := ts_to_tree p in (gt_insert_all (fun x => x) pm [], pp ++ [num])
      end in
    (tree_children curr_path 0 ch (gt_insert curr_path v tree_map), curr_path).
  Proof. reflexivity. Qed.

  Lemma tree_children_spec curr ch : (forall c, In (Some c) ch -> wf_sub c) ->
    (forall c, In (Some c) ch -> gsorted (fst (ts_to_tree c)) /\ forall k, gt_get k (fst (ts_to_tree c)) = sub c k) ->
    forall i m, gsorted m -> (forall k, strip curr k <> None -> k <> curr -> gt_get k m = match strip curr k with Some (n :: r) => if Nat.ltb n i then gt_get k m else None | _ => None end) ->
    gsorted (tree_children curr i ch m) /\
    forall k, gt_get k (tree_children curr i ch m) = match strip curr k with
      | Some (n :: r) => if Nat.ltb n i then gt_get k m else match nth_error ch (n - i) with Some (Some c) => sub c r | _ => None end
      | _ => gt_get k m
      end.
  Proof.
    intros _. revert ch. induction ch as [|[c|] ch IH]; intros HC i m S1 HM; cbn [tree_children].
    - split; [assumption|]. intros k. destruct (strip curr k) as [[|n r]|] eqn:E; try reflexivity.
      rewrite (HM k); [|congruence|]. 
      + rewrite E. destruct (Nat.ltb n i) eqn:E1; [|now destruct (n - i)]. reflexivity.
      + apply strip_Some in E. intros ->. rewrite <- (app_nil_r curr) in E at 1. apply app_inv_head in E. discriminate.
    - destruct (HC c (or_introl eq_refl)) as [Sc Gc].
      destruct (insert_all_spec (curr ++ [i]) (fst (ts_to_tree c)) m Sc S1) as [S2 G2].
      destruct (IH (fun d Hd => HC d (or_intror Hd)) (S i) _ S2) as [S3 G3].
      + intros k Hk Nk. rewrite G2, strip_snoc. destruct (strip curr k) as [[|n r]|] eqn:E; [| |congruence].
        * apply strip_Some in E. rewrite app_nil_r in E. congruence.
        * destruct (Nat.eqb_spec i n).
          -- subst n. destruct (Nat.ltb_spec i (S i)); [reflexivity|lia].
          -- destruct (Nat.ltb_spec n (S i)); [reflexivity|]. rewrite (HM k); [|congruence|assumption]. rewrite E.
             destruct (Nat.ltb_spec n i); [lia|reflexivity].
      + split; [exact S3|]. intros k. rewrite G3, G2, strip_snoc. destruct (strip curr k) as [[|n r]|] eqn:E; try reflexivity.
        assert (Nk : k <> curr) by (apply strip_Some in E; intros ->; rewrite <- (app_nil_r curr) in E at 1; apply app_inv_head in E; discriminate).
        destruct (Nat.ltb_spec n (S i)).
        * destruct (Nat.eqb_spec i n).
          -- subst n. destruct (Nat.ltb_spec i i); [lia|]. rewrite Nat.sub_diag. cbn. rewrite Gc. destruct (sub c r) eqn:E2; [reflexivity|].
             rewrite (HM k); [|congruence|assumption]. rewrite E. destruct (Nat.ltb_spec i i); [lia|reflexivity].
          -- destruct (Nat.ltb_spec n i); [reflexivity|lia].
        * destruct (Nat.ltb_spec n i); [lia|]. replace (n - i) with (S (n - S i)) by lia. reflexivity.
    - destruct (IH (fun d Hd => HC d (or_intror Hd)) (S i) m S1) as [S3 G3].
      + intros k Hk Nk. rewrite (HM k Hk Nk). destruct (strip curr k) as [[|n r]|]; try reflexivity.
        destruct (Nat.ltb_spec n i); destruct (Nat.ltb_spec n (S i)); try reflexivity; lia.
      + split; [exact S3|]. intros k. rewrite G3. destruct (strip curr k) as [[|n r]|] eqn:E; try reflexivity.
        assert (Nk : k <> curr) by (apply strip_Some in E; intros ->; rewrite <- (app_nil_r curr) in E at 1; apply app_inv_head in E; discriminate).
        destruct (Nat.ltb_spec n (S i)); destruct (Nat.ltb_spec n i); try lia; try reflexivity.
        * replace (n - i) with 0 by lia. cbn. rewrite (HM k); [|congruence|assumption]. rewrite E. destruct (Nat.ltb_spec n i); [lia|reflexivity].
        * replace (n - i) with (S (n - S i)) by lia. reflexivity.
  Qed.

  Lemma strip_self curr k : strip curr k = Some [] <-> k = curr.
  Proof. rewrite strip_Some, app_nil_r. tauto. Qed.

  Lemma to_tree_sub (c : tstack A) : wf_sub c -> gsorted (fst (ts_to_tree c)) /\ forall k, gt_get k (fst (ts_to_tree c)) = sub c k.
  Proof.
    induction c as [par v ch _ IH] using ts_ind. intros W. inversion W as [v' ch' HW]; subst. rewrite to_tree_eq. cbn [fst].
    destruct (tree_children_spec [] ch HW (fun c Hc => IH c Hc (HW c Hc)) 0 (gt_insert [] v [])) as [S1 G1].
    - cbn. tauto.
    - intros k _ Nk. rewrite gt_get_insert by exact I. destruct (list_eq_dec Nat.eq_dec k []); [congruence|]. destruct k; reflexivity.
    - split; [exact S1|]. intros k. rewrite G1. rewrite gt_get_insert by exact I. destruct k as [|n r]; cbn; [reflexivity|]. now rewrite Nat.sub_0_r.
  Qed.

  Lemma node_off_path (t : tstack A) : wf t -> forall k, (forall n r, strip (pointer t) k = Some (n :: r) -> nth_error (ts_children t) n = Some None -> node t k = None).
  Proof. intros W k n r E1 E2. rewrite node_eq, E1. cbn. now rewrite E2. Qed.

  Lemma to_tree_spec (t : tstack A) : wf t -> snd (ts_to_tree t) = pointer t /\ gsorted (fst (ts_to_tree t)) /\
    forall k, gt_get k (fst (ts_to_tree t)) = node t k.
  Proof.
    induction 1 as [v ch HW|n p v ch HW WP IH E].
    - split; [reflexivity|]. destruct (to_tree_sub (TStack None v ch)) as [S1 G1]; [now constructor|]. split; [exact S1|]. intros k. rewrite G1.
      rewrite node_eq. reflexivity.
    - destruct IH as (IP & IS & IG). rewrite to_tree_eq. destruct (ts_to_tree p) as [pm pp]. cbn [fst snd] in IP, IS, IG. subst pp.
      cbn zeta beta iota. split; [reflexivity|].
      destruct (insert_all_spec [] pm [] IS I) as [S1 G1]. change (fun path => [] ++ path) with (fun path : list nat => path) in S1, G1.
      set (m := gt_insert_all (fun path => path) pm []) in *.
      assert (GM : forall k, gt_get k m = node p k).
      { intros k. rewrite G1. cbn. rewrite IG. now destruct (node p k). }
      set (curr := pointer p ++ [n]).
      assert (NP : forall k, strip curr k <> None -> node p k = None).
      { intros k Hk. unfold curr in Hk. rewrite strip_snoc in Hk. destruct (strip (pointer p) k) as [[|q r]|] eqn:E1; try congruence.
        destruct (Nat.eqb_spec n q); [|congruence]. subst q. exact (node_off_path p WP k n r E1 E). }
      destruct (tree_children_spec curr ch HW (fun c Hc => to_tree_sub c (HW c Hc)) 0 (gt_insert curr v m)) as [S2 G2].
      + now apply gt_insert_sorted.
      + intros k Hk Nk. rewrite gt_get_insert by exact S1. destruct (list_eq_dec Nat.eq_dec k curr); [congruence|]. rewrite GM, NP by exact Hk.
        now destruct (strip curr k) as [[|q r]|].
      + split; [exact S2|]. intros k. cbn [fst]. rewrite G2, node_eq. change (pointer (TStack (Some (n, p)) v ch)) with curr. cbn [ts_parent].
        rewrite gt_get_insert by exact S1. destruct (strip curr k) as [[|q r]|] eqn:E1.
        * apply strip_self in E1. destruct (list_eq_dec Nat.eq_dec k curr); [reflexivity|congruence].
        * cbn. now rewrite Nat.sub_0_r.
        * destruct (list_eq_dec Nat.eq_dec k curr) as [->|]; [|apply GM]. rewrite (proj2 (strip_self curr curr) eq_refl) in E1. discriminate.
  Qed.
End ToTree.
