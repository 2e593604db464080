(* Automaton::from_grammar presents the context-free approximation. *)
From Verif Require Import Base M_Util P_Util M_Agenda M_Grammar M_Chart M_CSAuto S_Grammar S_CS.

Lemma In_push {X} i j (v : X) m m' x : vmm_push_to i v m = Some m' -> (In x (nth j m' []) <-> In x (nth j m []) \/ (j = i /\ x = v)).
Proof.
  unfold vmm_push_to. destruct (Nat.ltb i (length (vmm_pad_to i m))) eqn:E; [|discriminate]. intros [= <-]. apply Nat.ltb_lt in E.
  rewrite nth_update by assumption. destruct (Nat.eqb j i) eqn:EJ.
  - apply Nat.eqb_eq in EJ. subst j. rewrite pad_abs, in_app_iff. cbn. intuition congruence.
  - apply Nat.eqb_neq in EJ. rewrite pad_abs. intuition congruence.
Qed.
Lemma push_total {X} i (v : X) m : exists m', vmm_push_to i v m = Some m'.
Proof. unfold vmm_push_to. pose proof (pad_length i m) as H. apply Nat.ltb_lt in H. rewrite H. eauto. Qed.
Lemma nth_error_snoc {X} (l : list X) x k y : nth_error (l ++ [x]) k = Some y <-> nth_error l k = Some y \/ (k = length l /\ y = x).
Proof.
  destruct (Nat.lt_ge_cases k (length l)) as [L|L].
  - rewrite nth_error_app1 by assumption. split; [tauto|]. intros [H|[-> _]]; [assumption|lia].
  - rewrite nth_error_app2 by assumption. pose proof (proj2 (nth_error_None l k) L) as E. rewrite E. split.
    + destruct (k - length l) as [|d] eqn:D; cbn; [intros [= ->]; right; split; [lia|reflexivity]|destruct d; discriminate].
    + intros [H|[-> ->]]; [discriminate|]. now rewrite Nat.sub_diag.
Qed.
Lemma nth_error_inj {X} (l : list X) i j x : NoDup l -> nth_error l i = Some x -> nth_error l j = Some x -> i = j.
Proof. intros ND H1 H2. eapply NoDup_nth_error; [exact ND| |congruence]. apply nth_error_Some. congruence. Qed.

Section HM.
  Context {T X : Type} (teqb : T -> T -> bool) (TE : EqbSpec teqb).
  Lemma hm_get_push t (x : X) m t' : hm_get teqb t' (hm_push teqb t x m) =
    if teqb t' t then Some (match hm_get teqb t m with Some l => l ++ [x] | None => [x] end) else hm_get teqb t' m.
  Proof.
    induction m as [|[t0 xs] m IH]; cbn.
    - destruct (teqb t' t); reflexivity.
    - destruct (teqb t t0) eqn:E; cbn.
      + apply TE in E. subst t0. destruct (teqb t' t); reflexivity.
      + destruct (teqb t' t0) eqn:E0; [|exact IH]. apply TE in E0. subst t0. destruct (teqb t' t) eqn:E1; [|reflexivity].
        apply TE in E1. subst t'. rewrite (proj2 (TE t t) eq_refl) in E. discriminate.
  Qed.
  Lemma hm_push_keys t (x : X) m t' : In t' (map fst (hm_push teqb t x m)) <-> t' = t \/ In t' (map fst m).
  Proof.
    induction m as [|[t0 xs] m IH]; cbn; [intuition congruence|]. destruct (teqb t t0) eqn:E; cbn; [apply TE in E; subst; intuition congruence|]. rewrite IH. tauto.
  Qed.
  Lemma hm_push_nodup t (x : X) m : NoDup (map fst m) -> NoDup (map fst (hm_push teqb t x m)).
  Proof.
    induction m as [|[t0 xs] m IH]; cbn; intros H; [constructor; [tauto|constructor]|]. inversion H as [|? ? H1 H2]; subst. destruct (teqb t t0) eqn:E; cbn; [assumption|].
    constructor; [|auto]. rewrite hm_push_keys. intros [->|H3]; [|contradiction]. rewrite (proj2 (TE t t) eq_refl) in E. discriminate.
  Qed.
  Lemma hm_get_in t (l : list X) m : NoDup (map fst m) -> In (t, l) m -> hm_get teqb t m = Some l.
  Proof.
    induction m as [|[t0 xs] m IH]; cbn; intros ND H0; [destruct H0|]. destruct H0 as [E|H].
    - injection E as -> ->. now rewrite (proj2 (TE t t) eq_refl).
    - inversion ND as [|? ? N1 N2]; subst. destruct (teqb t t0) eqn:E; [|auto]. apply TE in E. subst t0. exfalso. apply N1. apply in_map_iff. now exists (t, l).
  Qed.
End HM.

Section Build.
  Context {N T : Type} {K : ZWeight} (neqb : N -> N -> bool) (teqb : T -> T -> bool) (NE : EqbSpec neqb) (TE : EqbSpec teqb).
  Notation st := (cstate N). Notation rules_t := (list (crule st T K)).
  Lemma cstate_eqb_spec : EqbSpec (cstate_eqb neqb).
  Proof.
    intros [n c|r c o] [n' c'|r' c' o']; cbn; split; intros H; try discriminate; try (apply Bool.andb_true_iff in H; destruct H as [H1 H2]).
    - apply NE in H1. apply Nat.eqb_eq in H2. congruence.
    - injection H as -> ->. now rewrite (proj2 (NE n' n') eq_refl), Nat.eqb_refl.
    - apply Bool.andb_true_iff in H1. destruct H1 as [H0 H1]. apply Nat.eqb_eq in H0, H1, H2. congruence.
    - injection H as -> -> ->. now rewrite !Nat.eqb_refl.
  Qed.
  Definition rstates (x : crule st T K) : list st := cr_lhs x :: match cr_rhs x with RT _ => [] | RU s => [s] | RB s1 s2 => [s1; s2] end.
  Record binv (b : builder) (R : rules_t) : Prop := {
    bi_nodup : NoDup (b_ints b);
    bi_br : b_br b = map cr_br R;
    bi_states : forall x s, In x R -> In s (rstates x) -> In s (b_ints b);
    bi_bin : forall k1 rid k2 w k, In (rid, k2, (w, k)) (nth k1 (b_bin b) []) <->
      exists s s1 s2 br, nth_error R rid = Some (CRule s (RB s1 s2) w br) /\ nth_error (b_ints b) k1 = Some s1 /\ nth_error (b_ints b) k2 = Some s2 /\ nth_error (b_ints b) k = Some s;
    bi_tdbin : forall k1 rid k2 w k, In (rid, k1, k2, w) (nth k (b_tdbin b) []) <->
      exists s s1 s2 br, nth_error R rid = Some (CRule s (RB s1 s2) w br) /\ nth_error (b_ints b) k1 = Some s1 /\ nth_error (b_ints b) k2 = Some s2 /\ nth_error (b_ints b) k = Some s;
    bi_un : forall k1 rid w k, In (rid, (w, k)) (nth k1 (b_un b) []) <->
      exists s s1 br, nth_error R rid = Some (CRule s (RU s1) w br) /\ nth_error (b_ints b) k1 = Some s1 /\ nth_error (b_ints b) k = Some s;
    bi_tdun : forall k1 rid w k, In (rid, k1, w) (nth k (b_tdun b) []) <->
      exists s s1 br, nth_error R rid = Some (CRule s (RU s1) w br) /\ nth_error (b_ints b) k1 = Some s1 /\ nth_error (b_ints b) k = Some s;
    bi_term : forall t rid w k, In (rid, (w, k)) (match hm_get teqb t (b_term b) with Some l => l | None => [] end) <->
      exists s br, nth_error R rid = Some (CRule s (RT t) w br) /\ nth_error (b_ints b) k = Some s;
    bi_tdnull : forall rid w k, In (rid, w) (nth k (b_tdnull b) []) <->
      exists t s br, nth_error R rid = Some (CRule s (RT t) w br) /\ nth_error (b_ints b) k = Some s;
    bi_keys : NoDup (map fst (b_term b))
  }.
  Definition extends (b b' : builder (N:=N) (T:=T) (K:=K)) : Prop := exists r, b_ints b' = b_ints b ++ r.
  Lemma extends_refl b : extends b b. Proof. exists []. now rewrite app_nil_r. Qed.
  Lemma extends_trans b1 b2 b3 : extends b1 b2 -> extends b2 b3 -> extends b1 b3.
  Proof. intros [r1 H1] [r2 H2]. exists (r1 ++ r2). now rewrite H2, H1, app_assoc. Qed.
  Lemma extends_nth b b' k s : extends b b' -> nth_error (b_ints b) k = Some s -> nth_error (b_ints b') k = Some s.
  Proof. intros [r ->] H. rewrite nth_error_app1; [assumption|]. apply nth_error_Some. congruence. Qed.
  Lemma binv_new : binv builder_new [].
  Proof.
    assert (Z : forall X k, nth k (@vmm_new X) [] = []) by (intros X [|k]; reflexivity).
    assert (E : forall k (x : crule st T K), nth_error [] k = Some x -> False) by (intros [|k] x; discriminate).
    split; try apply NoDup_nil; try reflexivity; cbn [b_bin b_un b_term b_tdbin b_tdun b_tdnull builder_new hm_get]; intros; rewrite ?Z.
    - destruct H.
    - split; [intros []|]. intros (? & ? & ? & ? & H & _). destruct (E _ _ H).
    - split; [intros []|]. intros (? & ? & ? & ? & H & _). destruct (E _ _ H).
    - split; [intros []|]. intros (? & ? & ? & H & _). destruct (E _ _ H).
    - split; [intros []|]. intros (? & ? & ? & H & _). destruct (E _ _ H).
    - split; [intros []|]. intros (? & ? & H & _). destruct (E _ _ H).
    - split; [intros []|]. intros (? & ? & ? & H & _). destruct (E _ _ H).
  Qed.
  Lemma binv_int b R s b' k : binv b R -> b_integerise neqb s b = (b', k) -> binv b' R /\ extends b b' /\ nth_error (b_ints b') k = Some s.
  Proof.
    intros I E. unfold b_integerise, int_integerise in E. destruct (find_index (cstate_eqb neqb) s (b_ints b)) as [k0|] eqn:F.
    - injection E as <- <-. split; [destruct I; split; assumption|]. split; [exists []; cbn; now rewrite app_nil_r|]. cbn. apply (find_index_some _ cstate_eqb_spec _ _ _ F).
    - injection E as <- <-. apply (find_index_none _ cstate_eqb_spec) in F. destruct I as [I1 I2 I3 I4 I5 I6 I7 I8 I9 I10].
      assert (Snoc : NoDup (b_ints b ++ [s])).
      { apply Permutation_NoDup with (l := s :: b_ints b); [apply Permutation_cons_append|]. now constructor. }
      assert (X : forall x s0, In x R -> In s0 (rstates x) -> forall k0, nth_error (b_ints b ++ [s]) k0 = Some s0 <-> nth_error (b_ints b) k0 = Some s0).
      { intros x s0 Hx Hs k0. rewrite nth_error_snoc. split; [|tauto]. intros [H|[-> ->]]; [assumption|]. exfalso. apply F. eapply I3; eassumption. }
      split; [|split; [exists [s]; reflexivity|cbn; rewrite nth_error_app2, Nat.sub_diag by lia; reflexivity]].
      split; cbn; try assumption.
      + intros x s0 Hx Hs. apply in_app_iff. left. eapply I3; eassumption.
      + intros k1 rid k2 w k. rewrite I4. split; intros (s0 & s1 & s2 & br & H1 & H2 & H3 & H4); exists s0, s1, s2, br; (split; [exact H1|]); apply nth_error_In in H1;
          rewrite (X _ s0 H1), (X _ s1 H1), (X _ s2 H1) in * by (cbn; tauto); tauto.
      + intros k1 rid k2 w k. rewrite I5. split; intros (s0 & s1 & s2 & br & H1 & H2 & H3 & H4); exists s0, s1, s2, br; (split; [exact H1|]); apply nth_error_In in H1;
          rewrite (X _ s0 H1), (X _ s1 H1), (X _ s2 H1) in * by (cbn; tauto); tauto.
      + intros k1 rid w k. rewrite I6. split; intros (s0 & s1 & br & H1 & H2 & H3); exists s0, s1, br; (split; [exact H1|]); apply nth_error_In in H1;
          rewrite (X _ s0 H1), (X _ s1 H1) in * by (cbn; tauto); tauto.
      + intros k1 rid w k. rewrite I7. split; intros (s0 & s1 & br & H1 & H2 & H3); exists s0, s1, br; (split; [exact H1|]); apply nth_error_In in H1;
          rewrite (X _ s0 H1), (X _ s1 H1) in * by (cbn; tauto); tauto.
      + intros t rid w k. rewrite I8. split; intros (s0 & br & H1 & H2); exists s0, br; (split; [exact H1|]); apply nth_error_In in H1; rewrite (X _ s0 H1) in * by (cbn; tauto); tauto.
      + intros rid w k. rewrite I9. split; intros (t & s0 & br & H1 & H2); exists t, s0, br; (split; [exact H1|]); apply nth_error_In in H1; rewrite (X _ s0 H1) in * by (cbn; tauto); tauto.
  Qed.
  Lemma binv_len b R : binv b R -> length (b_br b) = length R.
  Proof. intros I. rewrite (bi_br _ _ I). apply map_length. Qed.
  Lemma binv_add_binary b R q1 q2 w q br s1 s2 s : binv b R -> nth_error (b_ints b) q1 = Some s1 -> nth_error (b_ints b) q2 = Some s2 -> nth_error (b_ints b) q = Some s ->
    exists b', add_binary q1 q2 w q br b = Some b' /\ binv b' (R ++ [CRule s (RB s1 s2) w br]) /\ b_ints b' = b_ints b.
  Proof.
    intros I H1 H2 H3. unfold add_binary. rewrite (binv_len _ _ I). destruct (push_total q1 (length R, q2, (w, q)) (b_bin b)) as (m1 & E1). destruct (push_total q (length R, q1, q2, w) (b_tdbin b)) as (m2 & E2).
    rewrite E1, E2. eexists. split; [reflexivity|]. split; [|reflexivity]. destruct I as [I1 I2 I3 I4 I5 I6 I7 I8 I9 I10]. split; cbn; try assumption.
    - now rewrite I2, map_app.
    - intros x s0 Hx Hs. apply in_app_iff in Hx. destruct Hx as [Hx|[<-|[]]]; [eapply I3; eassumption|]. cbn in Hs. destruct Hs as [<-|[<-|[<-|[]]]]; eapply nth_error_In; eassumption.
    - intros k1 rid k2 w0 k. rewrite (In_push _ _ _ _ _ _ E1), I4. split.
      + intros [(s0 & s1' & s2' & br' & P1 & P2)|[-> E]]; [exists s0, s1', s2', br'; split; [apply nth_error_snoc; now left|exact P2]|].
        injection E as -> -> -> ->. exists s, s1, s2, br. split; [apply nth_error_snoc; now right|tauto].
      + intros (s0 & s1' & s2' & br' & P1 & P2 & P3 & P4). apply nth_error_snoc in P1. destruct P1 as [P1|[-> P1]]; [left; exists s0, s1', s2', br'; tauto|]. right. injection P1 as -> -> -> -> ->.
        rewrite (nth_error_inj _ _ _ _ I1 P2 H1), (nth_error_inj _ _ _ _ I1 P3 H2), (nth_error_inj _ _ _ _ I1 P4 H3). split; reflexivity.
    - intros k1 rid k2 w0 k. rewrite (In_push _ _ _ _ _ _ E2), I5. split.
      + intros [(s0 & s1' & s2' & br' & P1 & P2)|[-> E]]; [exists s0, s1', s2', br'; split; [apply nth_error_snoc; now left|exact P2]|].
        injection E as -> -> -> ->. exists s, s1, s2, br. split; [apply nth_error_snoc; now right|tauto].
      + intros (s0 & s1' & s2' & br' & P1 & P2 & P3 & P4). apply nth_error_snoc in P1. destruct P1 as [P1|[-> P1]]; [left; exists s0, s1', s2', br'; tauto|]. right. injection P1 as -> -> -> -> ->.
        rewrite (nth_error_inj _ _ _ _ I1 P2 H1), (nth_error_inj _ _ _ _ I1 P3 H2), (nth_error_inj _ _ _ _ I1 P4 H3). split; reflexivity.
    - intros k1 rid w0 k. rewrite I6. split; intros (s0 & s1' & br' & P1 & P2); exists s0, s1', br'; (split; [|exact P2]); rewrite nth_error_snoc in *; [now left|]. destruct P1 as [P1|[_ P1]]; [assumption|discriminate].
    - intros k1 rid w0 k. rewrite I7. split; intros (s0 & s1' & br' & P1 & P2); exists s0, s1', br'; (split; [|exact P2]); rewrite nth_error_snoc in *; [now left|]. destruct P1 as [P1|[_ P1]]; [assumption|discriminate].
    - intros t rid w0 k. rewrite I8. split; intros (s0 & br' & P1 & P2); exists s0, br'; (split; [|exact P2]); rewrite nth_error_snoc in *; [now left|]. destruct P1 as [P1|[_ P1]]; [assumption|discriminate].
    - intros rid w0 k. rewrite I9. split; intros (t & s0 & br' & P1 & P2); exists t, s0, br'; (split; [|exact P2]); rewrite nth_error_snoc in *; [now left|]. destruct P1 as [P1|[_ P1]]; [assumption|discriminate].
  Qed.
  Lemma binv_add_unary b R q1 w q br s1 s : binv b R -> nth_error (b_ints b) q1 = Some s1 -> nth_error (b_ints b) q = Some s ->
    exists b', add_unary q1 w q br b = Some b' /\ binv b' (R ++ [CRule s (RU s1) w br]) /\ b_ints b' = b_ints b.
  Proof.
    intros I H1 H3. unfold add_unary. rewrite (binv_len _ _ I). destruct (push_total q1 (length R, (w, q)) (b_un b)) as (m1 & E1). destruct (push_total q (length R, q1, w) (b_tdun b)) as (m2 & E2).
    rewrite E1, E2. eexists. split; [reflexivity|]. split; [|reflexivity]. destruct I as [I1 I2 I3 I4 I5 I6 I7 I8 I9 I10]. split; cbn; try assumption.
    - now rewrite I2, map_app.
    - intros x s0 Hx Hs. apply in_app_iff in Hx. destruct Hx as [Hx|[<-|[]]]; [eapply I3; eassumption|]. cbn in Hs. destruct Hs as [<-|[<-|[]]]; eapply nth_error_In; eassumption.
    - intros k1 rid k2 w0 k. rewrite I4. split; intros (s0 & s1' & s2' & br' & P1 & P2); exists s0, s1', s2', br'; (split; [|exact P2]); rewrite nth_error_snoc in *; [now left|]. destruct P1 as [P1|[_ P1]]; [assumption|discriminate].
    - intros k1 rid k2 w0 k. rewrite I5. split; intros (s0 & s1' & s2' & br' & P1 & P2); exists s0, s1', s2', br'; (split; [|exact P2]); rewrite nth_error_snoc in *; [now left|]. destruct P1 as [P1|[_ P1]]; [assumption|discriminate].
    - intros k1 rid w0 k. rewrite (In_push _ _ _ _ _ _ E1), I6. split.
      + intros [(s0 & s1' & br' & P1 & P2)|[-> E]]; [exists s0, s1', br'; split; [apply nth_error_snoc; now left|exact P2]|].
        injection E as -> -> ->. exists s, s1, br. split; [apply nth_error_snoc; now right|tauto].
      + intros (s0 & s1' & br' & P1 & P2 & P4). apply nth_error_snoc in P1. destruct P1 as [P1|[-> P1]]; [left; exists s0, s1', br'; tauto|]. right. injection P1 as -> -> -> ->.
        rewrite (nth_error_inj _ _ _ _ I1 P2 H1), (nth_error_inj _ _ _ _ I1 P4 H3). split; reflexivity.
    - intros k1 rid w0 k. rewrite (In_push _ _ _ _ _ _ E2), I7. split.
      + intros [(s0 & s1' & br' & P1 & P2)|[-> E]]; [exists s0, s1', br'; split; [apply nth_error_snoc; now left|exact P2]|].
        injection E as -> -> ->. exists s, s1, br. split; [apply nth_error_snoc; now right|tauto].
      + intros (s0 & s1' & br' & P1 & P2 & P4). apply nth_error_snoc in P1. destruct P1 as [P1|[-> P1]]; [left; exists s0, s1', br'; tauto|]. right. injection P1 as -> -> -> ->.
        rewrite (nth_error_inj _ _ _ _ I1 P2 H1), (nth_error_inj _ _ _ _ I1 P4 H3). split; reflexivity.
    - intros t rid w0 k. rewrite I8. split; intros (s0 & br' & P1 & P2); exists s0, br'; (split; [|exact P2]); rewrite nth_error_snoc in *; [now left|]. destruct P1 as [P1|[_ P1]]; [assumption|discriminate].
    - intros rid w0 k. rewrite I9. split; intros (t & s0 & br' & P1 & P2); exists t, s0, br'; (split; [|exact P2]); rewrite nth_error_snoc in *; [now left|]. destruct P1 as [P1|[_ P1]]; [assumption|discriminate].
  Qed.
  Lemma binv_add_terminal b R t w q br s : binv b R -> nth_error (b_ints b) q = Some s ->
    exists b', add_terminal teqb t w q br b = Some b' /\ binv b' (R ++ [CRule s (RT t) w br]) /\ b_ints b' = b_ints b.
  Proof.
    intros I H3. unfold add_terminal. rewrite (binv_len _ _ I). destruct (push_total q (length R, w) (b_tdnull b)) as (m2 & E2).
    rewrite E2. eexists. split; [reflexivity|]. split; [|reflexivity]. destruct I as [I1 I2 I3 I4 I5 I6 I7 I8 I9 I10]. split; cbn; try assumption.
    - now rewrite I2, map_app.
    - intros x s0 Hx Hs. apply in_app_iff in Hx. destruct Hx as [Hx|[<-|[]]]; [eapply I3; eassumption|]. cbn in Hs. destruct Hs as [<-|[]]; eapply nth_error_In; eassumption.
    - intros k1 rid k2 w0 k. rewrite I4. split; intros (s0 & s1' & s2' & br' & P1 & P2); exists s0, s1', s2', br'; (split; [|exact P2]); rewrite nth_error_snoc in *; [now left|]. destruct P1 as [P1|[_ P1]]; [assumption|discriminate].
    - intros k1 rid k2 w0 k. rewrite I5. split; intros (s0 & s1' & s2' & br' & P1 & P2); exists s0, s1', s2', br'; (split; [|exact P2]); rewrite nth_error_snoc in *; [now left|]. destruct P1 as [P1|[_ P1]]; [assumption|discriminate].
    - intros k1 rid w0 k. rewrite I6. split; intros (s0 & s1' & br' & P1 & P2); exists s0, s1', br'; (split; [|exact P2]); rewrite nth_error_snoc in *; [now left|]. destruct P1 as [P1|[_ P1]]; [assumption|discriminate].
    - intros k1 rid w0 k. rewrite I7. split; intros (s0 & s1' & br' & P1 & P2); exists s0, s1', br'; (split; [|exact P2]); rewrite nth_error_snoc in *; [now left|]. destruct P1 as [P1|[_ P1]]; [assumption|discriminate].
    - intros t' rid w0 k. rewrite (hm_get_push teqb TE). destruct (teqb t' t) eqn:ET.
      + apply TE in ET. subst t'. assert (A : In (rid, (w0, k)) (match hm_get teqb t (b_term b) with Some l => l ++ [(length R, (w, q))] | None => [(length R, (w, q))] end) <->
          In (rid, (w0, k)) (match hm_get teqb t (b_term b) with Some l => l | None => [] end) \/ (length R, (w, q)) = (rid, (w0, k))) by (destruct (hm_get teqb t (b_term b)); [rewrite in_app_iff|]; cbn; tauto).
        rewrite A, I8. split.
        * intros [(s0 & br' & P1 & P2)|E]; [exists s0, br'; split; [apply nth_error_snoc; now left|exact P2]|]. injection E as <- <- <-. exists s, br. split; [apply nth_error_snoc; now right|assumption].
        * intros (s0 & br' & P1 & P2). apply nth_error_snoc in P1. destruct P1 as [P1|[-> P1]]; [left; exists s0, br'; tauto|]. right. injection P1 as -> -> ->. now rewrite (nth_error_inj _ _ _ _ I1 P2 H3).
      + rewrite I8. split; intros (s0 & br' & P1 & P2); exists s0, br'; (split; [|exact P2]); rewrite nth_error_snoc in *; [now left|]. destruct P1 as [P1|[_ P1]]; [assumption|].
        injection P1 as -> -> -> ->. rewrite (proj2 (TE t t) eq_refl) in ET. discriminate.
    - intros rid w0 k. rewrite (In_push _ _ _ _ _ _ E2), I9. split.
      + intros [(t0 & s0 & br' & P1 & P2)|[-> E]]; [exists t0, s0, br'; split; [apply nth_error_snoc; now left|exact P2]|].
        injection E as -> ->. exists t, s, br. split; [apply nth_error_snoc; now right|tauto].
      + intros (t0 & s0 & br' & P1 & P4). apply nth_error_snoc in P1. destruct P1 as [P1|[-> P1]]; [left; exists t0, s0, br'; tauto|]. right. injection P1 as -> -> -> ->.
        rewrite (nth_error_inj _ _ _ _ I1 P4 H3). split; reflexivity.
    - now apply hm_push_nodup.
  Qed.

  (* variables refer to successors *)
  Definition var_ok (r : prule N T K) (x : vart T) : Prop := exists i j, x = Var i j /\ i < length (pr_tail r).
  Lemma binv_successor rid (r : prule N T K) cid x b R : binv b R -> var_ok r x ->
    exists b' q, successor neqb rid r x b = Some (b', q, var_bracket rid x) /\ binv b' R /\ extends b b' /\ nth_error (b_ints b') q = Some (var_state r cid x).
  Proof.
    intros I (i & j & -> & L). cbn. destruct (nth_error (pr_tail r) i) as [a|] eqn:E; [|apply nth_error_None in E; lia].
    destruct (b_integerise neqb (Non a j) b) as [b' q] eqn:EI. destruct (binv_int _ _ _ _ _ I EI) as (I' & X & Q). exists b', q. split; [reflexivity|]. split; [assumption|]. split; [assumption|].
    now rewrite (nth_error_nth _ _ _ E).
  Qed.
  Lemma binv_rest rid (r : prule N T K) cid state_i : forall rest off left target b R, binv b R -> (forall x, In x rest -> var_ok r x) ->
    nth_error (b_ints b) state_i = Some (Non (pr_head r) cid) -> nth_error (b_ints b) target = Some left ->
    exists b', fg_rest neqb rid r cid state_i (comp_bracket rid cid) off target rest b = Some b' /\ extends b b' /\ binv b' (R ++ cs_rest rid r cid off left rest).
  Proof.
    induction rest as [|x rest IH]; intros off left target b R I V HS HT.
    - exists b. split; [reflexivity|]. split; [apply extends_refl|]. cbn. now rewrite app_nil_r.
    - cbn [fg_rest cs_rest]. destruct (binv_successor rid r cid x b R I (V x (or_introl eq_refl))) as (b1 & qr & -> & I1 & X1 & Q1).
      assert (exists b2 target', (match rest with [] => (b1, state_i, comp_bracket rid cid) | _ => let '(b, u) := b_integerise neqb (Uniq rid cid off) b1 in (b, u, Ignore) end) = (b2, target', part_bracket rid cid rest)
        /\ binv b2 R /\ extends b1 b2 /\ nth_error (b_ints b2) target' = Some (part_state rid r cid off rest)) as (b2 & target' & -> & I2 & X2 & Q2).
      { destruct rest as [|y rest].
        - exists b1, state_i. split; [reflexivity|]. split; [assumption|]. split; [apply extends_refl|]. cbn. eapply extends_nth; eassumption.
        - destruct (b_integerise neqb (Uniq rid cid off) b1) as [b2 u] eqn:EI. destruct (binv_int _ _ _ _ _ I1 EI) as (I2 & X2 & Q2). exists b2, u. split; [reflexivity|]. tauto. }
      pose proof (extends_trans _ _ _ X1 X2) as X12.
      destruct (binv_add_binary b2 R target qr wone target' (part_bracket rid cid rest, Ignore, var_bracket rid x) left (var_state r cid x) (part_state rid r cid off rest) I2
        (extends_nth _ _ _ _ X12 HT) (extends_nth _ _ _ _ X2 Q1) Q2) as (b3 & -> & I3 & E3).
      assert (X3 : extends b2 b3) by (exists []; now rewrite E3, app_nil_r). pose proof (extends_trans _ _ _ X12 X3) as X13.
      destruct (IH (S off) (part_state rid r cid off rest) target' b3 _ I3 (fun y Hy => V y (or_intror Hy)) (extends_nth _ _ _ _ X13 HS) (extends_nth _ _ _ _ X3 Q2)) as (b4 & E4 & X4 & I4).
      exists b4. split; [exact E4|]. split; [eapply extends_trans; eassumption|]. now rewrite <- app_assoc in I4.
  Qed.
  Definition comp_ok (r : prule N T K) (c : list (vart T)) : Prop := (exists t, c = [Tm t]) \/ (c <> [] /\ forall x, In x c -> var_ok r x).
  Lemma binv_component rid (r : prule N T K) cid c w b R : binv b R -> comp_ok r c ->
    exists b', fg_component neqb teqb rid r cid c w b = Some b' /\ extends b b' /\ binv b' (R ++ cs_component rid r cid c w).
  Proof.
    intros I OK. unfold fg_component. destruct (b_integerise neqb (Non (pr_head r) cid) b) as [b1 si] eqn:EI. destruct (binv_int _ _ _ _ _ I EI) as (I1 & X1 & Q1).
    destruct OK as [(t & ->)|[NE0 V]].
    - destruct (binv_add_terminal b1 R t w si (BComp rid (u8 cid), Terminal, Ignore) _ I1 Q1) as (b2 & E2 & I2 & P2). exists b2. split; [exact E2|]. split; [|exact I2]. eapply extends_trans; [exact X1|]. exists []. now rewrite P2, app_nil_r.
    - destruct c as [|x [|y rest]]; [contradiction| |].
      + destruct (V x (or_introl eq_refl)) as (i & j & -> & L). destruct (binv_successor rid r cid (Var i j) b1 R I1 (V _ (or_introl eq_refl))) as (b2 & q1 & -> & I2 & X2 & Q2).
        destruct (binv_add_unary b2 R q1 w si (BComp rid (u8 cid), var_bracket rid (@Var T i j), Ignore) _ _ I2 Q2 (extends_nth _ _ _ _ X2 Q1)) as (b3 & E3 & I3 & P3).
        exists b3. split; [exact E3|]. split; [|exact I3]. eapply extends_trans; [exact X1|]. eapply extends_trans; [exact X2|]. exists []. now rewrite P3, app_nil_r.
      + destruct (V x (or_introl eq_refl)) as (i & j & Ex & L). 
        assert (EM : forall A (f1 : T -> A) (f2 : nat -> nat -> A) (f3 : A), (match x :: y :: rest with [] => f3 | [Tm t] => f1 t | [Var i0 j0] => f2 i0 j0 | _ :: _ :: _ => f3 end) = f3) by (intros; subst x; reflexivity). clear EM.
        destruct (binv_successor rid r cid x b1 R I1 (V x (or_introl eq_refl))) as (b2 & q1 & E2 & I2 & X2 & Q2).
        destruct (binv_successor rid r cid y b2 R I2 (V y (or_intror (or_introl eq_refl)))) as (b3 & q2 & E3 & I3 & X3 & Q3).
        assert (exists b4 target, (match rest with [] => (b3, si, BComp rid (u8 cid)) | _ => let '(b, u) := b_integerise neqb (Uniq rid cid 0) b3 in (b, u, Ignore) end) = (b4, target, part_bracket rid cid rest)
          /\ binv b4 R /\ extends b3 b4 /\ nth_error (b_ints b4) target = Some (part_state rid r cid 0 rest)) as (b4 & target & E4 & I4 & X4 & Q4).
        { destruct rest as [|z rest].
          - exists b3, si. split; [reflexivity|]. split; [assumption|]. split; [apply extends_refl|]. cbn. eapply extends_nth; [exact X3|]. eapply extends_nth; [exact X2|]. assumption.
          - destruct (b_integerise neqb (Uniq rid cid 0) b3) as [b4 u] eqn:EI4. destruct (binv_int _ _ _ _ _ I3 EI4) as (I4 & X4 & Q4). exists b4, u. split; [reflexivity|]. tauto. }
        destruct (binv_add_binary b4 R q1 q2 w target (part_bracket rid cid rest, var_bracket rid x, var_bracket rid y) _ _ _ I4
          (extends_nth _ _ _ _ X4 (extends_nth _ _ _ _ X3 Q2)) (extends_nth _ _ _ _ X4 Q3) Q4) as (b5 & E5 & I5 & P5).
        assert (X5 : extends b4 b5) by (exists []; now rewrite P5, app_nil_r).
        assert (X15 : extends b1 b5) by (eapply extends_trans; [exact X2|]; eapply extends_trans; [exact X3|]; eapply extends_trans; [exact X4|exact X5]).
        destruct (binv_rest rid r cid si rest 1 (part_state rid r cid 0 rest) target b5 _ I5 (fun z Hz => V z (or_intror (or_intror Hz))) (extends_nth _ _ _ _ X15 Q1) (extends_nth _ _ _ _ X5 Q4)) as (b6 & E6 & X6 & I6).
        exists b6. split; [|split; [eapply extends_trans; [exact X1|]; eapply extends_trans; eassumption|]].
        * subst x. rewrite E2, E3, E4, E5. exact E6.
        * rewrite <- app_assoc in I6. subst x. exact I6.
  Qed.
  Lemma binv_components rid (r : prule N T K) : forall cs cid b R, binv b R -> (forall c, In c cs -> comp_ok r (fst c)) ->
    exists b', fg_components neqb teqb rid r cid cs b = Some b' /\ extends b b' /\ binv b' (R ++ cs_components rid r cid cs).
  Proof.
    induction cs as [|[c w] cs IH]; intros cid b R I OK; cbn [fg_components cs_components].
    - exists b. split; [reflexivity|]. split; [apply extends_refl|]. now rewrite app_nil_r.
    - destruct (binv_component rid r cid c w b R I (OK _ (or_introl eq_refl))) as (b1 & -> & X1 & I1). destruct (IH (S cid) b1 _ I1 (fun c Hc => OK c (or_intror Hc))) as (b2 & E2 & X2 & I2).
      exists b2. split; [exact E2|]. split; [eapply extends_trans; eassumption|]. now rewrite <- app_assoc in I2.
  Qed.
  Lemma rule_nf_ok (r : prule N T K) : rule_nf r -> forall c, In c (pr_comp r) -> comp_ok r c.
  Proof.
    intros [(t & E)|H] c Hc.
    - rewrite E in Hc. destruct Hc as [<-|[]]. left. eauto.
    - right. destruct (H c Hc) as [H1 H2]. split; [assumption|]. exact H2.
  Qed.
  Context (factorize : K -> nat -> list K).
  Lemma binv_rules : forall rules rid b R, binv b R -> (forall r : prule N T K, In r rules -> rule_nf r) ->
    exists b', fg_rules neqb teqb factorize rid rules b = Some b' /\ extends b b' /\ binv b' (R ++ cs_rules_from factorize rid rules).
  Proof.
    induction rules as [|r rules IH]; intros rid b R I OK; cbn [fg_rules cs_rules_from].
    - exists b. split; [reflexivity|]. split; [apply extends_refl|]. now rewrite app_nil_r.
    - destruct (binv_components rid r (combine (pr_comp r) (factorize (pr_weight r) (length (pr_comp r)))) 0 b R I) as (b1 & -> & X1 & I1).
      { intros [c w] Hc. apply in_combine_l in Hc. apply rule_nf_ok; [|assumption]. apply OK. now left. }
      destruct (IH (S rid) b1 _ I1 (fun r Hr => OK r (or_intror Hr))) as (b2 & E2 & X2 & I2). exists b2. split; [exact E2|]. split; [eapply extends_trans; eassumption|]. unfold cs_rule. now rewrite <- app_assoc in I2.
  Qed.

  Definition code (ints : list st) (s : st) : nat := match find_index (cstate_eqb neqb) s ints with Some k => k | None => length ints end.
  Definition code_rhs (ints : list st) (x : crhs st T) : crhs nat T := match x with RT t => RT t | RU s => RU (code ints s) | RB s1 s2 => RB (code ints s1) (code ints s2) end.
  Definition code_rule (ints : list st) (x : crule st T K) : crule nat T K := CRule (code ints (cr_lhs x)) (code_rhs ints (cr_rhs x)) (cr_weight x) (cr_br x).
  Lemma code_nth ints s k : NoDup ints -> In s ints -> nth_error ints k = Some s <-> code ints s = k.
  Proof.
    intros ND HI. unfold code. destruct (find_index (cstate_eqb neqb) s ints) as [k0|] eqn:F.
    - apply (find_index_some _ cstate_eqb_spec) in F. split; [intros H; eapply nth_error_inj; eassumption|intros <-; assumption].
    - apply (find_index_none _ cstate_eqb_spec) in F. contradiction.
  Qed.
  Lemma code_lt ints s : In s ints -> code ints s < length ints.
  Proof.
    intros HI. unfold code. destruct (find_index (cstate_eqb neqb) s ints) as [k0|] eqn:F.
    - apply (find_index_some _ cstate_eqb_spec) in F. apply nth_error_Some. congruence.
    - apply (find_index_none _ cstate_eqb_spec) in F. contradiction.
  Qed.
  Lemma code_inj ints s s' : NoDup ints -> In s ints -> In s' ints -> code ints s = code ints s' -> s = s'.
  Proof. intros ND H1 H2 E. apply (code_nth ints s) in E; [|assumption|assumption]. pose proof (proj2 (code_nth ints s' _ ND H2) eq_refl). congruence. Qed.

  Lemma nth_error_map_inv {X Y} (f : X -> Y) l k y : nth_error (map f l) k = Some y <-> exists x, nth_error l k = Some x /\ y = f x.
  Proof.
    rewrite nth_error_map. destruct (nth_error l k) as [x|]; cbn; split; [intros [= <-]; eauto|intros (x' & [= <-] & ->); reflexivity|discriminate|intros (x' & [=] & _)].
  Qed.
  Lemma nth_resize' {X} size (m : vmm X) k : nth k (vmm_into_vec_with_size size m) [] = if Nat.ltb k size then nth k m [] else [].
  Proof. apply nth_resize. Qed.

  (* mod.rs:76-243 *)
  Theorem from_grammar_presents rules init : (forall r : prule N T K, In r rules -> rule_nf r) ->
    exists a ints, from_grammar_ints neqb teqb factorize rules init = Some (a, ints) /\ NoDup ints /\
      (forall x s, In x (cs_rules factorize rules) -> In s (rstates x) -> code ints s < states a /\ In s ints) /\
      presents teqb a (map (code_rule ints) (cs_rules factorize rules)) (states a) /\
      In (Non init 0) ints /\ au_initial a = code ints (Non init 0) /\
      ((exists r : prule N T K, In r rules /\ pr_head r = init /\ pr_comp r <> []) -> FactorLaws factorize -> au_initial a < states a).
  Proof.
    intros OK. destruct (binv_rules rules 0 builder_new [] binv_new OK) as (b & E & X & I). cbn [app] in I. unfold from_grammar_ints. rewrite E.
    destruct (b_integerise neqb (Non init 0) b) as [b' ini] eqn:EI. destruct (binv_int _ _ _ _ _ I EI) as (I' & X' & Q'). eexists. exists (b_ints b'). split; [reflexivity|].
    pose proof (bi_nodup _ _ I') as ND. split; [exact ND|]. fold (cs_rules factorize rules) in *. set (R := cs_rules factorize rules) in *.
    assert (SZ : states (Automaton (vmm_into_vec_with_size (length (b_ints b)) (b_bin b)) (vmm_into_vec_with_size (length (b_ints b)) (b_un b)) (b_term b)
                    (vmm_into_vec_with_size (length (b_ints b)) (b_tdbin b)) (vmm_into_vec_with_size (length (b_ints b)) (b_tdun b))
                    (vmm_into_vec_with_size (length (b_ints b)) (b_tdnull b)) ini (b_br b)) = length (b_ints b)) by (unfold states; cbn; apply resize_length).
    rewrite SZ. clear SZ.
    assert (CD : forall s, In s (b_ints b) -> code (b_ints b') s < length (b_ints b) /\ In s (b_ints b')).
    { intros s Hs. destruct (In_nth_error _ _ Hs) as (k & Hk). pose proof (extends_nth _ _ _ _ X' Hk) as Hk'. pose proof (nth_error_In _ _ Hk') as Hs'. split; [|assumption].
      apply (code_nth _ _ _ ND Hs') in Hk'. rewrite Hk'. apply nth_error_Some. congruence. }
    assert (CS : forall x s, In x R -> In s (rstates x) -> code (b_ints b') s < length (b_ints b) /\ In s (b_ints b')).
    { intros x s Hx Hs. apply CD. eapply (bi_states _ _ I); eassumption. }
    assert (CK : forall x s, In x R -> In s (rstates x) -> forall k, nth_error (b_ints b) k = Some s <-> code (b_ints b') s = k).
    { intros x s Hx Hs k. destruct (CS x s Hx Hs) as [C1 C2]. rewrite <- (code_nth _ _ k ND C2). split; [apply extends_nth; assumption|].
      intros H. pose proof (bi_states _ _ I x s Hx Hs) as H0. destruct (In_nth_error _ _ H0) as (k0 & Hk0). pose proof (extends_nth _ _ _ _ X' Hk0) as H1. now rewrite (nth_error_inj _ _ _ _ ND H H1). }
    split; [exact CS|]. split; [|split; [now apply nth_error_In in Q'|split; [cbn; symmetry; apply code_nth; [assumption|now apply nth_error_In in Q'|assumption]|]]].
    - split; cbn [au_bin au_un au_term au_tdbin au_tdun au_tdnull au_initial au_brackets]; unfold au_terms; cbn [au_term].
      + unfold vmm_into_vec_with_size. now rewrite !resize_length.
      + rewrite (bi_br _ _ I), map_map. reflexivity.
      + intros q1 rid q2 w q. rewrite nth_resize'. transitivity (In (rid, q2, (w, q)) (nth q1 (b_bin b) [])).
        { destruct (Nat.ltb q1 (length (b_ints b))) eqn:L; [reflexivity|]. apply Nat.ltb_ge in L. split; [intros []|]. rewrite (bi_bin _ _ I). intros (s & s1 & s2 & br & _ & H & _). exfalso. assert (q1 < length (b_ints b)) by (apply nth_error_Some; congruence). lia. }
        rewrite (bi_bin _ _ I). split.
        * intros (s & s1 & s2 & br & H1 & H2 & H3 & H4). exists br. apply nth_error_map_inv. eexists. split; [exact H1|]. pose proof (nth_error_In _ _ H1) as HI. unfold code_rule. cbn.
          rewrite (CK _ s1 HI) in H2 by (cbn; tauto). rewrite (CK _ s2 HI) in H3 by (cbn; tauto). rewrite (CK _ s HI) in H4 by (cbn; tauto). now subst.
        * intros (br & H). apply nth_error_map_inv in H. destruct H as ([s rhs w' br'] & H1 & H2). pose proof (nth_error_In _ _ H1) as HI. unfold code_rule in H2. cbn in H2. destruct rhs as [t|s1|s1 s2]; try discriminate. cbn in H2. injection H2 as -> -> -> -> ->.
          exists s, s1, s2, br'. split; [assumption|]. rewrite (CK _ s1 HI), (CK _ s2 HI), (CK _ s HI) by (cbn; tauto). tauto.
      + intros q1 rid w q. rewrite nth_resize'. transitivity (In (rid, (w, q)) (nth q1 (b_un b) [])).
        { destruct (Nat.ltb q1 (length (b_ints b))) eqn:L; [reflexivity|]. apply Nat.ltb_ge in L. split; [intros []|]. rewrite (bi_un _ _ I). intros (s & s1 & br & _ & H & _). exfalso. assert (q1 < length (b_ints b)) by (apply nth_error_Some; congruence). lia. }
        rewrite (bi_un _ _ I). split.
        * intros (s & s1 & br & H1 & H2 & H4). exists br. apply nth_error_map_inv. eexists. split; [exact H1|]. pose proof (nth_error_In _ _ H1) as HI. unfold code_rule. cbn.
          rewrite (CK _ s1 HI) in H2 by (cbn; tauto). rewrite (CK _ s HI) in H4 by (cbn; tauto). now subst.
        * intros (br & H). apply nth_error_map_inv in H. destruct H as ([s rhs w' br'] & H1 & H2). pose proof (nth_error_In _ _ H1) as HI. unfold code_rule in H2. cbn in H2. destruct rhs as [t|s1|s1 s2]; try discriminate. cbn in H2. injection H2 as -> -> -> ->.
          exists s, s1, br'. split; [assumption|]. rewrite (CK _ s1 HI), (CK _ s HI) by (cbn; tauto). tauto.
      + intros t rid w q. rewrite (bi_term _ _ I). split.
        * intros (s & br & H1 & H4). exists br. apply nth_error_map_inv. eexists. split; [exact H1|]. pose proof (nth_error_In _ _ H1) as HI. unfold code_rule. cbn. rewrite (CK _ s HI) in H4 by (cbn; tauto). now subst.
        * intros (br & H). apply nth_error_map_inv in H. destruct H as ([s rhs w' br'] & H1 & H2). pose proof (nth_error_In _ _ H1) as HI. unfold code_rule in H2. cbn in H2. destruct rhs as [t'|s1|s1 s2]; try discriminate. cbn in H2. injection H2 as -> -> -> ->.
          exists s, br'. split; [assumption|]. rewrite (CK _ s HI) by (cbn; tauto). tauto.
      + intros q1 rid q2 w q. rewrite nth_resize'. transitivity (In (rid, q1, q2, w) (nth q (b_tdbin b) [])).
        { destruct (Nat.ltb q (length (b_ints b))) eqn:L; [reflexivity|]. apply Nat.ltb_ge in L. split; [intros []|]. rewrite (bi_tdbin _ _ I). intros (s & s1 & s2 & br & _ & _ & _ & H). exfalso. assert (q < length (b_ints b)) by (apply nth_error_Some; congruence). lia. }
        rewrite (bi_tdbin _ _ I). split.
        * intros (s & s1 & s2 & br & H1 & H2 & H3 & H4). exists br. apply nth_error_map_inv. eexists. split; [exact H1|]. pose proof (nth_error_In _ _ H1) as HI. unfold code_rule. cbn.
          rewrite (CK _ s1 HI) in H2 by (cbn; tauto). rewrite (CK _ s2 HI) in H3 by (cbn; tauto). rewrite (CK _ s HI) in H4 by (cbn; tauto). now subst.
        * intros (br & H). apply nth_error_map_inv in H. destruct H as ([s rhs w' br'] & H1 & H2). pose proof (nth_error_In _ _ H1) as HI. unfold code_rule in H2. cbn in H2. destruct rhs as [t|s1|s1 s2]; try discriminate. cbn in H2. injection H2 as -> -> -> -> ->.
          exists s, s1, s2, br'. split; [assumption|]. rewrite (CK _ s1 HI), (CK _ s2 HI), (CK _ s HI) by (cbn; tauto). tauto.
      + intros q1 rid w q. rewrite nth_resize'. transitivity (In (rid, q1, w) (nth q (b_tdun b) [])).
        { destruct (Nat.ltb q (length (b_ints b))) eqn:L; [reflexivity|]. apply Nat.ltb_ge in L. split; [intros []|]. rewrite (bi_tdun _ _ I). intros (s & s1 & br & _ & _ & H). exfalso. assert (q < length (b_ints b)) by (apply nth_error_Some; congruence). lia. }
        rewrite (bi_tdun _ _ I). split.
        * intros (s & s1 & br & H1 & H2 & H4). exists br. apply nth_error_map_inv. eexists. split; [exact H1|]. pose proof (nth_error_In _ _ H1) as HI. unfold code_rule. cbn.
          rewrite (CK _ s1 HI) in H2 by (cbn; tauto). rewrite (CK _ s HI) in H4 by (cbn; tauto). now subst.
        * intros (br & H). apply nth_error_map_inv in H. destruct H as ([s rhs w' br'] & H1 & H2). pose proof (nth_error_In _ _ H1) as HI. unfold code_rule in H2. cbn in H2. destruct rhs as [t|s1|s1 s2]; try discriminate. cbn in H2. injection H2 as -> -> -> ->.
          exists s, s1, br'. split; [assumption|]. rewrite (CK _ s1 HI), (CK _ s HI) by (cbn; tauto). tauto.
      + intros rid w q. rewrite nth_resize'. transitivity (In (rid, w) (nth q (b_tdnull b) [])).
        { destruct (Nat.ltb q (length (b_ints b))) eqn:L; [reflexivity|]. apply Nat.ltb_ge in L. split; [intros []|]. rewrite (bi_tdnull _ _ I). intros (t & s & br & _ & H). exfalso. assert (q < length (b_ints b)) by (apply nth_error_Some; congruence). lia. }
        rewrite (bi_tdnull _ _ I). split.
        * intros (t & s & br & H1 & H4). exists t, br. apply nth_error_map_inv. eexists. split; [exact H1|]. pose proof (nth_error_In _ _ H1) as HI. unfold code_rule. cbn. rewrite (CK _ s HI) in H4 by (cbn; tauto). now subst.
        * intros (t & br & H). apply nth_error_map_inv in H. destruct H as ([s rhs w' br'] & H1 & H2). pose proof (nth_error_In _ _ H1) as HI. unfold code_rule in H2. cbn in H2. destruct rhs as [t'|s1|s1 s2]; try discriminate. cbn in H2. injection H2 as -> -> -> ->.
          exists t', s, br'. split; [assumption|]. rewrite (CK _ s HI) by (cbn; tauto). tauto.
      + intros t l Hl. now rewrite (hm_get_in teqb TE _ _ _ (bi_keys _ _ I) Hl).
      + intros x Hx. apply in_map_iff in Hx. destruct Hx as (y & <- & Hy). unfold code_rule. cbn. split; [apply (CS y); [assumption|cbn; tauto]|].
        destruct y as [s rhs w br]. destruct rhs as [t|s1|s1 s2]; cbn; [exact Logic.I| |]; [|split]; apply (CS _ _ Hy); cbn; tauto.
    - cbn. intros (r & Hr & Hh & Hc) FL.
      assert (HI : In (Non init 0) (b_ints b)).
      { destruct (pr_comp r) as [|c cs] eqn:EC; [contradiction|]. pose proof (OK r Hr) as NF.
        assert (exists x, In x R /\ cr_lhs x = Non init 0) as (x & Hx & Ex).
        { assert (G : forall rules rid, In r rules -> exists x, In x (cs_rules_from factorize rid rules) /\ cr_lhs x = Non (pr_head r) 0).
          { clear - NF EC FL NE TE. induction rules as [|r0 rules IH]; intros rid Hr; [destruct Hr|]. destruct Hr as [->|Hr]; cbn [cs_rules_from].
            - unfold cs_rule. rewrite EC. assert (exists w ws, factorize (pr_weight r) (length (c :: cs)) = w :: ws) as (w & ws & EW).
              { pose proof (fl_len _ FL (pr_weight r) (length (c :: cs))) as L. destruct (factorize (pr_weight r) (length (c :: cs))) as [|w ws]; [discriminate|eauto]. }
              rewrite EW. cbn [combine cs_components].
              assert (In (Non (pr_head r) 0) (map cr_lhs (cs_component rid r 0 c w))) as HL.
              { assert (c <> []) as NC by (destruct NF as [(t & E)|H]; [rewrite EC in E; injection E as -> _; discriminate|destruct (H c) as [H1 _]; [rewrite EC; now left|assumption]]).
                assert (RS : forall rest off left, rest <> [] -> In (Non (pr_head r) 0) (map cr_lhs (cs_rest rid r 0 off left rest))).
                { induction rest as [|x rest IHr]; intros off left Hn; [contradiction|]. cbn. destruct rest as [|y rest]; [now left|]. right. apply IHr. discriminate. }
                destruct c as [|x [|y rest]]; [contradiction|destruct x; now left|]. destruct rest as [|z rest]; [destruct x; now left|]. assert (In (Non (pr_head r) 0) (map cr_lhs (cs_rest rid r 0 1 (Uniq rid 0 0) (z :: rest)))) by (apply RS; discriminate). destruct x; right; assumption. }
              apply in_map_iff in HL. destruct HL as (x & Ex & Hx). exists x. split; [|assumption]. apply in_app_iff. left. apply in_app_iff. now left.
            - destruct (IH (S rid) Hr) as (x & Hx & Ex). exists x. split; [|assumption]. apply in_app_iff. now right. }
          destruct (G rules 0 Hr) as (x & Hx & Ex). rewrite Hh in Ex. exists x. tauto. }
        rewrite <- Ex. eapply (bi_states _ _ I); [exact Hx|]. now left. }
      destruct (CD _ HI) as [C1 C2]. apply (code_nth _ _ _ ND C2) in Q'. now rewrite <- Q'.
  Qed.
End Build.
