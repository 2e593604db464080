(* The k-best enumeration over a chart filled by fill_chart. *)
From Coq Require Import NArith Sorting.Sorted.
From Verif Require Import Base M_Util M_Agenda M_Grammar M_Chart S_Chart P_Chart M_CSAuto S_CS P_FillChart M_KBest P_KBest.
Arguments Nat.ltb : simpl never. Arguments Nat.eqb : simpl never.

Lemma aderiv_imp {Q T W} (R : list (crule Q T W)) (P P' : nat -> Q -> nat -> nat -> Prop) word q t l r :
  aderiv R P word q t l r -> (forall rid q' t' l' r', P rid q' l' r' -> aderiv R P word q' t' l' r' -> P' rid q' l' r') -> aderiv R P' word q t l r.
Proof.
  intros D HP. induction D as [r q t w b l Er Hl Ok|r q q1 w b t i j Er Ok D IH|r q q1 q2 w b t1 t2 i m j Er Ok D1 IH1 D2 IH2].
  - eapply ad_null; [exact Er|exact Hl|]. eapply (HP _ _ (CNull r)); [exact Ok|]. eapply ad_null; eassumption.
  - eapply ad_un; [exact Er| |exact IH]. eapply (HP _ _ (CUn r t)); [exact Ok|]. eapply ad_un; eassumption.
  - eapply ad_bin; [exact Er| |exact IH1|exact IH2]. eapply (HP _ _ (CBin r t1 t2)); [exact Ok|]. eapply ad_bin; eassumption.
Qed.

Section KBChart.
  Context {T : Type} {K : ZWeight} (KL : ZWeightLaws K) (teqb : T -> T -> bool) (H : max_heap (K * nat) (@item_leb K)) (H2 : max_heap (K * bt K) (@kb_leb K)).
  Context (a : automaton T K) (R : list (crule nat T K)) (PZ : presents teqb a R (states a)).
  Context (word : list T) (beam : nat) (delta : K) (outside : nat -> nat -> nat -> nat -> option (option K)) (rule_filter : list bool).
  Notation n := (length word). Notation ns := (states a).
  Context (Hn : n <= 255) (HB0 : beam <> 0) (HB : (N.of_nat beam <= 65535)%N).
  Context (HF : length R <= length rule_filter).
  Context (HO : forall q l r, q < ns -> span n l r -> outside q l r n <> None).
  Context (HW1 : forall x, In x R -> wleb (cr_weight x) wone = true) (HW0 : forall x, In x R -> cr_weight x <> wzero).
  Context (Hinit : au_initial a < ns) (Hne : word <> []).
  Context (rank : nat -> nat)
          (RANK : forall r q q1 w b, nth_error R r = Some (CRule q (RU q1) w b) -> nth_error rule_filter r = Some true -> rank q1 < rank q)
          (LEX : forall r q t w b tr t', nth_error R r = Some (CRule q (RT t) w b) -> nth_error rule_filter r = Some true -> cderiv R q tr [t'] -> t' = t)
          (LEX0 : forall r t w b t', nth_error R r = Some (CRule (au_initial a) (RT t) w b) -> nth_error rule_filter r = Some true -> word = [t'] -> t' = t)
          (BR : forall r x, nth_error R r = Some x -> let '(b1, b2, b3) := cr_br x in match cr_rhs x with RB _ _ => is_br b3 | _ => is_br b1 /\ is_br b2 end).
  (* the constituents in the chart, and the whole word *)
  Definition in_chart (c : chart K) (r q i j : nat) : Prop :=
    nth_error rule_filter r = Some true /\ ((exists w, get_weight c i j q = Some (Some w)) \/ (i, j, q) = (0, n, au_initial a)).
  Definition rank' (q : nat) : nat := if Nat.ltb q ns then rank q else 0.
  Definition maxrank : nat := fold_right Nat.max 0 (map rank (seq 0 ns)).
  Lemma rank_le q : rank' q <= maxrank.
  Proof.
    unfold rank'. destruct (Nat.ltb_spec q ns) as [L|]; [|lia]. unfold maxrank. assert (Hin : In q (seq 0 ns)) by (apply in_seq; lia). revert Hin. generalize (seq 0 ns). intros l. induction l as [|x l IH]; cbn; [tauto|]. intros [->|Hin]; [lia|]. specialize (IH Hin). lia.
  Qed.
  Theorem kbest_chart : exists c, fill_chart teqb H a word beam delta outside rule_filter = Some c /\ exists ts F,
    NoDup ts /\ (forall t, In t ts <-> aderiv R (in_chart c) word (au_initial a) t 0 n) /\
    StronglySorted (fun t t' => wleb (ct_weight R t') (ct_weight R t) = true) ts /\
    (forall fuel m, F <= fuel -> kiter_run H2 a c rule_filter fuel m (kiter_new H2) = Some (map (nth_error (map (ct_word R) ts)) (seq 0 m))) /\
    (ns <= beam -> delta = wzero -> forall t, aderiv R (ok word outside rule_filter) word (au_initial a) t 0 n -> In t ts).
  Proof.
    destruct (fill_chart_ok KL teqb H a R PZ word beam delta outside rule_filter Hn HB0 HB HF HO HW1 HW0) as (c & f & E & N1 & N2 & N3 & CR & SP & _). exists c. split; [exact E|].
    set (gw := fun i j q => last_weight (f i j) q : option K). set (root := (0, n, au_initial a) : knode).
    assert (Hn0 : 0 < n) by (destruct word; [contradiction|cbn; lia]).
    assert (LW : forall i j q w, span n i j -> (gw i j q = Some w <-> In (q, w) (f i j))). { intros i j q w HS. apply (last_weight_iff KL); [apply (so_nodup _ _ _ _ _ _ _ _ _ _ (SP i j HS))|]. intros q' w' Hin. apply (so_state _ _ _ _ _ _ _ _ _ _ (SP i j HS)) in Hin. tauto. }
    assert (GW : forall i j q, span n i j -> q < ns -> get_weight c i j q = Some (gw i j q)) by (intros i j q HS Hq; apply (get_weight_rep KL c f i j q CR); [now rewrite N1|now rewrite N2]).
    assert (RANK' : forall r q q1 w b, nth_error R r = Some (CRule q (RU q1) w b) -> nth_error rule_filter r = Some true -> rank' q1 < rank' q).
    { intros r q q1 w b Er Ef. destruct (pz_states _ _ _ _ PZ _ (nth_error_In _ _ Er)) as [Q1 Q2]. cbn in Q1, Q2. unfold rank'. rewrite (proj2 (Nat.ltb_lt q ns) Q1), (proj2 (Nat.ltb_lt q1 ns) Q2). eapply RANK; eassumption. }
    assert (NULLOK : forall r q t w b i, enabled R rule_filter r (CRule q (RT t) w b) -> span n i (S i) -> visited gw root (i, S i, q) -> nth_error word i = Some t).
    { intros r q t w b i [Ef Er] HS Vi. destruct (gw i (S i) q) as [g|] eqn:G.
      - apply (LW _ _ _ _ HS) in G. destruct (entry_derivation KL a R word beam delta outside rule_filter Hn HB0 HB HF f SP (S (S i - i)) i (S i) HS (Nat.lt_succ_diag_r _) q g G) as (tr & D & _). apply aderiv_cderiv in D. destruct D as [_ D].
        destruct (nth_error word i) as [t'|] eqn:Ew; [|apply nth_error_None in Ew; unfold span in HS; lia]. rewrite (sub_one word i t' Ew) in D. f_equal. eapply LEX; eassumption.
      - destruct Vi as [Vi|Vi]; [contradiction|]. unfold root in Vi. injection Vi as Vi1 Vi2 Vi3. subst i q. destruct (word) as [|t' [|]] eqn:Ew; try discriminate. cbn. f_equal. eapply LEX0; [exact Er|exact Ef|reflexivity]. }
    assert (OKQ : forall i j q w, span n i j -> In (q, w) (f i j) -> exists o, outside q i j n = Some (Some o)).
    { intros i j q w HS Hin. apply In_nth_error in Hin. destruct Hin as (k & Hk). destruct (so_sound _ _ _ _ _ _ _ _ _ _ (SP i j HS) k q w Hk) as [B|(rid & q1 & w1 & rw & b & _ & _ & [_ O] & _)]; [|exact O]. destruct B as [? ? ? ? ? ? ? ? [_ O]|? ? ? ? ? ? ? ? ? ? ? ? ? [_ O]]; exact O. }
    assert (VIT1 : forall i j q w, span n i j -> q < ns -> gw i j q = Some w -> exists b, bitem R rule_filter gw (i, j, q) b w).
    { intros i j q w HS Hq G. apply (LW _ _ _ _ HS) in G. apply In_nth_error in G. destruct G as (k & Hk). destruct (so_sound _ _ _ _ _ _ _ _ _ _ (SP i j HS) k q w Hk) as [B|(rid & q1 & w1 & rw & b & H1 & Er & [Ef _] & ->)].
      - destruct B as [rid t w q b Ej Ew Er [Ef _]|mid rid q q1 q2 w w1 w2 b Hm H1 H3 Er [Ef _]].
        + eexists. eapply bi_null; [split; eassumption|]. unfold span in HS. lia.
        + assert (P1 : span n i mid) by (unfold span in *; lia). eexists. rewrite (wl_comm _ (zl_weight _ KL) w1 w), <- (wl_assoc _ (zl_weight _ KL)). eapply bi_bin; [split; eassumption|exact Hm|apply (LW _ _ _ _ P1); exact H1|exact H3].
      - eexists. rewrite (wl_comm _ (zl_weight _ KL)). eapply bi_un; [split; eassumption|]. apply (LW _ _ _ _ HS). eapply firstn_In'. exact H1. }
    assert (VIT2 : forall i j q w b w', span n i j -> q < ns -> gw i j q = Some w -> bitem R rule_filter gw (i, j, q) b w' -> wleb w' w = true).
    { intros i j q w b w' HS Hq G B. pose proof (proj1 (LW _ _ _ _ HS) G) as Hin. destruct (OKQ _ _ _ _ HS Hin) as (o & O).
      inversion B as [i0 j0 q0 r q1 m q2 w0 b0 g1 g2 [Ef Er] Hm G1 G2|i0 j0 q0 r q1 w0 b0 g1 [Ef Er] G1|i0 j0 q0 r t w0 b0 [Ef Er] Hj]; subst.
      - assert (P1 : span n i m) by (unfold span in *; lia). eapply (so_max_b _ _ _ _ _ _ _ _ _ _ (SP i j HS)); [|exact Hin]. rewrite (wl_assoc _ (zl_weight _ KL)), (wl_comm _ (zl_weight _ KL) w0 g1). eapply base_b; [exact Hm|apply (LW _ _ _ _ P1); exact G1|exact G2|exact Er|split; [exact Ef|exists o; exact O]].
      - eapply (so_max_u _ _ _ _ _ _ _ _ _ _ (SP i j HS)); [|exact Hin]. exists r, q1, g1, w0, b0. split; [apply (LW _ _ _ _ HS); exact G1|]. split; [exact Er|]. split; [split; [exact Ef|exists o; exact O]|]. apply (wl_comm _ (zl_weight _ KL)).
      - assert (j = S i) as -> by (unfold span in HS; lia). eapply (so_max_b _ _ _ _ _ _ _ _ _ _ (SP i (S i) HS)); [|exact Hin]. eapply base_t; [reflexivity| |exact Er|split; [exact Ef|exists o; exact O]]. eapply NULLOK; [split; eassumption|exact HS|left; congruence]. }
    destruct (kiter_enumerates KL H2 teqb a R PZ c n rule_filter gw rank' maxrank HF rank_le RANK' GW VIT1 VIT2 word root) as (ts & T1 & T2 & T3 & T4); try assumption; try reflexivity.
    assert (EQ : forall r q i j, span n i j -> q < ns -> (okc rule_filter gw root r q i j <-> in_chart c r q i j)).
    { intros r q i j HS Hq. unfold okc, in_chart, visited, root. rewrite (GW _ _ _ HS Hq). split; intros [Ef V]; (split; [exact Ef|]); destruct V as [V|V]; auto.
      - left. destruct (gw i j q) as [w|]; [eauto|contradiction].
      - left. destruct V as (w & [= V]). congruence. }
    assert (ST : forall (P : nat -> nat -> nat -> nat -> Prop) q t i j, aderiv R P word q t i j -> span n i j /\ q < ns).
    { intros P q t i j D. pose proof (aderiv_cderiv _ _ _ _ _ _ _ D) as [L _]. split; [exact L|]. inversion D; subst; match goal with Er : nth_error R _ = Some _ |- _ => pose proof (pz_states _ _ _ _ PZ _ (nth_error_In _ _ Er)) as X; apply X end. }
    exists ts, (S (mu rank' maxrank root)). split; [exact T1|]. split; [|split; [exact T3|split; [intros fuel m Hf; apply T4; exact Hf|]]].
    - intros t. rewrite T2. split; intros D; eapply aderiv_imp; try exact D; intros rid q' t' l' r' Ok D'; apply ST in D' as [HS Hq]; apply EQ; assumption.
    - intros HB1 HD t D. apply T2. eapply aderiv_imp; [exact D|]. intros rid q' t' l' r' Ok D'. split; [apply Ok|]. left. destruct (ST _ _ _ _ _ D') as [HS Hq].
      destruct (entry_max KL a R word beam delta outside rule_filter Hn HB0 HB HF f SP q' t' l' r' D' (conj HB1 HD)) as (w & Hin & _). apply (LW _ _ _ _ HS) in Hin. congruence.
  Qed.
End KBChart.
