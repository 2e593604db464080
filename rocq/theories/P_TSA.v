(* The integerised tree stack automaton represents the one it was built from. *)
From Verif Require Import Base M_Agenda M_Search M_Util M_Recog M_Automata M_TreeStack S_Search S_Util S_TreeStack S_Recog P_Agenda P_Search P_Util P_Recog P_Automata P_TreeStack.

Definition tsi_vals {A} (i : ts_instr A) : list A :=
  match i with IUp _ c o v => [c; o; v] | IPush _ c v => [c; v] | IDown c o v => [c; o; v] end.
Definition tsi_map {A B} (f : A -> B) (i : ts_instr A) : ts_instr B :=
  match i with IUp n c o v => IUp n (f c) (f o) (f v) | IPush n c v => IPush n (f c) (f v) | IDown c o v => IDown (f c) (f o) (f v) end.

Section Map.
  Context {A B : Type} (aeqb : A -> A -> bool) (beqb : B -> B -> bool) (AE : EqbSpec aeqb) (BE : EqbSpec beqb) (f : A -> B).
  Lemma eqb_map x y : (f x = f y -> x = y) -> beqb (f x) (f y) = aeqb x y.
  Proof.
    intros INJ. destruct (aeqb x y) eqn:E.
    - apply AE in E. subst. now apply BE.
    - destruct (beqb (f x) (f y)) eqn:E1; [|reflexivity]. apply BE in E1. apply INJ in E1. subst. assert (aeqb y y = true) by now apply AE. congruence.
  Qed.
  Context (l : list A) (INJ : forall x y, In x l -> In y l -> f x = f y -> x = y).
  Lemma tsi_comm i (t : tstack A) : (forall x, In x (tsi_vals i) -> In x l) -> (forall x, In x (ts_vals t) -> In x l) ->
    tsi_apply beqb (tsi_map f i) (ts_map f t) = map (ts_map f) (tsi_apply aeqb i t).
  Proof.
    intros KI KS. assert (HV : In (ts_value t) l) by (apply KS, vals_value).
    destruct i as [n c o v|n c v|c o v]; cbn [tsi_apply tsi_map]; unfold ts_current_symbol; rewrite map_value.
    - rewrite eqb_map by (intros; apply INJ; auto; apply KI; cbn; tauto). destruct (aeqb (ts_value t) c); [|reflexivity].
      rewrite map_up. destruct (ts_up t n) as [t'|t'] eqn:E; cbn [mres]; [|reflexivity]. rewrite map_value.
      rewrite eqb_map; [destruct (aeqb (ts_value t') o); [|reflexivity]; cbn; now rewrite map_set|].
      intros E1. apply INJ; auto; [apply KS; eapply vals_up; [exact E|apply vals_value]|apply KI; cbn; tauto].
    - rewrite eqb_map by (intros; apply INJ; auto; apply KI; cbn; tauto). destruct (aeqb (ts_value t) c); [|reflexivity].
      rewrite map_push. now destruct (ts_push t n v).
    - rewrite eqb_map by (intros; apply INJ; auto; apply KI; cbn; tauto). destruct (aeqb (ts_value t) c); [|reflexivity].
      rewrite map_down. destruct (ts_down t) as [t'|t'] eqn:E; cbn [mres]; [|reflexivity]. rewrite map_value.
      rewrite eqb_map; [destruct (aeqb (ts_value t') o); [|reflexivity]; cbn; now rewrite map_set|].
      intros E1. apply INJ; auto; [apply KS; eapply vals_down; [exact E|apply vals_value]|apply KI; cbn; tauto].
  Qed.
End Map.

Section Apply.
  Context {A : Type} (aeqb : A -> A -> bool) (AE : EqbSpec aeqb).
  Lemma tsi_pres i (t t' : tstack A) x : In t' (tsi_apply aeqb i t) -> In x (ts_vals t') -> In x (ts_vals t) \/ In x (tsi_vals i).
  Proof.
    intros H HX. destruct i as [n c o v|n c v|c o v]; cbn [tsi_apply tsi_vals] in *; unfold ts_current_symbol in H.
    - destruct (aeqb (ts_value t) c); [|destruct H]. destruct (ts_up t n) as [u|u] eqn:E; [|destruct H]. destruct (aeqb (ts_value u) o); [|destruct H].
      destruct H as [<-|[]]. apply vals_set in HX. destruct HX as [->|HX]; [cbn; tauto|]. left. eapply vals_up; eauto.
    - destruct (aeqb (ts_value t) c); [|destruct H]. destruct (ts_push t n v) as [u|u] eqn:E; [|destruct H]. destruct H as [<-|[]].
      destruct (vals_push _ _ _ _ _ E HX) as [->|]; [cbn; tauto|now left].
    - destruct (aeqb (ts_value t) c); [|destruct H]. destruct (ts_down t) as [u|u] eqn:E; [|destruct H]. destruct (aeqb (ts_value u) o); [|destruct H].
      destruct H as [<-|[]]. apply vals_set in HX. destruct HX as [->|HX]; [cbn; tauto|]. left. eapply vals_down; eauto.
  Qed.
  Lemma tsi_det i (t : tstack A) : length (tsi_apply aeqb i t) <= 1.
  Proof.
    destruct i as [n c o v|n c v|c o v]; cbn [tsi_apply]; destruct (aeqb _ _); cbn; try lia.
    - destruct (ts_up t n); cbn; try lia. destruct (aeqb _ _); cbn; lia.
    - destruct (ts_push t n v); cbn; lia.
    - destruct (ts_down t); cbn; try lia. destruct (aeqb _ _); cbn; lia.
  Qed.
  Lemma tsi_apply_current i (t t' : tstack A) : In t' (tsi_apply aeqb i t) -> ts_value t = tsi_current i.
  Proof.
    intros H. destruct i as [n c o v|n c v|c o v]; cbn [tsi_apply tsi_current] in *; unfold ts_current_symbol in H;
      (destruct (aeqb (ts_value t) c) eqn:E; [now apply AE in E|destruct H]).
  Qed.
End Apply.

Section TSA.
  Context {A T : Type} {K : Weight} (aeqb : A -> A -> bool) (teqb : T -> T -> bool) (AE : EqbSpec aeqb) (TE : EqbSpec teqb)
          (KL : RoundLaws K).

  Definition tk (l : list A) (i : ts_instr A) : Prop := forall x, In x (tsi_vals i) -> In x l.
  Definition te (l : list A) (i : ts_instr A) : ts_instr nat := tsi_map (enc aeqb l) i.

  Lemma tsi_map_ext {X Y} (f g : X -> Y) i : (forall x, In x (tsi_vals i) -> f x = g x) -> tsi_map f i = tsi_map g i.
  Proof. intros H. destruct i; cbn in *; rewrite !H by tauto; reflexivity. Qed.
  Lemma tsi_LE l r i : tk l i -> tk (l ++ r) i /\ te (l ++ r) i = te l i.
  Proof.
    intros H. split; [intros x Hx; apply in_or_app; left; auto|]. apply tsi_map_ext. intros x Hx. apply (enc_app aeqb AE). auto.
  Qed.
  Lemma int3 l a b c : let '(l1, a') := int_integerise aeqb l a in let '(l2, b') := int_integerise aeqb l1 b in let '(l3, c') := int_integerise aeqb l2 c in
    (exists r, l3 = l ++ r) /\ (In a l3 /\ In b l3 /\ In c l3) /\ a' = enc aeqb l3 a /\ b' = enc aeqb l3 b /\ c' = enc aeqb l3 c.
  Proof.
    pose proof (int_enc aeqb AE l a) as H1. destruct (int_integerise aeqb l a) as [l1 a']. destruct H1 as ((r1 & ->) & A1 & ->).
    pose proof (int_enc aeqb AE (l ++ r1) b) as H1. destruct (int_integerise aeqb (l ++ r1) b) as [l2 b']. destruct H1 as ((r2 & ->) & B1 & ->).
    pose proof (int_enc aeqb AE ((l ++ r1) ++ r2) c) as H1. destruct (int_integerise aeqb ((l ++ r1) ++ r2) c) as [l3 c']. destruct H1 as ((r3 & ->) & C1 & ->).
    split; [exists (r1 ++ r2 ++ r3); now rewrite !app_assoc|]. split; [repeat split; auto 10 using in_or_app|].
    repeat split; symmetry.
    - rewrite (enc_app aeqb AE) by (apply in_or_app; now left). now apply (enc_app aeqb AE).
    - now apply (enc_app aeqb AE).
  Qed.
  Lemma tsi_LI l i : let '(l', i') := tsi_integerise aeqb l i in (exists r, l' = l ++ r) /\ tk l' i /\ i' = te l' i.
  Proof.
    destruct i as [n c o v|n c v|c o v]; cbn [tsi_integerise].
    - pose proof (int3 l c o v) as H. destruct (int_integerise aeqb l c) as [l1 c']. destruct (int_integerise aeqb l1 o) as [l2 o'].
      destruct (int_integerise aeqb l2 v) as [l3 v']. destruct H as (R & (H1 & H2 & H3) & -> & -> & ->). split; [assumption|].
      split; [|reflexivity]. intros x [<-|[<-|[<-|[]]]]; assumption.
    - pose proof (int3 l c v v) as H. destruct (int_integerise aeqb l c) as [l1 c']. destruct (int_integerise aeqb l1 v) as [l2 v'] eqn:E2.
      assert (E3 : exists v'', int_integerise aeqb l2 v = (l2, v'')).
      { pose proof (int_enc aeqb AE l1 v) as H1. rewrite E2 in H1. destruct H1 as (_ & H1 & _). unfold int_integerise.
        destruct (find_index aeqb v l2) eqn:E; [eauto|]. exfalso.
        apply (enc_In aeqb AE) in H1. unfold enc in H1. rewrite E in H1. clear -E H1 AE. unfold int_find_value in H1. destruct l2 as [|y l2]; [discriminate|].
        cbn in H1, E. injection H1 as ->. assert (aeqb v v = true) by now apply AE. rewrite H in E. discriminate. }
      destruct E3 as [v'' E3]. rewrite E3 in H. destruct H as (R & (H1 & H2 & H3) & -> & -> & _). split; [assumption|].
      split; [|reflexivity]. intros x [<-|[<-|[]]]; assumption.
    - pose proof (int3 l c o v) as H. destruct (int_integerise aeqb l c) as [l1 c']. destruct (int_integerise aeqb l1 o) as [l2 o'].
      destruct (int_integerise aeqb l2 v) as [l3 v']. destruct H as (R & (H1 & H2 & H3) & -> & -> & ->). split; [assumption|].
      split; [|reflexivity]. intros x [<-|[<-|[<-|[]]]]; assumption.
  Qed.
  Lemma tsi_LU l i : tk l i -> tsi_un_integerise l (te l i) = Some i.
  Proof.
    intros H. destruct i as [n c o v|n c v|c o v]; cbn; rewrite !(enc_In aeqb AE) by (apply H; cbn; tauto); reflexivity.
  Qed.

  Context (ts : list (transition (ts_instr A) T K)) (initial : tstack A)
          (shuffle : list (transition (ts_instr nat) nat K) -> list (transition (ts_instr nat) nat K))
          (SH : forall l, Permutation (shuffle l) l).
  Notation M := (tsa_new aeqb teqb ts initial).
  Notation AU := (tsa_automaton shuffle M).

  Lemma tsa_new_spec :
    kts (ta_a M) initial /\ ta_init M = ts_map (enc aeqb (ta_a M)) initial /\
    (forall t, In t ts -> kTr tk (ta_t M) (ta_a M) t) /\
    forall k, Permutation (hm_get k (ta_map M))
                (filter (fun t => Nat.eqb k (tsi_current (t_ins t))) (map (eTrL teqb te (ta_t M) (ta_a M)) ts)).
  Proof.
    unfold tsa_new. pose proof (ts_map_st_enc aeqb AE initial []) as H1. destruct (ts_map_st (int_integerise aeqb) [] initial) as [a1 init].
    destruct H1 as (_ & A1 & A2).
    pose proof (trs_int_spec teqb TE (tsi_integerise aeqb) tk te tsi_LI tsi_LE ts [] a1) as H3.
    destruct (trs_integerise teqb (tsi_integerise aeqb) [] a1 ts) as [[lt lq] ts']. destruct H3 as (_ & (r3 & ->) & C1 & C2).
    cbn [ta_a ta_t ta_map ta_init]. destruct (kts_app aeqb AE a1 r3 initial A1) as [K1 K2]. split; [exact K1|]. split; [congruence|].
    split; [assumption|]. intros k. rewrite C2. rewrite hm_get_fold. cbn. now rewrite app_nil_r.
  Qed.

  Lemma tsa_trans_iff t' : au_trans AU t' <-> exists t, In t ts /\ t' = eTrL teqb te (ta_t M) (ta_a M) t.
  Proof.
    destruct tsa_new_spec as (_ & _ & _ & HM). unfold au_trans. cbn -[tsa_new]. split.
    - intros [k Hk]. apply (Permutation_in _ (SH _)) in Hk. apply (Permutation_in _ (HM k)) in Hk. apply filter_In in Hk.
      destruct Hk as [Hk _]. apply in_map_iff in Hk. destruct Hk as (t & <- & Ht). eauto.
    - intros (t & Ht & ->). exists (tsi_current (t_ins (eTrL teqb te (ta_t M) (ta_a M) t))).
      apply (Permutation_in _ (Permutation_sym (SH _))). apply (Permutation_in _ (Permutation_sym (HM _))). apply filter_In. split.
      + now apply in_map.
      + apply Nat.eqb_refl.
  Qed.

  Lemma tsa_coded : coded AU (tsi_apply aeqb) initial (fun t => In t ts) (fun s => ts_is_at_bottom s = true)
    (kts (ta_a M)) (tk (ta_a M)) (fun x => In x (ta_t M))
    (ts_map (enc aeqb (ta_a M))) (te (ta_a M)) (enc teqb (ta_t M)) (int_find_key teqb (ta_t M))
    (item_un tsi_un_integerise ts_un (ta_t M) (ta_a M)).
  Proof.
    destruct tsa_new_spec as (HI & HIe & HT & HM). pose proof tsa_trans_iff as TI.
    set (m := tsa_new aeqb teqb ts initial) in *. clearbody m.
    constructor; try (cbn -[tsa_new]; assumption).
    - exact nat_eqb_spec.
    - intros i s KI KS. cbn. unfold te. apply (tsi_comm aeqb Nat.eqb AE nat_eqb_spec _ (ta_a m)); [|exact KI|exact KS].
      intros x y Hx Hy. now apply (enc_inj aeqb AE).
    - intros i s s' KI KS H x Hx. destruct (tsi_pres aeqb i s s' x H Hx); auto.
    - intros w s k KS. cbn -[tsa_new]. destruct w as [|x w]; [|split; [discriminate|intros [? _]; discriminate]].
      rewrite map_bottom. split; auto. now intros [_ ?].
    - intros t c Ht HA. exists (ts_current_symbol (c_storage c)). split; [reflexivity|]. destruct (tr_apply _ _ t c) as [|c' l] eqn:E; [congruence|].
      assert (Hc : In c' (tr_apply (au_teqb (tsa_automaton shuffle m)) (au_apply (tsa_automaton shuffle m)) t c)) by (rewrite E; now left).
      apply (in_tr_apply (tsa_automaton shuffle m) nat_eqb_spec) in Hc. destruct Hc as (s' & H1 & _).
      change (In s' (tsi_apply Nat.eqb (t_ins t) (c_storage c))) in H1. apply (tsi_apply_current Nat.eqb nat_eqb_spec) in H1.
      apply TI in Ht. destruct Ht as (t0 & Ht0 & ->). cbn -[tsa_new].
      apply (Permutation_in _ (Permutation_sym (SH _))). apply (Permutation_in _ (Permutation_sym (HM _))). apply filter_In.
      split; [now apply in_map|]. apply Nat.eqb_eq. exact H1.
    - intros x. apply tti_enc. assumption.
    - intros x y Hx Hy. now apply (enc_inj teqb TE).
    - intros t t' Ht Ht' E. eapply (eTrL_inj teqb TE tsi_un_integerise tk te tsi_LU); eauto.
    - intros w s k us HS HW HU. apply (item_un_enc teqb TE tsi_un_integerise tk te tsi_LU); auto. now apply ts_un_enc.
  Qed.

  Lemma tsa_det : NoDup ts -> deterministic AU.
  Proof.
    intros N. destruct tsa_new_spec as (_ & _ & HT & HM). split.
    - intros i s. apply tsi_det.
    - intros k. cbn -[tsa_new]. eapply Permutation_NoDup; [symmetry; etransitivity; [apply SH|apply HM]|].
      apply NoDup_filter'. apply NoDup_map_inj; [|assumption].
      intros x y Hx Hy E. eapply (eTrL_inj teqb TE tsi_un_integerise tk te tsi_LU); eauto.
  Qed.
End TSA.
