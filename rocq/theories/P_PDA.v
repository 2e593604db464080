From Verif Require Import Base M_Agenda M_Search M_Util M_Recog M_Automata S_Search S_Util S_Recog S_Automata
  P_Agenda P_Search P_Util P_Recog P_Automata.
Arguments Nat.ltb : simpl never.

Lemma list_eqb_spec {A} (eqb : A -> A -> bool) : EqbSpec eqb -> EqbSpec (list_eqb eqb).
Proof.
  intros E. intros a. induction a as [|x a IH]; intros [|y b]; cbn; try (split; [discriminate|discriminate]); [tauto|].
  rewrite andb_true_iff, (E x y), IH. split; [intros [-> ->]; reflexivity|]. intros H. injection H as -> ->. auto.
Qed.

Lemma ends_with_spec {A} (eqb : A -> A -> bool) : EqbSpec eqb -> forall v s, ends_with eqb v s = true <-> exists r, v = r ++ s.
Proof.
  intros E v s. unfold ends_with. rewrite (starts_with_spec eqb E). split.
  - intros H. exists (rev (skipn (length (rev s)) (rev v))). rewrite <- (rev_involutive v), H at 1. rewrite rev_app_distr, rev_involutive. 
    reflexivity.
  - intros [r ->]. rewrite rev_app_distr, skipn_app, skipn_all, Nat.sub_diag. reflexivity.
Qed.

Section Replace.
  Context {A : Type} (eqb : A -> A -> bool) (E : EqbSpec eqb).
  Lemma pds_replace_spec p cur new p' : pds_replace eqb p cur new = Ok p' <-> exists rest, p = rest ++ rev cur /\ p' = rest ++ new.
  Proof.
    unfold pds_replace. destruct (ends_with eqb p (rev cur)) eqn:H.
    - apply (ends_with_spec eqb E) in H. destruct H as [r ->].
      assert (F : firstn (length (r ++ rev cur) - length cur) (r ++ rev cur) = r).
      { rewrite app_length, rev_length. replace (length r + length cur - length cur) with (length r + 0) by lia.
        rewrite firstn_app_2. cbn. apply app_nil_r. }
      rewrite F. split.
      + intros Q. injection Q as <-. eauto.
      + intros (rest & Q & ->). apply app_inv_tail in Q. now subst.
    - split; [discriminate|]. intros (rest & -> & _). assert (ends_with eqb (rest ++ rev cur) (rev cur) = true); [|congruence].
      apply (ends_with_spec eqb E). eauto.
  Qed.
  Lemma pds_replace_err p cur new : (exists e, pds_replace eqb p cur new = Err e) -> pds_replace eqb p cur new = Err p /\ ~ exists rest, p = rest ++ rev cur.
  Proof.
    intros [e H]. unfold pds_replace in *. destruct (ends_with eqb p (rev cur)) eqn:Q; [discriminate|]. split; [reflexivity|].
    intros Z. apply (ends_with_spec eqb E) in Z. congruence.
  Qed.
  Lemma pdi_apply_spec i p p' : In p' (pdi_apply eqb i p) <-> exists rest, p = rest ++ rev (pi_current i) /\ p' = rest ++ pi_new i.
  Proof.
    rewrite <- pds_replace_spec. unfold pdi_apply. destruct (pds_replace eqb p (pi_current i) (pi_new i)); split; cbn; try tauto; try congruence.
    - intros [->|[]]. reflexivity.
    - intros H. injection H as ->. now left.
  Qed.
  Lemma pdi_apply_det i p : length (pdi_apply eqb i p) <= 1.
  Proof. unfold pdi_apply. destruct (pds_replace _ _ _ _); cbn; lia. Qed.
End Replace.

(* ---- merging ---- *)
Lemma wi_eqb_spec : EqbSpec wi_eqb.
Proof.
  intros [w [c n]] [w' [c' n']]. unfold wi_eqb. cbn [fst snd pi_current pi_new]. rewrite !andb_true_iff.
  rewrite !(list_eqb_spec Nat.eqb nat_eqb_spec _ _). split.
  - intros [[-> ->] ->]. reflexivity.
  - intros Q. injection Q as -> -> ->. auto.
Qed.
Lemma wi_eqb_refl k : wi_eqb k k = true.
Proof. now apply wi_eqb_spec. Qed.

Section Merge.
  Context {K : Weight} (wadd : K -> K -> K) (wzero : K).
  Notation wsum := (wsum wadd wzero).

  Definition merge_inv (m l : list (wi_key * K)) : Prop :=
    NoDup (map fst m) /\ forall k v, In (k, v) m <-> In k (map fst l) /\ v = wsum (map snd (filter (fun e => wi_eqb k (fst e)) l)).

  Lemma hm_add_keys k w m : (In k (map fst m) /\ map fst (hm_add wadd wzero k w m) = map fst m) \/
                            (~ In k (map fst m) /\ map fst (hm_add wadd wzero k w m) = map fst m ++ [k]).
  Proof.
    induction m as [|[k' v] m IH]; cbn; [right; tauto|]. destruct (wi_eqb k k') eqn:E.
    - apply wi_eqb_spec in E. subst. left. cbn. auto.
    - cbn. destruct IH as [[I1 I2]|[I1 I2]]; [left|right]; (split; [|now rewrite I2]).
      + now right.
      + intros [->|H]; [rewrite wi_eqb_refl in E; discriminate|contradiction].
  Qed.

  Lemma hm_add_In k w m : NoDup (map fst m) -> forall k1 v1, In (k1, v1) (hm_add wadd wzero k w m) <->
    (k1 <> k /\ In (k1, v1) m) \/ (k1 = k /\ ((exists v, In (k, v) m /\ v1 = wadd v w) \/ (~ In k (map fst m) /\ v1 = wadd wzero w))).
  Proof.
    induction m as [|[k' v] m IH]; cbn; intros N k1 v1.
    - split.
      + intros [H|[]]. injection H as <- <-. right. split; [reflexivity|]. right. auto.
      + intros [[_ []]|[-> [(v & [] & _)|[_ ->]]]]. now left.
    - apply NoDup_cons_iff in N. destruct N as [N1 N2]. destruct (wi_eqb k k') eqn:E.
      + apply wi_eqb_spec in E. subst k'. cbn. split.
        * intros [H|H].
          -- injection H as <- <-. right. split; [reflexivity|]. left. exists v. auto.
          -- left. split; [|now right]. intros ->. apply N1. now apply (in_map fst) in H.
        * intros [[H1 [H2|H2]]|[-> [(v2 & [H2|H2] & ->)|[H2 _]]]].
          -- congruence.
          -- now right.
          -- left. congruence.
          -- exfalso. apply N1. now apply (in_map fst) in H2.
          -- exfalso. apply H2. now left.
      + assert (NE : k <> k') by (intros ->; rewrite wi_eqb_refl in E; discriminate). cbn. rewrite (IH N2). split.
        * intros [H|[[H1 H2]|[-> [(v2 & H2 & ->)|[H2 ->]]]]].
          -- injection H as <- <-. left. auto.
          -- left. auto.
          -- right. split; [reflexivity|]. left. eauto.
          -- right. split; [reflexivity|]. right. split; [|reflexivity]. intros [->|H]; congruence.
        * intros [[H1 [H2|H2]]|[-> [(v2 & [H2|H2] & ->)|[H2 ->]]]].
          -- left. congruence.
          -- right. left. auto.
          -- congruence.
          -- right. right. split; [reflexivity|]. left. eauto.
          -- right. right. split; [reflexivity|]. right. split; [|reflexivity]. intros H. apply H2. now right.
  Qed.

  Lemma wsum_snoc ws w : wsum (ws ++ [w]) = wadd (wsum ws) w.
  Proof. unfold S_Automata.wsum. now rewrite fold_left_app. Qed.

  Lemma merge_step k w m l : merge_inv m l -> merge_inv (hm_add wadd wzero k w m) (l ++ [(k, w)]).
  Proof.
    intros [N H]. split.
    - destruct (hm_add_keys k w m) as [[_ ->]|[H1 ->]]; [assumption|]. apply NoDup_app_intro; [assumption|repeat constructor; tauto|].
      intros x Hx [<-|[]]. contradiction.
    - intros k1 v1. rewrite (hm_add_In k w m N). rewrite map_app, filter_app, map_app. cbn.
      assert (KI : In k (map fst m) <-> In k (map fst l)).
      { split; intros G; apply in_map_iff in G; destruct G as ([k2 v2] & E & G); cbn in E; subst k2.
        - now apply H in G.
        - apply (in_map fst) in G. cbn in G. assert (Z : In (k, wsum (map snd (filter (fun e => wi_eqb k (fst e)) l))) m) by (apply H; auto).
          now apply (in_map fst) in Z. }
      destruct (wi_eqb k1 k) eqn:E.
      + apply wi_eqb_spec in E. subst k1. cbn. rewrite wsum_snoc. split.
        * intros [[G _]|[_ [(v & Hv & ->)|[G ->]]]]; [congruence| |].
          -- apply H in Hv. destruct Hv as [Hv ->]. split; [apply in_or_app; now left|reflexivity].
          -- split; [apply in_or_app; right; now left|]. f_equal.
             assert (Z : filter (fun e => wi_eqb k (fst e)) l = []).
             { destruct (filter _ l) as [|e r] eqn:F; [reflexivity|]. exfalso. apply G. apply KI.
               assert (He : In e (e :: r)) by now left. rewrite <- F in He. apply filter_In in He. destruct He as [He1 He2].
               apply wi_eqb_spec in He2. rewrite He2. now apply in_map. }
             now rewrite Z.
        * intros [_ ->]. right. split; [reflexivity|].
          destruct (in_dec (fun x y => match bool_dec (wi_eqb x y) true with
                                       | left e => left (proj1 (wi_eqb_spec x y) e)
                                       | right n => right (fun q => n (proj2 (wi_eqb_spec x y) q)) end) k (map fst m)) as [G|G].
          -- left. exists (wsum (map snd (filter (fun e => wi_eqb k (fst e)) l))). split; [|reflexivity]. apply H. split; [now apply KI|reflexivity].
          -- right. split; [assumption|]. f_equal.
             assert (Z : filter (fun e => wi_eqb k (fst e)) l = []).
             { destruct (filter _ l) as [|e r] eqn:F; [reflexivity|]. exfalso. apply G. apply KI.
               assert (He : In e (e :: r)) by now left. rewrite <- F in He. apply filter_In in He. destruct He as [He1 He2].
               apply wi_eqb_spec in He2. rewrite He2. now apply in_map. }
             now rewrite Z.
      + assert (NE : k1 <> k) by (intros ->; rewrite wi_eqb_refl in E; discriminate). cbn. rewrite app_nil_r. rewrite H. split.
        * intros [[_ [G1 G2]]|[G _]]; [|congruence]. split; [apply in_or_app; now left|assumption].
        * intros [G1 G2]. left. split; [assumption|]. split; [|assumption]. apply in_app_or in G1. destruct G1 as [G1|[G1|[]]]; [assumption|congruence].
  Qed.

  Lemma merge_fold l : merge_inv (fold_left (fun m e => hm_add wadd wzero (fst e) (snd e) m) l []) l.
  Proof.
    induction l as [|[k w] l IH] using rev_ind.
    - split; [constructor|]. cbn. intros k v. tauto.
    - rewrite fold_left_app. cbn. now apply merge_step.
  Qed.

  Lemma hm_get_add2 a k w m a' : hm_get a' (hm_add2 wadd wzero a k w m) = if Nat.eqb a' a then hm_add wadd wzero k w (hm_get a' m) else hm_get a' m.
  Proof.
    induction m as [|[a1 v] m IH]; cbn.
    - now destruct (Nat.eqb a' a).
    - destruct (Nat.eqb a a1) eqn:E1; cbn.
      + apply Nat.eqb_eq in E1. subst. now destruct (Nat.eqb a' a1).
      + destruct (Nat.eqb a' a1) eqn:E2; [|assumption]. apply Nat.eqb_eq in E2. subst. now rewrite Nat.eqb_sym, E1.
  Qed.

  Definition tkey (t : transition (pd_instr nat) nat K) : option nat := match pi_current (t_ins t) with [] => None | a :: _ => Some a end.
  Definition on_key (k : nat) (t : transition (pd_instr nat) nat K) : bool := match tkey t with Some a => Nat.eqb k a | None => false end.
  Definition entry (t : transition (pd_instr nat) nat K) : wi_key * K := ((t_word t, t_ins t), t_weight t).

  Lemma pda_map_defined ts : forall m, (exists m', pda_map wadd wzero ts m = Some m') <-> forall t, In t ts -> pi_current (t_ins t) <> [].
  Proof.
    induction ts as [|t ts IH]; intros m; cbn; [split; [intros _ t []|eauto]|]. destruct (pi_current (t_ins t)) as [|a r] eqn:E.
    - split; [intros [m' H]; discriminate|]. intros H. exfalso. apply (H t); auto.
    - rewrite IH. split; [intros H t' [<-|Ht]; [congruence|auto]|]. intros H t' Ht. apply H. now right.
  Qed.

  Lemma pda_map_get ts : forall m m', pda_map wadd wzero ts m = Some m' -> forall k,
    hm_get k m' = fold_left (fun m e => hm_add wadd wzero (fst e) (snd e) m) (map entry (filter (on_key k) ts)) (hm_get k m).
  Proof.
    induction ts as [|t ts IH]; intros m m' E k; cbn in E; [injection E as <-; reflexivity|].
    destruct (pi_current (t_ins t)) as [|a r] eqn:C; [discriminate|]. rewrite (IH _ _ E k), hm_get_add2.
    assert (OK : on_key k t = Nat.eqb k a) by (unfold on_key, tkey; now rewrite C).
    cbn [filter]. rewrite OK. destruct (Nat.eqb k a); reflexivity.
  Qed.
End Merge.

Lemma filter_filter {A} (f g : A -> bool) l : filter f (filter g l) = filter (fun x => g x && f x) l.
Proof. induction l as [|x l IH]; cbn; [reflexivity|]. destruct (g x); cbn; [|assumption]. destruct (f x); cbn; now rewrite IH. Qed.
Lemma filter_map {A B} (f : B -> bool) (g : A -> B) l : filter f (map g l) = map g (filter (fun x => f (g x)) l).
Proof. induction l as [|x l IH]; cbn; [reflexivity|]. destruct (f (g x)); cbn; now rewrite IH. Qed.

(* ---- pushdown automata ---- *)
Section PDA.
  Context {A T : Type} {K : Weight} (wadd : K -> K -> K) (wzero : K) (aeqb : A -> A -> bool) (teqb : T -> T -> bool)
          (AE : EqbSpec aeqb) (TE : EqbSpec teqb) (KL : RoundLaws K).

  Definition pk (l : list A) (i : pd_instr A) : Prop := (forall x, In x (pi_current i) -> In x l) /\ (forall x, In x (pi_new i) -> In x l).
  Definition pe (l : list A) (i : pd_instr A) : pd_instr nat := Replace (map (enc aeqb l) (pi_current i)) (map (enc aeqb l) (pi_new i)).

  Lemma pdi_LI l i : let '(l', i') := pdi_integerise aeqb l i in (exists r, l' = l ++ r) /\ pk l' i /\ i' = pe l' i.
  Proof.
    unfold pdi_integerise. pose proof (int_list_enc aeqb AE (pi_current i) l) as H1. destruct (int_list aeqb l (pi_current i)) as [l1 a].
    destruct H1 as ((r1 & ->) & A1 & A2). pose proof (int_list_enc aeqb AE (pi_new i) (l ++ r1)) as H2.
    destruct (int_list aeqb (l ++ r1) (pi_new i)) as [l2 b]. destruct H2 as ((r2 & ->) & B1 & B2).
    split; [exists (r1 ++ r2); now rewrite app_assoc|]. split; [split; [intros x Hx; apply in_or_app; left; auto|assumption]|].
    unfold pe. now rewrite (map_enc_app aeqb AE _ r2 _ A1), <- A2, <- B2.
  Qed.
  Lemma pdi_LE l r i : pk l i -> pk (l ++ r) i /\ pe (l ++ r) i = pe l i.
  Proof.
    intros [H1 H2]. split; [split; intros; apply in_or_app; auto|]. unfold pe. now rewrite !(map_enc_app aeqb AE).
  Qed.
  Lemma pdi_LU l i : pk l i -> pdi_un_integerise l (pe l i) = Some i.
  Proof.
    intros [H1 H2]. unfold pdi_un_integerise, pe. cbn [pi_current pi_new]. rewrite !(un_list_enc aeqb AE) by assumption. now destruct i.
  Qed.

  Lemma pdi_comm l i s : pk l i -> (forall x, In x s -> In x l) ->
    pdi_apply Nat.eqb (pe l i) (map (enc aeqb l) s) = map (map (enc aeqb l)) (pdi_apply aeqb i s).
  Proof.
    intros [K1 K2] KS. unfold pdi_apply. destruct (pds_replace aeqb s (pi_current i) (pi_new i)) as [p|e] eqn:R.
    - apply (pds_replace_spec aeqb AE) in R. destruct R as (rest & -> & ->).
      assert (G : pds_replace Nat.eqb (map (enc aeqb l) (rest ++ rev (pi_current i))) (pi_current (pe l i)) (pi_new (pe l i)) =
                  Ok (map (enc aeqb l) (rest ++ pi_new i))).
      { apply (pds_replace_spec Nat.eqb nat_eqb_spec). exists (map (enc aeqb l) rest). unfold pe. cbn. rewrite !map_app, map_rev. auto. }
      now rewrite G.
    - destruct (pds_replace_err aeqb AE s (pi_current i) (pi_new i) (ex_intro _ e R)) as [_ NR].
      destruct (pds_replace Nat.eqb (map (enc aeqb l) s) (pi_current (pe l i)) (pi_new (pe l i))) as [p'|e'] eqn:R2; [|reflexivity].
      exfalso. apply NR. apply (pds_replace_spec Nat.eqb nat_eqb_spec) in R2. destruct R2 as (rest & E & _). unfold pe in E. cbn in E.
      rewrite <- map_rev in E. exists (firstn (length rest) s). 
      assert (E2 : map (enc aeqb l) (skipn (length rest) s) = map (enc aeqb l) (rev (pi_current i))).
      { rewrite <- skipn_map, E, skipn_app, skipn_all, Nat.sub_diag. reflexivity. }
      apply (map_enc_inj aeqb AE) in E2.
      + rewrite <- E2. symmetry. apply firstn_skipn.
      + intros x Hx. apply KS. rewrite <- (firstn_skipn (length rest) s). apply in_or_app. now right.
      + intros x Hx. apply in_rev in Hx. auto.
  Qed.

  Context (ts : list (transition (pd_instr A) T K)) (initial : list A)
          (shuffle : list (transition (pd_instr nat) nat K) -> list (transition (pd_instr nat) nat K))
          (SH : forall l, Permutation (shuffle l) l).
  Context (M : pda A T K) (HMk : pda_new wadd wzero aeqb teqb ts initial = Some M).
  Notation AU := (pda_automaton shuffle M).
  Notation eT := (eTrL teqb pe (pa_t M) (pa_a M)).

  Definition mk (x : wi_key * K) : transition (pd_instr nat) nat K := Trans (fst (fst x)) (snd x) (snd (fst x)).

  Lemma hm_get_map {X Y} (f : X -> Y) k m : hm_get k (map (fun e => (fst e, map f (snd e))) m) = map f (hm_get k m).
  Proof. induction m as [|[k' v] m IH]; cbn; [reflexivity|]. now destruct (Nat.eqb k k'). Qed.

  Lemma pda_new_spec :
    (forall x, In x initial -> In x (pa_a M)) /\ pa_init M = map (enc aeqb (pa_a M)) initial /\
    (forall t, In t ts -> kTr pk (pa_t M) (pa_a M) t) /\ (forall t, In t ts -> pi_current (t_ins t) <> []) /\
    forall k, NoDup (hm_get k (pa_map M)) /\
      forall t', In t' (hm_get k (pa_map M)) <->
        (exists t, In t ts /\ on_key k (eT t) = true /\ t_word t' = t_word (eT t) /\ t_ins t' = t_ins (eT t)) /\
        t_weight t' = wsum wadd wzero (map t_weight (filter (fun u => wi_eqb (t_word t', t_ins t') (t_word (eT u), t_ins (eT u))) ts)).
  Proof.
    revert HMk. unfold pda_new. pose proof (int_list_enc aeqb AE initial []) as H1. destruct (int_list aeqb [] initial) as [a1 init].
    destruct H1 as (_ & A1 & A2).
    pose proof (trs_int_spec teqb TE (pdi_integerise aeqb) pk pe pdi_LI pdi_LE ts [] a1) as H3.
    destruct (trs_integerise teqb (pdi_integerise aeqb) [] a1 ts) as [[lt lq] ts']. destruct H3 as (_ & (r3 & ->) & C1 & C2).
    destruct (pda_map wadd wzero ts' []) as [m|] eqn:PM; [|discriminate]. intros Q. injection Q as <-.
    cbn [pa_a pa_t pa_map pa_init]. split; [intros x Hx; apply in_or_app; auto|]. split.
    { rewrite A2. symmetry. apply (map_enc_app aeqb AE); auto. }
    split; [assumption|]. split.
    { intros t Ht. pose proof (proj1 (pda_map_defined wadd wzero ts' []) (ex_intro _ m PM)) as D.
      specialize (D (eTrL teqb pe lt (a1 ++ r3) t)). intros Z. apply D; [rewrite C2; now apply in_map|]. cbn. now rewrite Z. }
    intros k. rewrite (hm_get_map mk), (pda_map_get wadd wzero ts' [] m PM k). cbn [hm_get].
    destruct (merge_fold wadd wzero (map entry (filter (on_key k) ts'))) as [N HI].
    set (g := fold_left _ _ _) in *. split.
    - clear -N. apply NoDup_map_inj; [|eapply NoDup_map_inv; exact N].
      intros [[w i] v] [[w' i'] v'] _ _ Z. unfold mk in Z. cbn in Z. congruence.
    - intros t'. rewrite in_map_iff. split.
      + intros ([[w i] v] & <- & Hin). apply HI in Hin. destruct Hin as [Hk Hv].
        apply in_map_iff in Hk. destruct Hk as (e & Ek & He). apply in_map_iff in He. destruct He as (u & <- & Hu). apply filter_In in Hu.
        destruct Hu as [Hu Ok]. rewrite C2 in Hu. apply in_map_iff in Hu. destruct Hu as (t & <- & Ht). unfold entry in Ek. cbn [fst] in Ek.
        assert (E1 : t_word (eTrL teqb pe lt (a1 ++ r3) t) = w) by congruence.
        assert (E2 : t_ins (eTrL teqb pe lt (a1 ++ r3) t) = i) by congruence.
        split.
        * exists t. unfold mk. cbn [t_word t_ins fst snd]. auto.
        * unfold mk. cbn [t_word t_ins t_weight fst snd]. rewrite Hv, C2. f_equal. rewrite !filter_map, filter_filter, !map_map.
          cbn [snd entry fst t_weight eTrL]. f_equal. apply filter_ext_in. intros u Hu. unfold entry. cbn [fst].
          destruct (wi_eqb (w, i) (t_word (eTrL teqb pe lt (a1 ++ r3) u), t_ins (eTrL teqb pe lt (a1 ++ r3) u))) eqn:W; [|apply andb_false_r].
          rewrite andb_true_r. apply wi_eqb_spec in W. injection W as W1 W2.
          unfold on_key, tkey in *. rewrite <- E2 in W2. cbn [t_ins eTrL] in *. rewrite <- W2. exact Ok.
      + intros ((t & Ht & Ok & Q1 & Q2) & Hw). exists ((t_word t', t_ins t'), t_weight t'). split; [now destruct t'|]. apply HI. split.
        * apply in_map_iff. exists (entry (eTrL teqb pe lt (a1 ++ r3) t)). split; [unfold entry; cbn [fst]; now rewrite Q1, Q2|].
          apply in_map. apply filter_In. split; [rewrite C2; now apply in_map|assumption].
        * rewrite Hw, C2. f_equal. rewrite !filter_map, filter_filter, !map_map.
          cbn [snd entry fst t_weight eTrL]. f_equal. apply filter_ext_in. intros u Hu. unfold entry. cbn [fst].
          destruct (wi_eqb (t_word t', t_ins t') (t_word (eTrL teqb pe lt (a1 ++ r3) u), t_ins (eTrL teqb pe lt (a1 ++ r3) u))) eqn:W; [|now rewrite andb_false_r].
          rewrite andb_true_r. apply wi_eqb_spec in W. injection W as W1 W2.
          unfold on_key, tkey in *. rewrite Q2 in W2. cbn [t_ins eTrL] in *. rewrite <- W2. symmetry. exact Ok.
  Qed.

  Notation merged := (merged wadd wzero aeqb teqb).

  Lemma same_trans_iff (t u : transition (pd_instr A) T K) : same_trans aeqb teqb t u = true <-> t_word t = t_word u /\ t_ins t = t_ins u.
  Proof.
    unfold same_trans. rewrite !andb_true_iff, (list_eqb_spec teqb TE _ _), !(list_eqb_spec aeqb AE _ _).
    destruct (t_ins t) as [c n], (t_ins u) as [c' n']. cbn. split; [intros [[-> ->] ->]; auto|]. intros [-> Q]. injection Q as -> ->. auto.
  Qed.

  Lemma merged_known t : merged ts t -> kTr pk (pa_t M) (pa_a M) t.
  Proof.
    destruct pda_new_spec as (_ & _ & HT & _). intros [(t0 & H0 & E1 & E2) _]. apply HT in H0. destruct H0 as [H1 H2]. split; [rewrite <- E2|rewrite <- E1]; assumption.
  Qed.

  Lemma eT_same (t u : transition (pd_instr A) T K) : kTr pk (pa_t M) (pa_a M) t -> kTr pk (pa_t M) (pa_a M) u ->
    wi_eqb (t_word (eT t), t_ins (eT t)) (t_word (eT u), t_ins (eT u)) = same_trans aeqb teqb t u.
  Proof.
    intros [K1 K2] [L1 L2]. apply Bool.eq_iff_eq_true. rewrite (wi_eqb_spec _ _), same_trans_iff. unfold eTrL. cbn. split.
    - intros Q. injection Q as Q1 Q2 Q3. apply (map_enc_inj teqb TE) in Q1; auto. split; [assumption|].
      assert (Z : Some (t_ins t) = Some (t_ins u)); [|congruence].
      rewrite <- (pdi_LU _ _ K1), <- (pdi_LU _ _ L1). unfold pe. now rewrite Q2, Q3.
    - intros [-> ->]. reflexivity.
  Qed.

  Lemma pda_tmap_iff k t' : In t' (hm_get k (pa_map M)) <-> exists t, merged ts t /\ t' = eT t /\ on_key k (eT t) = true.
  Proof.
    destruct pda_new_spec as (_ & _ & HT & _ & HM). destruct (HM k) as [_ HI]. rewrite HI. split.
    - intros ((t0 & H0 & Ok & E1 & E2) & Hw).
      exists (Trans (t_word t0) (t_weight t') (t_ins t0)).
      assert (EQ : t' = eT (Trans (t_word t0) (t_weight t') (t_ins t0))).
      { destruct t' as [w' v' i']. unfold eTrL in *. cbn in *. congruence. }
      split; [|split; [assumption|exact Ok]]. split; [exists t0; cbn; auto|]. cbn [t_weight]. rewrite Hw at 1. f_equal. f_equal.
      apply filter_ext_in. intros u Hu. rewrite E1, E2.
      change (wi_eqb (t_word (eT t0), t_ins (eT t0)) (t_word (eT u), t_ins (eT u)) = same_trans aeqb teqb (Trans (t_word t0) (t_weight t') (t_ins t0)) u).
      rewrite (eT_same t0 u (HT _ H0) (HT _ Hu)). reflexivity.
    - intros (t & [(t0 & H0 & E1 & E2) Hw] & -> & Ok). split.
      + exists t0. split; [assumption|]. unfold eTrL in *. cbn in *. rewrite E1, E2. auto.
      + cbn [t_weight eTrL]. rewrite Hw. f_equal. f_equal. apply filter_ext_in. intros u Hu.
        assert (KT : kTr pk (pa_t M) (pa_a M) t) by (destruct (HT _ H0) as [L1 L2]; split; [rewrite <- E2|rewrite <- E1]; assumption).
        symmetry. exact (eT_same t u KT (HT _ Hu)).
  Qed.

  Lemma eT_on_key t : merged ts t -> exists k, on_key k (eT t) = true /\ exists c r, pi_current (t_ins t) = c :: r /\ k = enc aeqb (pa_a M) c.
  Proof.
    destruct pda_new_spec as (_ & _ & _ & NE & _). intros [(t0 & H0 & E1 & E2) _]. specialize (NE _ H0). rewrite E2 in NE.
    destruct (pi_current (t_ins t)) as [|c r] eqn:C; [congruence|]. exists (enc aeqb (pa_a M) c). split; [|eauto].
    unfold on_key, tkey, eTrL. cbn. rewrite C. cbn. apply Nat.eqb_refl.
  Qed.

  Lemma pda_trans_iff t' : au_trans AU t' <-> exists t, merged ts t /\ t' = eT t.
  Proof.
    unfold au_trans. cbn. split.
    - intros [k Hk]. apply (Permutation_in _ (SH _)) in Hk. apply pda_tmap_iff in Hk. destruct Hk as (t & H1 & H2 & _). eauto.
    - intros (t & Ht & ->). destruct (eT_on_key t Ht) as (k & Ok & _). exists k.
      apply (Permutation_in _ (Permutation_sym (SH _))). apply pda_tmap_iff. eauto.
  Qed.

  Lemma pda_coded : coded AU (pdi_apply aeqb) initial (merged ts) (fun s => length s = 1)
    (fun s => forall x, In x s -> In x (pa_a M)) (pk (pa_a M)) (fun x => In x (pa_t M))
    (map (enc aeqb (pa_a M))) (pe (pa_a M)) (enc teqb (pa_t M)) (int_find_key teqb (pa_t M))
    (item_un pdi_un_integerise un_list (pa_t M) (pa_a M)).
  Proof.
    destruct pda_new_spec as (HI & HIe & HT & NE & HM). 
    constructor.
    - exact nat_eqb_spec.
    - exact HIe.
    - exact HI.
    - exact pda_trans_iff.
    - intros t Ht. apply merged_known in Ht. exact Ht.
    - intros i s K1 KS. now apply pdi_comm.
    - intros i s s' [K1 K2] KS H x Hx. apply (pdi_apply_spec aeqb AE) in H. destruct H as (rest & -> & ->).
      apply in_app_or in Hx. destruct Hx as [Hx|Hx]; [apply KS; apply in_or_app; now left|auto].
    - intros w s k KS. cbn. rewrite map_length. destruct w as [|x w]; [|split; [discriminate|intros [? _]; discriminate]].
      rewrite Nat.eqb_eq. tauto.
    - intros t c Ht HA. destruct (tr_apply _ _ t c) as [|c' l] eqn:E; [congruence|].
      assert (Hc : In c' (tr_apply (au_teqb AU) (au_apply AU) t c)) by (rewrite E; now left).
      apply (in_tr_apply AU nat_eqb_spec) in Hc. destruct Hc as (s' & H1 & _).
      change (In s' (pdi_apply Nat.eqb (t_ins t) (c_storage c))) in H1.
      apply (pdi_apply_spec Nat.eqb nat_eqb_spec) in H1. destruct H1 as (rest & H1 & _).
      apply pda_trans_iff in Ht. destruct Ht as (t0 & Ht0 & ->). destruct (eT_on_key t0 Ht0) as (k & Ok & c0 & r & C & Ek).
      exists k. split.
      + change (last_opt (c_storage c) = Some k). rewrite H1. unfold last_opt. rewrite rev_app_distr, rev_involutive.
        unfold eTrL, pe. cbn. rewrite C. cbn. now rewrite Ek.
      + cbn. apply (Permutation_in _ (Permutation_sym (SH _))). apply pda_tmap_iff. eauto.
    - intros x. apply tti_enc. assumption.
    - intros x y Hx Hy. now apply (enc_inj teqb TE).
    - intros t t' Ht Ht' E. eapply (eTrL_inj teqb TE pdi_un_integerise pk pe pdi_LU); [apply merged_known, Ht|apply merged_known, Ht'|exact E].
    - intros w s k us HS HW HU. apply (item_un_enc teqb TE pdi_un_integerise pk pe pdi_LU); auto.
      + now apply un_list_enc.
      + intros t Ht. apply merged_known. auto.
  Qed.

  Lemma pda_det : deterministic AU.
  Proof.
    destruct pda_new_spec as (_ & _ & _ & _ & HM). split.
    - intros i s. apply pdi_apply_det.
    - intros k. cbn. eapply Permutation_NoDup; [symmetry; apply SH|]. apply HM.
  Qed.

  (* extract_key panics only on an empty stack *)
  Lemma pda_key_ok (c : configuration (list nat) nat K) : c_storage c <> [] -> last_opt (c_storage c) <> None.
  Proof.
    unfold last_opt. destruct (rev (c_storage c)) eqn:E; [|discriminate]. intros H. exfalso. apply H.
    rewrite <- (rev_involutive (c_storage c)), E. reflexivity.
  Qed.
End PDA.

Lemma pda_new_defined {A T : Type} {K : Weight} (wadd : K -> K -> K) wzero aeqb teqb (AE : EqbSpec aeqb) (TE : EqbSpec teqb)
  (ts : list (transition (pd_instr A) T K)) initial :
  (exists M, pda_new wadd wzero aeqb teqb ts initial = Some M) <-> forall t, In t ts -> pi_current (t_ins t) <> [].
Proof.
  unfold pda_new. destruct (int_list aeqb [] initial) as [a1 init].
  pose proof (trs_int_spec teqb TE (pdi_integerise aeqb) pk (pe aeqb) (pdi_LI aeqb AE) (pdi_LE aeqb AE) ts [] a1) as H3.
  destruct (trs_integerise teqb (pdi_integerise aeqb) [] a1 ts) as [[lt lq] ts']. destruct H3 as (_ & _ & _ & C2).
  pose proof (pda_map_defined wadd wzero ts' []) as D.
  destruct (pda_map wadd wzero ts' []) as [m|].
  - split; [|eauto]. intros _ t Ht Z. apply (proj1 D (ex_intro _ m eq_refl) (eTrL teqb (pe aeqb) lt lq t)).
    + rewrite C2. now apply in_map.
    + cbn. now rewrite Z.
  - split; [intros [M H]; discriminate|]. intros H. exfalso.
    assert (Z : exists m' : list (nat * list (wi_key * K)), @None (list (nat * list (wi_key * K))) = Some m').
    { apply D. intros t' Ht'. rewrite C2 in Ht'. apply in_map_iff in Ht'. destruct Ht' as (t & <- & Ht). specialize (H t Ht).
      cbn. destruct (pi_current (t_ins t)); [congruence|discriminate]. }
    destruct Z; discriminate.
Qed.
