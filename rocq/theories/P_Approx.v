(* Proofs about approximation strategies, reverse transition maps and coarse-to-fine recognition. *)
From Verif Require Import Base M_Agenda M_Search M_Util M_Recog M_Automata M_TreeStack M_CSAuto M_CSParse M_Approx
  S_Search S_Util S_Recog S_Automata S_TreeStack S_Approx P_Agenda P_Search P_Util P_Recog P_Automata P_PDA P_TreeStack P_TSA P_CSParse Properties_Automata Properties_TreeStack.
Arguments Nat.ltb : simpl never. Arguments Nat.eqb : simpl never.

(* ---- equivalence relations ---- *)
Section EqRel.
  Context {A B : Type} (aeqb : A -> A -> bool) (beqb : B -> B -> bool) (AE : EqbSpec aeqb) (BE : EqbSpec beqb).
  Lemma am_get_insert {V} k (v : V) m x : am_get aeqb x (am_insert aeqb k v m) = if aeqb x k then Some v else am_get aeqb x m.
  Proof.
    induction m as [|[k' v'] m IH]; cbn; [reflexivity|]. destruct (aeqb k k') eqn:E; cbn.
    - apply AE in E. subst k'. now destruct (aeqb x k).
    - destruct (aeqb x k') eqn:E2.
      + apply AE in E2. subst k'. destruct (aeqb x k) eqn:E3; [|reflexivity]. apply AE in E3. subst. rewrite (proj2 (AE k k) eq_refl) in E. discriminate.
      + exact IH.
  Qed.
  Lemma er_members_spec (cn : B) ms : forall m : list (A * B), match er_members aeqb cn ms m with
    | Ok m' => NoDup ms /\ (forall x, In x ms -> am_get aeqb x m = None) /\
               forall x, am_get aeqb x m' = if memb aeqb x ms then Some cn else am_get aeqb x m
    | Err _ => ~ (NoDup ms /\ (forall x, In x ms -> am_get aeqb x m = None))
    end.
  Proof.
    induction ms as [|v ms IH]; intros m; cbn.
    - split; [constructor|]. split; [intros x []|reflexivity].
    - destruct (am_get aeqb v m) as [b|] eqn:E.
      + intros [_ H]. rewrite (H v (or_introl eq_refl)) in E. discriminate.
      + specialize (IH (am_insert aeqb v cn m)). destruct (er_members aeqb cn ms (am_insert aeqb v cn m)) as [m'|e].
        * destruct IH as (I1 & I2 & I3). assert (NV : ~ In v ms).
          { intros Hv. apply I2 in Hv. rewrite am_get_insert, (proj2 (AE v v) eq_refl) in Hv. discriminate. }
          split; [now constructor|]. split.
          -- intros x [<-|Hx]; [assumption|]. specialize (I2 x Hx). rewrite am_get_insert in I2. destruct (aeqb x v); [discriminate|assumption].
          -- intros x. rewrite I3, am_get_insert. unfold memb. cbn [existsb]. destruct (aeqb x v) eqn:E2; cbn; [|reflexivity].
             apply AE in E2. subst x. destruct (existsb (aeqb v) ms); reflexivity.
        * intros [N H]. apply IH. inversion N; subst. split; [assumption|]. intros x Hx. rewrite am_get_insert.
          destruct (aeqb x v) eqn:E2; [apply AE in E2; subst; contradiction|]. apply H. now right.
  Qed.
  Lemma memb_In x l : memb aeqb x l = true <-> In x l.
  Proof. unfold memb. rewrite existsb_exists. split; [intros (y & Hy & E); apply AE in E; now subst|]. intros H. exists x. split; [assumption|now apply AE]. Qed.

  Lemma er_classes_spec d cls : family cls -> forall m, match er_classes aeqb beqb d cls m with
    | Ok m' => ~ In d (map fst cls) /\ disjoint_classes cls /\ (forall x l, in_class cls x l -> am_get aeqb x m = None) /\
               (forall x l, in_class cls x l -> am_get aeqb x m' = Some l) /\
               (forall x, (forall l, ~ in_class cls x l) -> am_get aeqb x m' = am_get aeqb x m)
    | Err _ => ~ (~ In d (map fst cls) /\ disjoint_classes cls /\ (forall x l, in_class cls x l -> am_get aeqb x m = None))
    end.
  Proof.
    induction cls as [|[cn ms] cls IH]; intros [N NM] m; cbn [er_classes].
    - split; [intros []|]. split; [intros x l l' (ms & [] & _)|]. split; [intros x l (ms & [] & _)|]. split; [intros x l (ms & [] & _)|reflexivity].
    - destruct (beqb cn d) eqn:E.
      + intros (H & _). apply H. left. now apply BE.
      + assert (ND : cn <> d) by (intros ->; rewrite (proj2 (BE d d) eq_refl) in E; discriminate).
        cbn in N. apply NoDup_cons_iff in N. destruct N as [N1 N2].
        assert (F : family cls) by (split; [assumption|intros l ms' H; apply (NM l); now right]).
        assert (IC : forall x l, in_class ((cn, ms) :: cls) x l <-> (l = cn /\ In x ms) \/ in_class cls x l).
        { intros x l. split.
          - intros (ms' & [H|H] & Hx); [injection H as <- <-; auto|right; exists ms'; auto].
          - intros [[-> Hx]|(ms' & H & Hx)]; [exists ms; split; [now left|assumption]|exists ms'; split; [now right|assumption]]. }
        pose proof (er_members_spec cn ms m) as M1. destruct (er_members aeqb cn ms m) as [m1|e1].
        * destruct M1 as (M1 & M2 & M3). specialize (IH F m1). destruct (er_classes aeqb beqb d cls m1) as [m2|e2].
          -- destruct IH as (I1 & I2 & I3 & I4 & I5).
             assert (SEP : forall x l, in_class cls x l -> ~ In x ms).
             { intros x l H Hx. apply I3 in H. rewrite M3, (proj2 (memb_In x ms) Hx) in H. discriminate. }
             split; [cbn; intros [H|H]; [congruence|contradiction]|]. split; [|split; [|split]].
             ++ intros x l l' H H'. apply IC in H. apply IC in H'. destruct H as [[-> H]|H], H' as [[-> H']|H']; [reflexivity| | |eapply I2; eauto].
                ** exfalso. eapply SEP; eauto.
                ** exfalso. eapply SEP; eauto.
             ++ intros x l H. apply IC in H. destruct H as [[-> H]|H]; [auto|]. pose proof (SEP x l H) as Z. apply I3 in H. rewrite M3 in H. destruct (memb aeqb x ms); [discriminate|assumption].
             ++ intros x l H. apply IC in H. destruct H as [[-> H]|H]; [|now apply I4].
                rewrite I5; [|intros l Hl; eapply SEP; eauto]. now rewrite M3, (proj2 (memb_In x ms) H).
             ++ intros x H. rewrite I5; [|intros l Hl; apply (H l), IC; now right]. rewrite M3. destruct (memb aeqb x ms) eqn:EM; [|reflexivity].
                apply memb_In in EM. exfalso. apply (H cn), IC. now left.
          -- intros (H1 & H2 & H3). apply IH. split; [intros H; apply H1; now right|]. split; [intros x l l' H H'; apply (H2 x); apply IC; now right|].
             intros x l H. rewrite M3. destruct (memb aeqb x ms) eqn:EM; [|apply (H3 x l), IC; now right].
             apply memb_In in EM. exfalso. apply N1. replace cn with l; [destruct H as (ms' & H & _); now apply (in_map fst) in H|].
             apply (H2 x); apply IC; [now right|now left].
        * intros (H1 & H2 & H3). apply M1. split; [apply (NM cn); now left|]. intros x Hx. apply (H3 x cn), IC. now left.
  Qed.

  Lemma er_from_fold (cls : list (eqclass A B)) : forall m d, let '(m', d') := fold_left (er_from_loop aeqb) cls (m, d) in
    (forall x, (forall l1 c ms l2, cls = l1 ++ c :: l2 -> ec_set c = Some ms -> In x ms -> (forall c' ms', In c' l2 -> ec_set c' = Some ms' -> ~ In x ms') -> am_get aeqb x m' = Some (ec_label c)) /\
               ((forall c ms, In c cls -> ec_set c = Some ms -> ~ In x ms) -> am_get aeqb x m' = am_get aeqb x m)) /\
    (forall l1 c l2, cls = l1 ++ c :: l2 -> ec_set c = None -> (forall c', In c' l2 -> ec_set c' <> None) -> d' = Some (ec_label c)) /\
    ((forall c, In c cls -> ec_set c <> None) -> d' = d).
  Proof.
    induction cls as [|c cls IH]; intros m d; cbn [fold_left].
    - split; [|split; [intros [|? ?] ? ? E; discriminate|reflexivity]]. intros x. split; [intros [|? ?] ? ? ? E; discriminate|reflexivity].
    - specialize (IH (fst (er_from_loop aeqb (m, d) c)) (snd (er_from_loop aeqb (m, d) c))). rewrite <- surjective_pairing in IH.
      destruct (fold_left (er_from_loop aeqb) cls (er_from_loop aeqb (m, d) c)) as [m' d'].
      destruct IH as (I1 & I2 & I3). split; [|split].
      + intros x. destruct (I1 x) as [J1 J2].
        assert (G : (forall ms, ec_set c = Some ms -> ~ In x ms) -> am_get aeqb x (fst (er_from_loop aeqb (m, d) c)) = am_get aeqb x m).
        { intros H. unfold er_from_loop. destruct (ec_set c) as [es|]; [|reflexivity]. cbn [fst]. specialize (H es eq_refl).
          assert (Z : forall es m0, ~ In x es -> am_get aeqb x (fold_left (fun m0 e => am_insert aeqb e (ec_label c) m0) es m0) = am_get aeqb x m0).
          { clear -AE. induction es as [|e es IH]; intros m0 H; cbn; [reflexivity|]. rewrite IH by (intros Z; apply H; now right). rewrite am_get_insert.
            destruct (aeqb x e) eqn:E; [|reflexivity]. apply AE in E. subst. exfalso. apply H. now left. }
          now apply Z. }
        split.
        * intros [|c0 l1] c1 ms l2 E Es Hx Hn; cbn in E; injection E as -> ->; [|now apply (J1 l1 c1 ms l2)].
          rewrite J2 by assumption. unfold er_from_loop. rewrite Es. cbn [fst].
          assert (Z : forall es m0, In x es \/ am_get aeqb x m0 = Some (ec_label c1) -> am_get aeqb x (fold_left (fun m0 e => am_insert aeqb e (ec_label c1) m0) es m0) = Some (ec_label c1)).
          { clear -AE. induction es as [|e es IH]; intros m0 H; cbn; [destruct H as [[]|H]; assumption|]. apply IH. rewrite am_get_insert.
            destruct H as [[->|H]|H]; [|auto|]; [rewrite (proj2 (AE x x) eq_refl); auto|]. destruct (aeqb x e); auto. }
          apply Z. now left.
        * intros H. rewrite J2; [|intros; eapply H; [right|]; eauto]. apply G. intros ms. apply H. now left.
      + intros [|c0 l1] c1 l2 E Es Hn; cbn in E; injection E as -> ->; [|now apply (I2 l1 c1 l2)]. rewrite I3 by assumption. unfold er_from_loop. now rewrite Es.
      + intros H. rewrite I3; [|intros c1 Hc; apply H; now right]. unfold er_from_loop. specialize (H c (or_introl eq_refl)). destruct (ec_set c); [reflexivity|congruence].
  Qed.
End EqRel.

(* ---- runs ---- *)
Section Hom.
  Context {S1 I1 S2 I2 T : Type} {K : Weight} (apply1 : I1 -> S1 -> list S1) (apply2 : I2 -> S2 -> list S2) (ins : I1 -> I2)
          (R : S1 -> S2 -> Prop).
  Lemma hom_executes : (forall i s s' s2, R s s2 -> In s' (apply1 i s) -> exists s2', In s2' (apply2 (ins i) s2) /\ R s' s2') ->
    forall (us : list (transition I1 T K)) s s', executes apply1 s us s' ->
    forall s2 (us2 : list (transition I2 T K)), R s s2 -> image_run ins us us2 -> exists s2', executes apply2 s2 us2 s2' /\ R s' s2'.
  Proof.
    intros HH us. induction us as [|t us IH]; intros s s' E s2 us2 HR IM; inversion E; inversion IM; subst.
    - exists s2. split; [constructor|assumption].
    - destruct H7 as [_ HI]. destruct (HH _ _ _ _ HR H2) as (s2' & A1 & A2). destruct (IH _ _ H4 _ _ A2 H9) as (s3 & B1 & B2).
      exists s3. split; [|assumption]. econstructor; [|exact B1]. now rewrite HI.
  Qed.
End Hom.
Lemma image_word {I1 I2 T : Type} {K : Weight} (ins : I1 -> I2) (us : list (transition I1 T K)) (us2 : list (transition I2 T K)) :
  image_run ins us us2 -> run_word us2 = run_word us.
Proof. induction 1 as [|t t2 us us2 [E _] _ IH]; [reflexivity|]. unfold run_word in *. cbn. now rewrite E, IH. Qed.
Lemma exact_is_image {I1 I2 T : Type} {K : Weight} (ins : I1 -> I2) (us : list (transition I1 T K)) us2 : exact_image ins us us2 -> image_run ins us us2.
Proof. intros ->. induction us; constructor; auto. Qed.
Lemma exact_weight {I1 I2 T : Type} {K : Weight} (ins : I1 -> I2) (us : list (transition I1 T K)) us2 : exact_image ins us us2 -> run_weight us2 = run_weight us.
Proof. intros ->. unfold run_weight. rewrite map_map. reflexivity. Qed.

Section Relabel.
  Context {A B : Type} (aeqb : A -> A -> bool) (beqb : B -> B -> bool) (AE : EqbSpec aeqb) (BE : EqbSpec beqb) (f : A -> B).
  Lemma rlb_hom i s s' s2 : s2 = map f s -> In s' (pdi_apply aeqb i s) -> exists s2', In s2' (pdi_apply beqb (rlb_ins f i) s2) /\ s2' = map f s'.
  Proof.
    intros -> H. apply (pdi_apply_spec aeqb AE) in H. destruct H as (r & -> & ->). exists (map f (r ++ pi_new i)). split; [|reflexivity].
    apply (pdi_apply_spec beqb BE). exists (map f r). cbn [rlb_ins pi_current pi_new]. now rewrite !map_app, map_rev.
  Qed.
End Relabel.

(* the path of a tree stack *)
Fixpoint spine {A} (t : tstack A) : list A := match t with TStack None v _ => [v] | TStack (Some (_, p)) v _ => spine p ++ [v] end.
Section Spine.
  Context {A : Type}.
  Notation ts := (tstack A).
  Lemma spine_eq (t : ts) : spine t = match ts_parent t with None => [ts_value t] | Some (_, p) => spine p ++ [ts_value t] end.
  Proof. now destruct t as [[[n p]|] v ch]. Qed.
  Lemma spine_len (t : ts) : length (spine t) = S (length (pointer t)).
  Proof. induction t as [par v ch IHp _] using ts_ind. destruct par as [[n p]|]; cbn; [|reflexivity]. rewrite !app_length, (IHp n p eq_refl). cbn. lia. Qed.
  Lemma strip_short p : forall addr, length addr < length p -> strip p addr = None.
  Proof. induction p as [|n p IH]; intros [|m addr] H; cbn in *; try lia; [reflexivity|]. destruct (Nat.eqb n m); [apply IH; lia|reflexivity]. Qed.
  Lemma spine_path (t : ts) : path_of t (spine t).
  Proof.
    split; [apply spine_len|]. induction t as [par v ch IHp _] using ts_ind. intros i Hi. destruct par as [[n p]|].
    - cbn [pointer] in *. rewrite app_length in Hi. cbn [length] in Hi. cbn [spine]. pose proof (spine_len p) as L.
      destruct (Nat.eq_dec i (length (pointer p) + 1)) as [->|NE].
      + rewrite nth_error_app2 by lia. rewrite L. replace (length (pointer p) + 1 - S (length (pointer p))) with 0 by lia.
        replace (firstn (length (pointer p) + 1) (pointer p ++ [n])) with (pointer (TStack (Some (n, p)) v ch)).
        * now rewrite node_here.
        * cbn [pointer]. symmetry. apply firstn_all2. rewrite app_length. cbn. lia.
      + rewrite nth_error_app1 by lia. rewrite (IHp n p eq_refl) by lia. rewrite firstn_app. replace (i - length (pointer p)) with 0 by lia. cbn [firstn]. rewrite app_nil_r.
        rewrite (node_eq (TStack (Some (n, p)) v ch)). cbn [pointer ts_parent]. rewrite strip_short; [reflexivity|]. rewrite app_length, firstn_length. cbn. lia.
    - cbn in Hi. replace i with 0 by lia. cbn. reflexivity.
  Qed.
  Definition below (t : ts) : list A := match ts_parent t with None => [] | Some (_, p) => rev (spine p) end.
  Lemma spine_below (t : ts) : spine t = rev (ts_value t :: below t).
  Proof. rewrite spine_eq. unfold below. cbn. destruct (ts_parent t) as [[n p]|]; [now rewrite rev_involutive|reflexivity]. Qed.
  Lemma tts_loop_spec : forall d (t : ts) pd fuel, wf t -> ts_depth t = d -> d < fuel -> tts_loop fuel t pd = Some (rev (pd ++ below t)).
  Proof.
    induction d as [|d IH]; intros t pd [|fuel] W D L; try lia; cbn [tts_loop]; pose proof (down_spec t W) as DS; pose proof (down_p_wf t W) as DP; unfold ts_down in DS;
      destruct (ts_down_p t) as [r|]; try congruence; subst r.
    - destruct t as [[[n p]|] v ch]; cbn in D; [discriminate|]. cbn. now rewrite app_nil_r.
    - destruct t as [[[n p]|] v ch]; cbn in D; [|discriminate]. injection D as D. cbn [ts_parent ts_value ts_children].
      set (q := TStack (ts_parent p) (ts_value p) _). rewrite (IH q).
      + f_equal. f_equal. unfold below. cbn [ts_parent q]. rewrite <- app_assoc. f_equal. cbn [app ts_current_symbol ts_value].
        rewrite (spine_below p), rev_involutive. reflexivity.
      + apply (wf_down (TStack (Some (n, p)) v ch)); [assumption|]. now rewrite (down_spec _ W).
      + destruct p as [[[m p']|] v' ch']; cbn in *; assumption.
      + lia.
  Qed.
  Lemma tts_storage_spec (t : ts) : wf t -> tts_storage t = Some (spine t).
  Proof. intros W. unfold tts_storage. rewrite (tts_loop_spec (ts_depth t)); [|assumption|reflexivity|lia]. rewrite (spine_below t). reflexivity. Qed.
  Lemma spine_bottom (t : ts) : ts_is_at_bottom t = true <-> length (spine t) = 1.
  Proof. rewrite spine_len, pointer_eq. unfold ts_is_at_bottom. destruct (ts_parent t) as [[n p]|]; cbn; [rewrite app_length; cbn; split; [discriminate|lia]|split; reflexivity]. Qed.
  Lemma spine_nonempty (t : ts) : spine t <> [].
  Proof. intros E. pose proof (spine_len t) as L. rewrite E in L. discriminate. Qed.

  Context (eqb : A -> A -> bool) (E : EqbSpec eqb).
  Lemma tts_hom i (s s' : ts) s2 : wf s /\ s2 = spine s -> In s' (tsi_apply eqb i s) -> exists s2', In s2' (pdi_apply eqb (tts_ins i) s2) /\ (wf s' /\ s2' = spine s').
  Proof.
    intros [W ->] H. exists (spine s'). rewrite (pdi_apply_spec eqb E). destruct i as [n c o v|n c v|c o v]; cbn [tsi_apply tts_ins] in *; unfold ts_current_symbol in H;
      (destruct (eqb (ts_value s) c) eqn:EC; [|destruct H]); apply E in EC; subst c.
    - destruct (ts_up s n) as [u|u] eqn:U; [|destruct H]. pose proof (wf_up s u n W U) as W2.
      rewrite up_spec in U. destruct (child s n) as [ch|]; [|discriminate]. injection U as <-. cbn [ts_value] in H. destruct (eqb (ts_value ch) o); [|destruct H]. destruct H as [<-|[]].
      split; [|split; [now apply wf_set|reflexivity]]. cbn [pi_current pi_new rev app]. rewrite (spine_below s). cbn [rev]. exists (rev (below s)). split; [reflexivity|].
      unfold ts_set. rewrite spine_eq. cbn [ts_parent ts_value]. rewrite spine_below. unfold below. cbn [ts_value ts_parent rev]. now rewrite <- app_assoc.
    - destruct (ts_push s n v) as [u|u] eqn:U; [|destruct H]. destruct H as [<-|[]]. pose proof (wf_push s u n v W U) as W2. apply push_ok in U. destruct U as [_ ->].
      split; [|split; [assumption|reflexivity]]. cbn [pi_current pi_new rev app]. rewrite (spine_below s). cbn [rev]. exists (rev (below s)). split; [reflexivity|].
      rewrite spine_eq. cbn [ts_parent ts_value]. rewrite spine_below. unfold below. rewrite fill_parent, fill_value. cbn [rev]. now rewrite <- app_assoc.
    - destruct (ts_down s) as [u|u] eqn:U; [|destruct H]. pose proof (wf_down s u W U) as W2. rewrite (down_spec s W) in U. destruct (ts_parent s) as [[n p]|] eqn:EP; [|discriminate].
      injection U as <-. cbn [ts_value] in H. destruct (eqb (ts_value p) o) eqn:EO; [|destruct H]. apply E in EO. subst o. destruct H as [<-|[]].
      split; [|split; [now apply wf_set|reflexivity]]. cbn [pi_current pi_new rev app]. rewrite (spine_eq s), EP. rewrite (spine_below p). cbn [rev]. exists (rev (below p)).
      split; [now rewrite <- app_assoc|]. unfold ts_set. cbn [ts_parent ts_children]. rewrite spine_below. unfold below. cbn [ts_parent ts_value rev]. reflexivity.
  Qed.
End Spine.

(* ---- the reverse transition map ---- *)
Lemma Forall2_impl_P {X Y} (P Q : X -> Y -> Prop) xs ys : (forall x y, P x y -> Q x y) -> Forall2 P xs ys -> Forall2 Q xs ys.
Proof. intros H F. induction F; constructor; auto. Qed.
Section Rev.
  Context {I1 I2 T : Type} {K : Weight} (i2eqb : I2 -> I2 -> bool) (teqb : T -> T -> bool) (IE : EqbSpec i2eqb) (TE : EqbSpec teqb)
          (KL : RoundLaws K) (ins : I1 -> I2).
  Notation tr1 := (transition I1 T K).
  Notation tr2 := (transition I2 T K).
  Definition image (t : tr1) : tr2 := Trans (t_word t) (t_weight t) (ins (t_ins t)).
  Lemma tr_same_spec : EqbSpec (tr_same (K := K) i2eqb teqb).
  Proof.
    intros [w k i] [w' k' i']. unfold tr_same. cbn [t_weight t_word t_ins]. rewrite !andb_true_iff, (list_eqb_spec teqb TE w w'), (IE i i'). split.
    - intros [[[H1 H2] ->] ->]. f_equal. now apply (rl_anti _ KL).
    - intros E. injection E as -> -> ->. assert (R : wleb k' k' = true) by (destruct (to_total _ (rl_order _ KL) k' k'); assumption). auto.
  Qed.
  Lemma unap_push (t2 : tr2) (t1 : tr1) (m : rtmap) t2' : unapproximate_transition i2eqb teqb (rt_push i2eqb teqb t2 t1 m) t2' =
    unapproximate_transition i2eqb teqb m t2' ++ (if tr_same i2eqb teqb t2' t2 then [t1] else []).
  Proof.
    unfold unapproximate_transition. induction m as [|[k v] m IH]; cbn; [now destruct (tr_same i2eqb teqb t2' t2)|].
    destruct (tr_same i2eqb teqb t2 k) eqn:E; cbn.
    - apply tr_same_spec in E. subst k. destruct (tr_same i2eqb teqb t2' t2); [reflexivity|now rewrite app_nil_r].
    - destruct (tr_same i2eqb teqb t2' k) eqn:E2; [|exact IH]. apply tr_same_spec in E2. subst k.
      destruct (tr_same i2eqb teqb t2' t2) eqn:E3; [|now rewrite app_nil_r]. apply tr_same_spec in E3. subst t2'. rewrite (proj2 (tr_same_spec t2 t2) eq_refl) in E. discriminate.
  Qed.
  Lemma approx_spec (ts : list tr1) : forall m : rtmap, let '(m', l) := approximate_transitions i2eqb teqb ins m ts in
    l = map image ts /\ forall t2, unapproximate_transition i2eqb teqb m' t2 = unapproximate_transition i2eqb teqb m t2 ++ filter (fun t1 => tr_same i2eqb teqb t2 (image t1)) ts.
  Proof.
    induction ts as [|t ts IH]; intros m; cbn [approximate_transitions approximate_transition].
    - split; [reflexivity|]. intros t2. cbn. now rewrite app_nil_r.
    - fold (image t). specialize (IH (rt_push i2eqb teqb (image t) t m)). destruct (approximate_transitions i2eqb teqb ins (rt_push i2eqb teqb (image t) t m) ts) as [m' l].
      destruct IH as [-> IH]. split; [reflexivity|]. intros t2. rewrite IH, unap_push. rewrite <- app_assoc. f_equal. cbn [filter]. now destruct (tr_same i2eqb teqb t2 (image t)).
  Qed.

  (* what the map holds after approximating the transitions ts *)
  Definition back (ts : list tr1) (m : rtmap) : Prop := forall t2, unapproximate_transition i2eqb teqb m t2 = filter (fun t1 => tr_same i2eqb teqb t2 (image t1)) ts.
  Lemma back_In ts m t1 t2 : back ts m -> (In t1 (unapproximate_transition i2eqb teqb m t2) <-> In t1 ts /\ t2 = image t1).
  Proof. intros HB. rewrite HB, filter_In, (tr_same_spec t2 (image t1)). reflexivity. Qed.

  Context (heap_order : list (pushdown tr1) -> list (pushdown tr1)) (HO : forall l, Permutation (heap_order l) l).
  Notation step := (fun (h : list (pushdown tr1)) (ts1 : list tr1) => heap_order (flat_map (fun run => map (fun t1 => pd_push run t1) ts1) h)).
  Lemma unap_fold ls : forall h r, In r (fold_left step ls h) <-> exists r0 us, In r0 h /\ Forall2 (fun u l => In u l) us ls /\ r = fold_left (@pd_push tr1) us r0.
  Proof.
    induction ls as [|l ls IH]; intros h r; cbn [fold_left].
    - split.
      + intros H. exists r, []. auto.
      + intros (r0 & us & H & F & ->). inversion F; subst. exact H.
    - rewrite IH. split.
      + intros (r0 & us & H & F & ->). eapply Permutation_in in H; [|apply HO]. apply in_flat_map in H. destruct H as (r1 & H1 & H2). apply in_map_iff in H2. destruct H2 as (t1 & <- & H2).
        exists r1, (t1 :: us). split; [assumption|]. split; [now constructor|reflexivity].
      + intros (r0 & us & H & F & ->). inversion F as [|u l0 us' ls' Hu F']; subst. exists (pd_push r0 u), us'. split; [|split; [assumption|reflexivity]].
        eapply Permutation_in; [symmetry; apply HO|]. apply in_flat_map. exists r0. split; [assumption|]. now apply in_map.
  Qed.
  Lemma unap_fold_NoDup ls : (forall l, In l ls -> NoDup l) -> forall h, NoDup h -> NoDup (fold_left step ls h).
  Proof.
    induction ls as [|l ls IH]; intros HL h N; cbn [fold_left]; [assumption|]. apply IH; [intros; apply HL; now right|].
    eapply Permutation_NoDup; [symmetry; apply HO|]. pose proof (HL l (or_introl eq_refl)) as NL. clear -N NL.
    induction h as [|r h IH]; cbn; [constructor|]. inversion N; subst. apply NoDup_app_intro; [|now apply IH|].
    - apply FinFun.Injective_map_NoDup; [|assumption]. intros x y E. unfold pd_push in E. now injection E.
    - intros x Hx Hy. apply in_map_iff in Hx. destruct Hx as (t & <- & _). apply in_flat_map in Hy. destruct Hy as (r2 & H3 & H4). apply in_map_iff in H4. destruct H4 as (t' & E & _).
      unfold pd_push in E. injection E as -> ->. contradiction.
  Qed.
  Lemma F2_map_r {X Y Z} (P : X -> Z -> Prop) (g : Y -> Z) xs ys : Forall2 P xs (map g ys) <-> Forall2 (fun x y => P x (g y)) xs ys.
  Proof. revert xs. induction ys as [|y ys IH]; intros xs; cbn; split; intros H; inversion H; subst; constructor; auto; now apply IH. Qed.
  Lemma F2_eq_map {X Y} (P : X -> Prop) (g : X -> Y) xs ys : Forall2 (fun x y => P x /\ y = g x) xs ys <-> (forall x, In x xs -> P x) /\ ys = map g xs.
  Proof.
    revert ys. induction xs as [|x xs IH]; intros ys; split.
    - intros H. inversion H; subst. split; [intros x []|reflexivity].
    - intros [_ ->]. constructor.
    - intros H. inversion H as [|? y ? ys' [H1 H2] H3]; subst. apply IH in H3. destruct H3 as [H3 ->]. split; [intros z [<-|Hz]; auto|reflexivity].
    - intros [H ->]. cbn. constructor; [split; [apply H; now left|reflexivity]|]. apply IH. split; [intros; apply H; now right|reflexivity].
  Qed.
  Lemma unap_run_spec ts m run2 r : back ts m ->
    (In r (unapproximate_run i2eqb teqb heap_order m run2) <-> (forall t, In t (pd_to_vec r) -> In t ts) /\ pd_to_vec run2 = map image (pd_to_vec r)).
  Proof.
    intros HB. unfold unapproximate_run, pd_iter. rewrite unap_fold. split.
    - intros (r0 & us & H & F & ->). eapply Permutation_in in H; [|apply HO]. destruct H as [<-|[]]. change (fold_left (@pd_push tr1) us Empty) with (pd_from us). rewrite pd_to_from.
      apply (proj1 (F2_map_r _ _ _ _)) in F. apply F2_eq_map. eapply Forall2_impl_P; [|exact F]. intros x y Hxy. now apply (back_In ts m) in Hxy.
    - intros H. exists Empty, (pd_to_vec r). split; [eapply Permutation_in; [symmetry; apply HO|now left]|]. split; [|change (fold_left (@pd_push tr1) (pd_to_vec r) Empty) with (pd_from (pd_to_vec r)); now rewrite pd_from_to].
      apply F2_map_r. apply F2_eq_map in H. eapply Forall2_impl_P; [|exact H]. intros x y Hxy. now apply (back_In ts m).
  Qed.
  Lemma unap_run_NoDup ts m run2 : back ts m -> NoDup ts -> NoDup (unapproximate_run i2eqb teqb heap_order m run2).
  Proof.
    intros HB N. unfold unapproximate_run. apply unap_fold_NoDup.
    - intros l Hl. apply in_map_iff in Hl. destruct Hl as (t2 & <- & _). rewrite HB. now apply NoDup_filter.
    - eapply Permutation_NoDup; [symmetry; apply HO|]. repeat constructor. intros [].
  Qed.
End Rev.

(* ---- recognise as an iterator ---- *)
Section RecNext.
  Context {S I T : Type} (a : M_Recog.automaton) (tti : T -> option (au_T a))
          (im : item (au_S a) (au_I a) (au_T a) (au_K a) -> option (item S I T (au_K a)))
          (H : max_heap (item (au_S a) (au_I a) (au_T a) (au_K a) * au_K a) (wi_leb wleb)).
  Notation AG := (heap_agenda item_weight wleb H).
  Notation FF := (fun i => if au_terminal a (fst i) then let? x := im i in Some (Some x) else Some None).
  Lemma search_first n : forall h os h' y r, search_calls_p AG (item_succs a) n h = Some (os, h') ->
    opt_all im (filter (fun i => au_terminal a (fst i)) (until_none os)) = Some (y :: r) ->
    forall fuel, n <= fuel -> exists k s, filter_map_search FF (search_next_p AG (item_succs a)) fuel h = Some (Some y, k, s).
  Proof.
    induction n as [|n IH]; intros h os h' y r E F fuel L; cbn [search_calls_p] in E; [injection E as <- <-; discriminate|].
    destruct fuel as [|fuel]; [lia|]. cbn [filter_map_search]. destruct (search_next_p AG (item_succs a) h) as [[o h1]|]; [|discriminate].
    destruct (search_calls_p AG (item_succs a) n h1) as [[os1 h2]|] eqn:E1; [|discriminate]. injection E as <- <-. destruct o as [i|]; [|discriminate].
    cbn [until_none filter] in F. destruct (au_terminal a (fst i)).
    - cbn [opt_all] in F. destruct (im i) as [x|]; [|discriminate]. destruct (opt_all im _); [|discriminate]. injection F as -> _. eauto.
    - destruct (IH h1 os1 h2 y r E1 F fuel ltac:(lia)) as (k & s & G). rewrite G. eauto.
  Qed.
  Lemma search_empty n : forall h os h', search_calls_p AG (item_succs a) n h = Some (os, h') -> In None os ->
    filter (fun i => au_terminal a (fst i)) (until_none os) = [] ->
    forall fuel, n <= fuel -> exists k s, filter_map_search FF (search_next_p AG (item_succs a)) fuel h = Some (None, k, s).
  Proof.
    induction n as [|n IH]; intros h os h' E HN F fuel L; cbn [search_calls_p] in E; [injection E as <- <-; destruct HN|].
    destruct fuel as [|fuel]; [lia|]. cbn [filter_map_search]. destruct (search_next_p AG (item_succs a) h) as [[o h1]|]; [|discriminate].
    destruct (search_calls_p AG (item_succs a) n h1) as [[os1 h2]|] eqn:E1; [|discriminate]. injection E as <- <-. destruct o as [i|]; [|eauto].
    destruct HN as [HN|HN]; [discriminate|]. cbn [until_none filter] in F. destruct (au_terminal a (fst i)); [discriminate|].
    destruct (IH h1 os1 h2 E1 HN F fuel ltac:(lia)) as (k & s & G). rewrite G. eauto.
  Qed.
  Lemma rec_next_first word n y r fuel : recognise_with a tti im H word n = Some (y :: r) -> n <= fuel ->
    exists s, rec_next a im H fuel (rec_start a tti H word) = Some (Some y, s).
  Proof.
    unfold recognise_with, recognise_int, rec_next, rec_start, filter_map_next. intros E L.
    destruct (search_calls_p AG (item_succs a) n (heap_collect item_weight wleb H (init_items a (opt_all tti word)))) as [[os h]|] eqn:E1; [|discriminate].
    destruct (search_first n _ _ _ y r E1 E fuel L) as (k & s & ->). eauto.
  Qed.
  Lemma rec_next_empty word n fuel : recognise_with a tti im H word n = Some [] -> recognise_ended a H (opt_all tti word) n -> n <= fuel ->
    exists s, rec_next a im H fuel (rec_start a tti H word) = Some (None, s).
  Proof.
    unfold recognise_with, recognise_int, rec_next, rec_start, filter_map_next, recognise_ended. intros E (os & h & E1 & HN) L. rewrite E1 in E.
    destruct (filter (fun i => au_terminal a (fst i)) (until_none os)) as [|i l] eqn:F.
    - destruct (search_empty n _ _ _ E1 HN F fuel L) as (k & s & ->). eauto.
    - cbn in E. destruct (im i); [|discriminate]. destruct (opt_all im l); discriminate.
  Qed.
End RecNext.

(* ---- the parse forest ---- *)
Section Forest.
  Context {S1 I1 S2 I2 T : Type} {K : Weight} (KL : RoundLaws K) (i2eqb : I2 -> I2 -> bool) (teqb : T -> T -> bool).
  Notation item1 := (item S1 I1 T K).
  Context (apply1 : I1 -> S1 -> list S1) (initial1 : S1) (m : rtmap (I1 := I1) (I2 := I2) (T := T) (K := K))
          (heap_order : list (pushdown (transition I1 T K)) -> list (pushdown (transition I1 T K)))
          {St : Type} (sub_next : iter St (item S2 I2 T K)) (ileb : item1 -> item1 -> bool) (OH : max_heap item1 ileb)
          (IW : forall a b, ileb a b = true -> wleb (item_weight a) (item_weight b) = true).
  Notation next := (ctf_next i2eqb teqb apply1 initial1 m heap_order sub_next ileb OH).
  Lemma ctf_drain n : forall st h fuel, length (mh_content OH h) = n -> 1 <= fuel ->
    exists l, gives (next fuel) (CTF ileb OH st (Some None) h) l /\ Permutation l (mh_content OH h) /\ nonincreasing item_weight wleb l.
  Proof.
    induction n as [|n IH]; intros st h fuel Ln Lf; (destruct fuel as [|fuel]; [lia|]).
    - exists []. assert (E : mh_content OH h = []) by now apply length_zero_iff_nil. split; [|rewrite E; split; constructor].
      apply (gives_coind _ (fun s l => s = CTF ileb OH st (Some None) h /\ l = [])); [|auto]. intros s l [-> ->]. exists (CTF ileb OH st (Some None) h). split; [|auto].
      cbn [ctf_next cf_out]. rewrite mh_peek_pop, (proj2 (mh_pop_none OH h) E). reflexivity.
    - destruct (mh_pop OH h) as [[x h']|] eqn:P; [|apply mh_pop_none in P; rewrite P in Ln; discriminate].
      pose proof (mh_pop_some OH h x h' P) as [P1 P2]. assert (L' : length (mh_content OH h') = n) by (apply Permutation_length in P1; cbn in P1; lia).
      destruct (IH st h' (S fuel) L' ltac:(lia)) as (l & G & Pl & NI). exists (x :: l). split; [|split].
      + apply gives_iff. exists (CTF ileb OH st (Some None) h'). split; [|exact G]. cbn [ctf_next cf_out]. rewrite mh_peek_pop, P. cbn. rewrite P. reflexivity.
      + rewrite P1. now constructor.
      + constructor; [|assumption]. intros y Hy. apply IW, P2. eapply Permutation_in; [symmetry; exact P1|]. right. eapply Permutation_in; [exact Pl|exact Hy].
  Qed.
  Lemma push_all l : forall h, Permutation (mh_content OH (fold_left (fun h i => mh_push OH i h) l h)) (l ++ mh_content OH h).
  Proof. induction l as [|i l IH]; intros h; cbn [fold_left app]; [reflexivity|]. rewrite IH, (mh_push_c OH i h). symmetry. apply Permutation_middle. Qed.
  Lemma ctf_none st st' fuel : sub_next st = Some (None, st') -> 1 <= fuel -> gives (next fuel) (ctf_new ileb OH st) [].
  Proof.
    intros E L. destruct fuel as [|fuel]; [lia|]. assert (PE : mh_pop OH (mh_empty OH) = None) by apply mh_pop_none, mh_empty_c.
    apply gives_iff. exists (CTF ileb OH st' (Some None) (mh_empty OH)). split.
    - unfold ctf_new. cbn [ctf_next cf_out]. rewrite mh_peek_pop, PE. cbn [option_map]. unfold next_input. cbn [cf_in cf_sub cf_out]. now rewrite E.
    - destruct (ctf_drain 0 st' (mh_empty OH) (S fuel)) as (l & G & Pl & _); [now rewrite mh_empty_c|lia|]. rewrite mh_empty_c in Pl. apply Permutation_sym, Permutation_nil in Pl. subst l. exact G.
  Qed.
  Lemma ctf_some st c r2 st' fuel : sub_next st = Some (Some (c, r2), st') -> 2 <= fuel ->
    exists l, gives (next fuel) (ctf_new ileb OH st) l /\ Permutation l (fine_items i2eqb teqb apply1 initial1 m heap_order r2) /\ nonincreasing item_weight wleb l.
  Proof.
    intros E L. destruct fuel as [|[|fuel]]; [lia|lia|]. assert (PE : mh_pop OH (mh_empty OH) = None) by apply mh_pop_none, mh_empty_c.
    set (h := fold_left (fun h i => mh_push OH i h) (fine_items i2eqb teqb apply1 initial1 m heap_order r2) (mh_empty OH)).
    assert (HC : Permutation (mh_content OH h) (fine_items i2eqb teqb apply1 initial1 m heap_order r2)) by (unfold h; rewrite push_all, mh_empty_c, app_nil_r; reflexivity).
    destruct (ctf_drain _ st' h (S (S fuel)) eq_refl ltac:(lia)) as (l & G & Pl & NI). exists l. split; [|split; [now rewrite Pl|assumption]].
    destruct (ctf_drain _ st' h (S fuel) eq_refl ltac:(lia)) as (l1 & G1 & _ & _).
    assert (FE : next (S (S fuel)) (ctf_new ileb OH st) = next (S fuel) (CTF ileb OH st' (Some None) h)).
    { unfold ctf_new. cbn [ctf_next cf_out]. rewrite (mh_peek_pop OH (mh_empty OH)), PE. cbn [option_map]. unfold next_input. cbn [cf_in cf_sub cf_out]. rewrite E. reflexivity. }
    assert (F1 : exists s', next (S fuel) (CTF ileb OH st' (Some None) h) = Some (hd_error l, s') /\ next (S (S fuel)) (CTF ileb OH st' (Some None) h) = Some (hd_error l, s')).
    { apply gives_iff in G. destruct G as (s' & E1 & _). exists s'. split; [|exact E1]. rewrite <- E1. cbn [ctf_next cf_out].
      destruct (mh_peek OH h); [|reflexivity]. unfold peek_input. cbn [cf_in]. reflexivity. }
    destruct F1 as (s' & F1 & F2). apply gives_iff in G. destruct G as (s2 & E2 & G). rewrite F2 in E2. injection E2 as <-.
    apply gives_iff. exists s'. split; [|exact G]. now rewrite FE, F1.
  Qed.

  Lemma fine_items_spec ts (IE : EqbSpec i2eqb) (TE : EqbSpec teqb) (ins : I1 -> I2) (HO : forall l, Permutation (heap_order l) l) :
    back i2eqb teqb ins ts m -> forall r2 conf r, In (conf, r) (fine_items i2eqb teqb apply1 initial1 m heap_order r2) <->
      (forall t, In t (pd_to_vec r) -> In t ts) /\ pd_to_vec r2 = map (image ins) (pd_to_vec r) /\
      c_word conf = [] /\ c_weight conf = run_weight (pd_to_vec r) /\ executes apply1 initial1 (pd_to_vec r) (c_storage conf).
  Proof.
    intros HB r2 conf r. unfold fine_items. rewrite in_flat_map. split.
    - intros (r0 & H1 & H2). apply check_run_spec in H2. destruct H2 as (-> & H2).
      apply (unap_run_spec i2eqb teqb IE TE KL ins heap_order HO ts m r2 r0 HB) in H1. tauto.
    - intros (H1 & H2 & H3). exists r. split; [|apply check_run_spec; auto]. apply (unap_run_spec i2eqb teqb IE TE KL ins heap_order HO ts m r2 r HB). auto.
  Qed.
  Lemma check_run_len (D : forall i s, length (apply1 i s) <= 1) (r : pushdown (transition I1 T K)) : length (check_run apply1 initial1 r) <= 1.
  Proof.
    unfold check_run. assert (G : forall (ts : list (transition I1 T K)) ss w, length ss <= 1 -> length (fst (fold_left (check_run_loop apply1) ts (ss, w))) <= 1).
    { clear -D. induction ts as [|t ts IH]; intros ss w L; cbn [fold_left]; [exact L|]. apply IH. cbn [check_run_loop fst]. destruct ss as [|s [|s' ss]]; cbn in *; [lia| |lia]. rewrite app_nil_r. apply D. }
    specialize (G (pd_iter r) [initial1] wone (le_n 1)). destruct (fold_left (check_run_loop apply1) (pd_iter r) ([initial1], wone)) as [res w]. cbn in *. now rewrite map_length.
  Qed.
  Lemma fine_items_NoDup ts (IE : EqbSpec i2eqb) (TE : EqbSpec teqb) (ins : I1 -> I2) (HO : forall l, Permutation (heap_order l) l) (D : forall i s, length (apply1 i s) <= 1) :
    back i2eqb teqb ins ts m -> NoDup ts -> forall r2, NoDup (map snd (fine_items i2eqb teqb apply1 initial1 m heap_order r2)).
  Proof.
    intros HB N r2. pose proof (unap_run_NoDup i2eqb teqb ins heap_order HO ts m r2 HB N) as NR. unfold fine_items.
    induction (unapproximate_run i2eqb teqb heap_order m r2) as [|r rs IH]; [constructor|]. inversion NR; subst. cbn [flat_map]. rewrite map_app. apply NoDup_app_intro.
    - pose proof (check_run_len D r) as L. destruct (check_run apply1 initial1 r) as [|x [|y l]]; cbn in *; [constructor|repeat constructor; intros []|lia].
    - now apply IH.
    - intros x Hx Hy. assert (Z : forall (r' y : pushdown (transition I1 T K)), In y (map snd (check_run apply1 initial1 r')) -> y = r').
      { intros r' y Hz. apply in_map_iff in Hz. destruct Hz as ([c r0] & <- & Hz). apply check_run_spec in Hz. apply Hz. }
      apply Z in Hx. subst x. apply in_map_iff in Hy. destruct Hy as (i & Ei & Hy). apply in_flat_map in Hy. destruct Hy as (r' & H3 & H4).
      assert (E : r = r'); [|subst; contradiction]. apply Z. rewrite <- Ei. now apply in_map.
  Qed.
End Forest.

(* ---- the approximated automata ---- *)
Lemma pda_has_iff {A T : Type} {K : Weight} (wadd : K -> K -> K) (wzero : K) (aeqb : A -> A -> bool) (teqb : T -> T -> bool) (AE : EqbSpec aeqb) (TE : EqbSpec teqb)
  ts initial M : pda_new wadd wzero aeqb teqb ts initial = Some M ->
  exists l, pda_list_transitions M = Some l /\ NoDup l /\ forall t, In t l <-> merged wadd wzero aeqb teqb ts t.
Proof.
  intros HM. destruct (C41_pda_merges A T K wadd wzero aeqb teqb AE TE ts initial M HM) as (_ & l & L1 & L2 & L3 & L4 & L5). exists l. split; [assumption|]. split; [assumption|].
  intros t. split; [apply L4|]. intros [(t0 & H0 & E1 & E2) W]. destruct (L5 t0 H0) as (t' & H' & F1 & F2). destruct (L4 t' H') as [_ W'].
  replace t with t'; [assumption|]. destruct t as [w k i], t' as [w' k' i']. cbn [t_word t_ins t_weight] in *. subst w w' i i'. f_equal. rewrite W, W'. reflexivity.
Qed.
Lemma pda_has_merged {A T : Type} {K : Weight} (wadd : K -> K -> K) (wzero : K) (aeqb : A -> A -> bool) (teqb : T -> T -> bool) (AE : EqbSpec aeqb) (TE : EqbSpec teqb)
  ts initial M t : pda_new wadd wzero aeqb teqb ts initial = Some M -> (pda_has M t <-> merged wadd wzero aeqb teqb ts t).
Proof.
  intros HM. destruct (pda_has_iff wadd wzero aeqb teqb AE TE ts initial M HM) as (l & L1 & _ & L2). unfold pda_has. split.
  - intros (l' & L1' & H). rewrite L1 in L1'. injection L1' as <-. now apply L2.
  - intros H. exists l. split; [assumption|now apply L2].
Qed.
Lemma pdi_eqb_spec {A} (aeqb : A -> A -> bool) : EqbSpec aeqb -> EqbSpec (pdi_eqb aeqb).
Proof.
  intros AE [c n] [c' n']. unfold pdi_eqb. cbn [pi_current pi_new]. rewrite andb_true_iff, (list_eqb_spec aeqb AE c c'), (list_eqb_spec aeqb AE n n'). split; [intros [-> ->]; reflexivity|].
  intros E. injection E as -> ->. auto.
Qed.

Section Approximated.
  Context {A B T : Type} {K : Weight} (wadd : K -> K -> K) (wzero : K) (aeqb : A -> A -> bool) (beqb : B -> B -> bool) (teqb : T -> T -> bool)
          (AE : EqbSpec aeqb) (BE : EqbSpec beqb) (TE : EqbSpec teqb).

  Lemma approx_images {I1 : Type} (ins : I1 -> pd_instr B) (ts : list (transition I1 T K)) : snd (approximate_transitions (pdi_eqb beqb) teqb ins [] ts) = map (image ins) ts.
  Proof. generalize (@nil (transition (pd_instr B) T K * list (transition I1 T K))). induction ts as [|t ts IH]; intros m; cbn; [reflexivity|].
    specialize (IH (rt_push (pdi_eqb beqb) teqb (image ins t) t m)). fold (image ins t). destruct (approximate_transitions (pdi_eqb beqb) teqb ins (rt_push (pdi_eqb beqb) teqb (image ins t) t m) ts). cbn in *. now rewrite IH. Qed.

  Lemma image_merged {I1 : Type} (ins : I1 -> pd_instr B) (l : list (transition I1 T K)) t : In t l ->
    exists t2, merged wadd wzero beqb teqb (map (image ins) l) t2 /\ t_word t2 = t_word t /\ t_ins t2 = ins (t_ins t).
  Proof.
    intros H. exists (Trans (t_word t) (wsum wadd wzero (map t_weight (filter (same_trans beqb teqb (image ins t)) (map (image ins) l)))) (ins (t_ins t))).
    split; [|auto]. split; [|reflexivity]. exists (image ins t). split; [now apply in_map|auto].
  Qed.
  Lemma run_image {I1 : Type} (ins : I1 -> pd_instr B) (l us : list (transition I1 T K)) : (forall t, In t us -> In t l) ->
    exists us2, image_run ins us us2 /\ forall t, In t us2 -> merged wadd wzero beqb teqb (map (image ins) l) t.
  Proof.
    induction us as [|t us IH]; intros H; [exists []; split; [constructor|intros t []]|].
    destruct IH as (us2 & I1' & I2'); [intros; apply H; now right|]. destruct (image_merged ins l t (H t (or_introl eq_refl))) as (t2 & M1 & M2).
    exists (t2 :: us2). split; [now constructor|]. intros u [<-|Hu]; auto.
  Qed.

  Lemma rlb_defined (f : A -> B) order ts initial M : (forall l, Permutation (order l) l) -> pda_new wadd wzero aeqb teqb ts initial = Some M ->
    exists M2 m l, rlb_approximate wadd wzero beqb teqb order f M = Some (M2, m) /\ NoDup l /\ (forall t, In t l <-> merged wadd wzero aeqb teqb ts t) /\
      pda_new wadd wzero beqb teqb (map (image (rlb_ins f)) l) (map f initial) = Some M2 /\ (RoundLaws K -> back (pdi_eqb beqb) teqb (rlb_ins f) l m).
  Proof.
    intros HO HM. destruct (pda_has_iff wadd wzero aeqb teqb AE TE ts initial M HM) as (l0 & L1 & L2 & L3).
    destruct (C41_pda_merges A T K wadd wzero aeqb teqb AE TE ts initial M HM) as (HI & _). unfold rlb_approximate. rewrite L1, HI. cbn [rlb st_ins st_storage].
    pose proof (approx_images (rlb_ins f) (order l0)) as AI. pose proof (fun KL => approx_spec (pdi_eqb beqb) teqb (pdi_eqb_spec beqb BE) TE KL (rlb_ins f) (order l0) []) as AS.
    destruct (approximate_transitions (pdi_eqb beqb) teqb (rlb_ins f) [] (order l0)) as [m ts2]. cbn in AI. subst ts2.
    assert (IL : forall t, In t (order l0) <-> merged wadd wzero aeqb teqb ts t).
    { intros t. rewrite <- L3. split; apply Permutation_in; [apply HO|symmetry; apply HO]. }
    destruct (proj2 (pda_new_defined wadd wzero beqb teqb BE TE (map (image (rlb_ins f)) (order l0)) (map f initial))) as [M2 HM2].
    { intros t Ht. apply in_map_iff in Ht. destruct Ht as (t1 & <- & Ht). apply IL in Ht. destruct Ht as [(t0 & Ht0 & E1 & E2) _].
      pose proof (proj1 (pda_new_defined wadd wzero aeqb teqb AE TE ts initial) (ex_intro _ M HM) t0 Ht0) as NE. cbn. rewrite <- E2. destruct (pi_current (t_ins t0)); [congruence|discriminate]. }
    exists M2, m, (order l0). unfold rlb_storage. rewrite HM2. split; [reflexivity|]. split; [eapply Permutation_NoDup; [symmetry; apply HO|assumption]|]. split; [assumption|]. split; [reflexivity|].
    intros KL t2. destruct (AS KL) as [_ AS']. rewrite AS'. reflexivity.
  Qed.
End Approximated.

Section ApproximatedTTS.
  Context {A T : Type} {K : Weight} (wadd : K -> K -> K) (wzero : K) (aeqb : A -> A -> bool) (teqb : T -> T -> bool) (AE : EqbSpec aeqb) (TE : EqbSpec teqb).
  Lemma tts_defined order ts initial : (forall l, Permutation (order l) l) -> wf initial ->
    exists M2 m l, tts_approximate wadd wzero aeqb teqb order (tsa_new aeqb teqb ts initial) = Some (M2, m) /\ Permutation l ts /\
      pda_new wadd wzero aeqb teqb (map (image tts_ins) l) (spine initial) = Some M2 /\ (RoundLaws K -> back (pdi_eqb aeqb) teqb tts_ins l m).
  Proof.
    intros HO W. destruct (C14_tsa_reads_back A T K aeqb teqb AE TE ts initial) as (HI & l0 & L1 & L2). unfold tts_approximate. rewrite L1, HI. cbn [tts st_ins st_storage].
    rewrite (tts_storage_spec initial W).
    pose proof (approx_images aeqb teqb tts_ins (order l0)) as AI. pose proof (fun KL => approx_spec (pdi_eqb aeqb) teqb (pdi_eqb_spec aeqb AE) TE KL tts_ins (order l0) []) as AS.
    destruct (approximate_transitions (pdi_eqb aeqb) teqb tts_ins [] (order l0)) as [m ts2]. cbn in AI. subst ts2.
    destruct (proj2 (pda_new_defined wadd wzero aeqb teqb AE TE (map (image tts_ins) (order l0)) (spine initial))) as [M2 HM2].
    { intros t Ht. apply in_map_iff in Ht. destruct Ht as (t1 & <- & Ht). cbn. destruct (t_ins t1); discriminate. }
    exists M2, m, (order l0). rewrite HM2. split; [reflexivity|]. split; [now rewrite HO|]. split; [reflexivity|].
    intros KL t2. destruct (AS KL) as [_ AS']. rewrite AS'. reflexivity.
  Qed.
End ApproximatedTTS.

Section ForestGen.
  Context {S1 I1 B T : Type} {K : Weight} (KL : RoundLaws K) (wadd : K -> K -> K) (wzero : K) (beqb : B -> B -> bool) (teqb : T -> T -> bool) (BE : EqbSpec beqb) (TE : EqbSpec teqb)
          (apply1 : I1 -> S1 -> list S1) (initial1 : S1) (final1 : S1 -> Prop) (ins : I1 -> pd_instr B) (R : S1 -> list B -> Prop)
          (HOM : forall i s s' s2, R s s2 -> In s' (apply1 i s) -> exists s2', In s2' (pdi_apply beqb (ins i) s2) /\ R s' s2')
          (FIN : forall s s2, R s s2 -> (length s2 = 1 <-> final1 s))
          (l : list (transition I1 T K)) (m : rtmap (I1 := I1) (I2 := pd_instr B) (T := T) (K := K)) (BK : back (pdi_eqb beqb) teqb ins l m)
          (init2 : list B) (RI : R initial1 init2) (M2 : pda B T K) (HM2 : pda_new wadd wzero beqb teqb (map (image ins) l) init2 = Some M2)
          (shuffle : list (transition (pd_instr nat) nat K) -> list (transition (pd_instr nat) nat K)) (SH : forall l, Permutation (shuffle l) l) (H : max_heap (item (list nat) (pd_instr nat) nat K * K) (wi_leb wleb))
          (heap_order : list (pushdown (transition I1 T K)) -> list (pushdown (transition I1 T K))) (HO : forall l, Permutation (heap_order l) l) ileb (OH : max_heap (item S1 I1 T K) ileb)
          (IW : forall a b, ileb a b = true -> wleb (item_weight a) (item_weight b) = true).
  Notation AU := (pda_automaton shuffle M2).
  Notation next fuel := (ctf_next (pdi_eqb beqb) teqb apply1 initial1 m heap_order
                  (rec_next AU (item_un pdi_un_integerise un_list (pa_t M2) (pa_a M2)) H fuel) ileb OH fuel).
  Notation start word := (ctf_new ileb OH (rec_start AU (int_find_key teqb (pa_t M2)) H word)).

  Lemma exec_det us : forall s s1 s2, executes (K := K) (T := T) (pdi_apply beqb) s us s1 -> executes (pdi_apply beqb) s us s2 -> s1 = s2.
  Proof.
    induction us as [|t us IH]; intros s s1 s2 E1 E2.
    - inversion E1; inversion E2; congruence.
    - inversion E1 as [|? ? ? x ? X1 X2]; inversion E2 as [|? ? ? y ? Y1 Y2]; subst.
      assert (x = y) as ->; [|eapply IH; eassumption]. pose proof (pdi_apply_det beqb (t_ins t) s) as D. revert D X1 Y1. clear.
      destruct (pdi_apply beqb (t_ins t) s) as [|a [|b r]]; cbn; [intros _ []|intros _ [<-|[]] [<-|[]]; reflexivity|lia].
  Qed.

  Lemma forest_some word n c rest fuel : pda_recognise teqb shuffle M2 H word n = Some (c :: rest) -> n <= fuel -> 2 <= fuel ->
    exists outs, (forall k, run (next fuel) k (start word) = Some (map (nth_error outs) (seq 0 k))) /\
      (forall conf r, In (conf, r) outs <-> accepting_run apply1 initial1 (fun t => In t l) final1 word (pd_to_vec r) (c_storage conf) /\
                       c_word conf = [] /\ c_weight conf = run_weight (pd_to_vec r) /\ exact_image ins (pd_to_vec r) (pd_to_vec (snd c))) /\
      nonincreasing item_weight wleb outs /\
      ((forall i s, length (apply1 i s) <= 1) -> NoDup l -> NoDup (map snd outs)).
  Proof.
    intros E LF L2. destruct (C14_pda_recognise B T K wadd wzero beqb teqb BE TE KL _ _ shuffle SH M2 HM2 H word n) as [C _].
    destruct (C _ E) as (SO & _ & _ & _ & _). destruct c as [cc cr]. destruct (SO cc cr (or_introl eq_refl)) as ((X1 & X2 & X3 & X4) & _).
    destruct (rec_next_first AU (int_find_key teqb (pa_t M2)) (item_un pdi_un_integerise un_list (pa_t M2) (pa_a M2)) H word n (cc, cr) rest fuel E LF) as [s' N1].
    destruct (ctf_some (pdi_eqb beqb) teqb apply1 initial1 m heap_order _ ileb OH IW _ _ _ _ fuel N1 L2) as (outs & G & P & NI).
    exists outs. split; [exact G|]. split; [|split; [exact NI|]].
    - intros conf r. assert (IFF : In (conf, r) outs <-> In (conf, r) (fine_items (pdi_eqb beqb) teqb apply1 initial1 m heap_order cr)).
      { split; apply Permutation_in; [exact P|symmetry; exact P]. }
      rewrite IFF, (fine_items_spec KL (pdi_eqb beqb) teqb apply1 initial1 m heap_order l (pdi_eqb_spec beqb BE) TE ins HO BK). cbn [snd]. unfold exact_image, accepting_run.
      split.
      + intros (A1 & A2 & A3 & A4 & A5). 
        assert (IR : image_run ins (pd_to_vec r) (pd_to_vec cr)) by (apply exact_is_image; exact A2).
        destruct (hom_executes apply1 (pdi_apply beqb) ins R HOM _ _ _ A5 init2 (pd_to_vec cr) RI IR) as (s2' & Y1 & Y2).
        split; [|auto]. split; [assumption|]. split; [assumption|]. split; [rewrite <- X3; symmetry; now apply image_word with (ins := ins)|]. apply (FIN _ _ Y2). rewrite (exec_det _ _ _ _ Y1 X1). exact X4.
      + intros ((A1 & A2 & A3 & A4) & A5 & A6 & A7). auto.
    - intros D ND. eapply Permutation_NoDup; [apply Permutation_map; symmetry; exact P|].
      exact (fine_items_NoDup (pdi_eqb beqb) teqb apply1 initial1 m heap_order l (pdi_eqb_spec beqb BE) TE ins HO D BK ND cr).
  Qed.

  (* every run has an image *)
  Lemma gen_image us s : executes apply1 initial1 us s -> (forall t, In t us -> In t l) ->
    exists us2 s2, image_run ins us us2 /\ (forall t, In t us2 -> pda_has M2 t) /\ executes (pdi_apply beqb) init2 us2 s2 /\ R s s2 /\ run_word us2 = run_word us.
  Proof.
    intros E HT. destruct (run_image wadd wzero beqb teqb ins l us HT) as (us2 & J1 & J2).
    destruct (hom_executes apply1 (pdi_apply beqb) ins R HOM _ _ _ E init2 us2 RI J1) as (s2 & Y1 & Y2). exists us2, s2.
    split; [assumption|]. split; [intros t Ht; apply (pda_has_merged wadd wzero beqb teqb BE TE _ _ _ t HM2); auto|]. split; [assumption|]. split; [assumption|]. now apply image_word with (ins := ins).
  Qed.

  Lemma forest_none word n fuel : pda_recognise teqb shuffle M2 H word n = Some [] -> recognise_ended AU H (opt_all (int_find_key teqb (pa_t M2)) word) n -> n <= fuel -> 1 <= fuel ->
    (forall k, run (next fuel) k (start word) = Some (repeat None k)) /\ forall us s, ~ accepting_run apply1 initial1 (fun t => In t l) final1 word us s.
  Proof.
    intros E EN LF L1. split.
    - intros k. destruct (rec_next_empty AU (int_find_key teqb (pa_t M2)) (item_un pdi_un_integerise un_list (pa_t M2) (pa_a M2)) H word n fuel E EN LF) as [s' N1].
      pose proof (ctf_none (pdi_eqb beqb) teqb apply1 initial1 m heap_order _ ileb OH IW _ _ fuel N1 L1 k) as G. rewrite G. f_equal.
      generalize 0. clear. induction k as [|k IH]; intros a; cbn; [reflexivity|]. rewrite IH. now destruct a.
    - intros us s (A1 & A2 & A3 & A4). destruct (gen_image us s A1 A2) as (us2 & s2 & J1 & J2 & J3 & J4 & J5).
      destruct (C14_pda_recognise B T K wadd wzero beqb teqb BE TE KL _ _ shuffle SH M2 HM2 H word n) as [C _].
      destruct (C _ E) as (_ & _ & EX & _ & _). specialize (EX EN us2 s2). apply EX. split; [exact J3|]. split; [intros t Ht; apply (pda_has_merged wadd wzero beqb teqb BE TE _ _ _ t HM2); auto|].
      split; [congruence|]. now apply (FIN _ _ J4).
  Qed.

  (* when nothing is merged, images are exact *)
  Lemma no_merge us us2 : (forall k, wadd wzero k = k) -> NoDup l -> (forall t t', In t l -> In t' l -> t_word t = t_word t' -> ins (t_ins t) = ins (t_ins t') -> t = t') ->
    (forall t, In t us -> In t l) -> (forall t, In t us2 -> pda_has M2 t) -> image_run ins us us2 -> exact_image ins us us2.
  Proof.
    intros UZ ND INJ H1 H2 F. unfold exact_image. induction F as [|t t2 us us2 [E1 E2] F IH]; [reflexivity|]. cbn [map]. f_equal; [|apply IH; intros; [apply H1|apply H2]; now right].
    assert (Ht : In t l) by (apply H1; now left). assert (Ht2 : pda_has M2 t2) by (apply H2; now left). apply (pda_has_merged wadd wzero beqb teqb BE TE _ _ _ t2 HM2) in Ht2.
    destruct Ht2 as [_ W]. destruct t2 as [w2 k2 i2]. cbn [t_word t_ins t_weight] in *. subst w2 i2. f_equal. rewrite W.
    assert (G : filter (same_trans beqb teqb (Trans (t_word t) k2 (ins (t_ins t)))) (map (image ins) l) = [image ins t]).
    { clear -ND INJ Ht BE TE. assert (SS : forall t', In t' l -> same_trans beqb teqb (Trans (t_word t) k2 (ins (t_ins t))) (image ins t') = true -> t' = t).
      { intros t' H' E. apply (same_trans_iff beqb teqb BE TE) in E. destruct E as [E1 E2]. cbn in E1, E2. apply INJ; auto. }
      assert (ST : same_trans beqb teqb (Trans (t_word t) k2 (ins (t_ins t))) (image ins t) = true) by (apply (same_trans_iff beqb teqb BE TE); auto).
      clear INJ. induction l as [|a r IH]; [destruct Ht|]. cbn [map filter]. inversion ND; subst.
      destruct (same_trans beqb teqb (Trans (t_word t) k2 (ins (t_ins t))) (image ins a)) eqn:E.
      - rewrite (SS a (or_introl eq_refl) E). f_equal. rewrite (SS a (or_introl eq_refl) E) in *. clear -SS H1. induction r as [|b r IH]; [reflexivity|]. cbn [map filter].
        destruct (same_trans beqb teqb (Trans (t_word t) k2 (ins (t_ins t))) (image ins b)) eqn:E; [exfalso; apply H1; left; apply SS; [right; now left|assumption]|].
        apply IH; [intros; apply SS; [destruct H; [left; assumption|right; now right]|assumption]|intros Hin; apply H1; now right].
      - apply IH; [assumption| |intros; apply SS; [now right|assumption]]. destruct Ht as [->|Ht]; [congruence|assumption]. }
    rewrite G. cbn. apply UZ.
  Qed.
End ForestGen.
