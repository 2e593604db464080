(* The conversion of an MCFG to an LCFRS when its search meets every pair at most once. *)
From Verif Require Import Base M_Agenda M_Search M_Util M_Recog M_Automata M_CFG M_TreeStack M_Grammar M_Conversion
  S_Search S_Recog S_CFG S_Grammar S_Enter P_Agenda P_Search P_Automata P_TreeStack P_Grammar P_GrammarCFG P_Conversion P_Enter.

Lemma walk_reachable {I} (succs : I -> list I) init p : walk succs init p -> forall x q, p = x :: q -> reachable succs init x.
Proof.
  induction 1 as [x Hx|x y p W IH Hy]; intros z q Eq; injection Eq as <- <-; [now constructor|]. eapply reach_step; [apply (IH x p eq_refl)|assumption].
Qed.
Lemma nodup_app_l {X} (a b : list X) : NoDup (a ++ b) -> NoDup a.
Proof. induction a as [|x a IH]; intros H; [constructor|]. inversion H; subst. constructor; [|auto]. intros Hx. apply H2, in_or_app. now left. Qed.
Lemma nodup_app_r {X} (a b : list X) : NoDup (a ++ b) -> NoDup b.
Proof. induction a as [|x a IH]; intros H; [assumption|]. inversion H; auto. Qed.
Lemma nodup_app_dis {X} (a b : list X) x : NoDup (a ++ b) -> In x a -> In x b -> False.
Proof. induction a as [|y a IH]; intros H Ha Hb; [contradiction|]. inversion H; subst. destruct Ha as [->|Ha]; [apply H2, in_or_app; now right|auto]. Qed.
Lemma nodup_app_intro {X} (a b : list X) : NoDup a -> NoDup b -> (forall z, In z a -> ~ In z b) -> NoDup (a ++ b).
Proof.
  induction a as [|y a IH]; intros NA NB DJ; [assumption|]. inversion NA; subst. cbn. constructor.
  - intros Hin. apply in_app_or in Hin. destruct Hin as [H|H]; [contradiction|]. exact (DJ y (or_introl eq_refl) H).
  - apply IH; auto. intros z Hz. apply DJ. now right.
Qed.
Lemma nodup_flat_same {X Y} (F : X -> list Y) l a b y : NoDup (flat_map F l) -> In a l -> In b l -> In y (F a) -> In y (F b) -> a = b.
Proof.
  induction l as [|c l IH]; intros ND Ha Hb Ya Yb; [contradiction|]. cbn in ND. destruct Ha as [->|Ha], Hb as [->|Hb]; [reflexivity| | |].
  - exfalso. eapply nodup_app_dis; [exact ND|exact Ya|]. apply in_flat_map. eauto.
  - exfalso. eapply nodup_app_dis; [exact ND|exact Yb|]. apply in_flat_map. eauto.
  - apply IH; auto. eapply nodup_app_r; eauto.
Qed.
Lemma nodup_flat_one {X Y} (F : X -> list Y) l a : NoDup (flat_map F l) -> In a l -> NoDup (F a).
Proof.
  induction l as [|c l IH]; intros ND Ha; [contradiction|]. cbn in ND. destruct Ha as [->|Ha]; [eapply nodup_app_l; eauto|]. apply IH; [eapply nodup_app_r; eauto|assumption].
Qed.
Lemma nodup_flat_filter {X Y} (F : X -> list Y) (P : X -> bool) l : NoDup (flat_map F l) -> NoDup (flat_map F (filter P l)).
Proof.
  induction l as [|c l IH]; intros ND; [constructor|]. cbn in ND. cbn. specialize (IH (nodup_app_r _ _ ND)). destruct (P c); [|assumption]. cbn.
  assert (DJ : forall y, In y (F c) -> ~ In y (flat_map F (filter P l))).
  { intros y Hy Hin. eapply nodup_app_dis; [exact ND|exact Hy|]. apply in_flat_map in Hin. destruct Hin as (z & Hz & Hy'). apply filter_In in Hz. apply in_flat_map. exists z. tauto. }
  apply nodup_app_l in ND. revert ND DJ IH. generalize (flat_map F (filter P l)). clear. induction (F c) as [|y t IHt]; intros r ND DJ NR; [assumption|]. inversion ND; subst.
  cbn. constructor; [intros Hin; apply in_app_or in Hin; destruct Hin; [contradiction|exact (DJ y (or_introl eq_refl) H)]|]. apply IHt; auto. intros z Hz. apply DJ. now right.
Qed.
Lemma nodup_of_map {X Y} (F : X -> Y) l : NoDup (map F l) -> NoDup l.
Proof. induction l as [|x l IH]; intros H; [constructor|]. cbn in H. inversion H; subst. constructor; [|auto]. intros Hx. apply H2. now apply in_map. Qed.
Lemma nodup_pair {X Y} (l : list X) : forall ds : list Y, NoDup l -> NoDup (map fst (combine l ds)) /\ incl (map fst (combine l ds)) l.
Proof.
  induction l as [|x l IH]; intros [|d ds] ND; cbn; try (solve [split; [constructor|intros z []]]). inversion ND; subst. destruct (IH ds H2) as [I1 I2]. split.
  - constructor; [|assumption]. intros Hx. apply H1. now apply I2.
  - intros z [<-|Hz]; [now left|right; now apply I2].
Qed.

Section Conv.
  Context {N T W : Type} (neqb : N -> N -> bool) (E : EqbSpec neqb).
  Context (rules : list (prule N T W)) (fan : list (N * nat)) (init : N).
  Notation succs := (fun x => match conv_succs neqb fan rules x with Some l => l | None => [] end).

  Lemma entered_items : entered_once succs [(init, [])] ->
    forall n, S (length (universe neqb rules fan init)) <= n ->
    forall x, reachable succs [(init, [])] x -> In x (conv_items neqb fan rules init n).
  Proof.
    intros EO n L x Hx. rewrite (conv_items_stable neqb E rules fan init n L). unfold conv_items, conv_calls.
    set (m := S (length (universe neqb rules fan init))). set (A := deque_agenda (@dnt N)). set (s := unique_from A (bfs_init [(init, [])])).
    assert (NN : In None (fst (unique_calls A succs (dnt_eqb neqb) m s))).
    { apply (unique_ends (dnt_eqb neqb) (dnt_eqb_spec neqb E) A _ (lossless_sound _ _ (deque_lossless (@dnt N)))). apply (reachable_universe neqb E). }
    assert (IV : once_inv A (fun l => l) succs [(init, [])] s) by (apply (once_init A _ succs _ EO); reflexivity).
    destruct (once_calls (dnt_eqb neqb) (dnt_eqb_spec neqb E) A _ (deque_lossless (@dnt N)) succs _ EO m s IV) as [R1 R2].
    rewrite <- R1. apply (unique_exhaustive A _ (deque_lossless (@dnt N)) succs (dnt_eqb neqb) (dnt_eqb_spec neqb E) m (bfs_init [(init, [])]) [(init, [])]); [reflexivity|exact (R2 NN)|exact Hx].
  Qed.

  Lemma edge_inv x y : In y (succs x) -> exists r i fs ds, In r rules /\ pr_head r = fst x /\ nth_error (pr_tail r) i = Some (fst y) /\
    opt_all (fun n => fan_get neqb n fan) (pr_tail r) = Some fs /\ composition_deletes (kept (snd x) (pr_comp r)) fs = Some ds /\ nth_error ds i = Some (snd y).
  Proof.
    cbv beta. destruct (conv_succs neqb fan rules x) as [l|] eqn:El; [|intros []]. unfold conv_succs in El. destruct (opt_all _ _) as [ls|] eqn:O; [|discriminate]. injection El as <-. intros Hy.
    apply in_concat in Hy. destruct Hy as (l & Hl & Hy). apply opt_all_Some in O. destruct (F2_in_r _ _ _ O l Hl) as (r & Hr & Er). apply in_rules_of in Hr; [|assumption]. destruct Hr as [Hr Eh].
    unfold conv_succs1 in Er. destruct (opt_all (fun n => fan_get neqb n fan) (pr_tail r)) as [fs|] eqn:OF; [|injection Er as <-; destruct Hy].
    destruct (composition_deletes _ fs) as [ds|] eqn:D; [|discriminate]. injection Er as <-. apply In_nth_error in Hy. destruct Hy as [i Hi]. apply combine_nth_inv in Hi. destruct Hi as [H1 H2].
    exists r, i, fs, ds. repeat split; assumption.
  Qed.

  (* every nonterminal is used at most once in all right-hand sides, and the initial one never *)
  Lemma used_once_entered : NoDup (init :: flat_map pr_tail rules) -> entered_once succs [(init, [])].
  Proof.
    intros ND. inversion ND as [|? ? NI NF]; subst.
    assert (SAME : forall x, reachable succs [(init, [])] x -> forall x', reachable succs [(init, [])] x' -> fst x = fst x' -> x = x').
    { induction 1 as [x Hx|x y Hx IH Hy]; intros x' Hx' Ef.
      - destruct Hx as [<-|[]]. cbn in Ef. destruct Hx' as [x' H|z x' Hz H]; [destruct H as [<-|[]]; reflexivity|].
        apply edge_inv in H. destruct H as (r & i & fs & ds & Hr & _ & Hi & _). exfalso. apply NI. rewrite Ef. apply in_flat_map. exists r. split; [assumption|eapply nth_error_In; eauto].
      - apply edge_inv in Hy. destruct Hy as (r & i & fs & ds & Hr & Eh & Hi & Ofs & Ods & Hd).
        destruct Hx' as [x' H|z x' Hz H].
        + exfalso. destruct H as [<-|[]]. cbn in Ef. apply NI. rewrite <- Ef. apply in_flat_map. exists r. split; [assumption|eapply nth_error_In; eauto].
        + apply edge_inv in H. destruct H as (r' & i' & fs' & ds' & Hr' & Eh' & Hi' & Ofs' & Ods' & Hd').
          assert (r' = r) by (rewrite Ef in Hi; eapply nodup_flat_same; [exact NF|exact Hr'|exact Hr|eapply nth_error_In; exact Hi'|eapply nth_error_In; exact Hi]). subst r'.
          assert (i' = i) by (pose proof (nodup_flat_one _ _ _ NF Hr) as NT; rewrite Ef in Hi; apply (proj1 (NoDup_nth_error _) NT); [apply nth_error_Some; congruence|congruence]). subst i'.
          assert (x = z) by (apply IH; [assumption|congruence]). subst z. assert (fs' = fs) by congruence. subst fs'. assert (ds' = ds) by congruence. subst ds'.
          destruct y as [B d], x' as [B' d']. cbn in *. congruence. }
    split; [constructor; [intros []|constructor]|]. intros x y ((p & Wp) & Hy & _). split; [|split].
    - intros [<-|[]]. apply edge_inv in Hy. destruct Hy as (r & i & fs & ds & Hr & _ & Hi & _). apply NI. apply in_flat_map. exists r. split; [assumption|eapply nth_error_In; eauto].
    - intros x' ((p' & Wp') & Hy' & _). apply SAME; [exact (walk_reachable _ _ _ Wp' _ _ eq_refl)|exact (walk_reachable _ _ _ Wp _ _ eq_refl)|].
      apply edge_inv in Hy. destruct Hy as (r & i & fs & ds & Hr & Eh & Hi & _). apply edge_inv in Hy'. destruct Hy' as (r' & i' & fs' & ds' & Hr' & Eh' & Hi' & _).
      assert (r' = r) by (eapply nodup_flat_same; [exact NF|exact Hr'|exact Hr|eapply nth_error_In; exact Hi'|eapply nth_error_In; exact Hi]). subst r'. rewrite <- Eh, <- Eh'. reflexivity.
    - assert (ND2 : NoDup (succs x)).
      { apply (nodup_of_map fst). cbv beta. destruct (conv_succs neqb fan rules x) as [l|] eqn:El; [|constructor]. unfold conv_succs in El. destruct (opt_all _ _) as [ls|] eqn:O; [|discriminate]. injection El as <-.
        apply opt_all_Some in O. unfold rules_of in O. pose proof (nodup_flat_filter pr_tail (fun r => neqb (fst x) (pr_head r)) rules NF) as NR. revert O NR. generalize (filter (fun r => neqb (fst x) (pr_head r)) rules). clear.
        intros rs F. intros NR. enough (G : NoDup (map fst (concat ls)) /\ incl (map fst (concat ls)) (flat_map pr_tail rs)) by apply G.
        induction F as [|r l rs ls Hr F IH]; [split; [constructor|intros z []]|]. cbn in NR. destruct (IH (nodup_app_r _ _ NR)) as [I1 I2]. cbn. rewrite map_app.
        assert (L : NoDup (map fst l) /\ incl (map fst l) (pr_tail r)).
        { unfold conv_succs1 in Hr. destruct (opt_all _ _) as [fs|]; [|injection Hr as <-; split; [constructor|intros z []]]. destruct (composition_deletes _ _) as [ds|]; [|discriminate]. injection Hr as <-.
          apply nodup_pair. eapply nodup_app_l; eauto. }
        destruct L as [L1 L2]. split.
        - assert (DJ : forall z, In z (map fst l) -> ~ In z (map fst (concat ls))) by (intros z Hz Hz'; eapply nodup_app_dis; [exact NR|apply L2; exact Hz|apply I2; exact Hz']).
          exact (nodup_app_intro _ _ L1 I1 DJ).
        - intros z Hz. apply in_or_app. apply in_app_or in Hz. destruct Hz; [left; auto|right; auto]. }
      intros l r Eq. cbv beta in ND2, Eq. rewrite Eq in ND2. now apply NoDup_remove_2 in ND2.
  Qed.
End Conv.

(* renaming the nodes injectively keeps the property *)
Lemma walk_map {I J} (h : I -> J) (succs : I -> list I) (succs' : J -> list J) (init : list I) :
  (forall x, succs' (h x) = map h (succs x)) ->
  forall p, walk succs' (map h init) p <-> exists q, p = map h q /\ walk succs init q.
Proof.
  intros HS p. split.
  - induction 1 as [x Hx|x y p Wp (q & Eq & Wq) Hy].
    + apply in_map_iff in Hx. destruct Hx as (z & <- & Hz). exists [z]. split; [reflexivity|now constructor].
    + destruct q as [|z q]; [discriminate|]. cbn in Eq. injection Eq as -> ->. rewrite HS in Hy. apply in_map_iff in Hy. destruct Hy as (u & <- & Hu).
      exists (u :: z :: q). split; [reflexivity|now constructor].
  - intros (q & -> & Wq). induction Wq as [x Hx|x y q Wq IH Hy]; cbn in *; constructor; [now apply in_map|assumption|]. rewrite HS. now apply in_map.
Qed.
Lemma entered_map {I J} (h : I -> J) (succs : I -> list I) (succs' : J -> list J) (init : list I) :
  (forall x y, h x = h y -> x = y) -> (forall x, succs' (h x) = map h (succs x)) ->
  entered_once succs init -> entered_once succs' (map h init).
Proof.
  intros HI HS [ND EO].
  assert (FW : forall x' y', forward succs' (map h init) x' y' -> exists x y, x' = h x /\ y' = h y /\ forward succs init x y).
  { intros x' y' ((p & Wp) & Hy & ND'). pose proof (proj1 (walk_map h succs succs' init HS _) Wp) as (q & Eq & Wq). destruct q as [|x q]; [discriminate|]. cbn in Eq. injection Eq as -> ->.
    rewrite HS in Hy. apply in_map_iff in Hy. destruct Hy as (y & <- & Hy). exists x, y. split; [reflexivity|]. split; [reflexivity|]. split; [now exists q|]. split; [assumption|].
    intros D. apply ND'. intros p' Wp'. apply (walk_map h succs succs' init HS) in Wp'. destruct Wp' as (q' & Eq & Wq'). destruct q' as [|x2 q']; [discriminate|]. cbn in Eq. injection Eq as Ex ->.
    apply HI in Ex. subst x2. change (h x :: map h q') with (map h (x :: q')). apply in_map. now apply D. }
  split.
  - clear -ND HI. induction ND as [|x l Hx ND IH]; cbn; constructor; [|assumption]. intros Hin. apply in_map_iff in Hin. destruct Hin as (z & Ez & Hz). apply HI in Ez. now subst.
  - intros x' y' F. destruct (FW x' y' F) as (x & y & -> & -> & F0). destruct (EO x y F0) as (O1 & O2 & O3). split; [|split].
    + intros Hin. apply in_map_iff in Hin. destruct Hin as (z & Ez & Hz). apply HI in Ez. now subst.
    + intros x2' F2. destruct (FW x2' (h y) F2) as (x2 & y2 & -> & Ey & F3). apply HI in Ey. subst y2. now rewrite (O2 x2 F3).
    + intros l r Eq Hin. rewrite HS in Eq.
      assert (G : exists l0 r0, succs x = l0 ++ y :: r0 /\ l = map h l0 /\ r = map h r0).
      { clear -Eq HI. revert l Eq. induction (succs x) as [|z zs IH]; intros [|a l] Eq; cbn in Eq; try discriminate.
        - injection Eq as Ez <-. apply HI in Ez. subst z. exists [], zs. auto.
        - injection Eq as <- Eq. destruct (IH l Eq) as (l0 & r0 & -> & -> & ->). exists (z :: l0), r0. auto. }
      destruct G as (l0 & r0 & G1 & -> & ->). apply (O3 l0 r0 G1). rewrite <- map_app in Hin. apply in_map_iff in Hin. destruct Hin as (z & Ez & Hz). apply HI in Ez. now subst.
Qed.

Section NonDeleting.
  Context {N T : Type} {K : Weight} (neqb : N -> N -> bool) (E : EqbSpec neqb) (g : mcfg N T K) (f : N -> nat).
  Context (FO : fanouts_ok (mg_rules g) f) (VX : forall r, In r (mg_rules g) -> vars_exist f r).
  Context (DT : defined_tails (mg_rules g)).

  Lemma once_language : (forall fan, read_fanouts neqb (mg_rules g) = Some fan ->
      (forall r, In r (mg_rules g) -> fan_get neqb (pr_head r) fan = Some (length (pr_comp r))) -> (forall A x, fan_get neqb A fan = Some x -> x = f A) ->
      entered_once (fun x => match conv_succs neqb fan (mg_rules g) x with Some l => l | None => [] end) [(mg_initial g, [])]) ->
    exists n0, forall n, n0 <= n -> exists g', lcfrs_from_mcfg neqb n g = Some g' /\ forall w k, mcfg_derives g' w k <-> mcfg_derives g w k.
  Proof.
    intros EO. destruct (fanouts_read neqb E g f FO) as (fan & HF & FR & FF). specialize (EO fan HF FR FF).
    exists (S (length (universe neqb (mg_rules g) fan (mg_initial g)))). intros n L.
    destruct (lcfrs_from_mcfg neqb n g) as [g'|] eqn:HG; [|exfalso; now apply (conv_main_defined neqb E g f FO VX n DT)].
    exists g'. split; [reflexivity|]. intros w k. split; [exact (conv_main_sound neqb E g f FO VX n g' w k HG)|].
    apply (conv_main_complete neqb E g f FO VX n g' HG). intros fan' x HF' Hx. assert (fan' = fan) by congruence. subst fan'.
    now apply (entered_items neqb E (mg_rules g) fan (mg_initial g) EO n L).
  Qed.

  Lemma nondel_succs fan : (forall r, In r (mg_rules g) -> nondeleting f r) ->
    (forall r, In r (mg_rules g) -> fan_get neqb (pr_head r) fan = Some (length (pr_comp r))) -> (forall A x, fan_get neqb A fan = Some x -> x = f A) ->
    forall A, (fun x => match conv_succs neqb fan (mg_rules g) x with Some l => l | None => [] end) (A, []) =
      map (fun B => (B, [])) (flat_map pr_tail (filter (fun r => neqb A (pr_head r)) (mg_rules g))).
  Proof.
    intros ND FR FF A. cbv beta. unfold conv_succs, rules_of. cbn [fst snd].
    assert (G : forall r, In r (mg_rules g) -> conv_succs1 neqb fan [] r = Some (map (fun B => (B, [])) (pr_tail r))).
    { intros r Hr. unfold conv_succs1. destruct (opt_all_total (fun n => fan_get neqb n fan) (pr_tail r)) as [fs O].
      { intros B HB. destruct (DT r B Hr HB) as (r' & Hr' & <-). rewrite FR by assumption. discriminate. }
      rewrite O. unfold kept. rewrite kept_nil.
      destruct (composition_deletes_ok (pr_comp r) fs) as [ds D].
      { intros i j Hij. rewrite (opt_all_len _ _ _ O). destruct (VX r Hr i j Hij) as (B & HB & _). apply nth_error_Some. congruence. }
      rewrite D. cbn. f_equal. apply composition_deletes_spec in D. destruct D as (D1 & _ & D3). rewrite (opt_all_len _ _ _ O) in D1.
      assert (Z : forall i d, nth_error ds i = Some d -> d = []).
      { intros i d Hd. destruct (D3 i d Hd) as (_ & x & Hx & V). destruct d as [|j d]; [reflexivity|]. exfalso. destruct (proj1 (V j) (or_introl eq_refl)) as [Hj Nj]. apply Nj.
        rewrite (opt_all_nth _ _ _ O i) in Hx. destruct (nth_error (pr_tail r) i) as [B|] eqn:HB; [|discriminate]. apply (ND r Hr i B j HB). now rewrite <- (FF B x Hx). }
      clear -D1 Z. revert ds D1 Z. induction (pr_tail r) as [|B t IH]; intros [|d ds] L Z; try discriminate; [reflexivity|]. cbn. rewrite (Z 0 d eq_refl). f_equal. apply IH; [now injection L|].
      intros i d' Hd. exact (Z (S i) d' Hd). }
    assert (H : forall rs, (forall r, In r rs -> In r (mg_rules g)) -> match option_map (@concat _) (opt_all (conv_succs1 neqb fan []) rs) with Some l => l | None => [] end = map (fun B => (B, [])) (flat_map pr_tail rs)).
    { intros rs HR. assert (O : opt_all (conv_succs1 neqb fan []) rs = Some (map (fun r => map (fun B => (B, [])) (pr_tail r)) rs)).
      { induction rs as [|r rs IH]; [reflexivity|]. cbn. rewrite (G r) by (apply HR; now left). rewrite IH by (intros z Hz; apply HR; now right). reflexivity. }
      rewrite O. cbn. clear. induction rs as [|r rs IH]; [reflexivity|]. cbn. now rewrite map_app, IH. }
    apply H. intros r Hr. now apply filter_In in Hr.
  Qed.
End NonDeleting.
