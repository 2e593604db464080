From Verif Require Import Base M_Agenda M_Search M_Util M_Recog M_Automata M_CFG S_Search S_Util S_Recog S_Automata S_CFG
  P_Agenda P_Search P_Util P_Recog P_Automata P_PDA.
Arguments Nat.ltb : simpl never.

Lemma ps_eqb_spec {N T} (neqb : N -> N -> bool) (teqb : T -> T -> bool) : EqbSpec neqb -> EqbSpec teqb -> EqbSpec (ps_eqb neqb teqb).
Proof.
  intros NE TE [| |x|x] [| |y|y]; cbn; try (split; [discriminate|discriminate]); try tauto.
  - rewrite (NE x y). split; congruence.
  - rewrite (TE x y). split; congruence.
Qed.

(* ---- leftmost derivations and rewriting ---- *)
Section Lm.
  Context {N T : Type} {K : Weight} (R : cfg_rule N T K -> Prop).
  Notation leftmost := (leftmost R). Notation derives := (derives R). Notation rewrites := (rewrites R).

  Lemma lm_app a b : forall ds1 w1 ds2 w2, leftmost a ds1 w1 -> leftmost b ds2 w2 -> leftmost (a ++ b) (ds1 ++ ds2) (w1 ++ w2).
  Proof.
    intros ds1 w1 ds2 w2 H. revert ds2 w2. induction H; intros ds2 w2 H2; cbn; [assumption|constructor; auto|].
    constructor; [assumption|]. rewrite app_assoc. auto.
  Qed.
  Lemma lm_split a : forall ab b ds w, ab = a ++ b -> leftmost ab ds w ->
    exists ds1 ds2 w1 w2, ds = ds1 ++ ds2 /\ w = w1 ++ w2 /\ leftmost a ds1 w1 /\ leftmost b ds2 w2.
  Proof.
    intros ab b ds w E H. revert a b E. induction H as [|x alpha ds w H IH|r alpha ds w Rr H IH]; intros a b E.
    - destruct a, b; try discriminate. exists [], [], [], []. repeat split; constructor.
    - destruct a as [|y a]; cbn in E.
      + subst b. exists [], ds, [], (x :: w). repeat split; [constructor|constructor; assumption].
      + injection E as <- ->. destruct (IH a b eq_refl) as (d1 & d2 & w1 & w2 & -> & -> & L1 & L2).
        exists d1, d2, (x :: w1), w2. repeat split; [constructor; assumption|assumption].
    - destruct a as [|y a]; cbn in E.
      + subst b. exists [], (r :: ds), [], w. repeat split; [constructor|constructor; assumption].
      + injection E as <- ->. destruct (IH (cr_rhs r ++ a) b (app_assoc _ _ _)) as (d1 & d2 & w1 & w2 & -> & -> & L1 & L2).
        exists (r :: d1), d2, w1, w2. repeat split; [constructor; assumption|assumption].
  Qed.
  Lemma lm_terminals w : leftmost (map Value w) [] w.
  Proof. induction w; cbn; constructor; assumption. Qed.

  Lemma derives_app_l l : forall u v, derives u v -> derives (l ++ u) (l ++ v).
  Proof.
    intros u v H. induction H as [|u v w (a & b & r & Rr & -> & ->) H IH]; [constructor|]. econstructor; [|exact IH].
    exists (l ++ a), b, r. rewrite <- !app_assoc. auto.
  Qed.

  Lemma lm_derives a ds w : leftmost a ds w -> derives a (map Value w).
  Proof.
    induction 1 as [|x alpha ds w H IH|r alpha ds w Rr H IH]; cbn; [constructor| |].
    - apply (derives_app_l [Value x]) in IH. exact IH.
    - econstructor; [|exact IH]. exists [], alpha, r. auto.
  Qed.
  Lemma derives_lm a w : derives a (map Value w) -> exists ds, leftmost a ds w.
  Proof.
    intros H. remember (map Value w) as v eqn:E. revert w E. induction H as [u|u v z (l & r & rule & Rr & -> & ->) H IH]; intros w E.
    - subst. exists []. apply lm_terminals.
    - destruct (IH w E) as [ds L]. destruct (lm_split l _ (cr_rhs rule ++ r) ds w eq_refl L) as (d1 & d2 & w1 & w2 & -> & -> & L1 & L2).
      exists (d1 ++ rule :: d2). apply lm_app; [assumption|]. now constructor.
  Qed.
End Lm.

Lemma lm_mono {N T} {K : Weight} (R R' : cfg_rule N T K -> Prop) a ds w : (forall r, R r -> R' r) -> leftmost R a ds w -> leftmost R' a ds w.
Proof. intros M. induction 1; constructor; auto. Qed.

(* ---- the transitions ---- *)
Section Trans.
  Context {N T : Type} {K : Weight} (neqb : N -> N -> bool) (teqb : T -> T -> bool) (NE : EqbSpec neqb) (TE : EqbSpec teqb)
          (order : list T -> list T) (OR : forall l, Permutation (order l) l) (g : cfg N T K).

  Definition occurs (x : T) (rules : list (cfg_rule N T K)) : Prop := exists r, In r rules /\ In (Value x) (cr_rhs r).

  Lemma st_steps rhs : forall (b : list T) (st : list (push_state N T)), NoDup b -> let '(b', st') := fold_left (st_step teqb) rhs (b, st) in
    st' = rev (map sym rhs) ++ st /\ NoDup b' /\ forall x, In x b' <-> In x b \/ In (Value x) rhs.
  Proof.
    induction rhs as [|v rhs IH]; intros b st Nb; cbn [fold_left]; [cbn; tauto|].
    destruct v as [n|y]; cbn [st_step].
    - specialize (IH b (PNt n :: st) Nb). destruct (fold_left (st_step teqb) rhs (b, PNt n :: st)) as [b' st'].
      destruct IH as (-> & I2 & I3). split; [cbn; now rewrite <- app_assoc|]. split; [assumption|].
      intros x. rewrite I3. cbn. intuition congruence.
    - set (b1 := if memb teqb y b then b else b ++ [y]).
      assert (B1 : NoDup b1 /\ forall x, In x b1 <-> In x b \/ x = y).
      { unfold b1. destruct (memb teqb y b) eqn:M.
        - apply (memb_In teqb TE) in M. split; [assumption|]. intros x. split; [auto|]. intros [H| ->]; assumption.
        - apply (memb_notIn teqb TE) in M. split.
          + apply NoDup_app_intro; [assumption|repeat constructor; tauto|]. intros x Hx [<-|[]]. contradiction.
          + intros x. rewrite in_app_iff. cbn. intuition congruence. }
      destruct B1 as [B1 B2]. specialize (IH b1 (PT y :: st) B1). destruct (fold_left (st_step teqb) rhs (b1, PT y :: st)) as [b' st'].
      destruct IH as (-> & I2 & I3). split; [cbn; now rewrite <- app_assoc|]. split; [assumption|].
      intros x. rewrite I3, B2. cbn. intuition congruence.
  Qed.

  Lemma rule_transitions_spec rules : forall b, NoDup b -> let '(b', ts) := rule_transitions teqb rules b in
    ts = map rule_trans rules /\ NoDup b' /\ forall x, In x b' <-> In x b \/ occurs x rules.
  Proof.
    induction rules as [|r rules IH]; intros b Nb; cbn [rule_transitions].
    - split; [reflexivity|]. split; [assumption|]. intros x. split; [auto|]. intros [H|(r & [] & _)]; assumption.
    - pose proof (st_steps (cr_rhs r) b [] Nb) as H1. destruct (fold_left (st_step teqb) (cr_rhs r) (b, [])) as [b1 st].
      destruct H1 as (-> & N1 & X1). specialize (IH b1 N1). destruct (rule_transitions teqb rules b1) as [b2 ts].
      destruct IH as (-> & N2 & X2). split; [cbn; unfold rule_trans at 2; now rewrite app_nil_r|]. split; [assumption|].
      intros x. rewrite X2, X1. unfold occurs. split.
      + intros [[H|H]|(r' & Hr & H)]; [auto|right; exists r; cbn; auto|right; exists r'; cbn; auto].
      + intros [H|(r' & [<-|Hr] & H)]; [auto|auto|right; eauto].
  Qed.

  Notation Ts := (cfg_transitions teqb order g).

  Lemma cfg_transitions_eq : exists terms, NoDup terms /\ (forall x, In x terms <-> occurs x (cg_rules g)) /\
    Ts = map rule_trans (cg_rules g) ++ map read_trans terms ++ map init_trans (cg_initial g).
  Proof.
    unfold cfg_transitions. pose proof (rule_transitions_spec (cg_rules g) [] (NoDup_nil _)) as H.
    destruct (rule_transitions teqb (cg_rules g) []) as [b ts]. destruct H as (-> & Nb & X).
    exists (order b). split; [eapply Permutation_NoDup; [symmetry; apply OR|assumption]|]. split; [|reflexivity].
    intros x. specialize (X x). cbn in X. assert (Y : In x (order b) <-> In x b) by (split; apply Permutation_in; [apply OR|symmetry; apply OR]).
    tauto.
  Qed.

  Lemma Ts_In t : In t Ts <-> (exists r, In r (cg_rules g) /\ t = rule_trans r) \/ (exists x, occurs x (cg_rules g) /\ t = read_trans x) \/
                              (exists s, In s (cg_initial g) /\ t = init_trans s).
  Proof.
    destruct cfg_transitions_eq as (terms & _ & X & ->). rewrite !in_app_iff, !in_map_iff.
    split.
    - intros [(r & <- & H)|[(x & <- & H)|(s & <- & H)]]; [left; eauto|right; left; exists x; split; [now apply X|reflexivity]|right; right; eauto].
    - intros [(r & H & ->)|[(x & H & ->)|(s & H & ->)]]; [left; eauto|right; left; exists x; split; [reflexivity|now apply X]|right; right; eauto].
  Qed.

  Lemma Ts_current t : In t Ts -> pi_current (t_ins t) <> [].
  Proof. rewrite Ts_In. intros [(r & _ & ->)|[(x & _ & ->)|(s & _ & ->)]]; discriminate. Qed.

  Notation apply := (pdi_apply (ps_eqb neqb teqb)).
  Notation PS := (ps_eqb_spec neqb teqb NE TE).
  Notation ex := (executes (T := T) (K := K) apply).
  Notation stack alpha := (Designated :: rev (map sym alpha)).

  Lemma stack_top x alpha : (Designated :: rev (map sym (x :: alpha)) : list (push_state N T)) = stack alpha ++ [sym x].
  Proof. reflexivity. Qed.

  Lemma sym_no_special x : sym x <> (Designated : push_state N T) /\ sym x <> (Initial : push_state N T).
  Proof. destruct x; cbn; split; discriminate. Qed.

  Lemma single_top (rest rest' : list (push_state N T)) a b : rest ++ [a] = rest' ++ [b] -> rest = rest' /\ a = b.
  Proof. intros H. apply app_inj_tail in H. exact H. Qed.

  Lemma sim_sound ts : forall alpha s, ex (stack alpha) ts s -> (forall t, In t ts -> In t Ts) -> length s = 1 ->
    exists ds, leftmost (fun r => In r (cg_rules g)) alpha ds (run_word ts) /\ ts = derivation_run ds alpha /\ s = [Designated].
  Proof.
    induction ts as [|t ts IH]; intros alpha s HE HT HL.
    - inversion HE; subst. cbn in HL. rewrite rev_length, map_length in HL. destruct alpha; [|cbn in HL; lia].
      exists []. repeat split. constructor.
    - inversion HE as [|? ? ? s1 ? H1 H2]; subst. apply (pdi_apply_spec _ PS) in H1. destruct H1 as (rest & E1 & E2).
      assert (Ht : In t Ts) by (apply HT; now left). apply Ts_In in Ht.
      destruct alpha as [|x alpha].
      + exfalso. cbn in E1. destruct Ht as [(r & _ & ->)|[(y & _ & ->)|(q & _ & ->)]]; cbn in E1; destruct rest as [|? [|? ?]]; discriminate.
      + rewrite stack_top in E1. destruct Ht as [(r & Hr & ->)|[(y & Hy & ->)|(q & Hq & ->)]]; cbn in E2; cbn [rule_trans read_trans init_trans t_ins pi_current rev app] in E1;
          apply (single_top (stack alpha)) in E1; destruct E1 as [<- E1].
        * destruct x as [n|y]; cbn in E1; [|discriminate]. injection E1 as ->.
          replace s1 with (stack (cr_rhs r ++ alpha)) in H2 by (rewrite E2, map_app, rev_app_distr; reflexivity).
          destruct (IH _ _ H2) as (ds & L & -> & ->); [intros; apply HT; now right|assumption|].
          exists (r :: ds). split; [cbn; now constructor|]. split; [destruct ds; reflexivity|reflexivity].
        * destruct x as [n|z]; cbn in E1; [discriminate|]. injection E1 as ->.
          rewrite app_nil_r in E2. subst s1.
          destruct (IH _ _ H2) as (ds & L & -> & ->); [intros; apply HT; now right|assumption|].
          exists ds. split; [cbn; now constructor|]. split; [destruct ds; reflexivity|reflexivity].
        * destruct x; discriminate.
  Qed.

  Lemma sim_complete alpha ds w : leftmost (fun r => In r (cg_rules g)) alpha ds w -> (forall x, In (Value x) alpha -> occurs x (cg_rules g)) ->
    ex (stack alpha) (derivation_run ds alpha) [Designated] /\ (forall t, In t (derivation_run ds alpha) -> In t Ts) /\
    run_word (derivation_run ds alpha) = w.
  Proof.
    induction 1 as [|x alpha ds w H IH|r alpha ds w Hr H IH]; intros HX.
    - split; [constructor|]. split; [intros t []|reflexivity].
    - destruct IH as (I1 & I2 & I3); [intros y Hy; apply HX; now right|].
      assert (E : derivation_run ds (Value x :: alpha) = read_trans x :: derivation_run ds alpha) by (destruct ds; reflexivity). rewrite E.
      split; [|split].
      + econstructor; [|exact I1]. apply (pdi_apply_spec _ PS). exists (stack alpha). cbn. now rewrite app_nil_r.
      + intros t [<-|Ht]; [|auto]. apply Ts_In. right. left. exists x. split; [apply HX; now left|reflexivity].
      + cbn. now rewrite <- I3.
    - destruct IH as (I1 & I2 & I3).
      { intros y Hy. apply in_app_or in Hy. destruct Hy as [Hy|Hy]; [exists r; auto|apply HX; now right]. }
      change (derivation_run (r :: ds) (Label (cr_head r) :: alpha)) with (rule_trans r :: derivation_run ds (cr_rhs r ++ alpha)).
      split; [|split].
      + econstructor; [|exact I1]. apply (pdi_apply_spec _ PS). exists (stack alpha). cbn. split; [reflexivity|].
        rewrite map_app, rev_app_distr. reflexivity.
      + intros t [<-|Ht]; [|auto]. apply Ts_In. left. exists r. auto.
      + exact I3.
  Qed.

  Lemma cfg_runs w ts s : accepting_run apply [Designated; Initial] (fun t => In t Ts) (fun s => length s = 1) w ts s <->
    exists n ds, In n (cg_initial g) /\ leftmost (fun r => In r (cg_rules g)) [Label n] ds w /\
                 ts = init_trans n :: derivation_run ds [Label n] /\ s = [Designated].
  Proof.
    split.
    - intros (HE & HT & HW & HL). inversion HE as [|? t ts' s1 ? H1 H2]; subst; [discriminate|].
      apply (pdi_apply_spec _ PS) in H1. destruct H1 as (rest & E1 & E2). assert (Ht : In t Ts) by (apply HT; now left).
      apply Ts_In in Ht. change ([Designated; Initial] : list (push_state N T)) with ([Designated] ++ [Initial] : list (push_state N T)) in E1.
      destruct Ht as [(r & _ & ->)|[(y & _ & ->)|(n & Hn & ->)]]; cbn [pi_current t_ins rule_trans read_trans init_trans rev app] in E1;
        apply (single_top [Designated] rest) in E1; destruct E1 as [<- E1]; try discriminate.
      cbn in E2. subst s1. change ([Designated; PNt n] : list (push_state N T)) with (stack [Label n] : list (push_state N T)) in H2.
      destruct (sim_sound ts' [Label n] s H2) as (ds & L & -> & ->); [intros; apply HT; now right|assumption|].
      exists n, ds. auto.
    - intros (n & ds & Hn & L & -> & ->). destruct (sim_complete [Label n] ds w L) as (S1 & S2 & S3); [intros x [H|[]]; discriminate|].
      split; [|split; [|split]].
      + econstructor; [|exact S1]. apply (pdi_apply_spec _ PS). exists [Designated]. auto.
      + intros t [<-|Ht]; [|auto]. apply Ts_In. right. right. eauto.
      + exact S3.
      + reflexivity.
  Qed.

  (* merged transitions have the same words and instructions *)
  Lemma merged_rep wadd wzero (ts : list (transition (pd_instr (push_state N T)) T K)) :
    (forall t, In t ts -> merged wadd wzero (ps_eqb neqb teqb) teqb Ts t) ->
    exists ts', (forall t, In t ts' -> In t Ts) /\ Forall2 (fun t t' => t_word t = t_word t' /\ t_ins t = t_ins t') ts ts'.
  Proof.
    induction ts as [|t ts IH]; intros H; [exists []; split; [intros t []|constructor]|].
    destruct IH as (ts' & H1 & H2); [intros; apply H; now right|]. destruct (H t (or_introl eq_refl)) as [(t0 & H0 & E1 & E2) _].
    exists (t0 :: ts'). split; [intros u [<-|Hu]; auto|]. constructor; auto.
  Qed.
  Lemma unmerged_rep wadd wzero (ts : list (transition (pd_instr (push_state N T)) T K)) :
    (forall t, In t ts -> In t Ts) ->
    exists ts', (forall t, In t ts' -> merged wadd wzero (ps_eqb neqb teqb) teqb Ts t) /\ Forall2 (fun t t' => t_word t = t_word t' /\ t_ins t = t_ins t') ts ts'.
  Proof.
    induction ts as [|t ts IH]; intros H; [exists []; split; [intros t []|constructor]|].
    destruct IH as (ts' & H1 & H2); [intros; apply H; now right|].
    exists (Trans (t_word t) (wsum wadd wzero (map t_weight (filter (same_trans (ps_eqb neqb teqb) teqb t) Ts))) (t_ins t) :: ts').
    split; [|constructor; auto]. intros u [<-|Hu]; [|auto]. split; [exists t; cbn; split; [apply H; now left|auto]|]. reflexivity.
  Qed.
  Lemma rep_exec (ts ts' : list (transition (pd_instr (push_state N T)) T K)) :
    Forall2 (fun t t' => t_word t = t_word t' /\ t_ins t = t_ins t') ts ts' ->
    run_word ts = run_word ts' /\ forall s s', ex s ts s' -> ex s ts' s'.
  Proof.
    induction 1 as [|t t' ts ts' [E1 E2] F [I1 I2]]; [split; auto|]. split.
    - unfold run_word in *. cbn. now rewrite E1, I1.
    - intros s s' H. inversion H as [|? ? ? s1 ? H1 H2]; subst. econstructor; [rewrite <- E2; exact H1|auto].
  Qed.

  Lemma cfg_pda_language wadd wzero w :
    (exists ts s, accepting_run apply [Designated; Initial] (merged wadd wzero (ps_eqb neqb teqb) teqb Ts) (fun s => length s = 1) w ts s) <->
    cfg_language g w.
  Proof.
    transitivity (exists ts s, accepting_run apply [Designated; Initial] (fun t => In t Ts) (fun s => length s = 1) w ts s).
    - split; intros (ts & s & A1 & A2 & A3 & A4).
      + destruct (merged_rep wadd wzero ts A2) as (ts' & B1 & B2). destruct (rep_exec ts ts' B2) as [C1 C2].
        exists ts', s. split; [auto|]. split; [assumption|]. split; [congruence|assumption].
      + destruct (unmerged_rep wadd wzero ts A2) as (ts' & B1 & B2). destruct (rep_exec ts ts' B2) as [C1 C2].
        exists ts', s. split; [auto|]. split; [assumption|]. split; [congruence|assumption].
    - unfold cfg_language. split.
      + intros (ts & s & A). apply cfg_runs in A. destruct A as (n & ds & Hn & L & _). exists n. split; [assumption|]. eapply lm_derives; eauto.
      + intros (n & Hn & D). apply derives_lm in D. destruct D as [ds L]. do 2 eexists. apply cfg_runs. exists n, ds. auto.
  Qed.

  (* weights *)
  Context (KL : RoundLaws K).
  Lemma derivation_run_fold (R : cfg_rule N T K -> Prop) alpha ds w : leftmost R alpha ds w ->
    forall k, fold_left wmul (map t_weight (derivation_run ds alpha)) k = fold_left wmul (map cr_weight ds) k.
  Proof.
    induction 1 as [|x alpha ds w H IH|r alpha ds w Hr H IH]; intros k; [reflexivity| |].
    - assert (E : derivation_run ds (Value x :: alpha) = read_trans x :: derivation_run ds alpha) by (destruct ds; reflexivity). rewrite E.
      cbn [map fold_left t_weight read_trans]. rewrite IH. f_equal. apply (wl_one_r KL).
    - change (derivation_run (r :: ds) (Label (cr_head r) :: alpha)) with (rule_trans r :: derivation_run ds (cr_rhs r ++ alpha)).
      cbn [map fold_left]. now rewrite IH.
  Qed.
  Lemma derivation_run_weight (R : cfg_rule N T K -> Prop) alpha ds w : leftmost R alpha ds w -> run_weight (derivation_run ds alpha) = derivation_weight ds.
  Proof. intros L. exact (derivation_run_fold R alpha ds w L wone). Qed.
  Lemma init_run_weight (R : cfg_rule N T K -> Prop) alpha ds w s : leftmost R alpha ds w -> run_weight (init_trans s :: derivation_run ds alpha) = derivation_weight ds.
  Proof. intros L. rewrite <- (derivation_run_weight R alpha ds w L). exact (lprod_one_l KL _). Qed.

  Lemma map_sym_inj (a b : list (lettert N T)) : map sym a = map sym b -> a = b.
  Proof.
    revert b. induction a as [|x a IH]; intros [|y b] E; try discriminate; [reflexivity|]. cbn in E. injection E as E1 E2.
    f_equal; [destruct x, y; cbn in E1; congruence|auto].
  Qed.
  Lemma rule_trans_inj (r r' : cfg_rule N T K) : rule_trans r = rule_trans r' -> r = r'.
  Proof.
    destruct r as [h a k], r' as [h' a' k']. unfold rule_trans. cbn. intros E.
    assert (E1 : k = k') by congruence. assert (E2 : h = h') by congruence. assert (E3 : rev (map sym a) = rev (map sym a')) by congruence.
    apply (f_equal (@rev _)) in E3. rewrite !rev_involutive in E3. apply map_sym_inj in E3. congruence.
  Qed.
  Lemma derivation_run_inj (R : cfg_rule N T K -> Prop) alpha ds w : leftmost R alpha ds w -> forall ds' w', leftmost R alpha ds' w' ->
    derivation_run ds alpha = derivation_run ds' alpha -> ds = ds'.
  Proof.
    induction 1 as [|x alpha ds w H IH|r alpha ds w Hr H IH]; intros ds' w' H' E.
    - inversion H'. reflexivity.
    - inversion H'; subst. assert (G : forall d : list (cfg_rule N T K), derivation_run d (Value x :: alpha) = read_trans x :: derivation_run d alpha) by (intros []; reflexivity).
      rewrite !G in E. eapply IH; [eassumption|]. congruence.
    - inversion H' as [| |r' ? ds1 ? Hr' H1]; subst.
      change (rule_trans r :: derivation_run ds (cr_rhs r ++ alpha) = rule_trans r' :: derivation_run ds1 (cr_rhs r' ++ alpha)) in E.
      assert (E1 : rule_trans r = rule_trans r') by congruence. apply rule_trans_inj in E1. subst r'. f_equal.
      eapply IH; [eassumption|]. congruence.
  Qed.

  (* without duplicates merging changes nothing *)
  Lemma merged_distinct {A : Type} (aeqb : A -> A -> bool) (AE : EqbSpec aeqb) (wadd : K -> K -> K) wzero (WZ : forall x, wadd wzero x = x)
    (ts : list (transition (pd_instr A) T K)) : NoDup (map (fun t => (t_word t, t_ins t)) ts) ->
    forall t, merged wadd wzero aeqb teqb ts t <-> In t ts.
  Proof.
    intros ND t.
    assert (F : forall t0, In t0 ts -> t_word t0 = t_word t -> t_ins t0 = t_ins t -> filter (same_trans aeqb teqb t) ts = [t0]).
    { intros t0 H0 E1 E2.
      assert (G : forall t1, same_trans aeqb teqb t t1 = true <-> t_word t = t_word t1 /\ t_ins t = t_ins t1).
      { intros t1. apply same_trans_iff; assumption. }
      clear WZ. revert t0 H0 E1 E2. induction ts as [|u us IH]; intros t0 H0 E1 E2; [destruct H0|]. cbn in ND.
      apply NoDup_cons_iff in ND. destruct ND as [N1 N2]. cbn.
      destruct H0 as [->|H0].
      - assert (G0 : same_trans aeqb teqb t t0 = true) by (apply G; auto). rewrite G0. f_equal.
        destruct (filter _ us) as [|v vs] eqn:FF; [reflexivity|]. exfalso. apply N1.
        assert (Hv : In v (v :: vs)) by now left. rewrite <- FF in Hv. apply filter_In in Hv. destruct Hv as [Hv1 Hv2].
        apply G in Hv2. destruct Hv2 as [Q1 Q2]. rewrite E1, E2, Q1, Q2. apply (in_map (fun t => (t_word t, t_ins t))). assumption.
      - destruct (same_trans aeqb teqb t u) eqn:Q; [|now apply IH].
        exfalso. apply N1. apply G in Q. destruct Q as [Q1 Q2]. rewrite <- Q1, <- Q2, <- E1, <- E2.
        now apply (in_map (fun t => (t_word t, t_ins t))). }
    split.
    - intros [(t0 & H0 & E1 & E2) W]. rewrite (F t0 H0 E1 E2) in W. cbn in W. unfold wsum in W. cbn in W. rewrite WZ in W.
      destruct t as [a b c], t0 as [a0 b0 c0]. cbn in *. subst. assumption.
    - intros H. split; [eauto|]. rewrite (F t H eq_refl eq_refl). unfold wsum. cbn. now rewrite WZ.
  Qed.

  Lemma cfg_transitions_distinct : cfg_distinct g -> NoDup (map (fun t => (t_word t, t_ins t)) Ts).
  Proof.
    intros [D1 D2]. destruct cfg_transitions_eq as (terms & NT & X & ->). rewrite !map_app, !map_map.
    apply NoDup_app_intro; [|apply NoDup_app_intro|].
    - clear - D1. induction (cg_rules g) as [|r rs IH]; cbn in *; [constructor|]. apply NoDup_cons_iff in D1. destruct D1 as [D1 D3].
      constructor; [|auto]. intros H. apply D1. apply in_map_iff in H. destruct H as (r' & E & Hr). apply in_map_iff. exists r'. split; [|assumption].
      assert (E2 : cr_head r' = cr_head r) by congruence. assert (E3 : rev (map sym (cr_rhs r')) = rev (map sym (cr_rhs r))) by congruence.
      apply (f_equal (@rev _)) in E3. rewrite !rev_involutive in E3. apply map_sym_inj in E3. congruence.
    - apply NoDup_map_inj; [|assumption]. intros x y _ _ E. cbn in E. congruence.
    - apply NoDup_map_inj; [|assumption]. intros x y _ _ E. cbn in E. congruence.
    - intros k Hk Hk'. apply in_map_iff in Hk, Hk'. destruct Hk as (x & <- & _), Hk' as (y & E & _). discriminate.
    - intros k Hk Hk'. apply in_app_or in Hk'. apply in_map_iff in Hk. destruct Hk as (x & <- & _).
      destruct Hk' as [Hk'|Hk']; apply in_map_iff in Hk'; destruct Hk' as (y & E & _); discriminate.
  Qed.

  (* the stack is never empty *)
  Lemma cfg_stack_bottom wadd wzero ts : forall s s', ex s ts s' -> (forall t, In t ts -> merged wadd wzero (ps_eqb neqb teqb) teqb Ts t) ->
    (exists r, s = Designated :: r) -> exists r, s' = Designated :: r.
  Proof.
    induction ts as [|t ts IH]; intros s s' HE HT HS; [inversion HE; now subst|]. inversion HE as [|? ? ? s1 ? H1 H2]; subst.
    eapply IH; [exact H2|intros; apply HT; now right|]. destruct HS as [r ->]. apply (pdi_apply_spec _ PS) in H1. destruct H1 as (rest & E1 & ->).
    destruct (HT t (or_introl eq_refl)) as [(t0 & H0 & Ew & Ei) _]. apply Ts_In in H0. rewrite <- Ei in E1 |- *.
    destruct rest as [|x rest].
    - exfalso. destruct H0 as [(q & _ & ->)|[(y & _ & ->)|(n & _ & ->)]]; discriminate.
    - cbn in E1. injection E1 as <- _. cbn. eauto.
  Qed.
End Trans.
