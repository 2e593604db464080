(* Proofs about the end of the search with the pushdown automaton of a context-free grammar. *)
From Verif Require Import Base M_Agenda M_Search M_Util M_Recog M_Automata M_CFG S_Search S_Util S_Recog S_Automata S_CFG
  P_Agenda P_Search P_Util P_Recog P_Automata P_PDA P_CFG P_Beam.

Section Ends.
  Context {N T : Type} {K : Weight} (neqb : N -> N -> bool) (teqb : T -> T -> bool) (NE : EqbSpec neqb) (TE : EqbSpec teqb).
  Context (order : list T -> list T) (OR : forall l, Permutation (order l) l) (g : cfg N T K).
  Notation rules := (cg_rules g).
  Notation letter := (lettert N T).
  Context (rank : N -> nat) (NL : cfg_no_left_recursion rules rank).

  (* one step of a leftmost derivation *)
  Inductive lstep : list T * list letter -> list T * list letter -> Prop :=
  | ls_read x w beta : lstep (x :: w, Value x :: beta) (w, beta)
  | ls_rule r w beta : In r rules -> lstep (w, Label (cr_head r) :: beta) (w, cr_rhs r ++ beta).
  Notation good := (Acc (fun y x => lstep x y)).
  Notation vanishes alpha := (exists ds, leftmost (fun r => In r rules) alpha ds []).

  Lemma vanishes_app a b : vanishes a -> vanishes b -> vanishes (a ++ b).
  Proof. intros (d & A) (d' & B). exists (d ++ d'). apply (lm_app _ _ _ _ _ _ _ A B). Qed.
  Lemma vanishes_rule r : In r rules -> vanishes (cr_rhs r) -> vanishes [Label (cr_head r)].
  Proof. intros Hr (d & A). exists (r :: d). constructor; [exact Hr|]. now rewrite app_nil_r. Qed.

  Section Fixed.
    Context (w : list T) (SHORTER : forall w' alpha, length w' < length w -> good (w', alpha)).
    Lemma good_label k : forall A beta, rank A < k -> (vanishes [Label A] -> good (w, beta)) -> good (w, Label A :: beta).
    Proof.
      induction k as [|k IH]; intros A beta HK HB; [lia|]. constructor. intros y HS. inversion HS as [|r w0 b0 Hr]; subst.
      assert (G : forall post pre, cr_rhs r = pre ++ post -> vanishes pre -> good (w, post ++ beta)).
      { induction post as [|x post IHP]; intros pre E V.
        - apply HB. apply vanishes_rule; [exact Hr|]. rewrite E, app_nil_r. exact V.
        - destruct x as [B|x]; cbn [app].
          + apply IH.
            * pose proof (NL r pre B post Hr E V). lia.
            * intros VB. apply (IHP (pre ++ [Label B])); [now rewrite <- app_assoc|]. now apply vanishes_app.
          + constructor. intros y HY. inversion HY; subst. apply SHORTER. cbn. lia. }
      apply (G (cr_rhs r) []); [reflexivity|]. exists []. constructor.
    Qed.
    Lemma good_fixed alpha : good (w, alpha).
    Proof.
      induction alpha as [|[A|x] alpha IH].
      - constructor. intros y HY. inversion HY.
      - apply (good_label (S (rank A))); [lia|auto].
      - constructor. intros y HY. inversion HY; subst. apply SHORTER. cbn. lia.
    Qed.
  End Fixed.
  Lemma good_all w alpha : good (w, alpha).
  Proof.
    remember (length w) as n eqn:E. revert w alpha E. induction n as [n IH] using lt_wf_ind. intros w alpha E. apply good_fixed. intros w' a' L. eapply IH; [|reflexivity]. lia.
  Qed.

  Notation apply := (pdi_apply (ps_eqb neqb teqb)).
  Notation PS := (ps_eqb_spec neqb teqb NE TE).
  Notation Ts := (cfg_transitions teqb order g).
  Notation stack alpha := (Designated :: rev (map sym alpha)).
  Definition bounded (w : list T) (alpha : list letter) (b : nat) : Prop :=
    forall us s rest, executes (T := T) (K := K) apply (stack alpha) us s -> (forall t, In t us -> In t Ts) -> run_word us ++ rest = w -> length us < b.

  Lemma bounded_le w alpha b b' : bounded w alpha b -> b <= b' -> bounded w alpha b'.
  Proof. intros B L us s rest H1 H2 H3. eapply Nat.lt_le_trans; [|exact L]. eapply B; eauto. Qed.
  Lemma first_step alpha t us s : executes (T := T) (K := K) apply (stack alpha) (t :: us) s -> In t Ts ->
    (exists x beta, alpha = Value x :: beta /\ t = read_trans x /\ executes apply (stack beta) us s) \/
    (exists r beta, In r rules /\ alpha = Label (cr_head r) :: beta /\ t = rule_trans r /\ executes apply (stack (cr_rhs r ++ beta)) us s).
  Proof.
    intros HE Ht. inversion HE as [|? ? ? s1 ? H1 H2]; subst. apply (pdi_apply_spec _ PS) in H1. destruct H1 as (rest & E1 & E2). apply (Ts_In teqb TE order OR) in Ht.
    destruct alpha as [|x alpha].
    - exfalso. cbn in E1. destruct Ht as [(r & _ & ->)|[(y & _ & ->)|(q & _ & ->)]]; cbn in E1; destruct rest as [|? [|? ?]]; discriminate.
    - rewrite stack_top in E1. destruct Ht as [(r & Hr & ->)|[(y & Hy & ->)|(q & Hq & ->)]]; cbn in E2; cbn [rule_trans read_trans init_trans t_ins pi_current rev app] in E1;
        apply (single_top (stack alpha)) in E1; destruct E1 as [<- E1].
      + destruct x as [n|y]; cbn in E1; [|discriminate]. injection E1 as ->. right. exists r, alpha. repeat split; auto.
        replace s1 with (stack (cr_rhs r ++ alpha) : list (push_state N T)) in H2 by (rewrite E2, map_app, rev_app_distr; reflexivity). exact H2.
      + destruct x as [n|z]; cbn in E1; [discriminate|]. injection E1 as ->. left. rewrite app_nil_r in E2. subst s1. eauto.
      + destruct x; discriminate.
  Qed.
  Lemma good_bounded : forall c, good c -> exists b, bounded (fst c) (snd c) b.
  Proof.
    induction 1 as [[w alpha] _ IH]. cbn [fst snd] in *. destruct alpha as [|[A|x] beta].
    - exists 1. intros us s rest HE HT HW. destruct us as [|t us]; [cbn; lia|]. destruct (first_step _ _ _ _ HE (HT t (or_introl eq_refl))) as [(x & b & E & _)|(r & b & _ & E & _)]; discriminate.
    - assert (G : forall l, incl l rules -> exists b, forall r, In r l -> cr_head r = A -> bounded w (cr_rhs r ++ beta) b).
      { induction l as [|r l IHl]; intros HL; [exists 0; intros ? []|]. destruct IHl as (b & HB); [intros x Hx; apply HL; now right|]. destruct (neqb (cr_head r) A) eqn:E.
        - apply NE in E. destruct (IH (w, cr_rhs r ++ beta)) as (b1 & B1); [rewrite <- E; constructor; apply HL; now left|]. exists (Nat.max b b1). intros r' [<-|Hr'] EA; [eapply bounded_le; [exact B1|lia]|eapply bounded_le; [now apply HB|lia]].
        - exists b. intros r' [<-|Hr'] EA; [|auto]. exfalso. apply NE in EA. congruence. }
      destruct (G rules (fun x Hx => Hx)) as (b & HB). exists (S b). intros us s rest HE HT HW. destruct us as [|t us]; [cbn; lia|].
      destruct (first_step _ _ _ _ HE (HT t (or_introl eq_refl))) as [(x & b' & E & _)|(r & b' & Hr & E & -> & HE')]; [discriminate|]. injection E as EA ->. cbn [length].
      apply -> Nat.succ_lt_mono. apply (HB r Hr (eq_sym EA) us s rest HE'); [intros; apply HT; now right|exact HW].
    - destruct w as [|y w].
      + exists 1. intros us s rest HE HT HW. destruct us as [|t us]; [cbn; lia|]. destruct (first_step _ _ _ _ HE (HT t (or_introl eq_refl))) as [(z & b & E & -> & _)|(r & b & _ & E & _)]; discriminate.
      + destruct (teqb x y) eqn:E.
        * apply TE in E. subst y. destruct (IH (w, beta)) as (b & HB); [constructor|]. exists (S b). intros us s rest HE HT HW. destruct us as [|t us]; [cbn; lia|].
          destruct (first_step _ _ _ _ HE (HT t (or_introl eq_refl))) as [(z & b' & E & -> & HE')|(r & b' & _ & E & _)]; [|discriminate]. injection E as -> ->. cbn [length]. apply -> Nat.succ_lt_mono.
          apply (HB us s rest HE'); [intros; apply HT; now right|]. cbn in HW. now injection HW.
        * exists 1. intros us s rest HE HT HW. destruct us as [|t us]; [cbn; lia|]. exfalso.
          destruct (first_step _ _ _ _ HE (HT t (or_introl eq_refl))) as [(z & b' & E' & -> & HE')|(r & b' & _ & E' & _)]; [|discriminate]. injection E' as -> ->. cbn in HW. injection HW as -> _. rewrite (proj2 (TE y y) eq_refl) in E. discriminate.
  Qed.

  (* runs of the automaton as it is built: with merged weights *)
  Lemma merged_run wadd wzero us : forall s s', executes apply s us s' -> (forall t, In t us -> merged wadd wzero (ps_eqb neqb teqb) teqb Ts t) ->
    exists us', executes apply s us' s' /\ (forall t, In t us' -> In t Ts) /\ run_word us' = run_word us /\ length us' = length us.
  Proof.
    induction us as [|t us IH]; intros s s' HE HT.
    - inversion HE; subst. exists []. repeat split; [constructor|intros t []].
    - inversion HE as [|? ? ? s1 ? H1 H2]; subst. destruct (IH _ _ H2) as (us' & U1 & U2 & U3 & U4); [intros; apply HT; now right|]. destruct (HT t (or_introl eq_refl)) as [(t0 & T0 & Ew & Ei) _].
      exists (t0 :: us'). split; [econstructor; [rewrite Ei; exact H1|exact U1]|]. split; [intros x [<-|Hx]; auto|]. split; [unfold run_word in *; cbn [flat_map]; now rewrite Ew, U3|cbn; now rewrite U4].
  Qed.
  Lemma all_bounded wadd wzero w : exists b, forall us, partial_run apply [Designated; Initial] (merged wadd wzero (ps_eqb neqb teqb) teqb Ts) w us -> length us < b.
  Proof.
    assert (G : exists b, forall A, In A (cg_initial g) -> bounded w [Label A] b).
    { induction (cg_initial g) as [|A l (b & IH)]; [exists 0; intros ? []|]. destruct (good_bounded _ (good_all w [Label A])) as (b1 & B1). exists (Nat.max b b1). intros B [<-|HB]; [eapply bounded_le; [exact B1|lia]|eapply bounded_le; [now apply IH|lia]]. }
    destruct G as (b & HB). exists (S (S b)). intros us (s & rest & HE & HT & HW). destruct (merged_run wadd wzero us _ _ HE HT) as (us' & U1 & U2 & U3 & <-). rewrite <- U3 in HW. clear HE HT U3.
    destruct us' as [|t us']; [cbn; lia|]. inversion U1 as [|? ? ? s1 ? H1 H2]; subst. apply (pdi_apply_spec _ PS) in H1. destruct H1 as (rest' & E1 & E2). pose proof (U2 t (or_introl eq_refl)) as Ht. apply (Ts_In teqb TE order OR) in Ht.
    change ([Designated; Initial] : list (push_state N T)) with ([Designated] ++ [Initial] : list (push_state N T)) in E1.
    destruct Ht as [(r & _ & ->)|[(y & _ & ->)|(n & Hn & ->)]]; cbn [pi_current t_ins rule_trans read_trans init_trans rev app] in E1; apply (single_top [Designated]) in E1; destruct E1 as [<- E1]; try discriminate.
    cbn in E2. subst s1. cbn [length]. assert (L : length us' < b) by (apply (HB n Hn us' s rest); [exact H2|intros; apply U2; now right|reflexivity]). lia.
  Qed.
End Ends.

Section NeverEnds.
  Context {N T : Type} {K : Weight} (neqb : N -> N -> bool) (teqb : T -> T -> bool) (NE : EqbSpec neqb) (TE : EqbSpec teqb).
  Context (order : list T -> list T) (OR : forall l, Permutation (order l) l) (g : cfg N T K).
  Notation rules := (cg_rules g).
  Notation apply := (pdi_apply (ps_eqb neqb teqb)).
  Notation PS := (ps_eqb_spec neqb teqb NE TE).
  Notation Ts := (cfg_transitions teqb order g).
  Notation stack alpha := (Designated :: rev (map sym alpha)).
  Notation ex := (executes (T := T) (K := K) apply).

  Lemma ex_app s us : forall us' s1 s', ex s us s1 -> ex s1 us' s' -> ex s (us ++ us') s'.
  Proof. revert s. induction us as [|u us IH]; intros s us' s1 s' H H'; inversion H; subst; [exact H'|]. cbn. econstructor; eauto. Qed.
  Lemma ex_firstn d : forall us s s', ex s us s' -> exists s1, ex s (firstn d us) s1.
  Proof. induction d as [|d IH]; intros us s s' H; [exists s; constructor|]. inversion H as [|t ? ? s0 ? H1 H2]; subst; [exists s'; constructor|]. destruct (IH _ _ _ H2) as [s1 E]. exists s1. cbn. econstructor; eauto. Qed.
  Lemma rule_step r beta : In r rules -> In (rule_trans r) Ts /\ ex (stack (Label (cr_head r) :: beta)) [rule_trans r] (stack (cr_rhs r ++ beta)).
  Proof.
    intros Hr. split; [apply (Ts_In teqb TE order OR); left; eauto|]. econstructor; [|constructor]. apply (pdi_apply_spec _ PS). exists (stack beta). split; [etransitivity; [apply stack_top|reflexivity]|]. cbn. now rewrite map_app, rev_app_distr.
  Qed.
  Lemma vanish_run alpha ds w : leftmost (fun r => In r rules) alpha ds w -> w = [] -> forall beta,
    exists us, ex (stack (alpha ++ beta)) us (stack beta) /\ (forall t, In t us -> In t Ts) /\ run_word us = [].
  Proof.
    induction 1 as [|x alpha ds w H IH|r alpha ds w Hr H IH]; intros E beta; [exists []; split; [constructor|split; [intros t []|reflexivity]]|discriminate|].
    destruct (IH E beta) as (us & U1 & U2 & U3). destruct (rule_step r (alpha ++ beta) Hr) as [R1 R2]. rewrite app_assoc in R2. exists ([rule_trans r] ++ us).
    split; [eapply ex_app; [exact R2|exact U1]|]. split; [intros t [<-|Ht]; auto|exact U3].
  Qed.
  Lemma leads_run A k B : leads rules A k B -> forall beta, exists us gamma, ex (stack (Label A :: beta)) us (stack (Label B :: gamma ++ beta)) /\ (forall t, In t us -> In t Ts) /\ run_word us = [] /\ k <= length us.
  Proof.
    induction 1 as [A|r before B after k C Hr E (ds & V) HL IH]; intros beta.
    - exists [], []. split; [constructor|]. split; [intros t []|]. split; [reflexivity|cbn; lia].
    - destruct (rule_step r beta Hr) as [R1 R2]. rewrite E, <- app_assoc in R2. destruct (vanish_run _ _ _ V eq_refl ((Label B :: after) ++ beta)) as (us1 & U1 & U2 & U3).
      destruct (IH (after ++ beta)) as (us2 & gamma & V1 & V2 & V3 & V4). exists ([rule_trans r] ++ us1 ++ us2), (gamma ++ after). split; [|split; [|split]].
      + eapply ex_app; [exact R2|]. eapply ex_app; [exact U1|]. replace ((gamma ++ after) ++ beta) with (gamma ++ after ++ beta) by apply app_assoc. exact V1.
      + intros t [<-|Ht]; [exact R1|]. change (In t (us1 ++ us2)) in Ht. apply in_app_or in Ht. destruct Ht as [Ht|Ht]; [exact (U2 t Ht)|exact (V2 t Ht)].
      + change (run_word ([rule_trans r] ++ us1 ++ us2)) with (run_word (us1 ++ us2)). unfold run_word in *. now rewrite flat_map_app, U3, V3.
      + cbn [app length]. rewrite app_length. lia.
  Qed.
  Lemma leads_app A k B : leads rules A k B -> forall l C, leads rules B l C -> leads rules A (k + l) C.
  Proof. induction 1 as [A|r before B after k C Hr E V HL IH]; intros l D H'; [exact H'|]. cbn. econstructor; eauto. Qed.
  Lemma leads_iter A k n : leads rules A k A -> leads rules A (n * k) A.
  Proof. intros H. induction n as [|n IH]; [constructor|]. cbn. eapply leads_app; eauto. Qed.
  Lemma long_runs wadd wzero word s k A j : In s (cg_initial g) -> leads rules s k A -> leads rules A (S j) A ->
    forall d, exists us st rest, ex [Designated; Initial] us st /\ (forall t, In t us -> merged wadd wzero (ps_eqb neqb teqb) teqb Ts t) /\ run_word us ++ rest = word /\ length us = d.
  Proof.
    intros Hs L1 L2 d. destruct (leads_run _ _ _ (leads_app _ _ _ L1 _ _ (leads_iter _ _ d L2)) []) as (us & gamma & U1 & U2 & U3 & U4).
    assert (I : ex [Designated; Initial] (init_trans s :: us) (stack (Label A :: gamma ++ []))).
    { econstructor; [|exact U1]. apply (pdi_apply_spec _ PS). exists [Designated]. auto. }
    assert (IT : forall t, In t (init_trans s :: us) -> In t Ts) by (intros t [<-|Ht]; [apply (Ts_In teqb TE order OR); right; right; eauto|auto]).
    destruct (unmerged_rep neqb teqb order g wadd wzero (firstn d (init_trans s :: us))) as (us' & M1 & M2).
    { intros t Ht. apply IT. rewrite <- (firstn_skipn d). apply in_or_app. now left. }
    destruct (ex_firstn d _ _ _ I) as (st & I'). exists us', st, word. split; [|split; [exact M1|split]].
    - destruct (rep_exec neqb teqb _ _ M2) as [_ X]. now apply X.
    - assert (run_word us' = run_word (firstn d (init_trans s :: us))).
      { clear -M2. induction M2 as [|? ? ? ? [E _] M IH]; [reflexivity|]. unfold run_word in *. cbn. now rewrite <- E, IH. }
      assert (Z : run_word (init_trans s :: us) = []) by exact U3. unfold run_word in *. rewrite <- (firstn_skipn d (init_trans s :: us)) in Z. rewrite flat_map_app in Z. apply app_eq_nil in Z. now rewrite H, (proj1 Z).
    - assert (length us' = length (firstn d (init_trans s :: us))) as -> by (clear -M2; induction M2; cbn; congruence). apply firstn_length_le. cbn [length]. assert (d * S j >= d) by nia. lia.
  Qed.
End NeverEnds.
