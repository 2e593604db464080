(* The inside and outside estimates: support and upper bounds. *)
From Verif Require Import Base M_Util M_Agenda M_Grammar M_Chart S_Chart P_Chart M_CSAuto S_Grammar S_CS P_CSAuto P_FillChart M_Estimates S_Estimates.

Section CloseQueue.
  Context {K : ZWeight} (KL : ZWeightLaws K) (H : max_heap (K * nat) (@item_leb K)).
  Context {S_ : Type} (step : nat -> K -> option (list (K * nat))) (ins : nat -> K -> S_ -> option S_) (ns : nat).
  Context {X : Type} (tbl : list (list X)) (TL : length tbl = ns).
  Context (un : nat -> K -> nat -> Prop) (sw : K -> K -> K).
  Context (UN1 : forall q1 rw q, un q1 rw q -> wleb rw wone = true /\ q < ns).
  (* P: a property of weights that base items have and steps preserve *)
  Context (P : K -> Prop).
  Context (SW : forall rw w w1, wleb w w1 = true -> wleb rw wone = true -> P w1 -> wleb (wmul rw w) (sw rw w1) = true).
  Context (STEP : forall q1 w1, q1 < ns -> exists items, step q1 w1 = Some items /\ length items <= length (nth q1 tbl []) /\
      forall v q, In (v, q) items <-> exists rw, un q1 rw q /\ v = sw rw w1).
  Context (INV : S_ -> Prop) (INS : forall q w s, q < ns -> INV s -> exists s', ins q w s = Some s' /\ INV s').
  Context (B : nat -> K -> Prop) (BS : forall q w, B q w -> q < ns).

  (* what the true closure would produce *)
  Inductive gen : nat -> K -> Prop :=
  | gen_base q w : B q w -> gen q w
  | gen_un q1 w1 rw q : gen q1 w1 -> un q1 rw q -> gen q (wmul rw w1).
  Lemma gen_state q w : gen q w -> q < ns.
  Proof. intros [q' w' H1|q1 w1 rw q' H1 H2]; [eauto|]. apply UN1 in H2. tauto. Qed.

  Definition ins_all (E : list (nat * K)) (s : S_) : option S_ := fold_p (fun s e => ins (fst e) (snd e) s) E s.
  Context (PB : forall q w, B q w -> P w) (PS : forall q1 rw q w1, un q1 rw q -> P w1 -> P (sw rw w1)).
  Record cq_inv (flt : list bool) (h : mh_T H) (E : list (nat * K)) : Prop := {
    cq_len : length flt = ns;
    cq_flt : forall q, nth_error flt q = Some true <-> In q (map fst E);
    cq_nodup : NoDup (map fst E);
    cq_state : forall q w, In (q, w) E -> q < ns /\ P w /\ exists w0, gen q w0;
    cq_heap : forall w q, In (w, q) (mh_content H h) -> q < ns /\ P w /\ exists w0, gen q w0;
    cq_base : forall q w, B q w -> In (w, q) (mh_content H h) \/ In q (map fst E);
    cq_edges : forall q1 w1 rw q, In (q1, w1) E -> un q1 rw q -> In q (map fst E) \/ In (sw rw w1, q) (mh_content H h);
    cq_cover : forall q w, gen q w -> (exists w', In (q, w') E /\ wleb w w' = true) \/
       (~ In q (map fst E) /\ exists q0 w0, In (w0, q0) (mh_content H h) /\ wleb w w0 = true /\ ~ In q0 (map fst E))
  }.
  Record cq_done (E : list (nat * K)) : Prop := {
    cqd_nodup : NoDup (map fst E);
    cqd_state : forall q w, In (q, w) E -> q < ns /\ P w /\ exists w0, gen q w0;
    cqd_cover : forall q w, gen q w -> exists w', In (q, w') E /\ wleb w w' = true
  }.
  Definition cpot (flt : list bool) : nat := fold_right (fun p m => (if fst p : bool then 0 else length (snd p)) + m) 0 (combine flt tbl).
  Lemma cpot_init : cpot (repeat false ns) = length (concat tbl).
  Proof. clear -TL. rewrite <- TL. unfold cpot. generalize tbl. induction tbl0 as [|x l IH]; cbn; [reflexivity|]. rewrite app_length. now rewrite IH. Qed.
  Lemma cpot_set flt : forall q flt', length flt = ns -> nth_error flt q = Some false -> vset flt q true = Some flt' -> cpot flt' + length (nth q tbl []) = cpot flt.
  Proof.
    clear -TL. rewrite <- TL. unfold cpot. generalize tbl. clear. induction flt as [|x skip IH]; intros l q skip' E1 E2 E3; [destruct q; discriminate|].
    destruct l as [|u l]; [discriminate|]. destruct q as [|q]; cbn in *.
    - injection E2 as ->. injection E3 as <-. cbn. lia.
    - destruct (vset skip q true) as [s'|] eqn:V; [|discriminate]. injection E3 as <-. cbn. rewrite <- (IH l q s'); [lia|lia|assumption|assumption].
  Qed.
  Lemma cpot_same flt q flt' : nth_error flt q = Some true -> vset flt q true = Some flt' -> cpot flt' = cpot flt.
  Proof.
    intros ES EV. clear -ES EV. unfold cpot. revert q flt' EV ES. generalize tbl. induction flt as [|x skip IHs]; intros u q skip1 EV ES; [destruct q; discriminate|].
    destruct q as [|q]; cbn in EV, ES; [injection ES as ->; injection EV as <-; reflexivity|]. destruct (vset skip q true) as [s'|] eqn:V; [|discriminate]. injection EV as <-. destruct u as [|v u]; [reflexivity|]. cbn. now rewrite (IHs u q s').
  Qed.

  Lemma close_queue_spec : forall fuel flt h E0 s, INV s -> cq_inv flt h E0 -> length (mh_content H h) + cpot flt < fuel ->
    exists E s', close_queue H step ins fuel flt h s = Some s' /\ ins_all E s = Some s' /\ cq_done (E0 ++ E).
  Proof.
    induction fuel as [|fuel IH]; intros flt h E0 s HI I F; [lia|]. cbn [close_queue]. destruct I as [I1 I2 I3 I4 I5 I6 I7 I8].
    destruct (mh_pop H h) as [[[w1 q1] h1]|] eqn:EP.
    - destruct (mh_pop_some H _ _ _ EP) as [PM MX]. assert (LH : length (mh_content H h) = S (length (mh_content H h1))) by (rewrite (Permutation_length PM); reflexivity).
      assert (IH0 : In (w1, q1) (mh_content H h)) by (eapply Permutation_in; [symmetry; exact PM|now left]). destruct (I5 _ _ IH0) as (Hq & Pw & SG).
      assert (HC : forall y, In y (mh_content H h) <-> y = (w1, q1) \/ In y (mh_content H h1)).
      { intros y. split; intros Hy; [apply (Permutation_in _ PM) in Hy; destruct Hy as [<-|Hy]; tauto|]. apply (Permutation_in _ (Permutation_sym PM)). destruct Hy as [->|Hy]; [now left|now right]. }
      assert (MXW : forall w q, In (w, q) (mh_content H h) -> wleb w w1 = true) by (intros w q Hin; apply MX in Hin; now apply item_leb_w in Hin).
      destruct (nth_error flt q1) as [sk|] eqn:ES; [|apply nth_error_None in ES; lia]. destruct (vset_ok flt q1 true ltac:(lia)) as (flt1 & EV & LV & NV). rewrite EV.
      assert (SK1 : forall q', nth_error flt1 q' = Some true <-> q' = q1 \/ nth_error flt q' = Some true).
      { intros q'. rewrite NV. destruct (Nat.eqb q' q1) eqn:Eq; [apply Nat.eqb_eq in Eq|apply Nat.eqb_neq in Eq]; intuition. }
      destruct sk.
      + pose proof ES as INE. apply I2 in INE. apply (IH flt1 h1 E0 s HI); [|rewrite (cpot_same flt q1 flt1 ES EV); lia]. split; try assumption; [lia| | | | |].
        * intros q'. rewrite SK1, I2. split; [intros [->|Hx]; assumption|tauto].
        * intros w q Hin. apply I5, HC. now right.
        * intros q w Hb. destruct (I6 q w Hb) as [Hh|Hh]; [|now right]. apply HC in Hh. destruct Hh as [[= -> ->]|Hh]; [now right|now left].
        * intros q2 w2 rw q Hin HU. destruct (I7 q2 w2 rw q Hin HU) as [Hh|Hh]; [now left|]. apply HC in Hh. destruct Hh as [[= E1 ->]|Hh]; [now left|now right].
        * intros q w Hg. destruct (I8 q w Hg) as [Hh|(N1 & q0 & w0 & Hh & L & N0)]; [now left|right]. split; [assumption|]. exists q0, w0. apply HC in Hh. destruct Hh as [[= -> ->]|Hh]; [contradiction|tauto].
      + assert (NIE : ~ In q1 (map fst E0)) by (intros Hin; apply I2 in Hin; congruence).
        destruct (INS q1 w1 s Hq HI) as (s1 & E1 & HI1). rewrite E1. destruct (STEP q1 w1 Hq) as (items & E2 & LI & IT). rewrite E2.
        edestruct (@filter_map_p_spec (K * nat) (K * nat) (fun x => let? f := nth_error flt1 (snd x) in Some (if f then None else Some x)) items) as (its & E3 & M & LM).
        { intros [v q] Hin. cbn. apply IT in Hin. destruct Hin as (rw & HU & _). apply UN1 in HU. destruct (nth_error flt1 q) eqn:EN; [discriminate|]. apply nth_error_None in EN. lia. }
        rewrite E3.
        assert (MI : forall v q, In (v, q) its <-> (exists rw, un q1 rw q /\ v = sw rw w1) /\ ~ In q (map fst E0) /\ q <> q1).
        { intros v q. rewrite M. split.
          - intros ([v' q'] & Hin & Hs). cbn in Hs. destruct (nth_error flt1 q') as [f|] eqn:EN; [|discriminate]. destruct f; [discriminate|]. injection Hs as -> ->. split; [now apply IT|]. rewrite <- I2. split; intros Hx.
            + assert (nth_error flt1 q = Some true) by (apply SK1; now right). congruence.
            + assert (nth_error flt1 q = Some true) by (apply SK1; now left). congruence.
          - intros (HU & N0 & N1). exists (v, q). split; [now apply IT|]. cbn. destruct (nth_error flt1 q) as [[|]|] eqn:EN.
            + apply SK1 in EN. rewrite I2 in EN. tauto.
            + reflexivity.
            + destruct HU as (rw & HU & _). apply UN1 in HU. apply nth_error_None in EN. lia. }
        destruct (IH flt1 (extend H its h1) (E0 ++ [(q1, w1)]) s1 HI1) as (E & s' & EQ & EI & DN).
        * assert (MF : forall q, In q (map fst (E0 ++ [(q1, w1)])) <-> In q (map fst E0) \/ q = q1) by (intros q; rewrite map_app, in_app_iff; cbn; intuition).
          split.
          -- lia.
          -- intros q'. rewrite SK1, I2, MF. tauto.
          -- rewrite map_app. apply Permutation_NoDup with (l := q1 :: map fst E0); [apply Permutation_cons_append|]. now constructor.
          -- intros q w Hin. apply in_app_iff in Hin. destruct Hin as [Hin|[[= -> ->]|[]]]; [eapply I4; eassumption|tauto].
          -- intros w q Hin. apply extend_In in Hin. destruct Hin as [Hin|Hin]; [|apply I5, HC; now right]. apply MI in Hin. destruct Hin as ((rw & HU & ->) & _). split; [apply UN1 in HU; tauto|]. split; [eapply PS; eassumption|]. destruct SG as (w0 & SG). exists (wmul rw w0). eapply gen_un; eassumption.
          -- intros q w Hb. rewrite MF, extend_In. destruct (I6 q w Hb) as [Hh|Hh]; [|tauto]. apply HC in Hh. destruct Hh as [[= -> ->]|Hh]; tauto.
          -- intros q2 w2 rw q Hin HU. rewrite MF, extend_In. apply in_app_iff in Hin. destruct Hin as [Hin|[[= -> ->]|[]]].
             ++ destruct (I7 q2 w2 rw q Hin HU) as [Hh|Hh]; [tauto|]. apply HC in Hh. destruct Hh as [[= _ ->]|Hh]; tauto.
             ++ destruct (in_dec Nat.eq_dec q (map fst E0)) as [D|D]; [tauto|]. destruct (Nat.eq_dec q q2) as [->|D2]; [tauto|]. right. left. apply MI. split; [eauto|tauto].
          -- assert (OLD1 : forall w, gen q1 w -> wleb w w1 = true).
             { intros w Hg. destruct (I8 q1 w Hg) as [(w' & Hin & _)|(_ & q0 & w0 & Hin & L & _)]; [apply in_map_fst in Hin; contradiction|]. eapply (w_trans KL); [exact L|]. eapply MXW; exact Hin. }
             assert (OLDE : forall q w, gen q w -> In q (map fst E0) -> exists w', In (q, w') (E0 ++ [(q1, w1)]) /\ wleb w w' = true).
             { intros q w Hg Hin. destruct (I8 q w Hg) as [(w' & Hin' & L)|(N0 & _)]; [|contradiction]. exists w'. split; [apply in_app_iff; now left|assumption]. }
             intros q w Hg. induction Hg as [q w Hb|q2 w2 rw q Hg IHg HU].
             ++ destruct (in_dec Nat.eq_dec q (map fst E0)) as [D|D]; [left; apply OLDE; [now apply gen_base|assumption]|].
                destruct (Nat.eq_dec q q1) as [->|D1]; [left; exists w1; split; [apply in_app_iff; right; now left|apply OLD1; now apply gen_base]|]. right. rewrite MF. split; [tauto|]. exists q, w. rewrite MF, extend_In.
                destruct (I6 q w Hb) as [Hh|Hh]; [|contradiction]. apply HC in Hh. destruct Hh as [[= E4 E5]|Hh]; [congruence|]. split; [tauto|]. split; [apply (w_refl KL)|tauto].
             ++ assert (Hg' : gen q (wmul rw w2)) by (eapply gen_un; eassumption). destruct (UN1 _ _ _ HU) as [RW Hq'].
                destruct (in_dec Nat.eq_dec q (map fst E0)) as [D|D]; [left; now apply OLDE|].
                destruct (Nat.eq_dec q q1) as [->|D1]; [left; exists w1; split; [apply in_app_iff; right; now left|now apply OLD1]|].
                right. rewrite MF. split; [tauto|]. destruct IHg as [(w' & Hin & L)|(N2 & q0 & w0 & Hin & L & N0)].
                ** exists q, (sw rw w'). rewrite MF. split; [|split; [apply SW; [assumption|assumption|]; apply in_app_iff in Hin; destruct Hin as [Hin|[[= -> ->]|[]]]; [apply I4 in Hin; tauto|assumption]|tauto]]. rewrite extend_In. apply in_app_iff in Hin. destruct Hin as [Hin|[[= -> ->]|[]]].
                   --- destruct (I7 q2 w' rw q Hin HU) as [Hh|Hh]; [contradiction|]. apply HC in Hh. destruct Hh as [[= _ E5]|Hh]; [congruence|now right].
                   --- left. apply MI. split; [eauto|tauto].
                ** exists q0, w0. split; [assumption|]. split; [|assumption]. eapply (w_trans KL); [|exact L]. now apply (w_le_one_mul KL).
        * rewrite (Permutation_length (extend_content H its h1)), app_length. pose proof (cpot_set flt q1 flt1 I1 ES EV). lia.
        * exists ((q1, w1) :: E), s'. split; [exact EQ|]. split; [unfold ins_all; cbn; rewrite E1; exact EI|]. rewrite <- app_assoc in DN. exact DN.
    - apply (mh_pop_none H) in EP. exists [], s. split; [reflexivity|]. split; [reflexivity|]. rewrite app_nil_r. split; try assumption. intros q w Hg. destruct (I8 q w Hg) as [Hh|(_ & q0 & w0 & Hin & _)]; [assumption|]. rewrite EP in Hin. destruct Hin.
  Qed.
  Corollary close_queue_init h s : INV s -> (forall w q, In (w, q) (mh_content H h) <-> B q w) ->
    exists E s', close_queue H step ins (S (mh_len H h + length (concat tbl))) (repeat false ns) h s = Some s' /\ ins_all E s = Some s' /\ cq_done E.
  Proof.
    intros HI HB. destruct (close_queue_spec (S (mh_len H h + length (concat tbl))) (repeat false ns) h [] s HI) as (E & s' & E1 & E2 & E3).
    - split.
      + apply repeat_length.
      + intros q. split; [|intros []]. intros Hq. exfalso. apply nth_error_In, repeat_spec in Hq. discriminate.
      + apply NoDup_nil.
      + intros q w [].
      + intros w q Hin. apply HB in Hin. split; [eauto|]. split; [eauto|]. exists w. now apply gen_base.
      + intros q w Hb. left. now apply HB.
      + intros q1 w1 rw q [].
      + intros q w Hg. right. split; [tauto|]. induction Hg as [q w Hb|q1 w1 rw q Hg IHg HU].
        * exists q, w. split; [now apply HB|]. split; [apply (w_refl KL)|tauto].
        * destruct IHg as (q0 & w0 & Hin & L & N0). exists q0, w0. split; [assumption|]. split; [|tauto]. eapply (w_trans KL); [|exact L]. apply (w_le_one_mul KL). now apply UN1 in HU.
    - rewrite cpot_init, (mh_len_c H). lia.
    - exists E, s'. auto.
  Qed.
End CloseQueue.

Lemma ws_inj n s i j q i' j' q' : span n i j -> span n i' j' -> q < s -> q' < s ->
  (offset n (j - i) + i) * s + q = (offset n (j' - i') + i') * s + q' -> i = i' /\ j = j' /\ q = q'.
Proof.
  intros H1 H2 Hq Hq' E. assert (E' : offset n (j - i) + i = offset n (j' - i') + i' /\ q = q').
  { set (x := offset n (j - i) + i) in *. set (y := offset n (j' - i') + i') in *. clearbody x y. assert (x = y) by nia. split; [assumption|]. subst. lia. }
  destruct E' as [E1 E2]. destruct (cell_inj _ _ _ _ _ H1 H2 E1). auto.
Qed.
Lemma hm_get_In {T X} (teqb : T -> T -> bool) t (m : list (T * list X)) l : hm_get teqb t m = Some l -> exists t', In (t', l) m.
Proof. induction m as [|[t' l'] m IH]; cbn; [discriminate|]. destruct (teqb t t'); [intros [= ->]; exists t'; now left|]. intros E. destruct (IH E) as (t2 & Hin). exists t2. now right. Qed.
Lemma nz_of_ge {K : ZWeight} (KL : ZWeightLaws K) (a b : K) : a <> wzero -> wleb a b = true -> b <> wzero.
Proof. intros H1 H2 ->. apply H1. apply (wl_anti _ (zl_weight _ KL)); [assumption|apply (zl_zero_le _ KL)]. Qed.
Lemma is_zero_spec {K : ZWeight} (KL : ZWeightLaws K) (w : K) : is_zero w = true <-> w = wzero.
Proof. unfold is_zero. apply (zl_eqb _ KL). Qed.
Lemma is_zero_false {K : ZWeight} (KL : ZWeightLaws K) (w : K) : is_zero w = false <-> w <> wzero.
Proof. rewrite <- (is_zero_spec KL). destruct (is_zero w); split; congruence. Qed.
Lemma nonzero_states_spec {K : ZWeight} (KL : ZWeightLaws K) (ws : list K) q w : In (q, w) (nonzero_states ws) <-> nth_error ws q = Some w /\ w <> wzero.
Proof.
  unfold nonzero_states. rewrite filter_In. cbn [snd]. rewrite Bool.negb_true_iff, (is_zero_false KL).
  assert (G : forall b, In (q, w) (combine (seq b (length ws)) ws) <-> b <= q /\ nth_error ws (q - b) = Some w).
  { induction ws as [|x ws IH]; intros b; cbn [length seq combine In].
    - split; [intros []|]. intros [_ E]. destruct (q - b); discriminate.
    - rewrite IH. split.
      + intros [[= -> ->]|[L E]]; [rewrite Nat.sub_diag; split; [lia|reflexivity]|]. split; [lia|]. replace (q - b) with (S (q - S b)) by lia. exact E.
      + intros [L E]. destruct (q - b) as [|k] eqn:D; [left; cbn in E; replace q with b by lia; congruence|]. right. split; [lia|]. replace (q - S b) with k by lia. exact E. }
  rewrite (G 0), Nat.sub_0_r. intuition lia.
Qed.

Lemma tnth {X} (tab : list (list X)) k q : length tab = k -> q < k -> nth_error tab q = Some (nth q tab []).
Proof. intros L Hq. apply nth_error_nth'. lia. Qed.

Section Est.
  Context {T : Type} {K : ZWeight} (KL : ZWeightLaws K) (teqb : T -> T -> bool) (H : max_heap (K * nat) (@item_leb K)).
  Context (a : automaton T K) (R : list (crule nat T K)) (PZ : presents teqb a R (states a)).
  Notation ns := (states a).
  Context (HW1 : forall x, In x R -> wleb (cr_weight x) wone = true) (HW0 : forall x, In x R -> cr_weight x <> wzero).
  Context (m : nat).

  Lemma rule_w rid q rhs w b : nth_error R rid = Some (CRule q rhs w b) -> wleb w wone = true /\ w <> wzero.
  Proof. intros E. apply nth_error_In in E. split; [now apply HW1 in E|now apply HW0 in E]. Qed.
  Lemma rule_s rid q rhs w b : nth_error R rid = Some (CRule q rhs w b) -> q < ns /\ match rhs with RT _ => True | RU q => q < ns | RB q1 q2 => q1 < ns /\ q2 < ns end.
  Proof. intros E. apply nth_error_In in E. now apply (pz_states _ _ _ _ PZ) in E. Qed.
  Lemma rw_at rid q rhs w b : nth_error R rid = Some (CRule q rhs w b) -> rule_weight R rid = w.
  Proof. unfold rule_weight. now intros ->. Qed.
  Lemma cderiv_nz q t u : cderiv R q t u -> ct_weight R t <> wzero.
  Proof.
    induction 1 as [r q t w b H1|r q q1 w b t u H1 H2 IH|r q q1 q2 w b t1 t2 u1 u2 H1 H2 IH1 H3 IH2]; cbn; rewrite (rw_at _ _ _ _ _ H1); apply rule_w in H1; [tauto| |]; repeat apply (w_nz_mul KL); tauto.
  Qed.
  Lemma cderiv_pos q t u : cderiv R q t u -> 1 <= length u.
  Proof. intros D. apply cderiv_nonempty in D. destruct u; [contradiction|cbn; lia]. Qed.
  Definition unr (q1 : nat) (rw : K) (q : nat) : Prop := exists rid b, nth_error R rid = Some (CRule q (RU q1) rw b).

  (* ---- the inside table ---- *)
  Definition irep (s : @sx_inside K) (g : nat -> nat -> K) : Prop :=
    si_states s = ns /\ length (si_tab s) = ns * m /\ forall r q, 1 <= r <= m -> q < ns -> nth_error (si_tab s) (ns * (r - 1) + q) = Some (g r q).
  Lemma si_insert_spec s g r q w : irep s g -> 1 <= r <= m -> q < ns -> exists s', si_insert q r w s = Some s' /\
    irep s' (fun r' q' => if Nat.eqb r' r && Nat.eqb q' q && is_zero (g r q) then w else g r' q').
  Proof.
    intros (E1 & E2 & E3) Hr Hq. unfold si_insert, si_index. destruct r as [|r]; [lia|]. rewrite E1. pose proof (E3 (S r) q Hr Hq) as EN. cbn in EN. rewrite Nat.sub_0_r in EN. rewrite EN.
    destruct (is_zero (g (S r) q)) eqn:Z.
    - assert (LT : ns * r + q < length (si_tab s)) by (apply nth_error_Some; congruence). destruct (vset_ok (si_tab s) (ns * r + q) w LT) as (t & -> & L & N). eexists. split; [reflexivity|]. split; [reflexivity|]. split; [cbn; lia|]. cbn [si_tab].
      intros r' q' Hr' Hq'. rewrite N. destruct (Nat.eqb_spec r' (S r)), (Nat.eqb_spec q' q); cbn [andb].
      + subst. cbn. rewrite Nat.sub_0_r, Nat.eqb_refl. reflexivity.
      + subst. cbn. rewrite Nat.sub_0_r. destruct (Nat.eqb_spec (ns * r + q') (ns * r + q)); [lia|]. pose proof (E3 (S r) q' Hr' Hq') as E. cbn in E. now rewrite Nat.sub_0_r in E.
      + destruct (Nat.eqb_spec (ns * (r' - 1) + q') (ns * r + q)) as [E|E]; [exfalso; apply n; assert (r' - 1 = r) by nia; lia|]. apply E3; assumption.
      + destruct (Nat.eqb_spec (ns * (r' - 1) + q') (ns * r + q)) as [E|E]; [exfalso; apply n; assert (r' - 1 = r) by nia; lia|]. apply E3; assumption.
    - exists s. split; [reflexivity|]. split; [exact E1|]. split; [exact E2|]. intros r' q' Hr' Hq'. rewrite Bool.andb_false_r. apply E3; assumption.
  Qed.
  Lemma si_get_spec s g r q : irep s g -> 1 <= r <= m -> q < ns -> si_get s q r = Some (if is_zero (g r q) then None else Some (g r q)).
  Proof.
    intros (E1 & E2 & E3) Hr Hq. unfold si_get, si_index. destruct r as [|r]; [lia|]. rewrite E1. pose proof (E3 (S r) q Hr Hq) as EN. cbn in EN. rewrite Nat.sub_0_r in EN. now rewrite EN.
  Qed.
  Lemma si_iterate_spec s g r : irep s g -> 1 <= r <= m -> exists l, si_iterate s r = Some l /\ forall q w, In (q, w) l <-> q < ns /\ w = g r q /\ w <> wzero.
  Proof.
    intros (E1 & E2 & E3) Hr. unfold si_iterate. destruct r as [|r]; [lia|]. rewrite E1. destruct (slice_ok (si_tab s) (r * ns) ns) as (sl & -> & L & N); [rewrite E2; nia|]. eexists. split; [reflexivity|].
    intros q w. rewrite (nonzero_states_spec KL), N. destruct (Nat.ltb_spec q ns) as [Lq|Lq].
    - pose proof (E3 (S r) q Hr Lq) as E. cbn in E. rewrite Nat.sub_0_r in E. rewrite (Nat.mul_comm r ns), E. split; [intros [[= <-] Z]; tauto|intros (_ & -> & Z); tauto].
    - split; [intros [E _]; discriminate|lia].
  Qed.
  Definition lookup (E : list (nat * K)) (q : nat) : option K := option_map snd (find (fun e => Nat.eqb (fst e) q) E).
  Lemma lookup_In E q w : NoDup (map fst E) -> (lookup E q = Some w <-> In (q, w) E).
  Proof.
    intros ND. unfold lookup. induction E as [|[q' w'] E IH]; cbn; [split; [discriminate|intros []]|]. inversion ND; subst. destruct (Nat.eqb_spec q' q) as [->|D].
    - cbn. split; [intros [= ->]; now left|]. intros [[= ->]|Hin]; [reflexivity|]. apply in_map_fst in Hin. contradiction.
    - rewrite IH by assumption. split; [tauto|]. intros [[= -> ->]|Hin]; [contradiction|assumption].
  Qed.
  Lemma ins_row E : forall s g r, irep s g -> 1 <= r <= m -> NoDup (map fst E) -> (forall q w, In (q, w) E -> q < ns) -> (forall q, In q (map fst E) -> g r q = wzero) ->
    exists s', ins_all (fun q w s => si_insert q r w s) E s = Some s' /\ irep s' (fun r' q' => if Nat.eqb r' r then match lookup E q' with Some w => w | None => g r' q' end else g r' q').
  Proof.
    unfold ins_all. induction E as [|[q w] E IH]; intros s g r HR Hr ND HS Z; cbn [fold_p].
    - exists s. split; [reflexivity|]. destruct HR as (E1 & E2 & E3). split; [assumption|]. split; [assumption|]. intros r' q' Hr' Hq'. cbn. rewrite E3 by assumption. destruct (Nat.eqb r' r); reflexivity.
    - cbn [fst snd]. destruct (si_insert_spec s g r q w HR Hr) as (s1 & -> & HR1); [eapply HS; now left|]. cbn in ND. inversion ND as [|? ? ND1 ND2]; subst.
      assert (Zq : is_zero (g r q) = true) by (apply (is_zero_spec KL), Z; now left).
      destruct (IH s1 _ r HR1 Hr ND2) as (s' & EE & HR'); [intros q' w' Hin; apply (HS q' w'); now right| |].
      + intros q' Hin. rewrite Nat.eqb_refl. destruct (Nat.eqb_spec q' q); [subst; contradiction|]. cbn. apply Z. now right.
      + exists s'. split; [exact EE|]. destruct HR' as (A1 & A2 & A3). split; [assumption|]. split; [assumption|]. intros r' q' Hr' Hq'. rewrite A3 by assumption. f_equal. rewrite Zq, Bool.andb_true_r. unfold lookup. cbn [find fst].
        destruct (Nat.eqb_spec r' r); [|reflexivity]. subst r'. cbn [andb]. rewrite (Nat.eqb_sym q q'). destruct (Nat.eqb_spec q' q) as [->|D]; [|reflexivity]. cbn. destruct (find (fun e => Nat.eqb (fst e) q) E) as [[q2 w2]|] eqn:F; [|reflexivity]. apply find_some in F. destruct F as [F1 F2]. cbn in F2. apply Nat.eqb_eq in F2. subst. apply in_map_fst in F1. contradiction.
  Qed.

  Definition inside_ok (g : nat -> nat -> K) (r : nat) : Prop := forall q, q < ns ->
    (forall t u, cderiv R q t u -> length u = r -> g r q <> wzero /\ wleb (ct_weight R t) (g r q) = true) /\
    (g r q <> wzero -> exists t u, cderiv R q t u /\ length u = r).
  Inductive ibase (g : nat -> nat -> K) (r : nat) : nat -> K -> Prop :=
  | ib_t rid q t w b : r = 1 -> nth_error R rid = Some (CRule q (RT t) w b) -> ibase g r q w
  | ib_b rid q q1 q2 w b lp : 1 <= lp < r -> g lp q1 <> wzero -> g (r - lp) q2 <> wzero -> nth_error R rid = Some (CRule q (RB q1 q2) w b) ->
      ibase g r q (wmul (wmul (g lp q1) w) (g (r - lp) q2)).

  Lemma inside_binary_spec s g r h : irep s g -> 1 <= r <= m -> exists h', inside_binary H a s r h = Some h' /\
    forall w q, In (w, q) (mh_content H h') <-> In (w, q) (mh_content H h) \/
      exists lp rid q1 q2 w0 b, 1 <= lp < r /\ g lp q1 <> wzero /\ g (r - lp) q2 <> wzero /\ nth_error R rid = Some (CRule q (RB q1 q2) w0 b) /\ w = wmul (wmul (g lp q1) w0) (g (r - lp) q2).
  Proof.
    intros HR Hr. unfold inside_binary. destruct (pz_len _ _ _ _ PZ) as (L & _).
    edestruct (@fold_content K H nat) with (l := seq 1 (r - 1)) (h := h)
      (s := fun queue left_portion => let? lefts := si_iterate s left_portion in
        fold_p (fun queue left => let? rules := nth_error (au_bin a) (fst left) in
          let? items := filter_map_p (fun x => let '(_, qr, (w0, q0)) := x in let? wr := si_get s qr (r - left_portion) in
            Some (match wr with Some wr => Some (wmul (wmul (snd left) w0) wr, q0) | None => None end)) rules in
          Some (extend H items queue)) lefts queue)
      (P := fun lp y => exists left, (fst left < ns /\ snd left = g lp (fst left) /\ snd left <> wzero) /\
             exists rid q2 w0 b, g (r - lp) q2 <> wzero /\ nth_error R rid = Some (CRule (snd y) (RB (fst left) q2) w0 b) /\ fst y = wmul (wmul (snd left) w0) (g (r - lp) q2)) as (h' & E & C).
    - intros h0 lp Hlp. apply in_seq in Hlp. destruct (si_iterate_spec s g lp HR ltac:(lia)) as (lefts & -> & ML).
      destruct (@fold_content K H (nat * K)) with (l := lefts) (h := h0)
        (s := fun queue left => let? rules := nth_error (au_bin a) (fst left) in
          let? items := filter_map_p (fun x : nat * nat * (K * nat) => let '(_, qr, (w0, q0)) := x in let? wr := si_get s qr (r - lp) in
            Some (match wr with Some wr => Some (wmul (wmul (snd left) w0) wr, q0) | None => None end)) rules in
          Some (extend H items queue))
        (P := fun left y => exists rid q2 w0 b, g (r - lp) q2 <> wzero /\ nth_error R rid = Some (CRule (snd y) (RB (fst left) q2) w0 b) /\ fst y = wmul (wmul (snd left) w0) (g (r - lp) q2)) as (h' & E & C).
      + intros h1 [q1 w1] Hl. apply ML in Hl. destruct Hl as (Hq1 & Ew & Z). cbn [fst snd]. rewrite (tnth _ _ _ L Hq1).
        set (gg := fun x : nat * nat * (K * nat) => _).
        assert (X : forall rid q2 w0 q, In (rid, q2, (w0, q)) (nth q1 (au_bin a) []) -> gg (rid, q2, (w0, q)) = Some (if is_zero (g (r - lp) q2) then None else Some (wmul (wmul w1 w0) (g (r - lp) q2), q))).
        { intros rid q2 w0 q Hin. apply (pz_bin _ _ _ _ PZ) in Hin. destruct Hin as (b & Hin). apply rule_s in Hin. unfold gg. rewrite (si_get_spec s g (r - lp) q2 HR) by (try lia; tauto). destruct (is_zero _); reflexivity. }
        destruct (filter_map_p_spec gg (nth q1 (au_bin a) [])) as (items & -> & M & _); [intros [[rid q2] [w0 q]] Hin; rewrite (X _ _ _ _ Hin); discriminate|].
        eexists. split; [reflexivity|]. intros [yw yq]. rewrite extend_In, M. cbn [fst snd]. split.
        * intros [([[rid q2] [w0 q]] & Hin & Eg)|Hin]; [right|now left]. rewrite (X _ _ _ _ Hin) in Eg. destruct (is_zero (g (r - lp) q2)) eqn:Zg; [discriminate|]. injection Eg as <- <-. apply (pz_bin _ _ _ _ PZ) in Hin. destruct Hin as (b & Hin). exists rid, q2, w0, b. apply (is_zero_false KL) in Zg. tauto.
        * intros [Hin|(rid & q2 & w0 & b & Zg & Hin & ->)]; [now right|left]. exists (rid, q2, (w0, yq)). assert (Hin' : In (rid, q2, (w0, yq)) (nth q1 (au_bin a) [])) by (apply (pz_bin _ _ _ _ PZ); eauto). split; [exact Hin'|]. rewrite (X _ _ _ _ Hin'). apply (is_zero_false KL) in Zg. now rewrite Zg.
      + exists h'. split; [exact E|]. intros y. rewrite C. split; (intros [A|A]; [now left|right]).
        * destruct A as ([q1 w1] & Hl & A). apply ML in Hl. exists (q1, w1). cbn [fst snd] in *. split; [tauto|exact A].
        * destruct A as ([q1 w1] & Hl & A). exists (q1, w1). split; [apply ML; cbn [fst snd] in Hl; tauto|exact A].
    - exists h'. split; [exact E|]. intros w q. rewrite C. split; (intros [A|A]; [now left|right]).
      + destruct A as (lp & Hlp & [q1 w1] & (Hq1 & Ew & Z) & rid & q2 & w0 & b & A1 & A2 & A3). apply in_seq in Hlp. cbn [fst snd] in *. subst w1. exists lp, rid, q1, q2, w0, b. split; [lia|tauto].
      + destruct A as (lp & rid & q1 & q2 & w0 & b & Hlp & Z1 & Z2 & Hr' & ->). exists lp. split; [apply in_seq; lia|]. exists (q1, g lp q1). cbn [fst snd]. split; [apply rule_s in Hr'; tauto|]. exists rid, q2, w0, b. tauto.
  Qed.
  Lemma terminals_In w q : In (w, q) (map snd (concat (map snd (au_term a)))) <-> exists rid t b, nth_error R rid = Some (CRule q (RT t) w b).
  Proof.
    rewrite in_map_iff. split.
    - intros ([rid [w' q']] & E & Hin). cbn in E. injection E as -> ->. apply in_concat in Hin. destruct Hin as (l & Hl & Hin). apply in_map_iff in Hl. destruct Hl as ([t l'] & <- & Hl). cbn in Hin. apply (pz_values _ _ _ _ PZ) in Hl. subst l'. apply (pz_term _ _ _ _ PZ) in Hin. destruct Hin as (b & Hin). eauto.
    - intros (rid & t & b & Hr). exists (rid, (w, q)). split; [reflexivity|]. assert (Hin : In (rid, (w, q)) (au_terms teqb a t)) by (apply (pz_term _ _ _ _ PZ); eauto). unfold au_terms in Hin. destruct (hm_get teqb t (au_term a)) as [l|] eqn:E; [|destruct Hin].
      apply hm_get_In in E. destruct E as (t' & E). apply in_concat. exists l. split; [|assumption]. apply in_map_iff. exists (t', l). auto.
  Qed.
  Lemma ibase_nz g r q w : ibase g r q w -> w <> wzero.
  Proof. intros [rid q' t w' b E1 E2|rid q' q1 q2 w' b lp E1 E2 E3 E4]; [apply rule_w in E2; tauto|]. apply rule_w in E4. repeat apply (w_nz_mul KL); tauto. Qed.
  Lemma ibase_state g r q w : ibase g r q w -> q < ns.
  Proof. intros [rid q' t w' b E1 E2|rid q' q1 q2 w' b lp E1 E2 E3 E4]; [apply rule_s in E2|apply rule_s in E4]; tauto. Qed.

  Definition gle (g : nat -> nat -> K) : Prop := forall r q, 1 <= r <= m -> q < ns -> wleb (g r q) wone = true.
  Lemma w_one_mul2 (x y : K) : wleb x wone = true -> wleb y wone = true -> wleb (wmul x y) wone = true.
  Proof. intros H1 H2. eapply (w_trans KL); [apply (w_le_one_mul KL), H1|exact H2]. Qed.
  Lemma ibase_le g r q w : gle g -> 1 <= r <= m -> ibase g r q w -> wleb w wone = true.
  Proof. intros GL Hr [rid q' t w' b E1 E2|rid q' q1 q2 w' b lp E1 E2 E3 E4]; [apply rule_w in E2; tauto|]. pose proof (rule_s _ _ _ _ _ E4) as [_ [S1 S2]]. apply rule_w in E4. repeat apply w_one_mul2; try tauto; apply GL; try assumption; lia. Qed.
  Lemma inside_round_spec s g r : irep s g -> gle g -> 1 <= r <= m -> (forall r', 1 <= r' < r -> inside_ok g r') -> (forall r' q, r <= r' <= m -> q < ns -> g r' q = wzero) ->
    exists s' g', inside_round H a s r = Some s' /\ irep s' g' /\ gle g' /\ (forall r', 1 <= r' < S r -> inside_ok g' r') /\ (forall r' q, S r <= r' <= m -> q < ns -> g' r' q = wzero).
  Proof.
    intros HR GL Hr OK Z. unfold inside_round. destruct (pz_len _ _ _ _ PZ) as (_ & LU & _).
    set (h0 := if Nat.eqb r 1 then _ else _). destruct (inside_binary_spec s g r h0 HR Hr) as (h1 & -> & C1).
    assert (CB : forall w q, In (w, q) (mh_content H h1) <-> ibase g r q w).
    { intros w q. rewrite C1. unfold h0. split.
      - intros [Hin|(lp & rid & q1 & q2 & w0 & b & A1 & A2 & A3 & A4 & ->)]; [|eapply ib_b; eassumption]. destruct (Nat.eqb_spec r 1) as [E|E]; [|rewrite (mh_empty_c H) in Hin; destruct Hin]. apply extend_In in Hin. rewrite (mh_empty_c H) in Hin. destruct Hin as [Hin|[]]. apply terminals_In in Hin. destruct Hin as (rid & t & b & Hin). eapply ib_t; eassumption.
      - intros [rid q' t w' b E1 E2|rid q' q1 q2 w' b lp E1 E2 E3 E4]; [left|right; exists lp, rid, q1, q2, w', b; tauto]. subst r. cbn [Nat.eqb]. apply extend_In. left. apply terminals_In. eauto. }
    assert (ES : si_states s = ns) by apply HR. rewrite ES.
    edestruct (close_queue_init KL H (inside_step a) (fun q w s => si_insert q r w s) ns (au_un a) LU unr (fun rw w1 => rw)) with (INV := fun s => exists g, irep s g) (B := ibase g r) (P := fun w : K => w <> wzero /\ wleb w wone = true) (h := h1) (s := s) as (E & s' & E1 & E2 & DN).
    - intros q1 rw q (rid & b & Hu). split; [apply rule_w in Hu; tauto|apply rule_s in Hu; tauto].
    - intros rw w w1 Lw RW [_ P1]. rewrite <- (w_one_r KL rw) at 2. apply (w_mono_l KL). eapply (w_trans KL); eassumption.
    - intros q1 w1 Hq. unfold inside_step. rewrite (tnth _ _ _ LU Hq). eexists. split; [reflexivity|]. split; [now rewrite map_length|]. intros v q. rewrite in_map_iff. split.
      + intros ([rid [w0 q0]] & E & Hin). injection E as -> ->. exists v. split; [|reflexivity]. apply (pz_un _ _ _ _ PZ) in Hin. destruct Hin as (b & Hin). exists rid, b. exact Hin.
      + intros (rw & (rid & b & Hu) & ->). exists (rid, (rw, q)). split; [reflexivity|]. apply (pz_un _ _ _ _ PZ). eauto.
    - intros q w s0 Hq (g0 & HR0). destruct (si_insert_spec s0 g0 r q w HR0 Hr Hq) as (s1 & -> & HR1). eauto.
    - apply ibase_state.
    - intros q w Hb. split; [eapply ibase_nz; exact Hb|eapply ibase_le; eassumption].
    - intros q1 rw q w1 (rid & b & Hu) _. apply rule_w in Hu. tauto.
    - eauto.
    - exact CB.
    - destruct (ins_row E s g r HR Hr) as (s2 & E3 & HR2); [apply (cqd_nodup _ _ _ _ _ DN)|intros q w Hin; apply (cqd_state _ _ _ _ _ DN) in Hin; tauto|intros q Hin; apply Z; [lia|]; apply in_map_iff in Hin; destruct Hin as ([q' w] & <- & Hin); apply (cqd_state _ _ _ _ _ DN) in Hin; tauto|].
      rewrite E2 in E3. injection E3 as <-. set (g' := fun r' q' => _) in HR2. exists s', g'. split; [exact E1|]. split; [exact HR2|].
      assert (GR : forall q w, In (q, w) E -> g' r q = w). { intros q w Hin. unfold g'. rewrite Nat.eqb_refl. apply (lookup_In E q w (cqd_nodup _ _ _ _ _ DN)) in Hin. now rewrite Hin. }
      assert (GO : forall r' q, r' <> r -> g' r' q = g r' q). { intros r' q D. unfold g'. destruct (Nat.eqb_spec r' r); [contradiction|reflexivity]. }
      assert (GN : forall q, q < ns -> g' r q <> wzero -> In (q, g' r q) E).
      { intros q Hq NZ. unfold g' in *. rewrite Nat.eqb_refl in *. destruct (lookup E q) as [w|] eqn:EL; [now apply (lookup_In E q w (cqd_nodup _ _ _ _ _ DN))|]. exfalso. apply NZ. apply Z; [lia|assumption]. }
      split; [|split].
      + intros r' q Hr' Hq. destruct (Nat.eq_dec r' r) as [->|D]; [|rewrite GO by assumption; now apply GL]. destruct (is_zero (g' r q)) eqn:Zg.
        * apply (is_zero_spec KL) in Zg. rewrite Zg. apply (zl_zero_le _ KL).
        * apply (is_zero_false KL) in Zg. apply GN in Zg; [|assumption]. apply (cqd_state _ _ _ _ _ DN) in Zg. tauto.
      + intros r' Hr'. destruct (Nat.eq_dec r' r) as [->|D].
        * intros q Hq. split.
          -- assert (GG : forall q t u, cderiv R q t u -> length u = r -> exists w, gen unr (ibase g r) q w /\ wleb (ct_weight R t) w = true).
             { clear q Hq. induction 1 as [rid q t w b H1|rid q q1 w b t u H1 H2 IH|rid q q1 q2 w b t1 t2 u1 u2 H1 H2 IH1 H3 IH2]; intros LU'.
               - exists w. split; [apply gen_base; eapply ib_t; [cbn in LU'; lia|eassumption]|]. cbn. rewrite (rw_at _ _ _ _ _ H1). apply (w_refl KL).
               - destruct (IH LU') as (w1 & G1 & L1). exists (wmul w w1). split; [eapply gen_un; [exact G1|exists rid, b; exact H1]|]. cbn. rewrite (rw_at _ _ _ _ _ H1). now apply (w_mono_l KL).
               - rewrite app_length in LU'. pose proof (cderiv_pos _ _ _ H2). pose proof (cderiv_pos _ _ _ H3). pose proof (rule_s _ _ _ _ _ H1) as [_ [S1 S2]].
                 destruct (proj1 (OK (length u1) ltac:(lia) q1 S1) t1 u1 H2 eq_refl) as [Z1 L1]. destruct (proj1 (OK (length u2) ltac:(lia) q2 S2) t2 u2 H3 eq_refl) as [Z2 L2].
                 exists (wmul (wmul (g (length u1) q1) w) (g (r - length u1) q2)). replace (r - length u1) with (length u2) by lia. split.
                 + apply gen_base. replace (length u2) with (r - length u1) in * by lia. eapply ib_b; try eassumption. lia.
                 + cbn. rewrite (rw_at _ _ _ _ _ H1), (wl_comm _ (zl_weight _ KL) (g (length u1) q1) w), <- (wl_assoc _ (zl_weight _ KL)). apply (w_mono_l KL). now apply (w_mono2 KL). }
             intros t u D LU'. destruct (GG q t u D LU') as (w & G & L). apply (cqd_cover _ _ _ _ _ DN) in G. destruct G as (w' & Hin & L'). rewrite (GR _ _ Hin). split; [apply (cqd_state _ _ _ _ _ DN) in Hin; tauto|]. eapply (w_trans KL); eassumption.
          -- intros NZ. apply GN in NZ; [|assumption]. apply (cqd_state _ _ _ _ _ DN) in NZ. destruct NZ as (_ & _ & w0 & G). clear -G OK PZ Hr.
             induction G as [q w Hb|q1 w1 rw q G IH (rid & b & HU)].
             ++ destruct Hb as [rid q t w b E1 E2|rid q q1 q2 w b lp E1 E2 E3 E4].
                ** exists (CNull rid), [t]. split; [eapply cd_null; eassumption|cbn; lia].
                ** pose proof (rule_s _ _ _ _ _ E4) as [_ [S1 S2]]. destruct (proj2 (OK lp ltac:(lia) q1 S1) E2) as (t1 & u1 & D1 & L1). destruct (proj2 (OK (r - lp) ltac:(lia) q2 S2) E3) as (t2 & u2 & D2 & L2). exists (CBin rid t1 t2), (u1 ++ u2). split; [eapply cd_bin; eassumption|]. rewrite app_length. lia.
             ++ destruct IH as (t & u & D & L). exists (CUn rid t), u. split; [eapply cd_un; eassumption|assumption].
        * assert (OK' : inside_ok g r') by (apply OK; lia). intros q Hq. rewrite GO by assumption. exact (OK' q Hq).
      + intros r' q Hr' Hq. rewrite GO by lia. apply Z; [lia|assumption].
  Qed.
  Theorem inside_spec : exists s g, inside_from_automaton H a m = Some s /\ irep s g /\ forall r, 1 <= r <= m -> inside_ok g r.
  Proof.
    unfold inside_from_automaton.
    edestruct (@fold_p_seq (@sx_inside K)) with (P := fun r s => exists g, irep s g /\ gle g /\ (forall r', 1 <= r' < r -> inside_ok g r') /\ (forall r' q, r <= r' <= m -> q < ns -> g r' q = wzero)) (len := m) (b := 1) (c := @si_with_capacity K ns m) (s := @inside_round T K H a) as (s & E & g & HR & _ & OK & _).
    - intros c r Hr (g & HR & GL & OK & Z). destruct (inside_round_spec c g r HR GL ltac:(lia) OK Z) as (s' & g' & A1 & A2 & A3 & A4 & A5). exists s'. split; [exact A1|]. exists g'. auto.
    - exists (fun _ _ => wzero). split; [|split; [intros r q _ _; apply (zl_zero_le _ KL)|split; [intros r'; lia|reflexivity]]]. split; [reflexivity|]. split; [cbn; apply repeat_length|]. intros r q Hr Hq. cbn [si_tab si_with_capacity]. apply nth_error_repeat. nia.
    - exists s, g. split; [exact E|]. split; [exact HR|]. intros r Hr. apply OK. lia.
  Qed.

  (* ---- the outside table ---- *)
  Definition orep (s : @sx_outside K) (g : nat -> nat -> nat -> K) : Prop :=
    so_max s = m /\ so_states s = ns /\ length (so_tab s) = chart_size m * ns /\
    forall i j q, span m i j -> q < ns -> nth_error (so_tab s) ((offset m (j - i) + i) * ns + q) = Some (g i j q).
  Lemma so_insert_spec s g i j q w : orep s g -> span m i j -> q < ns -> exists s', so_insert q i j w s = Some s' /\
    orep s' (fun i' j' q' => if Nat.eqb i' i && Nat.eqb j' j && Nat.eqb q' q && is_zero (g i j q) then w else g i' j' q').
  Proof.
    intros (E0 & E1 & E2 & E3) HS Hq. unfold so_insert, so_index. rewrite E0, E1, (index_ws_some _ _ _ _ _ HS). rewrite (E3 i j q HS Hq). destruct (is_zero (g i j q)) eqn:Z.
    - assert (LT : (offset m (j - i) + i) * ns + q < length (so_tab s)) by (apply nth_error_Some; rewrite (E3 i j q HS Hq); discriminate).
      destruct (vset_ok (so_tab s) _ w LT) as (t & -> & L & N). eexists. split; [reflexivity|]. split; [reflexivity|]. split; [reflexivity|]. split; [cbn [so_tab]; congruence|]. cbn [so_tab]. intros i' j' q' HS' Hq'. rewrite N, Bool.andb_true_r.
      destruct (Nat.eqb_spec ((offset m (j' - i') + i') * ns + q') ((offset m (j - i) + i) * ns + q)) as [E|E].
      + apply ws_inj in E; try assumption. destruct E as (-> & -> & ->). now rewrite !Nat.eqb_refl.
      + destruct (Nat.eqb_spec i' i), (Nat.eqb_spec j' j), (Nat.eqb_spec q' q); subst; try contradiction; cbn; apply E3; assumption.
    - exists s. split; [reflexivity|]. split; [exact E0|]. split; [exact E1|]. split; [exact E2|]. intros i' j' q' HS' Hq'. rewrite Bool.andb_false_r. apply E3; assumption.
  Qed.
  Lemma so_iterate_spec s g i j : orep s g -> span m i j -> exists l, so_iterate s i j = Some l /\ forall q w, In (q, w) l <-> q < ns /\ w = g i j q /\ w <> wzero.
  Proof.
    intros (E0 & E1 & E2 & E3) HS. unfold so_iterate, so_index. rewrite E0, E1, (index_ws_some _ _ _ _ _ HS), Nat.add_0_r. pose proof (cell_range m i j HS) as CR.
    destruct (slice_ok (so_tab s) ((offset m (j - i) + i) * ns) ns) as (sl & -> & L & N); [rewrite E2; nia|]. eexists. split; [reflexivity|]. intros q w. rewrite (nonzero_states_spec KL), N. destruct (Nat.ltb_spec q ns) as [Lq|Lq].
    - rewrite (E3 i j q HS Lq). split; [intros [[= <-] Z]; tauto|intros (_ & -> & Z); tauto].
    - split; [intros [E _]; discriminate|lia].
  Qed.
  Lemma oins_row E : forall s g i j, orep s g -> span m i j -> NoDup (map fst E) -> (forall q w, In (q, w) E -> q < ns) -> (forall q, In q (map fst E) -> g i j q = wzero) ->
    exists s', ins_all (fun q w s => so_insert q i j w s) E s = Some s' /\ orep s' (fun i' j' q' => if Nat.eqb i' i && Nat.eqb j' j then match lookup E q' with Some w => w | None => g i' j' q' end else g i' j' q').
  Proof.
    unfold ins_all. induction E as [|[q w] E IH]; intros s g i j HR HS ND HQ Z; cbn [fold_p].
    - exists s. split; [reflexivity|]. destruct HR as (E0 & E1 & E2 & E3). split; [assumption|]. split; [assumption|]. split; [assumption|]. intros i' j' q' Hr' Hq'. unfold lookup. cbn [find]. rewrite E3 by assumption. destruct (_ && _); reflexivity.
    - cbn [fst snd]. destruct (so_insert_spec s g i j q w HR HS) as (s1 & -> & HR1); [apply (HQ q w); now left|]. cbn in ND. inversion ND as [|? ? ND1 ND2]; subst.
      assert (Zq : is_zero (g i j q) = true) by (apply (is_zero_spec KL), Z; now left).
      destruct (IH s1 _ i j HR1 HS ND2) as (s' & EE & HR'); [intros q' w' Hin; apply (HQ q' w'); now right| |].
      + intros q' Hin. rewrite !Nat.eqb_refl. destruct (Nat.eqb_spec q' q); [subst; contradiction|]. cbn. apply Z. now right.
      + exists s'. split; [exact EE|]. destruct HR' as (A0 & A1 & A2 & A3). split; [assumption|]. split; [assumption|]. split; [assumption|]. intros i' j' q' Hr' Hq'. rewrite A3 by assumption. f_equal. rewrite Zq, Bool.andb_true_r. unfold lookup. cbn [find fst].
        destruct (Nat.eqb_spec i' i); [|reflexivity]. destruct (Nat.eqb_spec j' j); [|reflexivity]. subst. cbn [andb]. rewrite (Nat.eqb_sym q q'). destruct (Nat.eqb_spec q' q) as [->|D]; [|reflexivity]. cbn. destruct (find (fun e => Nat.eqb (fst e) q) E) as [[q2 w2]|] eqn:F; [|reflexivity]. apply find_some in F. destruct F as [F1 F2]. cbn in F2. apply Nat.eqb_eq in F2. subst. apply in_map_fst in F1. contradiction.
  Qed.

  Context (insides : @sx_inside K) (gi : nat -> nat -> K) (IR : irep insides gi) (IOK : forall r, 1 <= r <= m -> inside_ok gi r).
  Context (INI : au_initial a < ns) (M254 : m <= 254).
  Notation init := (au_initial a).
  Inductive obase (g : nat -> nat -> nat -> K) (lf rf : nat) : nat -> K -> Prop :=
  | ob_i : rf - lf = m -> obase g lf rf init wone
  | ob_l rid q0 ql qr w b ext : ext < lf -> g ext rf q0 <> wzero -> gi (lf - ext) ql <> wzero -> nth_error R rid = Some (CRule q0 (RB ql qr) w b) ->
      obase g lf rf qr (wmul (wmul (gi (lf - ext) ql) w) (g ext rf q0))
  | ob_r rid q0 ql qr w b ext : rf < ext <= m -> g lf ext q0 <> wzero -> gi (ext - rf) qr <> wzero -> nth_error R rid = Some (CRule q0 (RB ql qr) w b) ->
      obase g lf rf ql (wmul (wmul w (gi (ext - rf) qr)) (g lf ext q0)).

  (* one parent: items f(rule) for the binary rules of q0, if the inside weight of a sibling is not zero *)
  Lemma parent_items q0 wo len (sib tgt : nat -> nat -> nat) (mk : K -> K -> K) : q0 < ns -> 1 <= len <= m -> (forall q1 q2, q1 < ns -> q2 < ns -> sib q1 q2 < ns) ->
    exists items, filter_map_p (fun x : nat * nat * nat * K => let '(_, ql, qr, w0) := x in
         let? ws := si_get insides (sib ql qr) len in Some (match ws with Some ws => Some (wmul (mk ws w0) wo, tgt ql qr) | None => None end)) (nth q0 (au_tdbin a) []) = Some items /\
      forall y, In y items <-> exists rid ql qr w b, nth_error R rid = Some (CRule q0 (RB ql qr) w b) /\ gi len (sib ql qr) <> wzero /\ y = (wmul (mk (gi len (sib ql qr)) w) wo, tgt ql qr).
  Proof.
    intros Hq0 Hl HS. set (gg := fun x : nat * nat * nat * K => _).
    assert (X : forall rid ql qr w, In (rid, ql, qr, w) (nth q0 (au_tdbin a) []) -> gg (rid, ql, qr, w) = Some (if is_zero (gi len (sib ql qr)) then None else Some (wmul (mk (gi len (sib ql qr)) w) wo, tgt ql qr))).
    { intros rid ql qr w Hin. apply (pz_tdbin _ _ _ _ PZ) in Hin. destruct Hin as (b & Hin). apply rule_s in Hin. unfold gg. rewrite (si_get_spec insides gi len (sib ql qr) IR) by (try lia; apply HS; tauto). destruct (is_zero _); reflexivity. }
    destruct (filter_map_p_spec gg (nth q0 (au_tdbin a) [])) as (items & E & M & _); [intros [[[rid ql] qr] w] Hin; rewrite (X _ _ _ _ Hin); discriminate|].
    exists items. split; [exact E|]. intros y. rewrite M. split.
    - intros ([[[rid ql] qr] w] & Hin & Eg). rewrite (X _ _ _ _ Hin) in Eg. destruct (is_zero (gi len (sib ql qr))) eqn:Zg; [discriminate|]. injection Eg as <-. apply (pz_tdbin _ _ _ _ PZ) in Hin. destruct Hin as (b & Hin). exists rid, ql, qr, w, b. apply (is_zero_false KL) in Zg. tauto.
    - intros (rid & ql & qr & w & b & Hin & Zg & ->). exists (rid, ql, qr, w). assert (Hin' : In (rid, ql, qr, w) (nth q0 (au_tdbin a) [])) by (apply (pz_tdbin _ _ _ _ PZ); eauto). split; [exact Hin'|]. rewrite (X _ _ _ _ Hin'). apply (is_zero_false KL) in Zg. now rewrite Zg.
  Qed.
  Lemma outside_left_spec s g lf rf h : orep s g -> span m lf rf -> exists h', outside_left H a insides s lf rf h = Some h' /\
    forall y, In y (mh_content H h') <-> In y (mh_content H h) \/
      exists ext, In ext (seq 0 lf) /\ exists p, (fst p < ns /\ snd p = g ext rf (fst p) /\ snd p <> wzero) /\
        exists rid ql qr w b, nth_error R rid = Some (CRule (fst p) (RB ql qr) w b) /\ gi (lf - ext) ql <> wzero /\ y = (wmul (wmul (gi (lf - ext) ql) w) (snd p), qr).
  Proof.
    intros HR [S1 S2]. unfold outside_left. destruct (pz_len _ _ _ _ PZ) as (_ & _ & L & _). apply fold_content. intros h0 ext He. apply in_seq in He.
    destruct (so_iterate_spec s g ext rf HR ltac:(split; lia)) as (ps & -> & MP).
    edestruct (@fold_content K H (nat * K)) with (l := ps) (h := h0) (P := fun (p : nat * K) y => exists rid ql qr w b, nth_error R rid = Some (CRule (fst p) (RB ql qr) w b) /\ gi (lf - ext) ql <> wzero /\ y = (wmul (wmul (gi (lf - ext) ql) w) (snd p), qr)) as (h' & E & C); cycle 1.
    - exists h'. split; [exact E|]. intros y. rewrite C. apply or_iff_compat_l. split.
      + intros ([q0 wo] & Hp & A). apply MP in Hp. exists (q0, wo). split; [exact Hp|exact A].
      + intros ([q0 wo] & Hp & A). exists (q0, wo). split; [apply MP; exact Hp|exact A].
    - intros h1 [q0 wo] Hp. apply MP in Hp. destruct Hp as (Hq0 & _). cbn [fst snd]. rewrite (tnth _ _ _ L Hq0).
      destruct (parent_items q0 wo (lf - ext) (fun ql _ => ql) (fun _ qr => qr) (fun ws w => wmul ws w) Hq0 ltac:(lia)) as (items & -> & M); [tauto|]. eexists. split; [reflexivity|]. intros y. rewrite extend_In, M. cbn beta. apply or_comm.
  Qed.
  Lemma outside_right_spec s g lf rf h : orep s g -> span m lf rf -> exists h', outside_right H a insides m s lf rf h = Some h' /\
    forall y, In y (mh_content H h') <-> In y (mh_content H h) \/
      exists ext, In ext (seq (S rf) (m - rf)) /\ exists p, (fst p < ns /\ snd p = g lf ext (fst p) /\ snd p <> wzero) /\
        exists rid ql qr w b, nth_error R rid = Some (CRule (fst p) (RB ql qr) w b) /\ gi (ext - rf) qr <> wzero /\ y = (wmul (wmul w (gi (ext - rf) qr)) (snd p), ql).
  Proof.
    intros HR [S1 S2]. unfold outside_right. destruct (Nat.leb_spec 255 rf) as [L255|L255]; [lia|]. destruct (pz_len _ _ _ _ PZ) as (_ & _ & L & _). apply fold_content. intros h0 ext He. apply in_seq in He.
    destruct (so_iterate_spec s g lf ext HR ltac:(split; lia)) as (ps & -> & MP).
    edestruct (@fold_content K H (nat * K)) with (l := ps) (h := h0) (P := fun (p : nat * K) y => exists rid ql qr w b, nth_error R rid = Some (CRule (fst p) (RB ql qr) w b) /\ gi (ext - rf) qr <> wzero /\ y = (wmul (wmul w (gi (ext - rf) qr)) (snd p), ql)) as (h' & E & C); cycle 1.
    - exists h'. split; [exact E|]. intros y. rewrite C. apply or_iff_compat_l. split.
      + intros ([q0 wo] & Hp & A). apply MP in Hp. exists (q0, wo). split; [exact Hp|exact A].
      + intros ([q0 wo] & Hp & A). exists (q0, wo). split; [apply MP; exact Hp|exact A].
    - intros h1 [q0 wo] Hp. apply MP in Hp. destruct Hp as (Hq0 & _). cbn [fst snd]. rewrite (tnth _ _ _ L Hq0).
      destruct (parent_items q0 wo (ext - rf) (fun _ qr => qr) (fun ql _ => ql) (fun ws w => wmul w ws) Hq0 ltac:(lia)) as (items & -> & M); [tauto|]. eexists. split; [reflexivity|]. intros y. rewrite extend_In, M. cbn beta. apply or_comm.
  Qed.

  Definition outside_ok (g : nat -> nat -> nat -> K) (i j : nat) : Prop := forall q, q < ns ->
    (forall c, context R init q i (m - j) c -> g i j q <> wzero /\ wleb c (g i j q) = true) /\
    (g i j q <> wzero -> exists c, context R init q i (m - j) c).
  Definition unr_td (q0 : nat) (rw : K) (q1 : nat) : Prop := exists rid b, nth_error R rid = Some (CRule q0 (RU q1) rw b).
  Lemma context_state q i k c : context R init q i k c -> q < ns.
  Proof. intros [|r q' q1 w b i' k' c' H1 H2|r q' q1 q2 w b i' k' c' t u H1 H2 H3|r q' q1 q2 w b i' k' c' t u H1 H2 H3]; [assumption|..]; apply rule_s in H1; tauto. Qed.
  Lemma obase_nz g lf rf q w : obase g lf rf q w -> (wone : K) <> wzero -> w <> wzero.
  Proof. intros [E|rid q0 ql qr w' b ext E1 E2 E3 E4|rid q0 ql qr w' b ext E1 E2 E3 E4] O; [assumption| |]; apply rule_w in E4; repeat apply (w_nz_mul KL); tauto. Qed.

  Context (O1 : (wone : K) <> wzero).
  Lemma outside_round_spec k s g lf : orep s g -> span m lf (lf + k) -> 1 <= k ->
    (forall i j, span m i j -> k < j - i \/ (j - i = k /\ i < lf) -> outside_ok g i j) -> (forall i j q, span m i j -> j - i < k \/ (j - i = k /\ lf <= i) -> q < ns -> g i j q = wzero) ->
    exists s' g', outside_round H a insides m k s lf = Some s' /\ orep s' g' /\
      (forall i j, span m i j -> k < j - i \/ (j - i = k /\ i < S lf) -> outside_ok g' i j) /\ (forall i j q, span m i j -> j - i < k \/ (j - i = k /\ S lf <= i) -> q < ns -> g' i j q = wzero).
  Proof.
    intros HR HS Hk OK Z. pose proof HS as [S1 S2]. unfold outside_round. destruct (pz_len _ _ _ _ PZ) as (_ & _ & _ & LU & _).
    set (h0 := if Nat.eqb k m then _ else _). set (rf := lf + k) in *.
    destruct (outside_left_spec s g lf rf h0 HR HS) as (h1 & -> & C1). destruct (outside_right_spec s g lf rf h1 HR HS) as (h2 & -> & C2).
    assert (CB : forall w q, In (w, q) (mh_content H h2) <-> obase g lf rf q w).
    { intros w q. rewrite C2, C1. unfold h0. split.
      - intros [[Hin|(ext & He & [q0 wo] & (P1 & P2 & P3) & rid & ql & qr & w0 & b & A1 & A2 & A3)]|(ext & He & [q0 wo] & (P1 & P2 & P3) & rid & ql & qr & w0 & b & A1 & A2 & A3)].
        + destruct (Nat.eqb_spec k m) as [E|E]; [|rewrite (mh_empty_c H) in Hin; destruct Hin]. apply (Permutation_in _ (mh_push_c H _ _)) in Hin. rewrite (mh_empty_c H) in Hin. destruct Hin as [[= <- <-]|[]]. apply ob_i. unfold rf. lia.
        + cbn [fst snd] in *. subst wo. injection A3 as -> ->. apply in_seq in He. eapply ob_l; try eassumption. lia.
        + cbn [fst snd] in *. subst wo. injection A3 as -> ->. apply in_seq in He. eapply ob_r; try eassumption. lia.
      - intros [E|rid q0 ql qr w' b ext E1 E2 E3 E4|rid q0 ql qr w' b ext E1 E2 E3 E4].
        + left. left. destruct (Nat.eqb_spec k m) as [E'|E']; [|unfold rf in E; lia]. apply (Permutation_in _ (Permutation_sym (mh_push_c H _ _))). now left.
        + left. right. exists ext. split; [apply in_seq; lia|]. exists (q0, g ext rf q0). cbn [fst snd]. split; [apply rule_s in E4; tauto|]. exists rid, ql, qr, w', b. tauto.
        + right. exists ext. split; [apply in_seq; lia|]. exists (q0, g lf ext q0). cbn [fst snd]. split; [apply rule_s in E4; tauto|]. exists rid, ql, qr, w', b. tauto. }
    assert (ES : so_states s = ns) by apply HR. rewrite ES.
    edestruct (close_queue_init KL H (outside_step a) (fun q w s => so_insert q lf rf w s) ns (au_tdun a) LU unr_td (fun rw w1 => wmul rw w1)) with (INV := fun s => exists g, orep s g) (B := obase g lf rf) (P := fun w : K => w <> wzero) (h := h2) (s := s) as (E & s' & E1 & E2 & DN).
    - intros q1 rw q (rid & b & Hu). split; [apply rule_w in Hu; tauto|apply rule_s in Hu; tauto].
    - intros rw w w1 Lw RW _. now apply (w_mono_l KL).
    - intros q1 w1 Hq. unfold outside_step. rewrite (tnth _ _ _ LU Hq). eexists. split; [reflexivity|]. split; [now rewrite map_length|]. intros v q. rewrite in_map_iff. split.
      + intros ([[rid q0] w0] & E & Hin). injection E as <- ->. exists w0. split; [|reflexivity]. apply (pz_tdun _ _ _ _ PZ) in Hin. destruct Hin as (b & Hin). exists rid, b. exact Hin.
      + intros (rw & (rid & b & Hu) & ->). exists (rid, q, rw). split; [reflexivity|]. apply (pz_tdun _ _ _ _ PZ). eauto.
    - intros q w s0 Hq (g0 & HR0). destruct (so_insert_spec s0 g0 lf rf q w HR0 HS Hq) as (s1 & -> & HR1). eauto.
    - intros q w [Ei|rid q0 ql qr w' b ext A1 A2 A3 A4|rid q0 ql qr w' b ext A1 A2 A3 A4]; [assumption| |]; apply rule_s in A4; tauto.
    - intros q w Hb. eapply obase_nz; eassumption.
    - intros q1 rw q w1 (rid & b & Hu) P1. apply rule_w in Hu. apply (w_nz_mul KL); tauto.
    - eauto.
    - exact CB.
    - destruct (oins_row E s g lf rf HR HS) as (s2 & E3 & HR2); [apply (cqd_nodup _ _ _ _ _ DN)|intros q w Hin; apply (cqd_state _ _ _ _ _ DN) in Hin; tauto|intros q Hin; apply Z; [assumption|unfold rf; lia|]; apply in_map_iff in Hin; destruct Hin as ([q' w] & <- & Hin); apply (cqd_state _ _ _ _ _ DN) in Hin; tauto|].
      rewrite E2 in E3. injection E3 as <-. set (g' := fun i' j' q' => _) in HR2. exists s', g'. split; [exact E1|]. split; [exact HR2|].
      assert (GR : forall q w, In (q, w) E -> g' lf rf q = w). { intros q w Hin. unfold g'. rewrite !Nat.eqb_refl. apply (lookup_In E q w (cqd_nodup _ _ _ _ _ DN)) in Hin. now rewrite Hin. }
      assert (GO : forall i j q, i <> lf \/ j <> rf -> g' i j q = g i j q). { intros i j q D. unfold g'. destruct (Nat.eqb_spec i lf), (Nat.eqb_spec j rf); cbn; try reflexivity. subst. destruct D; contradiction. }
      assert (GN : forall q, q < ns -> g' lf rf q <> wzero -> In (q, g' lf rf q) E).
      { intros q Hq NZ. unfold g' in *. rewrite !Nat.eqb_refl in *. cbn [andb] in *. destruct (lookup E q) as [w|] eqn:EL; [now apply (lookup_In E q w (cqd_nodup _ _ _ _ _ DN))|]. exfalso. apply NZ. apply Z; [assumption|unfold rf; lia|assumption]. }
      split.
      + intros i j Sij Hij. destruct (Nat.eq_dec i lf) as [->|Di]; [destruct (Nat.eq_dec j rf) as [->|Dj]|].
        * intros q Hq. split.
          -- assert (GG : forall q i' k' c, context R init q i' k' c -> i' = lf -> k' = m - rf -> exists w, gen unr_td (obase g lf rf) q w /\ wleb c w = true).
             { clear q Hq. induction 1 as [|r q q1 w b i k0 c H1 H2 IH|r q q1 q2 w b i k0 c t u H1 H2 IH H3|r q q1 q2 w b i k0 c t u H1 H2 IH H3]; intros Ei Ek.
               - exists wone. split; [apply gen_base, ob_i; lia|apply (w_refl KL)].
               - destruct (IH Ei Ek) as (w1 & G1 & L1). exists (wmul w w1). split; [eapply gen_un; [exact G1|exists r, b; exact H1]|]. now apply (w_mono_l KL).
               - pose proof (cderiv_pos _ _ _ H3). pose proof (rule_s _ _ _ _ _ H1) as [Sq [Sa Sb]]. subst i. set (ext := m - k0). assert (Xe : rf < ext <= m) by (unfold ext; lia).
                 assert (OKp : outside_ok g lf ext) by (apply OK; [split; lia|left; unfold rf in Xe; lia]). replace k0 with (m - ext) in H2 by (unfold ext; lia). destruct (proj1 (OKp q Sq) c H2) as [Zp Lp].
                 destruct (proj1 (IOK (length u) ltac:(unfold ext in Xe; lia) q2 Sb) t u H3 eq_refl) as [Zi Li]. assert (El : ext - rf = length u) by (unfold ext; lia). rewrite <- El in Zi, Li.
                 exists (wmul (wmul w (gi (ext - rf) q2)) (g lf ext q)). split; [apply gen_base; eapply ob_r; eassumption|]. apply (w_mono2 KL); [now apply (w_mono_l KL)|assumption].
               - pose proof (cderiv_pos _ _ _ H3). pose proof (rule_s _ _ _ _ _ H1) as [Sq [Sa Sb]]. set (ext := i). assert (Xe : ext < lf) by (unfold ext; lia).
                 assert (OKp : outside_ok g ext rf) by (apply OK; [split; lia|left; unfold rf; lia]). fold ext in H2. subst k0. destruct (proj1 (OKp q Sq) c H2) as [Zp Lp].
                 destruct (proj1 (IOK (length u) ltac:(lia) q1 Sa) t u H3 eq_refl) as [Zi Li]. assert (El : lf - ext = length u) by (unfold ext; lia). rewrite <- El in Zi, Li.
                 exists (wmul (wmul (gi (lf - ext) q1) w) (g ext rf q)). split; [apply gen_base; eapply ob_l; eassumption|]. apply (w_mono2 KL); [now apply (wl_mono _ (zl_weight _ KL))|assumption]. }
             intros c HC. destruct (GG q lf (m - rf) c HC eq_refl eq_refl) as (w & G & L). apply (cqd_cover _ _ _ _ _ DN) in G. destruct G as (w' & Hin & L'). rewrite (GR _ _ Hin). split; [apply (cqd_state _ _ _ _ _ DN) in Hin; tauto|]. eapply (w_trans KL); eassumption.
          -- intros NZ. apply GN in NZ; [|assumption]. apply (cqd_state _ _ _ _ _ DN) in NZ. destruct NZ as (_ & _ & w0 & G). clear -G OK PZ Hk S1 S2 IOK.
             induction G as [q w Hb|q1 w1 rw q G IH (rid & b & HU)].
             ++ destruct Hb as [E|rid q0 ql qr w b ext E1 E2 E3 E4|rid q0 ql qr w b ext E1 E2 E3 E4].
                ** replace lf with 0 by lia. replace (m - rf) with 0 by lia. eexists. apply cx_root.
                ** pose proof (rule_s _ _ _ _ _ E4) as [Sq [Sa Sb]]. assert (OKp : outside_ok g ext rf) by (apply OK; [split; lia|left; unfold rf; lia]). destruct (proj2 (OKp q0 Sq) E2) as (c & HC). destruct (proj2 (IOK (lf - ext) ltac:(lia) ql Sa) E3) as (t & u & D & L).
                   replace lf with (ext + length u) by lia. eexists. eapply cx_right; eassumption.
                ** pose proof (rule_s _ _ _ _ _ E4) as [Sq [Sa Sb]]. assert (OKp : outside_ok g lf ext) by (apply OK; [split; lia|left; unfold rf in *; lia]). destruct (proj2 (OKp q0 Sq) E2) as (c & HC). destruct (proj2 (IOK (ext - rf) ltac:(lia) qr Sb) E3) as (t & u & D & L).
                   replace (m - rf) with (length u + (m - ext)) by lia. eexists. eapply cx_left; eassumption.
             ++ destruct IH as (c & HC). eexists. eapply cx_un; eassumption.
        * assert (OK' : outside_ok g lf j) by (apply OK; [assumption|unfold rf in Dj; lia]). intros q Hq. rewrite GO by tauto. exact (OK' q Hq).
        * assert (OK' : outside_ok g i j) by (apply OK; [assumption|lia]). intros q Hq. rewrite GO by tauto. exact (OK' q Hq).
      + intros i j q Sij Hij Hq. rewrite GO by (unfold rf; lia). apply Z; [assumption|lia|assumption].
  Qed.
  Lemma fold_p_rev_seq {St} (s : St -> nat -> option St) (P : nat -> St -> Prop) : forall len c,
    (forall c k, 1 <= k <= len -> P k c -> exists c', s c k = Some c' /\ P (k - 1) c') -> P len c -> exists c', fold_p s (rev (seq 1 len)) c = Some c' /\ P 0 c'.
  Proof.
    clear. induction len as [|len IH]; intros c HS HP; [exists c; auto|]. rewrite seq_S, rev_app_distr. cbn [rev app fold_p]. destruct (HS c (1 + len) ltac:(lia) HP) as (c1 & -> & HP1). replace (1 + len - 1) with len in HP1 by lia.
    apply IH; [|assumption]. intros c' k Hk. apply HS. lia.
  Qed.
  Lemma outside_loops : exists s g,
    fold_p (fun s range_size => fold_p (outside_round H a insides m range_size) (seq 0 (m - range_size + 1)) s) (rev (seq 1 m)) (so_with_capacity ns m) = Some s /\
    orep s g /\ forall i j, span m i j -> outside_ok g i j.
  Proof.
    set (Inv := fun k lf (s : @sx_outside K) => exists g, orep s g /\ (forall i j, span m i j -> k < j - i \/ (j - i = k /\ i < lf) -> outside_ok g i j) /\ (forall i j q, span m i j -> j - i < k \/ (j - i = k /\ lf <= i) -> q < ns -> g i j q = wzero)).
    edestruct (@fold_p_rev_seq (@sx_outside K)) with (P := fun k s => Inv k 0 s) (len := m) (c := @so_with_capacity K ns m) (s := fun s range_size => fold_p (outside_round H a insides m range_size) (seq 0 (m - range_size + 1)) s) as (s & E & g & HR & OK & _).
    - intros s k Hk HI. edestruct (@fold_p_seq (@sx_outside K)) with (P := fun lf s => Inv k lf s) (len := m - k + 1) (b := 0) (c := s) (s := outside_round H a insides m k) as (s' & E & HI').
      + intros s1 lf Hlf (g & HR & OK & Z). destruct (outside_round_spec k s1 g lf HR ltac:(split; lia) ltac:(lia) OK Z) as (s' & g' & A1 & A2 & A3 & A4). exists s'. split; [exact A1|]. exists g'. auto.
      + exact HI.
      + exists s'. split; [exact E|]. destruct HI' as (g & HR & OK & Z). exists g. split; [exact HR|]. split.
        * intros i j [L1 L2] Hij. apply OK; [split; lia|]. lia.
        * intros i j q [L1 L2] Hij Hq. apply Z; [split; lia| |assumption]. lia.
    - exists (fun _ _ _ => wzero). split; [|split; [|reflexivity]].
      + split; [reflexivity|]. split; [reflexivity|]. assert (CS : ns * m * (m + 1) / 2 = chart_size m * ns). { rewrite <- chart_size_ws. unfold chart_size_with_states. f_equal. lia. } cbn [so_tab so_with_capacity]. rewrite CS, repeat_length. split; [reflexivity|]. intros i j q HS Hq. apply nth_error_repeat. pose proof (cell_range m i j HS). nia.
      + intros i j [L1 L2] Hij. lia.
    - exists s, g. split; [exact E|]. split; [exact HR|]. intros i j HS. apply OK; [assumption|]. destruct HS. lia.
  Qed.
End Est.
