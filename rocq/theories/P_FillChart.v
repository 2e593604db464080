(* Automaton::fill_chart: what the chart contains. *)
From Coq Require Import NArith.
From Verif Require Import Base M_Util M_Agenda M_Grammar M_Chart S_Chart P_Chart M_CSAuto S_Grammar S_CS P_CSAuto.

Lemma filter_map_p_spec {X Y} (f : X -> option (option Y)) l : (forall x, In x l -> f x <> None) ->
  exists ys, filter_map_p f l = Some ys /\ (forall y, In y ys <-> exists x, In x l /\ f x = Some (Some y)) /\ length ys <= length l.
Proof.
  induction l as [|x l IH]; intros H; cbn.
  - exists []. split; [reflexivity|]. split; [|cbn; lia]. intros y. split; [intros []|intros (x & [] & _)].
  - destruct (IH (fun x Hx => H x (or_intror Hx))) as (ys & -> & M & L). pose proof (H x (or_introl eq_refl)) as Hx. destruct (f x) as [[y|]|] eqn:E; [| |contradiction].
    + eexists. split; [reflexivity|]. split; [|cbn; lia]. intros y'. cbn. rewrite M. split.
      * intros [<-|(x' & H1 & H2)]; [exists x; tauto|exists x'; tauto].
      * intros (x' & [->|H1] & H2); [left; congruence|right; eauto].
    + eexists. split; [reflexivity|]. split; [|cbn; lia]. intros y'. rewrite M. split.
      * intros (x' & H1 & H2); exists x'; tauto.
      * intros (x' & [->|H1] & H2); [congruence|eauto].
Qed.
Lemma fold_p_app {X St} (f : St -> X -> option St) l1 l2 s : fold_p f (l1 ++ l2) s = match fold_p f l1 s with Some s => fold_p f l2 s | None => None end.
Proof. revert s. induction l1 as [|x l1 IH]; intros s; cbn; [reflexivity|]. destruct (f s x); [apply IH|reflexivity]. Qed.

Lemma fold_p_seq {St} (s : St -> nat -> option St) (P : nat -> St -> Prop) : forall len b c,
  (forall c m, b <= m < b + len -> P m c -> exists c', s c m = Some c' /\ P (S m) c') -> P b c -> exists c', fold_p s (seq b len) c = Some c' /\ P (b + len) c'.
Proof.
  induction len as [|len IH]; intros b c HS HP; cbn [seq fold_p]; [exists c; rewrite Nat.add_0_r; auto|].
  destruct (HS c b ltac:(lia) HP) as (c1 & -> & HP1). destruct (IH (S b) c1) as (c2 & E & HP2); [intros c' m Hm; apply HS; lia|assumption|]. exists c2. split; [exact E|]. replace (b + S len) with (S b + len) by lia. exact HP2.
Qed.

Section Order.
  Context {K : ZWeight} (KL : ZWeightLaws K).
  Lemma w_total (a b : K) : wleb a b = true \/ wleb b a = true.
  Proof. apply (to_total _ (wl_order _ (zl_weight _ KL))). Qed.
  Lemma w_refl (a : K) : wleb a a = true.
  Proof. destruct (w_total a a); assumption. Qed.
  Lemma w_trans (a b c : K) : wleb a b = true -> wleb b c = true -> wleb a c = true.
  Proof. apply (to_trans _ (wl_order _ (zl_weight _ KL))). Qed.
  Lemma w_mono_l (a b c : K) : wleb a b = true -> wleb (wmul c a) (wmul c b) = true.
  Proof. rewrite !(wl_comm _ (zl_weight _ KL) c). apply (wl_mono _ (zl_weight _ KL)). Qed.
  Lemma w_mono2 (a b c d : K) : wleb a b = true -> wleb c d = true -> wleb (wmul a c) (wmul b d) = true.
  Proof. intros H1 H2. eapply w_trans; [apply (wl_mono _ (zl_weight _ KL)), H1|]. now apply w_mono_l. Qed.
  Lemma w_one_r (a : K) : wmul a wone = a.
  Proof. rewrite (wl_comm _ (zl_weight _ KL)). apply (wl_one_l _ (zl_weight _ KL)). Qed.
  Lemma w_le_one_mul (a b : K) : wleb a wone = true -> wleb (wmul a b) b = true.
  Proof. intros H. rewrite <- (wl_one_l _ (zl_weight _ KL) b) at 2. now apply (wl_mono _ (zl_weight _ KL)). Qed.
  Lemma w_nz_mul (a b : K) : a <> wzero -> b <> wzero -> wmul a b <> wzero.
  Proof. intros H1 H2 E. destruct (zl_nodiv _ KL _ _ E); contradiction. Qed.
  Lemma item_leb_w (a b : K * nat) : item_leb a b = true -> wleb (fst a) (fst b) = true.
  Proof. unfold item_leb. destruct (wleb (fst a) (fst b)); congruence. Qed.
End Order.

Section Heap.
  Context {K : ZWeight} (H : max_heap (K * nat) (@item_leb K)).
  Lemma extend_content l : forall h, Permutation (mh_content H (extend H l h)) (l ++ mh_content H h).
  Proof.
    unfold extend. induction l as [|x l IH]; intros h; cbn [fold_left]; [reflexivity|]. rewrite IH, (mh_push_c H). cbn. symmetry. apply Permutation_middle.
  Qed.
  Lemma extend_In l h y : In y (mh_content H (extend H l h)) <-> In y l \/ In y (mh_content H h).
  Proof. rewrite <- in_app_iff. split; apply Permutation_in; [|symmetry]; apply extend_content. Qed.
  Lemma fold_content {X} (s : mh_T H -> X -> option (mh_T H)) (P : X -> K * nat -> Prop) l :
    (forall h x, In x l -> exists h', s h x = Some h' /\ forall y, In y (mh_content H h') <-> In y (mh_content H h) \/ P x y) ->
    forall h, exists h', fold_p s l h = Some h' /\ forall y, In y (mh_content H h') <-> In y (mh_content H h) \/ exists x, In x l /\ P x y.
  Proof.
    induction l as [|x l IH]; intros HS h; cbn [fold_p].
    - exists h. split; [reflexivity|]. intros y. split; [tauto|]. intros [H0|(x & [] & _)]; assumption.
    - destruct (HS h x (or_introl eq_refl)) as (h1 & -> & C1). destruct (IH (fun h x Hx => HS h x (or_intror Hx)) h1) as (h2 & -> & C2). exists h2. split; [reflexivity|]. intros y. rewrite C2, C1. split.
      + intros [[A|A]|(x' & A & B)]; [tauto|right; exists x; cbn; tauto|right; exists x'; cbn; tauto].
      + intros [A|(x' & [->|A] & B)]; [tauto|tauto|right; eauto].
  Qed.
End Heap.

Lemma skipn_skipn {T} (l : list T) : forall a b, skipn a (skipn b l) = skipn (b + a) l.
Proof. induction l as [|x l IH]; intros a b; [now rewrite !skipn_nil|]. destruct b as [|b]; [reflexivity|]. cbn [skipn Nat.add]. apply IH. Qed.
Lemma firstn_plus {T} (l : list T) : forall a b, firstn (a + b) l = firstn a l ++ firstn b (skipn a l).
Proof. induction l as [|x l IH]; intros a b; [now rewrite skipn_nil, !firstn_nil|]. destruct a as [|a]; [reflexivity|]. cbn. now rewrite IH. Qed.
Lemma sub_app {T} (word : list T) l m r : l <= m -> m <= r -> sub word l r = sub word l m ++ sub word m r.
Proof.
  intros H1 H2. unfold sub. replace (r - l) with ((m - l) + (r - m)) by lia. rewrite firstn_plus, skipn_skipn. do 3 f_equal. lia.
Qed.
Lemma sub_one {T} (word : list T) l t : nth_error word l = Some t -> sub word l (S l) = [t].
Proof.
  intros H. unfold sub. replace (S l - l) with 1 by lia. revert l H. induction word as [|x word IH]; intros l H; [destruct l; discriminate|].
  destruct l as [|l]; [cbn in *; congruence|]. cbn [skipn]. apply IH. exact H.
Qed.
Lemma sub_length {T} (word : list T) l r : l <= r -> r <= length word -> length (sub word l r) = r - l.
Proof. intros H1 H2. unfold sub. rewrite firstn_length, skipn_length. lia. Qed.
Lemma sub_all {T} (word : list T) : sub word 0 (length word) = word.
Proof. unfold sub. cbn [skipn]. rewrite Nat.sub_0_r. apply firstn_all. Qed.
Lemma u8_small x : x <= 255 -> u8 x = x.
Proof. intros H. unfold u8. apply Nat.mod_small. lia. Qed.

Section Fill.
  Context {T : Type} {K : ZWeight} (KL : ZWeightLaws K) (teqb : T -> T -> bool) (H : max_heap (K * nat) (@item_leb K)).
  Context (a : automaton T K) (R : list (crule nat T K)) (PZ : presents teqb a R (states a)).
  Context (word : list T) (beam : nat) (delta : K) (outside : nat -> nat -> nat -> nat -> option (option K)) (rule_filter : list bool).
  Notation n := (length word). Notation ns := (states a). Notation entries := (nat -> nat -> list (nat * K)).
  Context (Hn : n <= 255) (HB0 : beam <> 0) (HB : (N.of_nat beam <= 65535)%N).
  Context (HF : length R <= length rule_filter).
  Context (HO : forall q l r, q < ns -> span n l r -> outside q l r n <> None).
  Context (HW1 : forall x, In x R -> wleb (cr_weight x) wone = true) (HW0 : forall x, In x R -> cr_weight x <> wzero).

  (* the rule rid is enabled and the estimates do not exclude q on the span *)
  Definition ok (rid q l r : nat) : Prop := nth_error rule_filter rid = Some true /\ exists w, outside q l r n = Some (Some w).

  Inductive base (f : entries) (l r : nat) : nat -> K -> Prop :=
  | base_t rid t w q b : r = S l -> nth_error word l = Some t -> nth_error R rid = Some (CRule q (RT t) w b) -> ok rid q l r -> base f l r q w
  | base_b mid rid q q1 q2 w w1 w2 b : l < mid < r -> In (q1, w1) (f l mid) -> last_weight (f mid r) q2 = Some w2 ->
      nth_error R rid = Some (CRule q (RB q1 q2) w b) -> ok rid q l r -> base f l r q (wmul (wmul w1 w) w2).
  Definition ugen (E : list (nat * K)) (l r q : nat) (w : K) : Prop :=
    exists rid q1 w1 rw b, In (q1, w1) E /\ nth_error R rid = Some (CRule q (RU q1) rw b) /\ ok rid q l r /\ w = wmul rw w1.
  Definition no_stop : Prop := ns <= beam /\ delta = wzero.

  Record span_ok (f : entries) (l r : nat) : Prop := {
    so_nodup : NoDup (map fst (f l r));
    so_state : forall q w, In (q, w) (f l r) -> q < ns /\ w <> wzero;
    so_sound : forall k q w, nth_error (f l r) k = Some (q, w) -> base f l r q w \/ ugen (firstn k (f l r)) l r q w;
    so_max_b : forall q w w', base f l r q w -> In (q, w') (f l r) -> wleb w w' = true;
    so_max_u : forall q w w', ugen (f l r) l r q w -> In (q, w') (f l r) -> wleb w w' = true;
    so_all : no_stop -> forall q w, base f l r q w \/ ugen (f l r) l r q w -> exists w', In (q, w') (f l r)
  }.

  (* ---- the closure loop ---- *)
  Definition pot (skip : list bool) : nat := fold_right (fun p m => (if fst p : bool then 0 else length (snd p)) + m) 0 (combine skip (au_un a)).
  Lemma pot_init : pot (repeat false ns) = length (concat (au_un a)).
  Proof.
    destruct (pz_len _ _ _ _ PZ) as (_ & L & _). rewrite <- L. unfold pot. generalize (au_un a). induction l as [|x l IH]; cbn; [reflexivity|]. rewrite app_length. now rewrite IH.
  Qed.
  Lemma pot_set skip : forall q skip', length skip = ns -> nth_error skip q = Some false -> vset skip q true = Some skip' -> pot skip' + length (nth q (au_un a) []) = pot skip.
  Proof.
    destruct (pz_len _ _ _ _ PZ) as (_ & L & _). rewrite <- L. unfold pot. generalize (au_un a). clear. induction skip as [|x skip IH]; intros l q skip' E1 E2 E3; [destruct q; discriminate|].
    destruct l as [|u l]; [discriminate|]. destruct q as [|q]; cbn in *.
    - injection E2 as ->. injection E3 as <-. cbn. lia.
    - destruct (vset skip q true) as [s'|] eqn:V; [|discriminate]. injection E3 as <-. cbn. rewrite <- (IH l q s'); [lia|lia|assumption|assumption].
  Qed.
  Lemma allowed_spec l r rid item : rid < length R -> snd item < ns -> span n l r ->
    exists o, allowed word outside rule_filter l r rid item = Some o /\ forall y, o = Some y <-> y = item /\ ok rid (snd item) l r.
  Proof.
    intros H1 H2 HS. unfold allowed. destruct (nth_error rule_filter rid) as [on|] eqn:E; [|apply nth_error_None in E; lia]. destruct on.
    - pose proof (HO (snd item) l r H2 HS) as HO'. unfold M_CSAuto.n. destruct (outside (snd item) l r n) as [[w|]|] eqn:EO; [| |contradiction]; eexists; (split; [reflexivity|]); intros y; split.
      + intros [= <-]. split; [reflexivity|]. split; [assumption|eauto].
      + intros [-> _]. reflexivity.
      + discriminate.
      + intros [_ [_ [w E']]]. congruence.
    - eexists. split; [reflexivity|]. intros y. split; [discriminate|]. intros [_ [E' _]]. congruence.
  Qed.
  Lemma nth_error_lt {X} (l : list X) k x : nth_error l k = Some x -> k < length l.
  Proof. intros E. apply nth_error_Some. congruence. Qed.
  Lemma table_nth {X} (tab : list (list X)) q : length tab = ns -> q < ns -> nth_error tab q = Some (nth q tab []).
  Proof. intros L Hq. apply nth_error_nth'. lia. Qed.
  Lemma unary_items_spec l r q w : q < ns -> span n l r ->
    exists items, unary_items a word outside rule_filter l r q w = Some items /\
      (forall w' q', In (w', q') items <-> exists rid rw b, nth_error R rid = Some (CRule q' (RU q) rw b) /\ ok rid q' l r /\ w' = wmul rw w) /\
      length items <= length (nth q (au_un a) []).
  Proof.
    intros Hq HS. unfold unary_items. destruct (pz_len _ _ _ _ PZ) as (_ & L & _). rewrite (table_nth _ _ L Hq).
    assert (X : forall x, In x (nth q (au_un a) []) -> fst x < length R /\ snd (snd x) < ns).
    { intros [rid [rw q']] Hx. apply (pz_un _ _ _ _ PZ) in Hx. destruct Hx as (b & Hx). split; [eapply nth_error_lt; eassumption|]. apply nth_error_In in Hx. apply (pz_states _ _ _ _ PZ) in Hx. cbn in *. tauto. }
    edestruct (@filter_map_p_spec (nat * (K * nat)) (K * nat) (fun x => let '(rid, (rw, q')) := x in allowed word outside rule_filter l r rid (wmul rw w, q'))) as (items & E & M & Len).
    { intros [rid [rw q']] Hx. destruct (X _ Hx) as [X1 X2]. cbn in X1, X2. destruct (allowed_spec l r rid (wmul rw w, q') X1 X2 HS) as (o & -> & _). discriminate. }
    exists items. split; [exact E|]. split; [|exact Len]. intros w' q'. rewrite M. split.
    - intros ((rid & rw & q0) & Hx & Ho). destruct (X _ Hx) as [X1 X2]. cbn in X1, X2. destruct (allowed_spec l r rid (wmul rw w, q0) X1 X2 HS) as (o & E1 & Eo). rewrite E1 in Ho. injection Ho as ->.
      destruct (proj1 (Eo _) eq_refl) as [E2 O]. injection E2 as -> ->. apply (pz_un _ _ _ _ PZ) in Hx. destruct Hx as (b & Hx). exists rid, rw, b. tauto.
    - intros (rid & rw & b & Hx & O & ->). exists (rid, (rw, q')). assert (Hx' : In (rid, (rw, q')) (nth q (au_un a) [])) by (apply (pz_un _ _ _ _ PZ); eauto). split; [exact Hx'|].
      destruct (X _ Hx') as [X1 X2]. cbn in X1, X2. destruct (allowed_spec l r rid (wmul rw w, q') X1 X2 HS) as (o & E1 & Eo). cbn. rewrite E1. f_equal. now apply Eo.
  Qed.

  (* the loop, given base items B: what the entries E of the span are in the end *)
  Record loop_inv (B : nat -> K -> Prop) (l r : nat) (worst : K) (skip : list bool) (i : nat) (h : mh_T H) (E : list (nat * K)) : Prop := {
    li_len : length skip = ns;
    li_skip : forall q, nth_error skip q = Some true <-> In q (map fst E);
    li_nodup : NoDup (map fst E);
    li_heap : forall w q, In (w, q) (mh_content H h) -> q < ns /\ (B q w \/ ugen E l r q w);
    li_cover : forall q w, B q w \/ ugen E l r q w -> In (w, q) (mh_content H h) \/ exists w', In (q, w') E /\ wleb w w' = true;
    li_sorted : forall w q q' w', In (w, q) (mh_content H h) -> In (q', w') E -> wleb w w' = true;
    li_sound : forall k q w, nth_error E k = Some (q, w) -> B q w \/ ugen (firstn k E) l r q w;
    li_i : i + length E = beam;
    li_pos : i <> 0
  }.
  Record loop_done (B : nat -> K -> Prop) (l r : nat) (worst : K) (E : list (nat * K)) : Prop := {
    ld_nodup : NoDup (map fst E);
    ld_state : forall q w, In (q, w) E -> q < ns;
    ld_sound : forall k q w, nth_error E k = Some (q, w) -> B q w \/ ugen (firstn k E) l r q w;
    ld_max : forall q w w', B q w \/ ugen E l r q w -> In (q, w') E -> wleb w w' = true;
    ld_all : ns <= beam -> worst = wzero -> forall q w, q < ns -> B q w \/ ugen E l r q w -> exists w', In (q, w') E;
    ld_len : length E <= beam
  }.
  Lemma ugen_mono E E' l r q w : (forall e, In e E -> In e E') -> ugen E l r q w -> ugen E' l r q w.
  Proof. intros I (rid & q1 & w1 & rw & b & H1 & H2). exists rid, q1, w1, rw, b. split; [now apply I|exact H2]. Qed.
  Lemma ugen_state E l r q w : ugen E l r q w -> q < ns.
  Proof. intros (rid & q1 & w1 & rw & b & _ & H1 & _). apply nth_error_In in H1. apply (pz_states _ _ _ _ PZ) in H1. cbn in H1. tauto. Qed.
  Definition setf (f : entries) (l r : nat) (E : list (nat * K)) : entries := fun i j => if Nat.eqb i l && Nat.eqb j r then E else f i j.

  Lemma in_map_fst {X Y} (q : X) (w : Y) l : In (q, w) l -> In q (map fst l).
  Proof. intros H0. apply in_map_iff. now exists (q, w). Qed.
  Lemma all_states_in (E : list (nat * K)) q : NoDup (map fst E) -> (forall q w, In (q, w) E -> q < ns) -> ns <= length E -> q < ns -> exists w, In (q, w) E.
  Proof.
    intros ND ST L Hq. assert (HI : incl (seq 0 ns) (map fst E)).
    { apply NoDup_length_incl; [assumption|rewrite map_length, seq_length; assumption|]. intros x Hx. apply in_map_iff in Hx. destruct Hx as ([q' w] & <- & Hx). apply in_seq. cbn. pose proof (ST _ _ Hx). lia. }
    assert (Hin : In q (map fst E)) by (apply HI, in_seq; lia). apply in_map_iff in Hin. destruct Hin as ([q' w] & E1 & Hx). cbn in E1. subst q'. eauto.
  Qed.

  Lemma close_span_spec (B : nat -> K -> Prop) l r worst (HS : span n l r) (BS : forall q w, B q w -> q < ns) : forall fuel skip i h c f E,
    ch_n c = n -> ch_states c = ns -> ch_beam c = beam -> chart_rep c (setf f l r E) -> (forall q w, In (q, w) E -> q < ns) ->
    loop_inv B l r worst skip i h E -> length (mh_content H h) + pot skip < fuel ->
    exists c' E', close_span H a word outside rule_filter fuel l r worst skip i h c = Some c' /\
      ch_n c' = n /\ ch_states c' = ns /\ ch_beam c' = beam /\ chart_rep c' (setf f l r E') /\ loop_done B l r worst E'.
  Proof.
    induction fuel as [|fuel IH]; intros skip i h c f E N1 N2 N3 CR ST I F; [lia|]. cbn [close_span]. destruct I as [I1 I2 I3 I4 I5 I6 I7 I8 I9].
    destruct (mh_pop H h) as [[[w q] h1]|] eqn:EP.
    - destruct (mh_pop_some H _ _ _ EP) as [PM MX]. assert (LH : length (mh_content H h) = S (length (mh_content H h1))) by (rewrite (Permutation_length PM); reflexivity).
      assert (IH0 : In (w, q) (mh_content H h)) by (eapply Permutation_in; [symmetry; exact PM|now left]). destruct (I4 _ _ IH0) as [Hq JQ].
      assert (HC : forall y, In y (mh_content H h) <-> y = (w, q) \/ In y (mh_content H h1)).
      { intros y. split; intros Hy; [apply (Permutation_in _ PM) in Hy; destruct Hy as [<-|Hy]; tauto|]. apply (Permutation_in _ (Permutation_sym PM)). destruct Hy as [->|Hy]; [now left|now right]. }
      destruct (nth_error skip q) as [sk|] eqn:ES; [|apply nth_error_None in ES; lia]. destruct (vset_ok skip q true ltac:(lia)) as (skip1 & EV & LV & NV). rewrite EV.
      assert (SK1 : forall q', nth_error skip1 q' = Some true <-> q' = q \/ nth_error skip q' = Some true).
      { intros q'. rewrite NV. destruct (Nat.eqb q' q) eqn:Eq; [apply Nat.eqb_eq in Eq|apply Nat.eqb_neq in Eq]; intuition. }
      destruct sk.
      + (* already in the chart *)
        pose proof ES as INE. apply I2, in_map_iff in INE. destruct INE as ([q0 w0] & E0 & INE). cbn in E0. subst q0.
        apply (IH skip1 i h1 c f E); try assumption.
        * split; try assumption; [lia| | | |].
          -- intros q'. rewrite SK1, I2. split; [intros [->|Hx]; [now apply I2|assumption]|tauto].
          -- intros w' q' Hin. apply I4. apply HC. now right.
          -- intros q' w' Hg. destruct (I5 _ _ Hg) as [Hh|Hh]; [|now right]. apply HC in Hh. destruct Hh as [Hh|Hh]; [|now left]. injection Hh as -> ->. right. exists w0. split; [assumption|]. eapply I6; eassumption.
          -- intros w' q' q2 w2 Hin. apply I6 with q'. apply HC. now right.
        * assert (pot skip1 = pot skip); [|lia]. clear - EV ES. unfold pot. revert q skip1 EV ES. generalize (au_un a). induction skip as [|x skip IHs]; intros u q skip1 EV ES; [destruct q; discriminate|].
          destruct q as [|q]; cbn in EV, ES; [injection ES as ->; injection EV as <-; reflexivity|]. destruct (vset skip q true) as [s'|] eqn:V; [|discriminate]. injection EV as <-. destruct u as [|v u]; [reflexivity|]. cbn. now rewrite (IHs u q s').
      + (* a new entry *)
        assert (NIE : ~ In q (map fst E)) by (intros Hin; apply I2 in Hin; congruence).
        destruct HS as [HS1 HS2]. assert (HS : span n l r) by (split; assumption). rewrite !u8_small by lia.
        assert (HS' : span (ch_n c) l r) by (rewrite N1; exact HS).
        destruct (add_entry_rep c _ l r q w CR HS' ltac:(lia)) as (c1 & -> & M1 & M2 & M3 & CR1). rewrite N3 in CR1.
        assert (CE : setf f l r E l r = E) by (unfold setf; now rewrite !Nat.eqb_refl). rewrite CE in CR1.
        assert (LT : Nat.ltb (length E) beam = true) by (apply Nat.ltb_lt; lia). 
        assert (CR2 : chart_rep c1 (setf f l r (E ++ [(q, w)]))).
        { eapply chart_rep_ext; [|exact CR1]. intros i' j' _. rewrite LT, Bool.andb_true_r. unfold setf. destruct (Nat.eqb i' l && Nat.eqb j' r); reflexivity. }
        destruct (unary_items_spec l r q w Hq HS) as (items & -> & IT & LI). destruct i as [|i]; [contradiction|].
        assert (ST2 : forall q0 w0, In (q0, w0) (E ++ [(q, w)]) -> q0 < ns) by (intros q0 w0 Hin; apply in_app_iff in Hin; destruct Hin as [Hin|[Hin|[]]]; [eapply ST; eassumption|congruence]).
        assert (ND2 : NoDup (map fst (E ++ [(q, w)]))).
        { rewrite map_app. apply Permutation_NoDup with (l := q :: map fst E); [apply Permutation_cons_append|]. now constructor. }
        assert (UG : forall q0 w0, ugen (E ++ [(q, w)]) l r q0 w0 <-> ugen E l r q0 w0 \/ In (w0, q0) items).
        { intros q0 w0. rewrite IT. split.
          - intros (rid & q1 & w1 & rw & b & Hin & Hr & O & ->). apply in_app_iff in Hin. destruct Hin as [Hin|[Hin|[]]]; [left; exists rid, q1, w1, rw, b; tauto|]. injection Hin as -> ->. right. exists rid, rw, b. tauto.
          - intros [(rid & q1 & w1 & rw & b & Hin & Hr)|(rid & rw & b & Hr & O & ->)]; [exists rid, q1, w1, rw, b; split; [apply in_app_iff; tauto|tauto]|]. exists rid, q, w, rw, b. split; [apply in_app_iff; right; now left|tauto]. }
        assert (ITW : forall w0 q0, In (w0, q0) items -> wleb w0 w = true).
        { intros w0 q0 Hin. apply IT in Hin. destruct Hin as (rid & rw & b & Hr & _ & ->). apply (w_le_one_mul KL). apply nth_error_In in Hr. apply HW1 in Hr. exact Hr. }
        assert (HMX : forall w0 q0, In (w0, q0) (mh_content H h1) -> wleb w0 w = true).
        { intros w0 q0 Hin. assert (Hin' : In (w0, q0) (mh_content H h)) by (apply HC; now right). apply MX in Hin'. now apply item_leb_w in Hin'. }
        assert (COV : forall q0 w0, B q0 w0 \/ ugen (E ++ [(q, w)]) l r q0 w0 -> In (w0, q0) (mh_content H (extend H items h1)) \/ exists w', In (q0, w') (E ++ [(q, w)]) /\ wleb w0 w' = true).
        { intros q0 w0 Hg. rewrite extend_In. assert (Hg' : (B q0 w0 \/ ugen E l r q0 w0) \/ In (w0, q0) items) by (rewrite UG in Hg; tauto).
          destruct Hg' as [Hg'|Hg']; [|tauto]. destruct (I5 _ _ Hg') as [Hh|(w' & Hh & Le)].
          - apply HC in Hh. destruct Hh as [Hh|Hh]; [|tauto]. injection Hh as -> ->. right. exists w. split; [apply in_app_iff; right; now left|apply (w_refl KL)].
          - right. exists w'. split; [apply in_app_iff; now left|assumption]. }
        assert (SND : forall k q0 w0, nth_error (E ++ [(q, w)]) k = Some (q0, w0) -> B q0 w0 \/ ugen (firstn k (E ++ [(q, w)])) l r q0 w0).
        { intros k q0 w0 Hk. apply nth_error_snoc in Hk. destruct Hk as [Hk|[-> Hk]].
          - pose proof (nth_error_lt _ _ _ Hk). rewrite firstn_app. replace (k - length E) with 0 by lia. rewrite firstn_O, app_nil_r. now apply I7.
          - injection Hk as -> ->. rewrite firstn_app, Nat.sub_diag, firstn_all, firstn_O, app_nil_r. exact JQ. }
        assert (SRT : forall w0 q0 q' w', In (w0, q0) (mh_content H (extend H items h1)) -> In (q', w') (E ++ [(q, w)]) -> wleb w0 w' = true).
        { intros w0 q0 q' w' Hin Hin'. assert (L1 : wleb w0 w = true) by (apply extend_In in Hin; destruct Hin as [Hin|Hin]; [eapply ITW; eassumption|eapply HMX; eassumption]).
          apply in_app_iff in Hin'. destruct Hin' as [Hin'|[Hin'|[]]]; [|congruence]. eapply (w_trans KL); [exact L1|]. eapply I6; eassumption. }
        destruct (Nat.eqb i 0 || negb (wleb worst w)) eqn:STOP.
        * exists c1, (E ++ [(q, w)]). split; [reflexivity|]. rewrite M1, M2, M3. do 3 (split; [assumption|]). split; [exact CR2|]. split; try assumption.
          -- intros q0 w0 w' Hg Hin. destruct (COV _ _ Hg) as [Hh|(w2 & Hh & Le)]; [eapply SRT; eassumption|].
             assert (w2 = w'); [|congruence]. clear - ND2 Hh Hin. revert ND2 Hh Hin. generalize (E ++ [(q, w)]). induction l as [|[x y] l IHl]; intros ND H1 H2; [destruct H1|]. inversion ND; subst.
             destruct H1 as [H1|H1], H2 as [H2|H2]; [congruence| | |auto]; [injection H1 as -> ->; apply in_map_fst in H2; contradiction|injection H2 as -> ->; apply in_map_fst in H1; contradiction].
          -- intros NB WZ q0 w0 Hq0 Hg. apply Bool.orb_true_iff in STOP. destruct STOP as [Z|Z].
             ++ apply Nat.eqb_eq in Z. subst i. apply (all_states_in (E ++ [(q, w)]) q0); try assumption. rewrite app_length. cbn. lia.
             ++ rewrite WZ, (zl_zero_le _ KL) in Z. discriminate.
          -- rewrite app_length. cbn. lia.
        * apply Bool.orb_false_iff in STOP. destruct STOP as [STOP1 STOP2]. apply Nat.eqb_neq in STOP1.
          apply (IH skip1 i (extend H items h1) c1 f (E ++ [(q, w)])); try assumption; try congruence.
          -- split; try assumption; [lia| | |rewrite app_length; cbn; lia].
             ++ intros q'. rewrite SK1, I2, map_app, in_app_iff. cbn. intuition congruence.
             ++ intros w' q' Hin. apply extend_In in Hin. destruct Hin as [Hin|Hin].
                ** assert (UU : ugen (E ++ [(q, w)]) l r q' w') by (apply UG; tauto). split; [eapply ugen_state; exact UU|tauto].
                ** destruct (I4 w' q') as [J1 J2]; [apply HC; now right|]. split; [assumption|]. rewrite UG. tauto.
          -- rewrite (Permutation_length (extend_content H items h1)), app_length. pose proof (pot_set skip q skip1 I1 ES EV). lia.
    - apply (mh_pop_none H) in EP. exists c, E. split; [reflexivity|]. do 4 (split; [assumption|]). split; try assumption; [| |lia].
      + intros q w w' Hg Hin. destruct (I5 _ _ Hg) as [Hh|(w2 & Hh & Le)]; [rewrite EP in Hh; destruct Hh|].
        assert (w2 = w'); [|congruence]. clear - I3 Hh Hin. revert I3 Hh Hin. induction E as [|[x y] l' IHl]; intros ND H1 H2; [destruct H1|]. inversion ND; subst.
        destruct H1 as [H1|H1], H2 as [H2|H2]; [congruence| | |auto]; [injection H1 as -> ->; apply in_map_fst in H2; contradiction|injection H2 as -> ->; apply in_map_fst in H1; contradiction].
      + intros _ _ q w _ Hg. destruct (I5 _ _ Hg) as [Hh|(w2 & Hh & _)]; [rewrite EP in Hh; destruct Hh|eauto].
  Qed.

  Lemma u8_span l : l <= n -> u8 l = l.
  Proof. intros. apply u8_small. lia. Qed.
  Lemma binary_left_spec c f l mid r q1 w1 : ch_n c = n -> ch_states c = ns -> chart_rep c f -> span n l r -> l < mid < r -> q1 < ns ->
    exists items, binary_items_left a word outside rule_filter c l mid r (q1, w1) = Some items /\
      forall y, In y items <-> exists rid q2 w w2 b, last_weight (f mid r) q2 = Some w2 /\ nth_error R rid = Some (CRule (snd y) (RB q1 q2) w b) /\ ok rid (snd y) l r /\ fst y = wmul (wmul w1 w) w2.
  Proof.
    intros N1 N2 CR HS HM Hq. destruct HS as [S1 S2]. unfold binary_items_left. destruct (pz_len _ _ _ _ PZ) as (L & _). cbn [fst snd]. rewrite (table_nth _ _ L Hq). rewrite !u8_span by lia. unfold M_CSAuto.n.
    set (g := fun x : nat * nat * (K * nat) => _).
    assert (X : forall rid q2 w q, In (rid, q2, (w, q)) (nth q1 (au_bin a) []) ->
       exists o, g (rid, q2, (w, q)) = Some o /\ forall y, o = Some y <-> exists w2, last_weight (f mid r) q2 = Some w2 /\ ok rid q l r /\ y = (wmul (wmul w1 w) w2, q)).
    { intros rid q2 w q Hin. apply (pz_bin _ _ _ _ PZ) in Hin. destruct Hin as (b & Hr). pose proof (nth_error_lt _ _ _ Hr). apply nth_error_In in Hr. apply (pz_states _ _ _ _ PZ) in Hr. cbn in Hr. destruct Hr as [Hr1 [_ Hr2]].
      unfold g. destruct (nth_error rule_filter rid) as [on|] eqn:EF; [|apply nth_error_None in EF; lia]. destruct on.
      - rewrite (get_weight_rep KL c f mid r q2 CR) by (rewrite ?N1, ?N2; try split; lia). destruct (last_weight (f mid r) q2) as [w2|].
        + pose proof (HO q l r Hr1 (conj S1 S2)) as HO'. destruct (outside q l r n) as [[o|]|] eqn:EO; [| |contradiction]; eexists; (split; [reflexivity|]); intros y; split.
          * intros [= <-]. exists w2. split; [reflexivity|]. split; [split; [assumption|eauto]|reflexivity].
          * intros (w2' & [= <-] & _ & ->). reflexivity.
          * discriminate.
          * intros (w2' & _ & [_ [o E]] & _). congruence.
        + eexists. split; [reflexivity|]. intros y. split; [discriminate|]. intros (w2 & E & _). discriminate.
      - eexists. split; [reflexivity|]. intros y. split; [discriminate|]. intros (w2 & _ & [E _] & _). congruence. }
    destruct (filter_map_p_spec g (nth q1 (au_bin a) [])) as (items & E & M & _).
    { intros [[rid q2] [w q]] Hin. destruct (X _ _ _ _ Hin) as (o & -> & _). discriminate. }
    exists items. split; [exact E|]. intros y. rewrite M. split.
    - intros ([[rid q2] [w q]] & Hin & Hg). destruct (X _ _ _ _ Hin) as (o & Eo & Ho). rewrite Eo in Hg. injection Hg as ->. destruct (proj1 (Ho y) eq_refl) as (w2 & E1 & E2 & ->). cbn [fst snd].
      apply (pz_bin _ _ _ _ PZ) in Hin. destruct Hin as (b & Hr). exists rid, q2, w, w2, b. tauto.
    - destruct y as [yw q]. cbn [fst snd]. intros (rid & q2 & w & w2 & b & E1 & E2 & E3 & ->). exists (rid, q2, (w, q)). assert (Hin : In (rid, q2, (w, q)) (nth q1 (au_bin a) [])) by (apply (pz_bin _ _ _ _ PZ); eauto). split; [exact Hin|].
      destruct (X _ _ _ _ Hin) as (o & -> & Ho). f_equal. apply Ho. exists w2. tauto.
  Qed.
  Definition below (f : entries) (l r : nat) : Prop := forall mid q w, l < mid < r -> In (q, w) (f l mid) -> q < ns.
  Lemma binary_step_spec c f l r h : ch_n c = n -> ch_states c = ns -> chart_rep c f -> span n l r -> below f l r ->
    exists h', binary_step H a word outside rule_filter c l r h = Some h' /\
      forall w q, In (w, q) (mh_content H h') <-> In (w, q) (mh_content H h) \/
         exists mid rid q1 q2 w0 w1 w2 b, l < mid < r /\ In (q1, w1) (f l mid) /\ last_weight (f mid r) q2 = Some w2 /\ nth_error R rid = Some (CRule q (RB q1 q2) w0 b) /\ ok rid q l r /\ w = wmul (wmul w1 w0) w2.
  Proof.
    intros N1 N2 CR HS BL. unfold binary_step. destruct HS as [S1 S2].
    edestruct (@fold_content K H nat) with (l := seq (S l) (r - S l)) (h := h)
      (s := fun h mid => let? lefts := iterate_nont c (u8 l) (u8 mid) in fold_p (fun h left => let? items := binary_items_left a word outside rule_filter c l mid r left in Some (extend H items h)) lefts h)
      (P := fun mid y => exists left, In left (f l mid) /\ exists rid q2 w w2 b, last_weight (f mid r) q2 = Some w2 /\ nth_error R rid = Some (CRule (snd y) (RB (fst left) q2) w b) /\ ok rid (snd y) l r /\ fst y = wmul (wmul (snd left) w) w2) as (h' & E & C).
    - intros h0 mid Hm. apply in_seq in Hm. rewrite !u8_span by lia. rewrite (iterate_rep c f l mid CR) by (rewrite N1; split; lia). apply fold_content. intros h1 [q1 w1] Hl.
      destruct (binary_left_spec c f l mid r q1 w1 N1 N2 CR (conj S1 S2) ltac:(lia) (BL mid q1 w1 ltac:(lia) Hl)) as (items & -> & Ci). eexists. split; [reflexivity|]. intros y. rewrite extend_In, Ci. cbn [fst snd]. tauto.
    - exists h'. split; [exact E|]. intros w q. rewrite C. split; (intros [A|A]; [now left|right]).
      + destruct A as (mid & Hm & [q1 w1] & Hl & rid & q2 & w0 & w2 & b & A). apply in_seq in Hm. exists mid, rid, q1, q2, w0, w1, w2, b. cbn [fst snd] in A. split; [lia|tauto].
      + destruct A as (mid & rid & q1 & q2 & w0 & w1 & w2 & b & Hm & Hl & A). exists mid. split; [apply in_seq; lia|]. exists (q1, w1). split; [assumption|]. exists rid, q2, w0, w2, b. exact A.
  Qed.
  Lemma terminal_items_spec l r t : nth_error word l = Some t -> span n l r -> exists items, terminal_items teqb a word outside rule_filter l r = Some items /\
      forall w q, In (w, q) items <-> exists rid b, nth_error R rid = Some (CRule q (RT t) w b) /\ ok rid q l r.
  Proof.
    intros Ht HS. unfold terminal_items. rewrite Ht. pose proof (pz_term _ _ _ _ PZ t) as PT. unfold au_terms in PT.
    assert (G : exists items, filter_map_p (fun x => allowed word outside rule_filter l r (fst x) (snd x)) (au_terms teqb a t) = Some items /\ forall w q, In (w, q) items <-> exists rid b, nth_error R rid = Some (CRule q (RT t) w b) /\ ok rid q l r).
    { unfold au_terms. set (tab := match hm_get teqb t (au_term a) with Some l => l | None => [] end) in *.
      assert (X : forall x, In x tab -> fst x < length R /\ snd (snd x) < ns).
      { intros [rid [w q]] Hx. apply PT in Hx. destruct Hx as (b & Hx). split; [eapply nth_error_lt; eassumption|]. apply nth_error_In in Hx. apply (pz_states _ _ _ _ PZ) in Hx. cbn in *. tauto. }
      edestruct (@filter_map_p_spec (nat * (K * nat)) (K * nat) (fun x => allowed word outside rule_filter l r (fst x) (snd x))) as (items & E & M & _).
      { intros x Hx. destruct (X _ Hx) as [X1 X2]. destruct (allowed_spec l r (fst x) (snd x) X1 X2 HS) as (o & -> & _). discriminate. }
      exists items. split; [exact E|]. intros w q. rewrite M. split.
      - intros ([rid [w' q']] & Hx & Ho). destruct (X _ Hx) as [X1 X2]. destruct (allowed_spec l r _ _ X1 X2 HS) as (o & E1 & Eo). cbn [fst snd] in *. rewrite E1 in Ho. injection Ho as ->. destruct (proj1 (Eo _) eq_refl) as [E2 O]. injection E2 as -> ->.
        apply PT in Hx. destruct Hx as (b & Hx). eauto.
      - intros (rid & b & Hx & O). assert (Hx' : In (rid, (w, q)) tab) by (apply PT; eauto). exists (rid, (w, q)). split; [exact Hx'|]. destruct (X _ Hx') as [X1 X2]. destruct (allowed_spec l r _ _ X1 X2 HS) as (o & E1 & Eo). cbn [fst snd] in *. rewrite E1. f_equal. now apply Eo. }
    unfold au_terms in G. destruct (hm_get teqb t (au_term a)); [exact G|]. destruct G as (items & E & M). cbn in E. injection E as <-. exists []. split; [reflexivity|exact M].
  Qed.

  Lemma find_last (l : list (nat * K)) q w : NoDup (map fst l) -> In (q, w) l -> find (fun e => Nat.eqb (fst e) q) (rev l) = Some (q, w).
  Proof.
    intros ND Hin. destruct (find (fun e => Nat.eqb (fst e) q) (rev l)) as [[q' w']|] eqn:E.
    - apply find_some in E. destruct E as [E1 E2]. cbn in E2. apply Nat.eqb_eq in E2. subst q'. apply in_rev in E1. f_equal. f_equal. revert ND Hin E1. clear. induction l as [|[x y] l IHl]; intros ND H1 H2; [destruct H1|]. inversion ND; subst.
      destruct H1 as [H1|H1], H2 as [H2|H2]; [congruence| | |auto]; [injection H1 as -> ->; apply in_map_fst in H2; contradiction|injection H2 as -> ->; apply in_map_fst in H1; contradiction].
    - exfalso. pose proof (find_none _ _ E (q, w)) as Hn'. cbn in Hn'. rewrite Nat.eqb_refl in Hn'. discriminate Hn'. apply -> in_rev. exact Hin.
  Qed.
  Lemma last_weight_In (l : list (nat * K)) q w : last_weight l q = Some w -> In (q, w) l.
  Proof.
    unfold last_weight. destruct (find _ _) as [[q' w']|] eqn:E; [|discriminate]. cbn. destruct (weqb w' wzero); [discriminate|]. intros [= <-]. apply find_some in E. destruct E as [E1 E2]. cbn in E2. apply Nat.eqb_eq in E2. subst q'. now apply in_rev.
  Qed.
  Lemma last_weight_iff (l : list (nat * K)) q w : NoDup (map fst l) -> (forall q w, In (q, w) l -> w <> wzero) -> (last_weight l q = Some w <-> In (q, w) l).
  Proof.
    intros ND NZ. split; [apply last_weight_In|]. intros Hin. unfold last_weight. rewrite (find_last l q w ND Hin). cbn. destruct (weqb w wzero) eqn:E; [|reflexivity]. apply (zl_eqb _ KL) in E. now apply NZ in Hin.
  Qed.
  Lemma base_ext f g l r q w : (forall i j, l <= i -> j <= r -> j - i < r - l -> f i j = g i j) -> base f l r q w -> base g l r q w.
  Proof.
    intros E [rid t w' q' b E1 E2 E3 E4|mid rid q' q1 q2 w' w1 w2 b E1 E2 E3 E4 E5].
    - eapply base_t; eassumption.
    - eapply base_b; try eassumption; rewrite <- E by lia; assumption.
  Qed.
  Lemma span_ok_ext f g l r : (forall i j, l <= i -> j <= r -> j - i <= r - l -> f i j = g i j) -> l < r -> span_ok f l r -> span_ok g l r.
  Proof.
    intros E L [A1 A2 A3 A4 A5 A6]. assert (E0 : g l r = f l r) by (symmetry; apply E; lia). assert (E1 : forall q w, base g l r q w -> base f l r q w) by (intros q w; apply base_ext; intros; symmetry; apply E; lia).
    assert (E2 : forall q w, base f l r q w -> base g l r q w) by (intros q w; apply base_ext; intros; apply E; lia). split; rewrite ?E0; try assumption.
    - intros k q w Hk. destruct (A3 k q w Hk); [left; auto|now right].
    - intros q w w' Hb. apply A4; auto.
    - intros HN q w [Hb|Hu]; apply (A6 HN q w); [left; auto|now right].
  Qed.
  Lemma base_state f l r q w : base f l r q w -> q < ns.
  Proof. intros [rid t w' q' b E1 E2 E3 E4|mid rid q' q1 q2 w' w1 w2 b E1 E2 E3 E4 E5]; [apply nth_error_In in E3|apply nth_error_In in E4]; [apply (pz_states _ _ _ _ PZ) in E3|apply (pz_states _ _ _ _ PZ) in E4]; cbn in *; tauto. Qed.
  Lemma base_nz f l r q w : (forall i j q w, i < j -> l <= i -> j <= r -> j - i < r - l -> In (q, w) (f i j) -> w <> wzero) -> base f l r q w -> w <> wzero.
  Proof.
    intros NZ [rid t w' q' b E1 E2 E3 E4|mid rid q' q1 q2 w' w1 w2 b E1 E2 E3 E4 E5].
    - apply nth_error_In in E3. now apply HW0 in E3.
    - apply nth_error_In in E4. apply HW0 in E4. cbn in E4. apply last_weight_In in E3. repeat apply (w_nz_mul KL); try assumption; eapply NZ; try eassumption; lia.
  Qed.
  Lemma setf_same f l r E : setf f l r E l r = E.
  Proof. unfold setf. now rewrite !Nat.eqb_refl. Qed.
  Lemma setf_other f l r E i j : i <> l \/ j <> r -> setf f l r E i j = f i j.
  Proof. intros Hd. unfold setf. destruct (Nat.eqb_spec i l), (Nat.eqb_spec j r); cbn; try reflexivity. subst. destruct Hd; contradiction. Qed.

  Lemma fill_span_spec c f l r : ch_n c = n -> ch_states c = ns -> ch_beam c = beam -> chart_rep c f -> span n l r -> f l r = [] ->
    (forall i j, i < j -> l <= i -> j <= r -> j - i < r - l -> span_ok f i j) ->
    exists c' E, fill_span teqb H a word beam delta outside rule_filter c l r = Some c' /\ ch_n c' = n /\ ch_states c' = ns /\ ch_beam c' = beam /\
      chart_rep c' (setf f l r E) /\ span_ok (setf f l r E) l r /\ length E <= beam.
  Proof.
    intros N1 N2 N3 CR HS F0 SUB. pose proof HS as [S1 S2]. unfold fill_span.
    assert (HT : exists h, (if Nat.eqb (r - l) 1 then let? items := terminal_items teqb a word outside rule_filter l r in Some (extend H items (mh_empty H)) else Some (mh_empty H)) = Some h /\
       forall w q, In (w, q) (mh_content H h) <-> exists rid t b, r = S l /\ nth_error word l = Some t /\ nth_error R rid = Some (CRule q (RT t) w b) /\ ok rid q l r).
    { destruct (Nat.eqb_spec (r - l) 1) as [E|E].
      - destruct (nth_error word l) as [t|] eqn:Et; [|apply nth_error_None in Et; lia]. destruct (terminal_items_spec l r t Et HS) as (items & -> & M). eexists. split; [reflexivity|]. intros w q. rewrite extend_In, M, (mh_empty_c H). cbn [In]. split.
        + intros [(rid & b & A)|[]]. exists rid, t, b. split; [lia|]. split; [congruence|exact A].
        + intros (rid & t' & b & _ & Et' & A). left. exists rid, b. replace t with t' by congruence. exact A.
      - eexists. split; [reflexivity|]. intros w q. rewrite (mh_empty_c H). split; [intros []|]. intros (rid & t & b & A & _). lia. }
    destruct HT as (h0 & -> & C0).
    assert (BL : below f l r) by (intros mid q w Hm Hin; assert (SO : span_ok f l mid) by (apply SUB; lia); apply (so_state _ _ _ SO) in Hin; tauto).
    destruct (binary_step_spec c f l r h0 N1 N2 CR HS BL) as (h1 & -> & C1).
    assert (CB : forall w q, In (w, q) (mh_content H h1) <-> base f l r q w).
    { intros w q. rewrite C1, C0. split.
      - intros [(rid & t & b & A1 & A2 & A3 & A4)|(mid & rid & q1 & q2 & w0 & w1 & w2 & b & A1 & A2 & A3 & A4 & A5 & ->)]; [eapply base_t; eassumption|eapply base_b; eassumption].
      - intros [rid t w' q' b E1 E2 E3 E4|mid rid q' q1 q2 w' w1 w2 b E1 E2 E3 E4 E5]; [left; exists rid, t, b; tauto|right]. exists mid, rid, q1, q2, w', w1, w2, b. tauto. }
    set (worst := wmul delta _).
    edestruct (close_span_spec (base f l r) l r worst HS (base_state f l r) (S (mh_len H h1 + length (concat (au_un a)))) (repeat false ns) beam h1 c f []) as (c' & E & EQ & M1 & M2 & M3 & CR' & LD); try assumption.
    - eapply chart_rep_ext; [|exact CR]. intros i j _. unfold setf. destruct (Nat.eqb_spec i l), (Nat.eqb_spec j r); cbn; try reflexivity. subst. exact F0.
    - intros q w [].
    - assert (UN : forall q w, ~ ugen [] l r q w) by (intros q w (rid & q1 & w1 & rw & b & [] & _)). split.
      + apply repeat_length.
      + intros q. split; [|intros []]. intros Hq. exfalso. apply nth_error_In, repeat_spec in Hq. discriminate.
      + apply NoDup_nil.
      + intros w q Hin. apply CB in Hin. split; [eapply base_state; eassumption|now left].
      + intros q w [Hb|Hu]; [left; now apply CB|]. apply UN in Hu. destruct Hu.
      + intros w q q' w' _ [].
      + intros [|k] q w Hk; discriminate.
      + cbn. lia.
      + assumption.
    - rewrite pot_init, (mh_len_c H). lia.
    - exists c', E. split; [exact EQ|]. do 4 (split; [assumption|]). split; [|apply (ld_len _ _ _ _ _ LD)].
      assert (BE1 : forall q w, base (setf f l r E) l r q w -> base f l r q w) by (intros q w; apply base_ext; intros; apply setf_other; lia).
      assert (BE2 : forall q w, base f l r q w -> base (setf f l r E) l r q w) by (intros q w; apply base_ext; intros; symmetry; apply setf_other; lia).
      split; rewrite ?setf_same.
      + apply (ld_nodup _ _ _ _ _ LD).
      + intros q w Hin. split; [eapply (ld_state _ _ _ _ _ LD); eassumption|]. apply In_nth_error in Hin. destruct Hin as (k & Hk). revert k q w Hk. assert (G : forall m k q w, k < m -> nth_error E k = Some (q, w) -> w <> wzero); [|intros k q w Hk; apply (G (S k) k q w); [lia|assumption]].
        induction m as [|m IHm]; intros k q w Lk Hk; [lia|]. destruct (ld_sound _ _ _ _ _ LD k q w Hk) as [Hb|(rid & q1 & w1 & rw & b & Hin & Hr & _ & ->)].
        * eapply base_nz; [|exact Hb]. intros i j q0 w0 L0 L1 L2 L3 Hin. assert (SO : span_ok f i j) by (apply SUB; lia). apply (so_state _ _ _ SO) in Hin. tauto.
        * apply (w_nz_mul KL); [apply nth_error_In in Hr; now apply HW0 in Hr|]. apply In_nth_error in Hin. destruct Hin as (k' & Hk'). rewrite nth_error_firstn in Hk'. destruct (Nat.ltb_spec k' k); [|discriminate]. apply (IHm k' q1 w1); [lia|assumption].
      + intros k q w Hk. destruct (ld_sound _ _ _ _ _ LD k q w Hk); [left; auto|now right].
      + intros q w w' Hb Hin. apply (ld_max _ _ _ _ _ LD q w); [left; auto|eassumption].
      + intros q w w' Hu Hin. apply (ld_max _ _ _ _ _ LD q w); [right; exact Hu|eassumption].
      + intros [NB DZ] q w Hg. apply (ld_all _ _ _ _ _ LD) with w; [assumption| | |].
        * unfold worst. rewrite DZ. apply (zl_zero_mul _ KL).
        * destruct Hg as [Hb|Hu]; [eapply base_state; eauto|eapply ugen_state; eassumption].
        * destruct Hg as [Hb|Hu]; [left; auto|now right].
  Qed.

  Definition upto (k m : nat) (c : chart K) : Prop :=
    ch_n c = n /\ ch_states c = ns /\ ch_beam c = beam /\ exists f, chart_rep c f /\ (forall i j, length (f i j) <= beam) /\
      (forall i j, span n i j -> j - i < k \/ (j - i = k /\ i < m) -> span_ok f i j) /\ (forall i j, span n i j -> k < j - i \/ (j - i = k /\ m <= i) -> f i j = []).
  Theorem fill_chart_ok : exists c f, fill_chart teqb H a word beam delta outside rule_filter = Some c /\ ch_n c = n /\ ch_states c = ns /\ ch_beam c = beam /\
      chart_rep c f /\ (forall i j, span n i j -> span_ok f i j) /\ forall i j, length (f i j) <= beam.
  Proof.
    unfold fill_chart, M_CSAuto.n. destruct (chart_new_rep (K := K) n ns beam HB) as (c0 & -> & A1 & A2 & A3 & CR0).
    edestruct (@fold_p_seq (chart K)) with (P := fun k c => upto k 0 c) (len := n) (b := 1) (c := c0) (s := fun c range => fold_p (fun c l => fill_span teqb H a word beam delta outside rule_filter c l (l + range)) (seq 0 (n - range + 1)) c) as (c' & E & HP).
    - intros c k Hk HP. edestruct (@fold_p_seq (chart K)) with (P := fun m c => upto k m c) (len := n - k + 1) (b := 0) (c := c) (s := fun c l => fill_span teqb H a word beam delta outside rule_filter c l (l + k)) as (c' & E & HP').
      + intros c1 m Hm (N1 & N2 & N3 & f & CR & LB & F1 & F2).
        destruct (fill_span_spec c1 f m (m + k) N1 N2 N3 CR) as (c2 & E & EQ & M1 & M2 & M3 & CR2 & SO & LE).
        * split; lia.
        * apply F2; [split; lia|]. right. lia.
        * intros i j L1 L2 L3 L4. apply F1; [split; lia|]. left. lia.
        * exists c2. split; [exact EQ|]. split; [assumption|]. split; [assumption|]. split; [assumption|]. exists (setf f m (m + k) E). split; [exact CR2|]. split; [|split].
          -- intros i j. unfold setf. destruct (_ && _); [assumption|apply LB].
          -- intros i j HS Hij. destruct (Nat.eq_dec i m) as [->|Di]; [destruct (Nat.eq_dec j (m + k)) as [->|Dj]; [assumption|]|].
             ++ apply (span_ok_ext f); [|destruct HS; lia|apply F1; [assumption|lia]]. intros i' j' L1 L2 L3. symmetry. apply setf_other. lia.
             ++ apply (span_ok_ext f); [|destruct HS; lia|apply F1; [assumption|lia]]. intros i' j' L1 L2 L3. symmetry. apply setf_other. destruct HS. lia.
          -- intros i j HS Hij. rewrite setf_other by lia. apply F2; [assumption|lia].
      + exact HP.
      + exists c'. split; [exact E|]. destruct HP' as (N1 & N2 & N3 & f & CR & LB & F1 & F2). do 3 (split; [assumption|]). exists f. split; [assumption|]. split; [assumption|]. split.
        * intros i j HS Hij. apply F1; [assumption|]. destruct HS. lia.
        * intros i j HS Hij. apply F2; [assumption|]. destruct HS. lia.
    - do 3 (split; [assumption|]). exists (fun _ _ => []). split; [assumption|]. split; [cbn; lia|]. split; [|reflexivity]. intros i j HS Hij. destruct HS. lia.
    - destruct HP as (N1 & N2 & N3 & f & CR & LB & F1 & F2). exists c', f. split; [exact E|]. do 4 (split; [assumption|]). split; [|assumption]. intros i j HS. apply F1; [assumption|]. destruct HS. lia.
  Qed.

  (* ---- entries and derivations ---- *)
  Context (f : entries) (SPANS : forall i j, span n i j -> span_ok f i j).
  Notation ad := (aderiv R ok word).
  Lemma rule_weight_at rid x : nth_error R rid = Some x -> rule_weight R rid = cr_weight x.
  Proof. unfold rule_weight. now intros ->. Qed.
  Lemma entry_derivation : forall d l r, span n l r -> r - l < d -> forall q w, In (q, w) (f l r) -> exists t, ad q t l r /\ ct_weight R t = w.
  Proof.
    induction d as [|d IH]; intros l r HS D; [lia|]. pose proof (SPANS l r HS) as SO. destruct HS as [S1 S2].
    assert (G : forall m k q w, k < m -> nth_error (f l r) k = Some (q, w) -> exists t, ad q t l r /\ ct_weight R t = w).
    { induction m as [|m IHm]; intros k q w Lk Hk; [lia|]. destruct (so_sound _ _ _ SO k q w Hk) as [Hb|(rid & q1 & w1 & rw & b & Hin & Hr & HO1 & ->)].
      - destruct Hb as [rid t w q b E1 E2 E3 E4|mid rid q q1 q2 w w1 w2 b E1 E2 E3 E4 E5].
        + subst r. exists (CNull rid). split; [eapply ad_null; eassumption|]. cbn. now rewrite (rule_weight_at _ _ E3).
        + apply last_weight_In in E3. destruct (IH l mid) with (q := q1) (w := w1) as (t1 & D1 & W1); try assumption; [split; lia|lia|]. destruct (IH mid r) with (q := q2) (w := w2) as (t2 & D2 & W2); try assumption; [split; lia|lia|].
          exists (CBin rid t1 t2). split; [eapply ad_bin; eassumption|]. cbn. rewrite (rule_weight_at _ _ E4), W1, W2. cbn. rewrite (wl_comm _ (zl_weight _ KL) w1 w). apply (wl_assoc _ (zl_weight _ KL)).
      - apply In_nth_error in Hin. destruct Hin as (k' & Hk'). rewrite nth_error_firstn in Hk'. destruct (Nat.ltb_spec k' k); [|discriminate]. destruct (IHm k' q1 w1 ltac:(lia) Hk') as (t & D1 & W1).
        exists (CUn rid t). split; [eapply ad_un; eassumption|]. cbn. now rewrite (rule_weight_at _ _ Hr), W1. }
    intros q w Hin. apply In_nth_error in Hin. destruct Hin as (k & Hk). apply (G (S k) k); [lia|assumption].
  Qed.
  Lemma ad_span q t l r : ad q t l r -> span n l r.
  Proof. induction 1 as [rid q t w b l H1 H2 H3|rid q q1 w b t i j H1 H2 H3 IH|rid q q1 q2 w b t1 t2 i m j H1 H2 H3 IH1 H4 IH2]; [|assumption|destruct IH1, IH2; split; lia]. apply nth_error_lt in H2. split; lia. Qed.
  Lemma entry_max q t l r : ad q t l r -> no_stop -> exists w, In (q, w) (f l r) /\ wleb (ct_weight R t) w = true.
  Proof.
    intros HD NS. induction HD as [rid q t w b l H1 H2 H3|rid q q1 w b t i j H1 H2 H3 IH|rid q q1 q2 w b t1 t2 i m j H1 H2 H3 IH1 H4 IH2].
    - assert (SO : span_ok f l (S l)) by (apply SPANS; apply nth_error_lt in H2; split; lia). assert (Hb : base f l (S l) q w) by (eapply base_t; eauto). destruct (so_all _ _ _ SO NS q w (or_introl Hb)) as (w' & Hin). exists w'. split; [exact Hin|].
      cbn. rewrite (rule_weight_at _ _ H1). eapply (so_max_b _ _ _ SO); eassumption.
    - destruct IH as (w1 & Hin1 & L1). pose proof (SPANS _ _ (ad_span _ _ _ _ H3)) as SO. assert (Hu : ugen (f i j) i j q (wmul w w1)) by (exists rid, q1, w1, w, b; tauto). destruct (so_all _ _ _ SO NS q _ (or_intror Hu)) as (w' & Hin). exists w'. split; [exact Hin|].
      cbn. rewrite (rule_weight_at _ _ H1). cbn. eapply (w_trans KL); [apply (w_mono_l KL), L1|]. eapply (so_max_u _ _ _ SO); eassumption.
    - destruct IH1 as (w1 & Hin1 & L1). destruct IH2 as (w2 & Hin2 & L2). pose proof (ad_span _ _ _ _ H3) as [P1 P2]. pose proof (ad_span _ _ _ _ H4) as [P3 P4]. pose proof (SPANS i j ltac:(split; lia)) as SO. pose proof (SPANS m j ltac:(split; lia)) as SOr.
      assert (Hb : base f i j q (wmul (wmul w1 w) w2)). { eapply base_b; try eassumption; [lia|]. apply last_weight_iff; [apply (so_nodup _ _ _ SOr)| |assumption]. intros q' w' Hin'. apply (so_state _ _ _ SOr) in Hin'. tauto. }
      destruct (so_all _ _ _ SO NS q _ (or_introl Hb)) as (w' & Hin). exists w'. split; [exact Hin|]. cbn. rewrite (rule_weight_at _ _ H1). cbn. eapply (w_trans KL); [|eapply (so_max_b _ _ _ SO); eassumption].
      rewrite (wl_comm _ (zl_weight _ KL) w1 w), <- (wl_assoc _ (zl_weight _ KL)). apply (w_mono_l KL). now apply (w_mono2 KL).
  Qed.
End Fill.

Lemma aderiv_cderiv {Q T W} (R : list (crule Q T W)) okc word q t l r : aderiv R okc word q t l r -> l < r <= length word /\ cderiv R q t (sub word l r).
Proof.
  induction 1 as [rid q t w b l H1 H2 H3|rid q q1 w b t i j H1 H2 H3 [IH0 IH]|rid q q1 q2 w b t1 t2 i m j H1 H2 H3 [IH0 IH1] H4 [IH0' IH2]].
  - split; [apply nth_error_lt in H2; lia|]. rewrite (sub_one _ _ _ H2). eapply cd_null; eassumption.
  - split; [assumption|]. eapply cd_un; eassumption.
  - split; [lia|]. rewrite (sub_app word i m j) by lia. eapply cd_bin; eassumption.
Qed.
Lemma cderiv_nonempty {Q T W} (R : list (crule Q T W)) q t u : cderiv R q t u -> u <> [].
Proof. induction 1; [discriminate|assumption|]. intros E. apply app_eq_nil in E. tauto. Qed.
Lemma sub_nth {T} (word : list T) l r t : r <= length word -> l <= r -> sub word l r = [t] -> r = S l /\ nth_error word l = Some t.
Proof.
  intros H0 H1 E. pose proof (sub_length word l r H1 H0) as L. rewrite E in L. cbn in L. assert (r = S l) by lia. subst r. split; [reflexivity|].
  destruct (nth_error word l) as [t'|] eqn:E'; [|apply nth_error_None in E'; lia]. apply sub_one in E'. congruence.
Qed.
Lemma app_inj_len {T} (a b c d : list T) : length a = length c -> a ++ b = c ++ d -> a = c /\ b = d.
Proof. revert c. induction a as [|x a IH]; intros [|y c] L E; try discriminate; [auto|]. cbn in *. injection E as -> E. destruct (IH c) as [-> ->]; auto. Qed.
Lemma cderiv_aderiv {Q T W} (R : list (crule Q T W)) (okc : nat -> Q -> nat -> nat -> Prop) word q t u : cderiv R q t u -> forall l r,
  (forall rid q l r, In rid (ct_rules t) -> okc rid q l r) -> l <= r -> r <= length word -> u = sub word l r -> aderiv R okc word q t l r.
Proof.
  induction 1 as [rid q t w b H1|rid q q1 w b t u H1 H2 IH|rid q q1 q2 w b t1 t2 u1 u2 H1 H2 IH1 H3 IH2]; intros l r OK L1 L2 E.
  - symmetry in E. apply sub_nth in E; try assumption. destruct E as [-> E]. eapply ad_null; try eassumption. apply OK. now left.
  - eapply ad_un; [eassumption|apply OK; now left|]. apply IH; try assumption. intros rid' q' i j Hin. apply OK. now right.
  - assert (LL : length u1 + length u2 = r - l) by (rewrite <- app_length, E; now apply sub_length). set (m := l + length u1).
    rewrite (sub_app word l m r) in E by (unfold m; lia). apply app_inj_len in E; [|rewrite sub_length by (unfold m; lia); unfold m; lia]. destruct E as [E1 E2].
    eapply ad_bin with (m := m); [eassumption|apply OK; now left| |].
    + apply IH1; try assumption; try (unfold m; lia). intros rid' q' i j Hin. apply OK. right. apply in_app_iff. now left.
    + apply IH2; try assumption; try (unfold m; lia). intros rid' q' i j Hin. apply OK. right. apply in_app_iff. now right.
Qed.

(* ---- renaming of states ---- *)
Section Code.
  Context {N T : Type} {K : ZWeight} (neqb : N -> N -> bool) (NS : EqbSpec neqb).
  Context (R : list (crule (cstate N) T K)) (ints : list (cstate N)) (ND : NoDup ints)
          (HI : forall x s, In x R -> In s (rstates x) -> In s ints).
  Notation cd := (code neqb ints). Notation CR := (map (code_rule neqb ints) R).
  Lemma cderiv_code q t u : cderiv R q t u -> cderiv CR (cd q) t u.
  Proof.
    induction 1 as [r q t w b H1|r q q1 w b t u H1 H2 IH|r q q1 q2 w b t1 t2 u1 u2 H1 H2 IH1 H3 IH2].
    - eapply cd_null. apply nth_error_map_inv. eexists. split; [exact H1|]. reflexivity.
    - eapply cd_un; [|exact IH]. apply nth_error_map_inv. eexists. split; [exact H1|]. reflexivity.
    - eapply cd_bin; [|exact IH1|exact IH2]. apply nth_error_map_inv. eexists. split; [exact H1|]. reflexivity.
  Qed.
  Lemma cderiv_decode qc t u : cderiv CR qc t u -> forall q, In q ints -> cd q = qc -> cderiv R q t u.
  Proof.
    induction 1 as [r q t w b H1|r q q1 w b t u H1 H2 IH|r q q1 q2 w b t1 t2 u1 u2 H1 H2 IH1 H3 IH2]; intros s Hs E; apply nth_error_map_inv in H1; destruct H1 as ([s0 rhs w' b'] & H1 & E1); pose proof (nth_error_In _ _ H1) as Hx; unfold code_rule in E1; cbn in E1; injection E1 as E2 E3 E4 E5; subst w' b';
      (assert (s = s0) by (apply (code_inj neqb NS ints); [assumption|assumption|eapply HI; [exact Hx|now left]|congruence])); subst s0; destruct rhs as [t'|s1|s1 s2]; try discriminate.
    - cbn in E3. injection E3 as ->. eapply cd_null. exact H1.
    - cbn in E3. injection E3 as E3. eapply cd_un; [exact H1|]. apply IH; [eapply HI; [exact Hx|cbn; tauto]|congruence].
    - cbn in E3. injection E3 as E3 E4. eapply cd_bin; [exact H1| |]; [apply IH1|apply IH2]; try congruence; eapply HI; try exact Hx; cbn; tauto.
  Qed.
  Lemma ct_weight_code t : ct_weight CR t = ct_weight R t.
  Proof.
    assert (W : forall r, rule_weight CR r = rule_weight R r). { intros r. unfold rule_weight. rewrite nth_error_map. destruct (nth_error R r); reflexivity. }
    induction t as [r|r t IH|r t1 IH1 t2 IH2]; cbn; rewrite ?W, ?IH, ?IH1, ?IH2; reflexivity.
  Qed.
  Lemma ct_word_code t : ct_word CR t = ct_word R t.
  Proof.
    assert (W : forall r, rule_brackets CR r = rule_brackets R r). { intros r. unfold rule_brackets. rewrite nth_error_map. destruct (nth_error R r); reflexivity. }
    induction t as [r|r t IH|r t1 IH1 t2 IH2]; cbn; rewrite ?W, ?IH, ?IH1, ?IH2; reflexivity.
  Qed.
End Code.
(* weights of the approximation *)
Section Weights.
  Context {N T : Type} {K : ZWeight} (KL : ZWeightLaws K) (factorize : K -> nat -> list K) (FL : FactorLaws factorize).
  Lemma cs_rules_weights rules (P : K -> Prop) : P wone -> (forall (r : prule N T K) x, In r rules -> In x (factorize (pr_weight r) (length (pr_comp r))) -> P x) ->
    forall x, In x (cs_rules factorize rules) -> P (cr_weight x).
  Proof.
    intros P1 PF. unfold cs_rules. generalize 0 as rid. induction rules as [|r rules IH]; intros rid x Hx; [destruct Hx|]. cbn in Hx. apply in_app_iff in Hx. destruct Hx as [Hx|Hx]; [|eapply IH; [|exact Hx]; intros r' x' Hr; apply PF; now right].
    unfold cs_rule in Hx. assert (PC : forall c w, In (c, w) (combine (pr_comp r) (factorize (pr_weight r) (length (pr_comp r)))) -> P w) by (intros c w Hc; apply (PF r); [now left|]; eapply in_combine_r; exact Hc).
    clear IH PF. revert Hx PC. generalize (combine (pr_comp r) (factorize (pr_weight r) (length (pr_comp r)))) as cs. generalize 0 as cid. intros cid cs. revert cid. induction cs as [|[c w] cs IH]; intros cid Hx PC; [destruct Hx|].
    cbn in Hx. apply in_app_iff in Hx. destruct Hx as [Hx|Hx]; [|eapply IH; [exact Hx|intros c' w' Hc; apply (PC c'); now right]]. specialize (PC c w (or_introl eq_refl)).
    assert (PR : forall rest off left, In x (cs_rest rid r cid off left rest) -> P (cr_weight x)).
    { induction rest as [|y rest IHr]; intros off left H0; [destruct H0|]. cbn in H0. destruct H0 as [<-|H0]; [exact P1|eapply IHr; exact H0]. }
    destruct c as [|y [|z rest]]; [destruct Hx| |].
    - destruct y as [t|i j]; cbn in Hx; destruct Hx as [<-|[]]; exact PC.
    - assert (Hx' : In x (CRule (part_state rid r cid 0 rest) (RB (var_state r cid y) (var_state r cid z)) w (part_bracket rid cid rest, var_bracket rid y, var_bracket rid z) :: cs_rest rid r cid 1 (part_state rid r cid 0 rest) rest)) by (destruct y; exact Hx). destruct Hx' as [<-|Hx']; [exact PC|eapply PR; exact Hx'].
  Qed.
End Weights.
