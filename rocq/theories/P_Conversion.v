(* Proofs: LCFRS from MCFG. *)
From Verif Require Import Base BMap M_Agenda M_Search M_Util M_Recog M_Automata M_CFG M_TreeStack M_Grammar M_Conversion
  S_Search S_Recog S_CFG S_Grammar P_Agenda P_Search P_Automata P_TreeStack P_Grammar P_GrammarCFG.

(* ---- yields are total for grammars with existing variables ---- *)
Lemma opt_all_nth {X Y} (F : X -> option Y) l l' : opt_all F l = Some l' -> forall i, nth_error l' i = match nth_error l i with Some x => F x | None => None end.
Proof.
  revert l'. induction l as [|x l IH]; intros l' H; cbn in H; [injection H as <-; intros [|i]; reflexivity|].
  destruct (F x) as [y|] eqn:Ex; [|discriminate]. destruct (opt_all F l) as [r|] eqn:El; [|discriminate]. injection H as <-.
  intros [|i]; cbn; [now rewrite Ex|now apply IH].
Qed.
Lemma opt_all_total {X Y} (F : X -> option Y) l : (forall x, In x l -> F x <> None) -> exists l', opt_all F l = Some l'.
Proof.
  intros H. destruct (opt_all F l) as [l'|] eqn:El; [eauto|]. apply opt_all_None in El. destruct El as (x & Hx & Ex). destruct (H x Hx Ex).
Qed.
Lemma opt_all_len {X Y} (F : X -> option Y) l l' : opt_all F l = Some l' -> length l' = length l.
Proof. intros H. apply opt_all_Some, F2_length in H. auto. Qed.
Lemma in_variables {T} (cs : composition T) i j : In (i, j) (variables cs) <-> exists c, In c cs /\ In (Var i j) c.
Proof.
  unfold variables. rewrite in_flat_map. split.
  - intros (x & Hx & Hij). apply in_concat in Hx. destruct Hx as (c & Hc & Hx). destruct x as [i' j'|t]; cbn in Hij; [|destruct Hij]. destruct Hij as [E|[]]. injection E as <- <-. eauto.
  - intros (c & Hc & Hx). exists (Var i j). split; [apply in_concat; eauto|now left].
Qed.

Section Total.
  Context {N T W : Type} (f : N -> nat) (rules : list (prule N T W)) (FO : fanouts_ok rules f) (VE : forall r, In r rules -> vars_exist f r).
  Lemma yield_total d : forall A, deriv (fun r => In r rules) A d -> exists y, yield d = Some y /\ length y = f A.
  Proof.
    induction d as [r ts IH] using dtree_ind2. intros A HD. apply deriv_inv in HD. destruct HD as (-> & Hr & F2).
    assert (SV : forall c x, In c (pr_comp r) -> In x c -> sval ts x <> None).
    { intros c [i j|t] Hc Hx; [|discriminate]. destruct (VE r Hr i j) as (B & HB & Hj); [apply in_variables; eauto|].
      pose proof (F2_nth _ _ _ F2 i) as G. rewrite HB in G. destruct (nth_error ts i) as [d|] eqn:Ed; [|tauto].
      rewrite Forall_forall in IH. destruct (IH d (nth_error_In _ _ Ed) B G) as (y & Y & L). rewrite (sval_var ts i j d y Ed Y). apply nth_error_Some. lia. }
    rewrite yield_eq. destruct (opt_all_total (fun c => option_map (@concat T) (opt_all (sval ts) c)) (pr_comp r)) as [y Y].
    - intros c Hc. destruct (opt_all_total (sval ts) c) as [v V]; [intros x Hx; now apply (SV c)|]. rewrite V. discriminate.
    - exists y. split; [assumption|]. rewrite (opt_all_len _ _ _ Y). now apply FO.
  Qed.
End Total.

(* ---- kept, rank ---- *)
Lemma memb_nat j d : memb Nat.eqb j d = true <-> In j d.
Proof. apply memb_In. intros a b. apply Nat.eqb_eq. Qed.
Lemma kept_nil {X} (l : list X) : forall k, kept_from k [] l = l.
Proof. induction l as [|x l IH]; intros k; cbn; [reflexivity|]. now rewrite IH. Qed.
Definition below (d : list nat) (k j : nat) := length (filter (fun x => Nat.leb k x && Nat.ltb x j) d).
Lemma below_S d k j : NoDup d -> k < j -> below d k j = (if memb Nat.eqb k d then 1 else 0) + below d (S k) j.
Proof.
  intros ND L. induction ND as [|x d H1 H2 IH]; [reflexivity|]. unfold below in *. cbn [filter].
  replace (memb Nat.eqb k (x :: d)) with (Nat.eqb k x || memb Nat.eqb k d) by reflexivity.
  destruct (Nat.eqb_spec k x) as [->|NE].
  - assert (M : memb Nat.eqb x d = false) by (destruct (memb Nat.eqb x d) eqn:M; [apply memb_nat in M; contradiction|reflexivity]). rewrite M in IH. cbn [orb].
    rewrite Nat.leb_refl. destruct (Nat.ltb_spec x j); [|lia]. cbn [andb length]. destruct (Nat.leb_spec (S x) x); [lia|]. cbn [andb]. rewrite IH. reflexivity.
  - cbn [orb]. assert (B : Nat.leb k x = Nat.leb (S k) x) by (destruct (Nat.leb_spec k x), (Nat.leb_spec (S k) x); lia || reflexivity). rewrite B.
    destruct (Nat.leb (S k) x && Nat.ltb x j); cbn [length]; rewrite IH; destruct (memb Nat.eqb k d); lia.
Qed.
Lemma below_0 d k : below d k k = 0.
Proof. unfold below. induction d as [|x d IH]; [reflexivity|]. cbn [filter]. destruct (Nat.leb_spec k x), (Nat.ltb_spec x k); try lia; cbn; exact IH. Qed.
Lemma below_le d k j : NoDup d -> k <= j -> below d k j <= j - k.
Proof.
  intros ND L. remember (j - k) as n eqn:En. revert k L En. induction n as [|n IH]; intros k L En.
  - assert (k = j) by lia. subst. rewrite below_0. lia.
  - rewrite below_S by (assumption || lia). specialize (IH (S k) ltac:(lia) ltac:(lia)). destruct (memb Nat.eqb k d); lia.
Qed.
Lemma kept_from_nth {X} (d : list nat) (l : list X) : NoDup d -> forall k j, memb Nat.eqb (k + j) d = false ->
  nth_error (kept_from k d l) (j - below d k (k + j)) = nth_error l j.
Proof.
  intros ND. induction l as [|c l IH]; intros k j M; cbn [kept_from].
  - assert (Z : forall n, @nth_error X [] n = None) by (intros [|]; reflexivity). now rewrite !Z.
  - destruct j as [|j].
    + rewrite Nat.add_0_r in *. rewrite M, below_0. reflexivity.
    + rewrite below_S by (assumption || lia). replace (k + S j) with (S k + j) in * by lia.
      pose proof (below_le d (S k) (S k + j) ND ltac:(lia)) as LE.
      destruct (memb Nat.eqb k d).
      * cbn [nth_error]. replace (S j - (1 + below d (S k) (S k + j))) with (j - below d (S k) (S k + j)) by lia. now apply IH.
      * replace (S j - (0 + below d (S k) (S k + j))) with (S (j - below d (S k) (S k + j))) by lia. cbn [nth_error]. now apply IH.
Qed.
Lemma rank_eq d j : rank d j = j - below d 0 (0 + j).
Proof. reflexivity. Qed.
Lemma kept_rank {X} (d : list nat) (l : list X) j : NoDup d -> ~ In j d -> nth_error (kept d l) (rank d j) = nth_error l j.
Proof.
  intros ND NI. rewrite rank_eq. apply (kept_from_nth d l ND 0 j). cbn. destruct (memb Nat.eqb j d) eqn:M; [apply memb_nat in M; contradiction|reflexivity].
Qed.
Lemma kept_from_len {X Y} (d : list nat) (l : list X) : forall (l' : list Y) k, length l = length l' -> length (kept_from k d l) = length (kept_from k d l').
Proof. induction l as [|x l IH]; intros [|y l'] k L; try discriminate; [reflexivity|]. cbn in *. destruct (memb Nat.eqb k d); cbn; rewrite (IH l') by lia; reflexivity. Qed.
Lemma kept_seq_in (d : list nat) n : forall k x, In x (kept_from k d (seq k n)) <-> (k <= x < k + n) /\ ~ In x d.
Proof.
  induction n as [|n IH]; intros k x; cbn [seq kept_from]; [cbn; lia|].
  destruct (memb Nat.eqb k d) eqn:M.
  - apply memb_nat in M. rewrite IH. split; [intros [? ?]; split; [lia|assumption]|]. intros [? ?]. split; [|assumption]. assert (x <> k) by (intros ->; contradiction). lia.
  - assert (~ In k d) by (intros H; apply memb_nat in H; congruence). cbn [In]. rewrite IH. split.
    + intros [<-|[? ?]]; split; auto; lia.
    + intros [? ?]. destruct (Nat.eq_dec k x) as [->|]; [now left|]. right. split; [lia|assumption].
Qed.
Lemma kept_seq_NoDup (d : list nat) n : forall k, NoDup (kept_from k d (seq k n)).
Proof.
  induction n as [|n IH]; intros k; cbn [seq kept_from]; [constructor|]. destruct (memb Nat.eqb k d); [apply IH|]. constructor; [|apply IH].
  rewrite kept_seq_in. lia.
Qed.
Lemma kept_in {X} (d : list nat) (l : list X) : forall k x, In x (kept_from k d l) -> In x l.
Proof. induction l as [|y l IH]; intros k x; cbn; [tauto|]. destruct (memb Nat.eqb k d); [intros H; right; eapply IH; eauto|intros [<-|H]; [now left|right; eapply IH; eauto]]. Qed.
Lemma kept_opt_all {X Y} (F : X -> option Y) (d : list nat) l : forall k l', opt_all F l = Some l' -> opt_all F (kept_from k d l) = Some (kept_from k d l').
Proof.
  induction l as [|x l IH]; intros k l' H; cbn in H; [injection H as <-; reflexivity|].
  destruct (F x) as [y|] eqn:Ex; [|discriminate]. destruct (opt_all F l) as [r|] eqn:El; [|discriminate]. injection H as <-. cbn [kept_from].
  destruct (memb Nat.eqb k d); [now apply IH|]. cbn [opt_all]. rewrite Ex, (IH (S k) r eq_refl). reflexivity.
Qed.
Lemma NoDup_concat_kept {X} (d : list nat) (F : X -> list (nat * nat)) l : forall k, NoDup (flat_map F l) -> NoDup (flat_map F (kept_from k d l)).
Proof.
  induction l as [|x l IH]; intros k H; cbn; [constructor|]. cbn in H.
  assert (NT : NoDup (flat_map F l)) by (clear -H; induction (F x) as [|y t IHt]; cbn in *; [assumption|inversion H; auto]).
  destruct (memb Nat.eqb k d); [now apply IH|]. cbn. specialize (IH (S k) NT).
  assert (SUB : forall y, In y (flat_map F (kept_from (S k) d l)) -> In y (flat_map F l)).
  { intros y Hy. apply in_flat_map in Hy. destruct Hy as (z & Hz & Hy). apply in_flat_map. exists z. split; [eapply kept_in; eauto|assumption]. }
  induction (F x) as [|y t IHt]; cbn in *; [assumption|]. inversion H as [|? ? N1 N2]; subst. constructor; [|now apply IHt].
  intros Hin. apply N1. apply in_app_or in Hin. apply in_or_app. destruct Hin as [|Hin]; [now left|right; auto].
Qed.

(* ---- composition_deletes ---- *)
Lemma remove_all_spec vs : forall ds,
  match remove_all vs ds with
  | Some ds' => length ds' = length ds /\ (forall i j, In (i, j) vs -> i < length ds) /\
                forall i, nth_error ds' i = option_map (filter (fun j => negb (memb pair_eqb (i, j) vs))) (nth_error ds i)
  | None => exists i j, In (i, j) vs /\ length ds <= i
  end.
Proof.
  induction vs as [|[i j] vs IH]; intros ds; cbn [remove_all].
  - split; [reflexivity|]. split; [intros ? ? []|]. intros i. destruct (nth_error ds i) as [d|]; cbn; [|reflexivity]. f_equal. clear. induction d as [|x d IH]; cbn; [reflexivity|now rewrite <- IH].
  - unfold remove_at. destruct (nth_error ds i) as [d|] eqn:Ei.
    + specialize (IH (set_nth i (filter (fun x => negb (Nat.eqb x j)) d) ds)). rewrite set_nth_length in IH.
      destruct (remove_all vs _) as [ds'|].
      * destruct IH as (H1 & H2 & H3). split; [assumption|]. split.
        -- intros i' j' [H|H]; [injection H as <- <-; apply nth_error_Some; congruence|eauto].
        -- intros k. rewrite H3, nth_error_set_nth. assert (L : i < length ds) by (apply nth_error_Some; congruence). destruct (Nat.ltb_spec i (length ds)); [|lia].
           destruct (Nat.eqb_spec k i) as [->|NE].
           ++ rewrite Ei. cbn [option_map]. f_equal. clear. induction d as [|x d IH]; [reflexivity|]. cbn [filter memb existsb].
              replace (pair_eqb (i, x) (i, j)) with (Nat.eqb x j) by (unfold pair_eqb; cbn; now rewrite Nat.eqb_refl).
              destruct (Nat.eqb x j); cbn [negb orb filter]; [exact IH|]. unfold memb in *. destruct (negb (existsb (pair_eqb (i, x)) vs)); [f_equal|]; exact IH.
           ++ destruct (nth_error ds k) as [e|]; cbn [option_map]; [|reflexivity]. f_equal. clear -NE. induction e as [|x e IH]; [reflexivity|]. cbn [filter memb existsb].
              replace (pair_eqb (k, x) (i, j)) with false by (unfold pair_eqb; cbn; destruct (Nat.eqb_spec k i); [contradiction|reflexivity]). cbn [orb].
              unfold memb in *. destruct (negb (existsb (pair_eqb (k, x)) vs)); [f_equal|]; exact IH.
      * destruct IH as (i' & j' & ? & ?). exists i', j'. cbn. auto.
    + apply nth_error_None in Ei. exists i, j. cbn. auto.
Qed.
Lemma composition_deletes_spec {T} (c : composition T) fs ds : composition_deletes c fs = Some ds ->
  length ds = length fs /\ (forall i j, In (i, j) (variables c) -> i < length fs) /\
  forall i d, nth_error ds i = Some d -> NoDup d /\ exists f, nth_error fs i = Some f /\ forall j, In j d <-> j < f /\ ~ In (i, j) (variables c).
Proof.
  unfold composition_deletes. intros H. pose proof (remove_all_spec (variables c) (map (seq 0) fs)) as G. rewrite H in G. rewrite map_length in G. destruct G as (G1 & G2 & G3).
  split; [assumption|]. split; [assumption|]. intros i d Hd. rewrite G3, nth_error_map in Hd. destruct (nth_error fs i) as [f|]; [|discriminate]. cbn in Hd. injection Hd as <-.
  split; [apply NoDup_filter, seq_NoDup|]. exists f. split; [reflexivity|]. intros j. rewrite filter_In, in_seq, negb_true_iff. split.
  - intros [H1 H2]. split; [lia|]. intros H3. apply (memb_In _ pair_eqb_spec) in H3. congruence.
  - intros [H1 H2]. split; [lia|]. destruct (memb pair_eqb (i, j) (variables c)) eqn:M; [apply (memb_In _ pair_eqb_spec) in M; contradiction|reflexivity].
Qed.
Lemma composition_deletes_ok {T} (c : composition T) fs : (forall i j, In (i, j) (variables c) -> i < length fs) -> exists ds, composition_deletes c fs = Some ds.
Proof.
  unfold composition_deletes. intros H. pose proof (remove_all_spec (variables c) (map (seq 0) fs)) as G. destruct (remove_all _ _) as [ds|]; [eauto|].
  rewrite map_length in G. destruct G as (i & j & H1 & H2). specialize (H i j H1). lia.
Qed.

Section Conv.
  Context {N T W : Type} (neqb : N -> N -> bool) (E : EqbSpec neqb).
  Context (rules : list (prule N T W)) (fan : list (N * nat)) (HF : read_fanouts neqb rules = Some fan).
  Definition fo (A : N) : nat := match fan_get neqb A fan with Some x => x | None => 0 end.
  Definition fo' (x : @dnt N) : nat := length (kept (snd x) (seq 0 (fo (fst x)))).
  Context (VE : forall r, In r rules -> (forall B, In B (pr_tail r) -> fan_get neqb B fan <> None) -> vars_exist fo r) (LI : forall r, In r rules -> linear r).

  Lemma fan_rule (r : prule N T W) : In r rules -> fan_get neqb (pr_head r) fan = Some (length (pr_comp r)).
  Proof. intros Hr. pose proof (read_fanouts_from_spec neqb E rules []) as R. unfold read_fanouts in HF. rewrite HF in R. exact (proj1 R r Hr). Qed.
  Lemma fan_ok : fanouts_ok rules fo.
  Proof. intros r Hr. unfold fo. now rewrite fan_rule. Qed.

  (* what a converted rule looks like *)
  Lemma to_rule_spec (r : prule N T W) del r' : to_lcfrs_rule neqb r del fan = Some r' -> exists ds comp',
    length ds = length (pr_tail r) /\ r' = PRule (pr_head r, del) (combine (pr_tail r) ds) comp' (pr_weight r) /\
    opt_all (opt_all (renumber ds)) (kept del (pr_comp r)) = Some comp' /\
    (forall i B, nth_error (pr_tail r) i = Some B -> exists d, nth_error ds i = Some d /\ NoDup d /\ forall j, In j d <-> j < fo B /\ ~ In (i, j) (variables (kept del (pr_comp r)))).
  Proof.
    unfold to_lcfrs_rule. destruct (opt_all (fun n => fan_get neqb n fan) (pr_tail r)) as [fs|] eqn:O; [|discriminate].
    destruct (composition_deletes (kept del (pr_comp r)) fs) as [ds|] eqn:D; [|discriminate].
    destruct (opt_all (opt_all (renumber ds)) (kept del (pr_comp r))) as [comp'|] eqn:C; [|discriminate]. intros H. injection H as <-.
    apply composition_deletes_spec in D. destruct D as (D1 & D2 & D3). exists ds, comp'.
    assert (L : length ds = length (pr_tail r)) by (rewrite D1; eapply opt_all_len; eauto).
    split; [assumption|]. split; [reflexivity|]. split; [assumption|].
    intros i B HB. destruct (nth_error ds i) as [d|] eqn:Ed.
    - exists d. split; [reflexivity|]. destruct (D3 i d Ed) as (ND & x & Hx & V). split; [assumption|]. rewrite (opt_all_nth _ _ _ O i), HB in Hx. unfold fo. now rewrite Hx.
    - apply nth_error_None in Ed. assert (i < length (pr_tail r)) by (apply nth_error_Some; congruence). lia.
  Qed.

  Lemma to_rule_tails (r : prule N T W) del r' : to_lcfrs_rule neqb r del fan = Some r' -> forall B, In B (pr_tail r) -> fan_get neqb B fan <> None.
  Proof.
    unfold to_lcfrs_rule. destruct (opt_all (fun n => fan_get neqb n fan) (pr_tail r)) as [fs|] eqn:O; [|discriminate]. intros _ B HB. apply opt_all_Some in O.
    destruct (F2_in_l _ _ _ O B HB) as (x & _ & Hx). congruence.
  Qed.
  Lemma to_rule_len (r : prule N T W) del r' : to_lcfrs_rule neqb r del fan = Some r' -> length (pr_tail r') = length (pr_tail r).
  Proof.
    intros H. destruct (to_rule_spec r del r' H) as (ds & comp' & LD & -> & _). pose proof (combine_length (pr_tail r) ds) as L. rewrite LD, Nat.min_id in L. exact L.
  Qed.

  Lemma combine_nth_error {X Y} (a : list X) : forall (b : list Y) i x y, nth_error a i = Some x -> nth_error b i = Some y -> nth_error (combine a b) i = Some (x, y).
  Proof. induction a as [|x0 a IH]; intros [|y0 b] [|i] x y; cbn; try discriminate; [congruence|apply IH]. Qed.
  Lemma combine_nth_inv {X Y} (a : list X) : forall (b : list Y) i p, nth_error (combine a b) i = Some p -> nth_error a i = Some (fst p) /\ nth_error b i = Some (snd p).
  Proof. induction a as [|x0 a IH]; intros [|y0 b] [|i] p; cbn; try discriminate; [intros H; injection H as <-; auto|apply IH]. Qed.

  (* a node of the converted grammar yields the undeleted components *)
  Lemma node_yield r del r' (ts : list (dtree N T W)) (ts' : list (dtree (@dnt N) T W)) :
    In r rules -> to_lcfrs_rule neqb r del fan = Some r' ->
    (forall i B, nth_error (pr_tail r) i = Some B -> exists d d' y del_i, nth_error ts i = Some d /\ nth_error ts' i = Some d' /\
        nth_error (pr_tail r') i = Some (B, del_i) /\ yield d = Some y /\ length y = fo B /\ yield d' = Some (kept del_i y)) ->
    exists y, yield (DNode r ts) = Some y /\ length y = fo (pr_head r) /\ yield (DNode r' ts') = Some (kept del y).
  Proof.
    intros Hr HC CH. destruct (to_rule_spec r del r' HC) as (ds & comp' & LD & -> & OC & HD). cbn [pr_tail pr_head] in *.
    assert (SV : forall i j, In (i, j) (variables (pr_comp r)) -> exists v, sval ts (Var i j) = Some v).
    { intros i j Hij. destruct (VE r Hr (to_rule_tails _ _ _ HC) i j Hij) as (B & HB & Hj). destruct (CH i B HB) as (d & d' & y & del_i & H1 & _ & _ & H3 & H4 & _).
      rewrite (sval_var ts i j d y H1 H3). destruct (nth_error y j) eqn:En; [eauto|]. apply nth_error_None in En. lia. }
    destruct (opt_all_total (fun c => option_map (@concat T) (opt_all (sval ts) c)) (pr_comp r)) as [y Y].
    { intros c Hc. destruct (opt_all_total (sval ts) c) as [v V]; [|rewrite V; discriminate].
      intros [i j|t] Hx; [|discriminate]. destruct (SV i j) as [v V]; [apply in_variables; eauto|congruence]. }
    exists y. split; [rewrite yield_eq; exact Y|]. split; [rewrite (opt_all_len _ _ _ Y); now apply fan_ok|].
    rewrite yield_eq. cbn [pr_comp]. apply (kept_opt_all _ del _ 0) in Y. fold (kept del (pr_comp r)) in Y. fold (kept del y) in Y. rewrite <- Y.
    (* the variables of the kept components are read from the kept components of the children *)
    assert (SE : forall c c', In c (kept del (pr_comp r)) -> opt_all (renumber ds) c = Some c' -> opt_all (sval ts') c' = opt_all (sval ts) c).
    { intros c c' Hc. assert (HV : forall i j, In (Var i j) c -> In (i, j) (variables (kept del (pr_comp r)))) by (intros i j H; apply in_variables; eauto).
      assert (Hc' : In c (pr_comp r)) by (eapply kept_in; eauto).
      assert (HV' : forall i j, In (Var i j) c -> In (i, j) (variables (pr_comp r))) by (intros i j H; apply in_variables; eauto). clear Hc Hc'.
      revert c'. induction c as [|x c IH]; intros c' Hc'; cbn [opt_all] in Hc'; [injection Hc' as <-; reflexivity|].
      destruct (renumber ds x) as [x'|] eqn:Ex; [|discriminate]. destruct (opt_all (renumber ds) c) as [c0|] eqn:Ec; [|discriminate]. injection Hc' as <-.
      cbn [opt_all]. rewrite (IH (fun i j H => HV i j (or_intror H)) (fun i j H => HV' i j (or_intror H)) c0 eq_refl).
      assert (EX : sval ts' x' = sval ts x); [|now rewrite EX].
      destruct x as [i j|t]; cbn [renumber] in Ex; [|injection Ex as <-; reflexivity].
      destruct (nth_error ds i) as [d|] eqn:Ed; [|discriminate]. injection Ex as <-.
      destruct (VE r Hr (to_rule_tails _ _ _ HC) i j (HV' i j (or_introl eq_refl))) as (B & HB & Hj).
      destruct (CH i B HB) as (t1 & t2 & y1 & del_i & H1 & H2 & H3 & H4 & H5 & H6).
      destruct (HD i B HB) as (d0 & Ed0 & ND & HD0). assert (d0 = d) by congruence. subst d0.
      apply combine_nth_inv in H3. cbn in H3. destruct H3 as [_ H3]. assert (del_i = d) by congruence. subst del_i.
      rewrite (sval_var ts i j t1 y1 H1 H4), (sval_var ts' i _ t2 _ H2 H6). apply kept_rank; [assumption|]. intros Hin. apply HD0 in Hin. destruct Hin as [_ Hin].
      apply Hin. apply HV. now left. }
    clear Y HC CH HD SV. revert comp' OC SE. generalize (kept del (pr_comp r)). intros cs. induction cs as [|c cs IH]; intros comp' OC SE; cbn [opt_all] in OC; [injection OC as <-; reflexivity|].
    destruct (opt_all (renumber ds) c) as [c'|] eqn:Ec; [|discriminate]. destruct (opt_all (opt_all (renumber ds)) cs) as [cs'|] eqn:Ecs; [|discriminate]. injection OC as <-.
    cbn [opt_all]. rewrite (SE c c' (or_introl eq_refl) Ec). rewrite (IH cs' eq_refl); [reflexivity|]. intros; eapply SE; [now right|assumption].
  Qed.

  (* ---- the converted rules form an LCFRS ---- *)
  Lemma rank_inj d j1 j2 : NoDup d -> ~ In j1 d -> ~ In j2 d -> rank d j1 = rank d j2 -> j1 = j2.
  Proof.
    intros ND N1 N2 H. pose proof (kept_rank d (seq 0 (S (j1 + j2))) j1 ND N1) as G1. pose proof (kept_rank d (seq 0 (S (j1 + j2))) j2 ND N2) as G2.
    rewrite H in G1. rewrite G1 in G2. rewrite !(nth_error_nth' _ 0), !seq_nth in G2 by (rewrite ?seq_length; lia). injection G2. lia.
  Qed.
  Lemma variables_renumber ds cs cs' : opt_all (opt_all (renumber ds)) cs = Some cs' ->
    variables cs' = map (fun ij => (fst ij, match nth_error ds (fst ij) with Some d => rank d (snd ij) | None => 0 end)) (@variables T cs).
  Proof.
    unfold variables. revert cs'. induction cs as [|c cs IH]; intros cs' H; cbn [opt_all] in H; [injection H as <-; reflexivity|].
    destruct (opt_all (renumber ds) c) as [c'|] eqn:Ec; [|discriminate]. destruct (opt_all (opt_all (renumber ds)) cs) as [cs0|] eqn:Ecs; [|discriminate]. injection H as <-.
    cbn [concat]. rewrite !flat_map_app, map_app. f_equal; [|now apply IH]. clear -Ec. revert c' Ec. induction c as [|x c IH]; intros c' H; cbn [opt_all] in H; [injection H as <-; reflexivity|].
    destruct (renumber ds x) as [x'|] eqn:Ex; [|discriminate]. destruct (opt_all (renumber ds) c) as [c0|] eqn:Ec; [|discriminate]. injection H as <-.
    cbn [flat_map]. rewrite map_app. f_equal; [|now apply IH]. destruct x as [i j|t]; cbn in Ex; [|injection Ex as <-; reflexivity].
    destruct (nth_error ds i) as [d|] eqn:Ed; [|discriminate]. injection Ex as <-. cbn. now rewrite Ed.
  Qed.
  Lemma NoDup_map_inj {X Y} (F : X -> Y) l : NoDup l -> (forall x y, In x l -> In y l -> F x = F y -> x = y) -> NoDup (map F l).
  Proof.
    induction 1 as [|x l H1 H2 IH]; intros I; cbn; constructor.
    - intros Hin. apply in_map_iff in Hin. destruct Hin as (y & Ey & Hy). apply H1. rewrite (I x y) by (cbn; auto). assumption.
    - apply IH. intros; apply I; cbn; auto.
  Qed.
  Lemma converted_lcfrs (r : prule N T W) del r' : In r rules -> to_lcfrs_rule neqb r del fan = Some r' -> length (pr_comp r') = fo' (pr_head r') /\ lcfrs_rule fo' r'.
  Proof.
    intros Hr HC. destruct (to_rule_spec r del r' HC) as (ds & comp' & LD & -> & OC & HD). cbn [pr_tail pr_head pr_comp].
    assert (SUBV : forall i j, In (i, j) (variables (kept del (pr_comp r))) -> In (i, j) (variables (pr_comp r))).
    { intros i j H. apply in_variables in H. destruct H as (c & Hc & Hx). apply in_variables. exists c. split; [eapply kept_in; eauto|assumption]. }
    assert (VR : forall i j, In (i, j) (variables (kept del (pr_comp r))) -> exists B d, nth_error (pr_tail r) i = Some B /\ j < fo B /\ nth_error ds i = Some d /\ NoDup d /\ ~ In j d).
    { intros i j H. destruct (VE r Hr (to_rule_tails _ _ _ HC) i j (SUBV i j H)) as (B & HB & Hj). destruct (HD i B HB) as (d & Ed & ND & HI). exists B, d. split; [assumption|]. split; [assumption|]. split; [assumption|]. split; [assumption|].
      intros Hin. apply HI in Hin. tauto. }
    split; [|split; [|split]].
    - rewrite (opt_all_len _ _ _ OC). unfold fo', kept. cbn [fst snd]. apply kept_from_len. rewrite seq_length. now apply fan_ok.
    - unfold linear. cbn [pr_comp]. rewrite (variables_renumber ds _ _ OC). apply NoDup_map_inj.
      + assert (G := LI r Hr). unfold linear, variables in G. unfold variables.
        assert (FC : forall cs : composition T, flat_map as_var (concat cs) = flat_map (flat_map as_var) cs) by (induction cs as [|c cs IH]; cbn; [reflexivity|now rewrite flat_map_app, IH]).
        rewrite FC in *. now apply NoDup_concat_kept.
      + intros [i1 j1] [i2 j2] H1 H2 Eq. cbn [fst snd] in Eq. injection Eq as <- Eq. destruct (VR i1 j1 H1) as (B & d & _ & _ & Ed & ND & N1). destruct (VR i1 j2 H2) as (B' & d' & _ & _ & Ed' & _ & N2).
        assert (d' = d) by congruence. subst. rewrite Ed in Eq. f_equal. now apply (rank_inj d).
    - intros i k Hik. cbn [pr_comp] in Hik. rewrite (variables_renumber ds _ _ OC) in Hik. apply in_map_iff in Hik. destruct Hik as ([i' j] & Eq & Hij). cbn [fst snd] in Eq.
      injection Eq as -> Ek. destruct (VR i j Hij) as (B & d & HB & Hj & Ed & ND & NI). rewrite Ed in Ek. subst k. exists (B, d). split; [cbn; now apply combine_nth_error|].
      unfold fo'. cbn [fst snd]. apply nth_error_Some. rewrite kept_rank by assumption. rewrite (nth_error_nth' _ 0) by (rewrite seq_length; assumption). discriminate.
    - intros i [B d] k HB Hk. cbn [pr_tail pr_comp] in *. apply combine_nth_inv in HB. cbn [fst snd] in HB. destruct HB as [HB Ed].
      destruct (HD i B HB) as (d' & Ed' & ND & HI). assert (d' = d) by congruence. subst d'. unfold fo' in Hk. cbn [fst snd] in Hk.
      destruct (nth_error (kept d (seq 0 (fo B))) k) as [j|] eqn:Ej; [|apply nth_error_None in Ej; lia].
      assert (Hj : In j (kept d (seq 0 (fo B)))) by (eapply nth_error_In; eauto). apply kept_seq_in in Hj. destruct Hj as [Hj NI].
      assert (RK : rank d j = k).
      { pose proof (kept_rank d (seq 0 (fo B)) j ND NI) as G. rewrite (nth_error_nth' (seq 0 (fo B)) 0), seq_nth in G by (rewrite ?seq_length; lia). cbn in G.
        apply (proj1 (NoDup_nth_error (kept d (seq 0 (fo B)))) (kept_seq_NoDup d (fo B) 0)); [apply nth_error_Some; congruence|congruence]. }
      rewrite (variables_renumber ds _ _ OC). apply in_map_iff. exists (i, j). cbn [fst snd]. rewrite Ed, RK. split; [reflexivity|].
      destruct (in_dec (fun a b : nat * nat => ltac:(decide equality; apply Nat.eq_dec)) (i, j) (variables (kept del (pr_comp r)))) as [|NV]; [assumption|].
      exfalso. apply NI. apply HI. split; [lia|assumption].
  Qed.
End Conv.

Lemma combine_Forall2 {X Y} (P : X -> Y -> Prop) (a : list X) : forall b, length a = length b -> (forall i x y, nth_error a i = Some x -> nth_error b i = Some y -> P x y) -> Forall2 P a b.
Proof.
  induction a as [|x a IH]; intros [|y b] L H; try discriminate; constructor; [apply (H 0); reflexivity|]. apply IH; [now injection L|]. intros i; apply (H (S i)).
Qed.
Lemma nth_error_len {X Y} (a : list X) (b : list Y) i x : length a = length b -> nth_error a i = Some x -> exists y, nth_error b i = Some y.
Proof. intros L H. destruct (nth_error b i) eqn:Eb; [eauto|]. apply nth_error_None in Eb. assert (i < length a) by (apply nth_error_Some; congruence). lia. Qed.
Lemma choose_list {X Y} (P : X -> Y -> Prop) (l : list X) : (forall x, In x l -> exists y, P x y) -> exists l', Forall2 P l l'.
Proof.
  induction l as [|x l IH]; intros H; [exists []; constructor|]. destruct (H x) as [y Hy]; [now left|]. destruct IH as [l' Hl]; [intros; apply H; now right|]. exists (y :: l'). now constructor.
Qed.

Section Lang.
  Context {N T W : Type} (neqb : N -> N -> bool) (E : EqbSpec neqb).
  Context (rules : list (prule N T W)) (fan : list (N * nat)) (HF : read_fanouts neqb rules = Some fan).
  Context (VE : forall r, In r rules -> (forall B, In B (pr_tail r) -> fan_get neqb B fan <> None) -> vars_exist (fo neqb fan) r).
  Context (items : list (@dnt N)) (rs : list (list (prule (@dnt N) T W)))
    (HR : opt_all (fun x => opt_all (fun r => to_lcfrs_rule neqb r (snd x) fan) (rules_of neqb rules (fst x))) items = Some rs).
  Notation fo := (fo neqb fan).
  Notation R := (fun r => In r rules).
  Notation R' := (fun r => In r (concat rs)).

  Lemma in_rules_of A r : In r (rules_of neqb rules A) <-> In r rules /\ pr_head r = A.
  Proof. unfold rules_of. rewrite filter_In. split; intros [H1 H2]; (split; [assumption|]); [symmetry; now apply E|]. subst. now apply E. Qed.
  Lemma in_converted r' : In r' (concat rs) <-> exists x r, In x items /\ In r rules /\ pr_head r = fst x /\ to_lcfrs_rule neqb r (snd x) fan = Some r'.
  Proof.
    pose proof (proj1 (opt_all_Some _ _ _) HR) as F. rewrite in_concat. split.
    - intros (l & Hl & Hr'). destruct (F2_in_r _ _ _ F l Hl) as (x & Hx & Ex). apply opt_all_Some in Ex. destruct (F2_in_r _ _ _ Ex r' Hr') as (r & Hr & Er). apply in_rules_of in Hr. exists x, r. tauto.
    - intros (x & r & Hx & Hr & Eh & Er). destruct (F2_in_l _ _ _ F x Hx) as (l & Hl & Ex). exists l. split; [assumption|]. apply opt_all_Some in Ex.
      assert (Hr0 : In r (rules_of neqb rules (fst x))) by (apply in_rules_of; auto). destruct (F2_in_l _ _ _ Ex r Hr0) as (r0 & Hr1 & E0). congruence.
  Qed.

  Definition weights {N T} (d : dtree N T W) : list W := map pr_weight (d_rules d).
  Lemma weights_node {N' T'} (r : prule N' T' W) ts : weights (DNode r ts) = pr_weight r :: flat_map weights ts.
  Proof. unfold weights. cbn [d_rules map]. f_equal. induction ts as [|t ts IH]; cbn; [reflexivity|now rewrite map_app, IH]. Qed.

  Definition rel (x : @dnt N) (d : dtree N T W) (d' : dtree (@dnt N) T W) : Prop :=
    weights d = weights d' /\ exists y, yield d = Some y /\ length y = fo (fst x) /\ yield d' = Some (kept (snd x) y).

  Lemma rel_node r del r' ts ts' : In r rules -> to_lcfrs_rule neqb r del fan = Some r' ->
    length ts = length (pr_tail r) -> length ts' = length (pr_tail r) ->
    (forall i p d d', nth_error (pr_tail r') i = Some p -> nth_error ts i = Some d -> nth_error ts' i = Some d' -> rel p d d') ->
    rel (pr_head r') (DNode r ts) (DNode r' ts').
  Proof.
    intros Hr HC L1 L2 H. destruct (to_rule_spec neqb fan r del r' HC) as (ds & comp' & LD & Er' & OC & HD). split.
    - rewrite !weights_node. rewrite Er'. cbn [pr_weight]. f_equal. assert (G : forall i d d', nth_error ts i = Some d -> nth_error ts' i = Some d' -> weights d = weights d').
      { intros i d d' H1 H2. destruct (nth_error_len ts (pr_tail r') i d) as [p Hp]; [rewrite (to_rule_len neqb fan r del r' HC); lia|assumption|]. now apply (H i p d d'). }
      assert (L : length ts = length ts') by congruence. clear -G L. revert ts' G L. induction ts as [|t ts IH]; intros [|t' ts'] G L; try discriminate; [reflexivity|]. cbn [flat_map].
      rewrite (G 0 t t' eq_refl eq_refl). f_equal. apply IH; [intros i; apply (G (S i))|now injection L].
    - destruct (node_yield neqb E rules fan HF VE r del r' ts ts' Hr HC) as (y & H1 & H2 & H3).
      + intros i B HB. destruct (nth_error_len _ ts i B (eq_sym L1) HB) as [d Ed]. destruct (nth_error_len _ ts' i B (eq_sym L2) HB) as [d' Ed'].
        destruct (HD i B HB) as (del_i & Edi & _). assert (Hp : nth_error (pr_tail r') i = Some (B, del_i)) by (rewrite Er'; cbn; now apply combine_nth_error).
        destruct (H i _ d d' Hp Ed Ed') as (_ & y & Y1 & Y2 & Y3). exists d, d', y, del_i. tauto.
      + exists y. rewrite Er'. cbn [pr_head fst snd]. rewrite Er' in H3. tauto.
  Qed.

  Lemma conv_sound d' : forall x, deriv R' x d' -> exists d, deriv R (fst x) d /\ rel x d d'.
  Proof.
    induction d' as [r' ts' IH] using dtree_ind2. intros x HD. apply deriv_inv in HD. destruct HD as (-> & Hr' & F2).
    apply in_converted in Hr'. destruct Hr' as (x & r & Hx & Hr & Eh & HC).
    destruct (to_rule_spec neqb fan r (snd x) r' HC) as (ds & comp' & LD & Er' & OC & HD0).
    assert (G : exists ts, Forall2 (fun p d => deriv R (fst (fst p)) d /\ rel (fst p) d (snd p)) (combine (pr_tail r') ts') ts).
    { apply choose_list. intros [p d'] Hin. pose proof (in_combine_r _ _ _ _ Hin) as Hd. rewrite Forall_forall in IH. cbn [fst snd]. apply (IH d' Hd p).
      clear -F2 Hin. induction F2 as [|a b l l' Hab F2 IH]; [destruct Hin|]. cbn in Hin. destruct Hin as [Eq|Hin]; [injection Eq as -> ->; assumption|auto]. }
    destruct G as [ts G]. pose proof (F2_length _ _ _ F2) as L'. pose proof (F2_length _ _ _ G) as LG. rewrite combine_length in LG.
    assert (LT : length (pr_tail r') = length (pr_tail r)) by (eapply to_rule_len; eassumption).
    exists (DNode r ts). split.
    - replace (fst (pr_head r')) with (pr_head r) by (rewrite Er'; reflexivity). constructor; [assumption|]. apply combine_Forall2; [lia|].
      intros i B d HB Hd. destruct (nth_error_len _ (pr_tail r') i B (eq_sym LT) HB) as [p Hp]. destruct (nth_error_len _ ts' i p L' Hp) as [d' Hd'].
      pose proof (F2_nth _ _ _ G i) as GN. pose proof (combine_nth_error _ _ _ _ _ Hp Hd') as QN. unfold dnt in *. rewrite QN, Hd in GN. cbn [fst snd] in GN. destruct GN as [GN _].
      rewrite Er' in Hp. cbn in Hp. apply combine_nth_inv in Hp. destruct Hp as [Hp _]. assert (fst p = B) by congruence. subst B. assumption.
    - apply (rel_node r (snd x)); [assumption|assumption|lia|lia|]. intros i p d d' H1 H2 H3. pose proof (F2_nth _ _ _ G i) as GN. pose proof (combine_nth_error _ _ _ _ _ H1 H3) as QN. unfold dnt in *. rewrite QN, H2 in GN. apply GN.
  Qed.

  Context (CL : forall x l y, In x items -> conv_succs neqb fan rules x = Some l -> In y l -> In y items)
          (DF : forall x, In x items -> conv_succs neqb fan rules x <> None).
  Lemma tail_items x r r' : In x items -> In r rules -> pr_head r = fst x -> to_lcfrs_rule neqb r (snd x) fan = Some r' -> forall p, In p (pr_tail r') -> In p items.
  Proof.
    intros Hx Hr Eh HC p Hp. destruct (conv_succs neqb fan rules x) as [l|] eqn:El; [|destruct (DF x Hx El)]. apply (CL x l p Hx El).
    unfold conv_succs in El. destruct (opt_all (conv_succs1 neqb fan (snd x)) (rules_of neqb rules (fst x))) as [ls|] eqn:Es; [|discriminate]. cbn in El. injection El as <-.
    apply opt_all_Some in Es. assert (Hr0 : In r (rules_of neqb rules (fst x))) by (apply in_rules_of; auto). destruct (F2_in_l _ _ _ Es r Hr0) as (s & Hs & E1).
    apply in_concat. exists s. split; [assumption|]. unfold conv_succs1 in E1. unfold to_lcfrs_rule in HC.
    destruct (opt_all (fun n => fan_get neqb n fan) (pr_tail r)) as [fs|]; [|discriminate]. destruct (composition_deletes _ fs) as [ds|]; [|discriminate].
    destruct (opt_all (opt_all (renumber ds)) _); [|discriminate]. injection HC as <-. cbn in *. injection E1 as <-. assumption.
  Qed.
  Lemma conv_complete d : forall x, In x items -> deriv R (fst x) d -> exists d', deriv R' x d' /\ rel x d d'.
  Proof.
    induction d as [r ts IH] using dtree_ind2. intros x Hx HD. apply deriv_inv in HD. destruct HD as (Eh & Hr & F2). symmetry in Eh.
    assert (HC : exists r', to_lcfrs_rule neqb r (snd x) fan = Some r').
    { pose proof (proj1 (opt_all_Some _ _ _) HR) as F. destruct (F2_in_l _ _ _ F x Hx) as (l & Hl & Ex). apply opt_all_Some in Ex.
      assert (Hr0 : In r (rules_of neqb rules (fst x))) by (apply in_rules_of; auto). destruct (F2_in_l _ _ _ Ex r Hr0) as (r0 & Hr1 & E0). eauto. }
    destruct HC as [r' HC]. destruct (to_rule_spec neqb fan r (snd x) r' HC) as (ds & comp' & LD & Er' & OC & HD0).
    assert (LT : length (pr_tail r') = length (pr_tail r)) by (eapply to_rule_len; eassumption). pose proof (F2_length _ _ _ F2) as L.
    assert (G : exists ts', Forall2 (fun p d' => deriv R' (fst p) d' /\ rel (fst p) (snd p) d') (combine (pr_tail r') ts) ts').
    { apply choose_list. intros [p d] Hin. pose proof (in_combine_r _ _ _ _ Hin) as Hd. pose proof (in_combine_l _ _ _ _ Hin) as Hp. rewrite Forall_forall in IH. cbn [fst snd].
      apply (IH d Hd p); [eapply tail_items; eauto|]. apply In_nth_error in Hin. destruct Hin as [i Hi]. apply combine_nth_inv in Hi. cbn [fst snd] in Hi. destruct Hi as [H1 H2].
      rewrite Er' in H1. cbn in H1. apply combine_nth_inv in H1. destruct H1 as [H1 _]. pose proof (F2_nth _ _ _ F2 i) as GN. rewrite H1, H2 in GN. exact GN. }
    destruct G as [ts' G]. pose proof (F2_length _ _ _ G) as LG. rewrite combine_length in LG.
    assert (Hh : pr_head r' = x) by (rewrite Er'; cbn; destruct x; cbn in *; congruence).
    exists (DNode r' ts'). split.
    - rewrite <- Hh. constructor; [apply in_converted; exists x, r; auto|]. apply combine_Forall2; [lia|].
      intros i p d' Hp Hd'. destruct (nth_error_len (pr_tail r') ts i p (eq_trans LT L) Hp) as [d Hd].
      pose proof (F2_nth _ _ _ G i) as GN. pose proof (combine_nth_error _ _ _ _ _ Hp Hd) as QN. unfold dnt in *. rewrite QN, Hd' in GN. apply GN.
    - rewrite <- Hh. apply (rel_node r (snd x)); [assumption|assumption|lia|lia|]. intros i p d d' H1 H2 H3. pose proof (F2_nth _ _ _ G i) as GN. pose proof (combine_nth_error _ _ _ _ _ H1 H2) as QN. unfold dnt in *. rewrite QN, H3 in GN. apply GN.
  Qed.
End Lang.

(* ---- searches over finite graphs end ---- *)
Section Ends.
  Context {I : Type} (eqb : I -> I -> bool) (E : EqbSpec eqb) (A : agenda I) (content : ag_T A -> list I) (AS : agenda_sound A content) (succs : I -> list I).
  Lemma until_none_returned {X} (os : list (option X)) : ~ In None os -> length (returned os) = length os.
  Proof. unfold returned. induction os as [|[x|] os IH]; intros H; cbn [flat_map app length] in *; [reflexivity| |cbn in H; tauto]. f_equal. apply IH. cbn in H. tauto. Qed.
  Lemma unique_ends (a : ag_T A) (U : list I) : (forall x, reachable succs (content a) x -> In x U) ->
    In None (fst (unique_calls A succs eqb (S (length U)) (unique_from A a))).
  Proof.
    intros HU. set (os := fst (unique_calls A succs eqb (S (length U)) (unique_from A a))).
    destruct (in_dec (fun x y : option I => ltac:(destruct x as [x|], y as [y|]; [destruct (eqb x y) eqn:Eq; [left; f_equal; now apply E|right; intros H; injection H as ->; rewrite (proj2 (E y y) eq_refl) in Eq; discriminate]|right; discriminate|right; discriminate|now left])) None os) as [|NN]; [assumption|exfalso].
    assert (L : length os = S (length U)).
    { unfold os. generalize (unique_from A a). generalize (S (length U)). intros n. induction n as [|n IH]; intros s; [reflexivity|]. cbn [unique_calls]. destruct (unique_next A succs eqb s) as [o s1].
      specialize (IH s1). destruct (unique_calls A succs eqb n s1). cbn in *. now rewrite IH. }
    pose proof (until_none_returned os NN) as LR.
    pose proof (unique_nodup_gen A succs eqb E (S (length U)) (unique_from A a) (NoDup_nil _)) as [ND _]. cbn [unique_from snd rev app] in ND. fold os in ND.
    assert (INC : incl (returned os) U).
    { intros x Hx. apply HU. apply (unique_reachable A content AS succs eqb (content a) (S (length U)) (unique_from A a)); [cbn; intros; now constructor|]. fold os.
      unfold returned in Hx. apply in_flat_map in Hx. destruct Hx as ([y|] & Hy & Hx); [|destruct Hx]. destruct Hx as [<-|[]]. exact Hy. }
    pose proof (NoDup_incl_length ND INC). lia.
  Qed.
End Ends.

(* ---- the search of the conversion ---- *)
Lemma list_eqb_spec : EqbSpec list_eqb.
Proof.
  intros a. induction a as [|x a IH]; intros [|y b]; cbn; split; try discriminate; try reflexivity.
  - intros H. apply andb_true_iff in H. destruct H as [H1 H2]. apply Nat.eqb_eq in H1. apply IH in H2. congruence.
  - intros H. injection H as -> ->. rewrite Nat.eqb_refl. now apply IH.
Qed.
Lemma dnt_eqb_spec {N} (neqb : N -> N -> bool) (E : EqbSpec neqb) : EqbSpec (dnt_eqb neqb).
Proof.
  intros [a b] [c d]. unfold dnt_eqb. cbn. rewrite andb_true_iff, (E a c), (list_eqb_spec b d). split; [intros [-> ->]; reflexivity|intros H; injection H; auto].
Qed.
Fixpoint sublists {X} (l : list X) : list (list X) :=
  match l with [] => [[]] | x :: l => map (cons x) (sublists l) ++ sublists l end.
Lemma filter_sublists {X} (p : X -> bool) l : In (filter p l) (sublists l).
Proof. induction l as [|x l IH]; cbn; [now left|]. apply in_or_app. destruct (p x); [left; now apply in_map|now right]. Qed.
Lemma nil_sublists {X} (l : list X) : In [] (sublists l).
Proof. induction l as [|x l IH]; cbn; [now left|]. apply in_or_app. now right. Qed.

Lemma ucalls_app {I} (A : agenda I) succs eqb n m : forall s, fst (unique_calls A succs eqb (n + m) s) = fst (unique_calls A succs eqb n s) ++ fst (unique_calls A succs eqb m (snd (unique_calls A succs eqb n s))).
Proof.
  induction n as [|n IH]; intros s; cbn [unique_calls Nat.add]; [reflexivity|]. destruct (unique_next A succs eqb s) as [o s1]. specialize (IH s1).
  destruct (unique_calls A succs eqb (n + m) s1), (unique_calls A succs eqb n s1). cbn in *. now rewrite IH.
Qed.
Section Finite.
  Context {N T W : Type} (neqb : N -> N -> bool) (E : EqbSpec neqb).
  Context (rules : list (prule N T W)) (fan : list (N * nat)) (init : N).
  Notation succs := (fun x => match conv_succs neqb fan rules x with Some l => l | None => [] end).
  Definition universe : list (@dnt N) :=
    flat_map (fun A => map (pair A) (sublists (seq 0 (fo neqb fan A)))) (init :: flat_map pr_tail rules).
  Lemma succs_universe x y : In y (succs x) -> In y universe.
  Proof.
    cbv beta. destruct (conv_succs neqb fan rules x) as [l|] eqn:El; [|intros []]. unfold conv_succs in El. destruct (opt_all _ _) as [ls|] eqn:O; [|discriminate]. injection El as <-. intros Hy.
    apply in_concat in Hy. destruct Hy as (l & Hl & Hy). apply opt_all_Some in O. destruct (F2_in_r _ _ _ O l Hl) as (r & Hr & Er). apply in_rules_of in Hr; [|assumption]. destruct Hr as [Hr _].
    unfold conv_succs1 in Er. destruct (opt_all (fun n => fan_get neqb n fan) (pr_tail r)) as [fs|] eqn:OF; [|injection Er as <-; destruct Hy].
    destruct (composition_deletes _ fs) as [ds|] eqn:D; [|discriminate]. injection Er as <-. apply In_nth_error in Hy. destruct Hy as [i Hi]. apply combine_nth_inv in Hi. destruct Hi as [H1 H2].
    unfold composition_deletes in D. pose proof (remove_all_spec (variables (kept (snd x) (pr_comp r))) (map (seq 0) fs)) as G. rewrite D in G. destruct G as (_ & _ & G).
    rewrite G, nth_error_map in H2. rewrite (opt_all_nth _ _ _ OF i), H1 in H2. destruct y as [B d]. cbn [fst snd] in *.
    destruct (fan_get neqb B fan) as [f|] eqn:Ef; [|discriminate]. cbn in H2. injection H2 as <-.
    apply in_flat_map. exists B. split; [right; apply in_flat_map; exists r; split; [assumption|eapply nth_error_In; eauto]|].
    apply in_map. unfold fo. rewrite Ef. apply filter_sublists.
  Qed.
  Lemma reachable_universe x : reachable succs [(init, [])] x -> In x universe.
  Proof.
    intros [y [<-|[]]|y z _ H]; [|eapply succs_universe; exact H]. apply in_flat_map. exists init. split; [now left|]. apply in_map, nil_sublists.
  Qed.
  Lemma until_none_app {X} (a b : list (option X)) : In None a -> until_none (a ++ b) = until_none a.
  Proof. induction a as [|[x|] a IH]; cbn; [tauto| |reflexivity]. intros [H|H]; [discriminate|now rewrite IH]. Qed.
  Lemma conv_items_stable n : S (length universe) <= n -> conv_items neqb fan rules init n = conv_items neqb fan rules init (S (length universe)).
  Proof.
    intros L. unfold conv_items, conv_calls. replace n with (S (length universe) + (n - S (length universe))) by lia.
    assert (NN : In None (fst (unique_calls (deque_agenda (@dnt N)) succs (dnt_eqb neqb) (S (length universe)) (unique_from (deque_agenda (@dnt N)) (bfs_init [(init, [])]))))).
    { apply (unique_ends (dnt_eqb neqb) (dnt_eqb_spec neqb E) (deque_agenda (@dnt N)) _ (lossless_sound _ _ (deque_lossless (@dnt N)))). apply reachable_universe. }
    rewrite ucalls_app. apply until_none_app. exact NN.
  Qed.
  Lemma conv_items_none n m : In None (conv_calls neqb fan rules init n) -> conv_items neqb fan rules init (n + m) = conv_items neqb fan rules init n.
  Proof. intros H. unfold conv_items, conv_calls in *. rewrite ucalls_app. now apply until_none_app. Qed.
  Lemma until_none_in {X} (x : X) os : In x (until_none os) -> In (Some x) os.
  Proof. induction os as [|[y|] os IH]; cbn; [tauto| |tauto]. intros [->|H]; [now left|right; auto]. Qed.
  Lemma conv_items_reachable n x : In x (conv_items neqb fan rules init n) -> reachable succs [(init, [])] x.
  Proof.
    intros H. apply until_none_in in H. apply (unique_reachable (deque_agenda (@dnt N)) _ (lossless_sound _ _ (deque_lossless (@dnt N))) succs (dnt_eqb neqb) [(init, [])] n
      (unique_from (deque_agenda _) (bfs_init [(init, [])]))); [|exact H]. cbn. intros y Hy. now constructor.
  Qed.
  Lemma conv_items_init n : In (init, []) (conv_items neqb fan rules init (S n)).
  Proof. unfold conv_items, conv_calls. cbn. destruct (unique_calls _ _ _ n _). cbn. now left. Qed.
End Finite.

Section Main.
  Context {N T : Type} {K : Weight} (neqb : N -> N -> bool) (E : EqbSpec neqb) (g : mcfg N T K) (f : N -> nat).
  Context (FO : fanouts_ok (mg_rules g) f) (VX : forall r, In r (mg_rules g) -> vars_exist f r).

  Lemma fanouts_read : exists fan, read_fanouts neqb (mg_rules g) = Some fan /\ (forall r, In r (mg_rules g) -> fan_get neqb (pr_head r) fan = Some (length (pr_comp r))) /\
    forall A x, fan_get neqb A fan = Some x -> x = f A.
  Proof.
    pose proof (read_fanouts_from_spec neqb E (mg_rules g) []) as R. fold (read_fanouts neqb (mg_rules g)) in R. destruct (read_fanouts neqb (mg_rules g)) as [fan|].
    - exists fan. destruct R as (R1 & _ & R3). split; [reflexivity|]. split; [assumption|]. intros A x Hx. destruct (R3 A x Hx) as [H|(r & Hr & <- & <-)]; [discriminate|]. now apply FO.
    - exfalso. apply (R f); [cbn; discriminate|assumption].
  Qed.
  Lemma vars_fo fan : (forall A x, fan_get neqb A fan = Some x -> x = f A) ->
    forall r, In r (mg_rules g) -> (forall B, In B (pr_tail r) -> fan_get neqb B fan <> None) -> vars_exist (fo neqb fan) r.
  Proof.
    intros HF r Hr D i j Hij. destruct (VX r Hr i j Hij) as (B & HB & Hj). exists B. split; [assumption|]. unfold fo. specialize (D B (nth_error_In _ _ HB)).
    destruct (fan_get neqb B fan) as [x|] eqn:Ex; [|contradiction]. now rewrite (HF B x Ex).
  Qed.
  Lemma conv_inv n g' : lcfrs_from_mcfg neqb n g = Some g' -> exists fan rs,
    read_fanouts neqb (mg_rules g) = Some fan /\ (forall A x, fan_get neqb A fan = Some x -> x = f A) /\
    (forall x, In x (conv_items neqb fan (mg_rules g) (mg_initial g) n) -> conv_succs neqb fan (mg_rules g) x <> None) /\
    opt_all (fun x => opt_all (fun r => to_lcfrs_rule neqb r (snd x) fan) (rules_of neqb (mg_rules g) (fst x))) (conv_items neqb fan (mg_rules g) (mg_initial g) n) = Some rs /\
    g' = MCFG (concat rs) (mg_initial g, []).
  Proof.
    unfold lcfrs_from_mcfg. destruct fanouts_read as (fan & HF & FR & FF). rewrite HF. intros H.
    destruct (opt_all (conv_succs neqb fan (mg_rules g)) _) eqn:HS; [|discriminate].
    match type of H with match ?o with Some _ => _ | None => _ end = _ => destruct o as [rs|] eqn:HR; [|discriminate] end. injection H as <-.
    exists fan, rs. split; [reflexivity || exact HF|]. split; [assumption|]. split; [|split; [exact HR|reflexivity]].
    intros x Hx. apply opt_all_Some in HS. destruct (F2_in_l _ _ _ HS x Hx) as (y & _ & Hy). congruence.
  Qed.
  Lemma conv_main_sound n g' w k : lcfrs_from_mcfg neqb n g = Some g' -> mcfg_derives g' w k -> mcfg_derives g w k.
  Proof.
    intros H. destruct (conv_inv n g' H) as (fan & rs & HF & FF & _ & HR & ->). intros (d' & HD & Y & <-). cbn [mg_rules mg_initial] in *.
    destruct (conv_sound neqb E (mg_rules g) fan HF (vars_fo fan FF) _ rs HR d' _ HD) as (d & H1 & H2 & y & Y1 & _ & Y2). cbn [fst snd] in *.
    exists d. split; [assumption|]. unfold kept in Y2. rewrite kept_nil in Y2. split; [congruence|]. unfold d_weight. unfold weights in H2. congruence.
  Qed.
  Lemma conv_main_complete n g' : lcfrs_from_mcfg neqb n g = Some g' ->
    (forall fan x, read_fanouts neqb (mg_rules g) = Some fan ->
       reachable (fun x => match conv_succs neqb fan (mg_rules g) x with Some l => l | None => [] end) [(mg_initial g, [])] x ->
       In x (conv_items neqb fan (mg_rules g) (mg_initial g) n)) ->
    forall w k, mcfg_derives g w k -> mcfg_derives g' w k.
  Proof.
    intros H CV w k. destruct (conv_inv n g' H) as (fan & rs & HF & FF & DF & HR & ->). intros (d & HD & Y & <-). cbn [mg_rules mg_initial] in *. specialize (CV fan).
    assert (CL : forall x l y, In x (conv_items neqb fan (mg_rules g) (mg_initial g) n) -> conv_succs neqb fan (mg_rules g) x = Some l -> In y l -> In y (conv_items neqb fan (mg_rules g) (mg_initial g) n)).
    { intros x l y Hx Hl Hy. apply CV; [assumption|]. apply conv_items_reachable in Hx. eapply reach_step; [exact Hx|]. cbv beta. now rewrite Hl. }
    destruct (conv_complete neqb E (mg_rules g) fan HF (vars_fo fan FF) _ rs HR CL DF d (mg_initial g, [])) as (d' & H1 & H2 & y & Y1 & _ & Y2);
      [apply CV; [assumption|constructor; now left]|exact HD|]. cbn [fst snd] in *.
    exists d'. split; [assumption|]. unfold kept in Y2. rewrite kept_nil in Y2. split; [congruence|]. unfold d_weight. unfold weights in H2. cbn [mg_rules]. congruence.
  Qed.
  Lemma conv_main_lcfrs n g' : (forall r, In r (mg_rules g) -> linear r) -> f (mg_initial g) = 1 -> (exists r, In r (mg_rules g) /\ pr_head r = mg_initial g) ->
    lcfrs_from_mcfg neqb (S n) g = Some g' -> is_lcfrs (mg_rules g') (mg_initial g').
  Proof.
    intros LI F1 (r0 & Hr0 & E0) H. destruct (conv_inv (S n) g' H) as (fan & rs & HF & FF & _ & HR & ->). cbn [mg_rules mg_initial].
    assert (C : forall r', In r' (concat rs) -> length (pr_comp r') = fo' neqb fan (pr_head r') /\ lcfrs_rule (fo' neqb fan) r').
    { intros r' Hr'. apply (in_converted neqb E (mg_rules g) fan _ rs HR) in Hr'. destruct Hr' as (x & r & Hx & Hr & Eh & HC). eapply converted_lcfrs; eauto. apply vars_fo, FF. }
    exists (fo' neqb fan). split; [intros r' Hr'; now apply C|]. split; [|split; [|intros r' Hr'; now apply C]].
    - unfold fo', kept. cbn [fst snd]. rewrite kept_nil, seq_length. unfold fo. destruct fanouts_read as (fan' & HF' & FR & _). assert (fan' = fan) by congruence. subst fan'.
      rewrite <- E0, (FR r0 Hr0), FO, E0 by assumption. exact F1.
    - pose proof (proj1 (opt_all_Some _ _ _) HR) as F. destruct (F2_in_l _ _ _ F (mg_initial g, []) (conv_items_init neqb (mg_rules g) fan (mg_initial g) n)) as (l & Hl & Ex). cbn [fst snd] in Ex. apply opt_all_Some in Ex.
      assert (Hr1 : In r0 (rules_of neqb (mg_rules g) (mg_initial g))) by (apply in_rules_of; auto). destruct (F2_in_l _ _ _ Ex r0 Hr1) as (r' & Hr' & HC).
      exists r'. split; [apply in_concat; eauto|]. destruct (to_rule_spec neqb fan r0 [] r' HC) as (ds & c & _ & -> & _). cbn. congruence.
  Qed.
  Lemma conv_main_defined n : defined_tails (mg_rules g) -> lcfrs_from_mcfg neqb n g <> None.
  Proof.
    intros DT. unfold lcfrs_from_mcfg. destruct fanouts_read as (fan & -> & FR & FF).
    assert (TF : forall r, In r (mg_rules g) -> exists fs, opt_all (fun n => fan_get neqb n fan) (pr_tail r) = Some fs).
    { intros r Hr. apply opt_all_total. intros B HB. destruct (DT r B Hr HB) as (r' & Hr' & <-). rewrite FR by assumption. discriminate. }
    assert (VI : forall r del fs, In r (mg_rules g) -> opt_all (fun n => fan_get neqb n fan) (pr_tail r) = Some fs -> forall i j, In (i, j) (variables (kept del (pr_comp r))) -> i < length fs).
    { intros r del fs Hr O i j Hij. rewrite (opt_all_len _ _ _ O). apply in_variables in Hij. destruct Hij as (c & Hc & Hx). destruct (VX r Hr i j) as (B & HB & _); [apply in_variables; exists c; split; [eapply kept_in; eauto|assumption]|].
      apply nth_error_Some. congruence. }
    destruct (opt_all_total (conv_succs neqb fan (mg_rules g)) (conv_items neqb fan (mg_rules g) (mg_initial g) n)) as [ss ->].
    { intros x _. unfold conv_succs. destruct (opt_all_total (conv_succs1 neqb fan (snd x)) (rules_of neqb (mg_rules g) (fst x))) as [l ->]; [|discriminate].
      intros r Hr. apply in_rules_of in Hr; [|assumption]. destruct Hr as [Hr _]. unfold conv_succs1. destruct (TF r Hr) as [fs O]. rewrite O.
      destruct (composition_deletes_ok (kept (snd x) (pr_comp r)) fs) as [ds ->]; [eapply VI; eauto|discriminate]. }
    match goal with |- context [opt_all ?F ?L] => destruct (opt_all_total F L) as [rs ->]; [|discriminate] end.
    intros x _. match goal with |- opt_all ?F ?L <> None => destruct (opt_all_total F L) as [rs ->]; [|discriminate] end.
    intros r Hr. apply in_rules_of in Hr; [|assumption]. destruct Hr as [Hr _]. unfold to_lcfrs_rule. destruct (TF r Hr) as [fs O]. rewrite O.
    destruct (composition_deletes_ok (kept (snd x) (pr_comp r)) fs) as [ds D]; [eapply VI; eauto|]. rewrite D. apply composition_deletes_spec in D. destruct D as (D1 & D2 & _).
    match goal with |- context [opt_all ?F ?L] => destruct (opt_all_total F L) as [rs ->]; [|discriminate] end.
    intros c Hc. match goal with |- opt_all ?F ?L <> None => destruct (opt_all_total F L) as [rs ->]; [|discriminate] end.
    intros [i j|t] Hx; [|discriminate]. cbn. destruct (nth_error ds i) eqn:Ed; [discriminate|]. apply nth_error_None in Ed. rewrite D1 in Ed.
    assert (i < length fs) by (apply (D2 i j); apply in_variables; eauto). lia.
  Qed.
  Lemma conv_main_terminates : exists n0, forall n, n0 <= n -> lcfrs_from_mcfg neqb n g = lcfrs_from_mcfg neqb n0 g.
  Proof.
    destruct fanouts_read as (fan & HF & _). exists (S (length (universe neqb (mg_rules g) fan (mg_initial g)))). intros n L. unfold lcfrs_from_mcfg. rewrite HF.
    cbv zeta. now rewrite (conv_items_stable neqb E (mg_rules g) fan (mg_initial g) n L).
  Qed.
End Main.
