(* Proofs: CFG from PMCFG. *)
From Verif Require Import Base BMap M_Util M_Recog M_Automata M_CFG M_TreeStack M_Grammar S_Recog S_CFG S_Grammar P_Automata P_TreeStack P_Grammar.

Lemma wprod_app {K : Weight} (KL : WeightLaws K) (a b : list K) : wprod (a ++ b) = wmul (wprod a) (wprod b).
Proof.
  induction a as [|x a IH]; cbn; [symmetry; apply (wl_one_l _ KL)|]. unfold wprod in *. rewrite IH. apply (wl_assoc _ KL).
Qed.
Lemma wprod_perm {K : Weight} (KL : WeightLaws K) (a b : list K) : Permutation a b -> wprod a = wprod b.
Proof.
  induction 1; cbn; auto; unfold wprod in *; [congruence| |congruence].
  rewrite !(wl_assoc _ KL). f_equal. apply (wl_comm _ KL).
Qed.

Definition sval {N T W} (ts : list (dtree N T W)) (x : vart T) : option (list T) :=
  match x with
  | Tm t => Some [t]
  | Var i j => match nth_error (map yield ts) i with Some (Some y) => nth_error y j | _ => None end
  end.
Lemma yield_eq {N T W} (r : prule N T W) ts :
  yield (DNode r ts) = opt_all (fun c => option_map (@concat T) (opt_all (sval ts) c)) (pr_comp r).
Proof. reflexivity. Qed.
Lemma sval_var {N T W} (ts : list (dtree N T W)) i j d y : nth_error ts i = Some d -> yield d = Some y -> sval ts (Var i j) = nth_error y j.
Proof. intros H1 H2. cbn [sval]. rewrite nth_error_map, H1. cbn [option_map]. now rewrite H2. Qed.
Lemma d_weight_node {N T} {K : Weight} (KL : WeightLaws K) (r : prule N T K) ts :
  d_weight (DNode r ts) = wmul (pr_weight r) (wprod (map d_weight ts)).
Proof.
  unfold d_weight at 1. cbn [d_rules map wprod fold_right]. f_equal. change (wprod (map pr_weight (flat_map d_rules ts)) = wprod (map d_weight ts)).
  induction ts as [|t ts IH]; cbn [flat_map map]; [reflexivity|]. rewrite map_app, wprod_app by assumption. cbn [wprod fold_right]. f_equal. exact IH.
Qed.
Lemma deriv_inv {N T W} (R : prule N T W -> Prop) A r ts : deriv R A (DNode r ts) -> A = pr_head r /\ R r /\ Forall2 (deriv R) (pr_tail r) ts.
Proof. intros H. inversion H; subst. auto. Qed.

Lemma F2_in_l {X Y} (P : X -> Y -> Prop) l1 l2 : Forall2 P l1 l2 -> forall x, In x l1 -> exists y, In y l2 /\ P x y.
Proof. induction 1 as [|x y l1 l2 H _ IH]; intros z []; [subst; exists y; cbn; auto|]. destruct (IH z H0) as (y' & ? & ?). exists y'. cbn. auto. Qed.
Lemma F2_in_r {X Y} (P : X -> Y -> Prop) l1 l2 : Forall2 P l1 l2 -> forall y, In y l2 -> exists x, In x l1 /\ P x y.
Proof. induction 1 as [|x y l1 l2 H _ IH]; intros z []; [subst; exists x; cbn; auto|]. destruct (IH z H0) as (y' & ? & ?). exists y'. cbn. auto. Qed.

Section CFG.
  Context {N T : Type} {K : Weight} (KL : WeightLaws K).
  Notation rule := (prule N T K).

  Lemma cfg_letters_None (tail : list N) (c : list (vart T)) :
    cfg_letters tail c = None <-> exists i j, In (i, j) (variables [c]) /\ (j <> 0 \/ length tail <= i).
  Proof.
    unfold variables. cbn [concat]. rewrite app_nil_r. induction c as [|x c IH]; cbn [cfg_letters flat_map].
    - split; [discriminate|]. intros (i & j & [] & _).
    - destruct x as [i [|j]|t]; cbn [as_var app].
      + destruct (nth_error tail i) as [B|] eqn:Ei; cbn [option_map].
        * assert (i < length tail) by (apply nth_error_Some; congruence).
          destruct (cfg_letters tail c); [split; [discriminate|]|split; [|reflexivity]].
          -- intros (i' & j' & [H1|H1] & H2); [injection H1 as <- <-; lia|]. assert (G : exists i j, In (i, j) (flat_map as_var c) /\ (j <> 0 \/ length tail <= i)) by eauto. apply IH in G. discriminate.
          -- intros _. destruct IH as [IH _]. destruct (IH eq_refl) as (i' & j' & ? & ?). exists i', j'. cbn. auto.
        * apply nth_error_None in Ei. split; [|reflexivity]. intros _. exists i, 0. cbn. auto.
      + split; [|reflexivity]. intros _. exists i, (S j). cbn. auto.
      + destruct (cfg_letters tail c); [split; [discriminate|]|split; [|reflexivity]].
        * intros (i' & j' & H1 & H2). assert (G : exists i j, In (i, j) (flat_map as_var c) /\ (j <> 0 \/ length tail <= i)) by eauto. apply IH in G. discriminate.
        * intros _. apply IH. reflexivity.
  Qed.
  Lemma cfg_rule_from_None (r : rule) : cfg_rule_from r = None <->
    ~ exists c, pr_comp r = [c] /\ forall i j, In (i, j) (variables [c]) -> i < length (pr_tail r) /\ j = 0.
  Proof.
    unfold cfg_rule_from. destruct (pr_comp r) as [|c [|c' cs]].
    - split; [|reflexivity]. intros _ (c & H & _). discriminate.
    - destruct (cfg_letters (pr_tail r) c) as [ls|] eqn:L; cbn [option_map].
      + split; [discriminate|]. intros H. exfalso. apply H. exists c. split; [reflexivity|]. intros i j Hij.
        destruct (Nat.lt_ge_cases i (length (pr_tail r))) as [Hi|Hi], (Nat.eq_dec j 0) as [Hj|Hj]; auto; exfalso;
        assert (G : exists i j, In (i, j) (variables [c]) /\ (j <> 0 \/ length (pr_tail r) <= i)) by (exists i, j; split; [assumption|auto]); apply cfg_letters_None in G; congruence.
      + apply cfg_letters_None in L. destruct L as (i & j & Hij & H). split; [|reflexivity]. intros _ (c' & Ec & G). injection Ec as <-. destruct (G i j Hij). lia.
    - split; [|reflexivity]. intros _ (c0 & H & _). discriminate.
  Qed.

  Context (rules : list rule) (rules' : list (cfg_rule N T K)) (HR : opt_all cfg_rule_from rules = Some rules') (CF : forall r, In r rules -> cf_rule r).
  Notation R := (fun r => In r rules).
  Notation R' := (fun r => In r rules').

  Lemma rule_to r : In r rules -> exists c ls, pr_comp r = [c] /\ cfg_letters (pr_tail r) c = Some ls /\ In (CFGRule (pr_head r) ls (pr_weight r)) rules'.
  Proof.
    intros Hr. assert (G : exists r', In r' rules' /\ cfg_rule_from r = Some r') by (apply (F2_in_l _ _ _ (proj1 (opt_all_Some _ _ _) HR) r Hr)).
    destruct G as (r' & Hr' & G). unfold cfg_rule_from in G. destruct (pr_comp r) as [|c [|]]; try discriminate.
    destruct (cfg_letters (pr_tail r) c) as [ls|] eqn:L; [|discriminate]. injection G as <-. eauto.
  Qed.
  Lemma rule_of r' : In r' rules' -> exists r c ls, In r rules /\ pr_comp r = [c] /\ cfg_letters (pr_tail r) c = Some ls /\ r' = CFGRule (pr_head r) ls (pr_weight r).
  Proof.
    intros Hr. assert (G : exists r, In r rules /\ cfg_rule_from r = Some r') by (apply (F2_in_r _ _ _ (proj1 (opt_all_Some _ _ _) HR) r' Hr)).
    destruct G as (r & Hr' & G). unfold cfg_rule_from in G. destruct (pr_comp r) as [|c [|]] eqn:Ec; try discriminate.
    destruct (cfg_letters (pr_tail r) c) as [ls|] eqn:L; [|discriminate]. injection G as <-. exists r, c, ls. auto.
  Qed.

  Lemma cf_vars (r : rule) c : cf_rule r -> pr_comp r = [c] -> Permutation (map fst (variables [c])) (seq 0 (length (pr_tail r))) /\ forall i j, In (i, j) (variables [c]) -> j = 0.
  Proof.
    intros (c' & Ec & ND & V) Ec'. assert (c' = c) by congruence. subst c'. split; [|intros i j H; now apply V in H]. apply NoDup_Permutation.
    - assert (Z : forall x, In x (variables [c]) -> snd x = 0) by (intros [i j] H; now apply V in H).
      clear V Ec Ec'. induction ND as [|[i j] l H1 H2 IH]; cbn; constructor.
      + intros Hin. apply in_map_iff in Hin. destruct Hin as ([i' j'] & Ei & Hin). cbn in Ei. subst i'. apply H1.
        pose proof (Z (i, j') (or_intror Hin)) as Z1. pose proof (Z (i, j) (or_introl eq_refl)) as Z2. cbn in Z1, Z2. subst. assumption.
      + apply IH. intros; apply Z; now right.
    - apply seq_NoDup.
    - intros i. rewrite in_seq, in_map_iff. split.
      + intros ([i' j] & <- & H). apply V in H. cbn. lia.
      + intros H. exists (i, 0). split; [reflexivity|]. apply V. split; [lia|reflexivity].
  Qed.

  (* from trees to leftmost derivations *)
  Definition good (A : N) (d : dtree N T K) := exists w, yield d = Some [w] /\
    forall alpha ds v, leftmost R' alpha ds v -> exists ds', leftmost R' (Label A :: alpha) ds' (w ++ v) /\
      wprod (map cr_weight ds') = wmul (d_weight d) (wprod (map cr_weight ds)).
  Lemma tree_to_leftmost d : forall A, deriv R A d -> good A d.
  Proof.
    induction d as [r ts IH] using dtree_ind2. intros A HD. apply deriv_inv in HD. destruct HD as (-> & Hr & F2).
    destruct (rule_to r Hr) as (c & ls & Ec & L & Hr').
    destruct (cf_vars r c (CF r Hr) Ec) as [PV Z].
    assert (GF : Forall2 good (pr_tail r) ts).
    { clear -F2 IH. induction F2 as [|A d l1 l2 H _ IHF]; constructor; inversion IH; subst; auto. }
    assert (C : exists w, option_map (@concat T) (opt_all (sval ts) c) = Some w /\ forall alpha ds v, leftmost R' alpha ds v -> exists ds',
       leftmost R' (ls ++ alpha) ds' (w ++ v) /\
       wprod (map cr_weight ds') = wmul (wprod (map (fun ij => match nth_error ts (fst ij) with Some d => d_weight d | None => wone end) (variables [c]))) (wprod (map cr_weight ds))).
    { clear PV Ec Hr'. unfold variables in *. cbn [concat] in *. rewrite app_nil_r in *. revert ls L. induction c as [|x c IHc]; intros ls L.
      - injection L as <-. exists []. split; [reflexivity|]. intros alpha ds v H. exists ds. cbn. split; [assumption|]. symmetry. apply (wl_one_l _ KL).
      - cbn [cfg_letters] in L. destruct x as [i [|j]|t]; [| exfalso; specialize (Z i (S j) (or_introl eq_refl)); discriminate |].
        + destruct (nth_error (pr_tail r) i) as [B|] eqn:Ei; [|discriminate]. cbn [option_map] in L.
          destruct (cfg_letters (pr_tail r) c) as [ls0|] eqn:L0; [|discriminate]. injection L as <-.
          pose proof (F2_nth _ _ _ GF i) as G. rewrite Ei in G. destruct (nth_error ts i) as [d|] eqn:Et; [|tauto].
          destruct G as (w & Y & G). destruct IHc with (ls := ls0) as (w0 & E0 & H0); [intros; eapply Z; right; eassumption|reflexivity|].
          exists (w ++ w0). split.
          * cbn [opt_all]. rewrite (sval_var ts i 0 d [w] Et Y). cbn [nth_error]. destruct (opt_all (sval ts) c); [|discriminate]. cbn in *. congruence.
          * intros alpha ds v H. destruct (H0 alpha ds v H) as (ds1 & H1 & W1). destruct (G _ _ _ H1) as (ds2 & H2 & W2).
            exists ds2. rewrite <- app_assoc. split; [exact H2|]. rewrite W2, W1. cbn [flat_map as_var app map fst]. rewrite Et. cbn [wprod fold_right]. apply (wl_assoc _ KL).
        + destruct (cfg_letters (pr_tail r) c) as [ls0|] eqn:L0; [|discriminate]. injection L as <-.
          destruct IHc with (ls := ls0) as (w0 & E0 & H0); [intros; eapply Z; eassumption|reflexivity|].
          exists (t :: w0). split.
          * cbn [opt_all sval]. destruct (opt_all (sval ts) c); [|discriminate]. cbn in *. congruence.
          * intros alpha ds v H. destruct (H0 alpha ds v H) as (ds1 & H1 & W1). exists ds1. split; [cbn; now constructor|exact W1]. }
    destruct C as (w & Ew & C). exists w. split.
    - rewrite yield_eq, Ec. cbn [opt_all]. now rewrite Ew.
    - intros alpha ds v H. destruct (C alpha ds v H) as (ds1 & H1 & W1). exists (CFGRule (pr_head r) ls (pr_weight r) :: ds1). split.
      + change (Label (pr_head r)) with (@Label N T (cr_head (CFGRule (pr_head r) ls (pr_weight r)))). now constructor.
      + cbn [map wprod fold_right cr_weight]. fold (wprod (map cr_weight ds1)). rewrite W1, d_weight_node, (wl_assoc _ KL) by assumption. f_equal. f_equal.
        apply (wprod_perm KL). rewrite <- (map_map fst (fun i => match nth_error ts i with Some d => d_weight d | None => wone end)). rewrite PV.
        apply F2_length in F2. rewrite F2. clear. induction ts as [|t ts IH]; [reflexivity|]. cbn [length seq map nth_error].
        rewrite <- seq_shift, map_map. cbn [nth_error]. constructor. exact IH.
  Qed.

  (* from leftmost derivations to trees *)
  Inductive spell : list (lettert N T) -> list (dtree N T K) -> list T -> Prop :=
  | sp_nil : spell [] [] []
  | sp_value x alpha fs v : spell alpha fs v -> spell (Value x :: alpha) fs (x :: v)
  | sp_label A d w alpha fs v : deriv R A d -> yield d = Some [w] -> spell alpha fs v -> spell (Label A :: alpha) (d :: fs) (w ++ v).
  Lemma spell_app a : forall b fs v, spell (a ++ b) fs v -> exists f1 f2 v1 v2, fs = f1 ++ f2 /\ v = v1 ++ v2 /\ spell a f1 v1 /\ spell b f2 v2.
  Proof.
    induction a as [|x a IH]; intros b fs v H; cbn in H.
    - exists [], fs, [], v. repeat split; auto. constructor.
    - inversion H; subst.
      + destruct (IH b fs v0) as (f1 & f2 & v1 & v2 & -> & -> & S1 & S2); [assumption|]. exists f1, f2, (x0 :: v1), v2. repeat split; auto. now constructor.
      + destruct (IH b fs0 v0) as (f1 & f2 & v1 & v2 & -> & -> & S1 & S2); [assumption|]. exists (d :: f1), f2, (w ++ v1), v2. repeat split; auto; [apply app_assoc|now constructor].
  Qed.

  Lemma spell_letters tail c : forall ls fs v, cfg_letters tail c = Some ls -> spell ls fs v -> (forall i j, In (i, j) (variables [c]) -> j = 0) ->
    length fs = length (variables [c]) /\
    (forall i d, In (i, d) (combine (map fst (variables [c])) fs) -> exists B, nth_error tail i = Some B /\ deriv R B d) /\
    (forall ts, (forall i d, In (i, d) (combine (map fst (variables [c])) fs) -> nth_error ts i = Some d) -> option_map (@concat T) (opt_all (sval ts) c) = Some v).
  Proof.
    unfold variables. cbn [concat]. rewrite app_nil_r. induction c as [|x c IH]; intros ls fs v L SP Z; cbn [cfg_letters] in L.
    - injection L as <-. inversion SP; subst. cbn. split; [reflexivity|]. split; [intros ? ? []|reflexivity].
    - destruct x as [i [|j]|t]; [| exfalso; specialize (Z i (S j) (or_introl eq_refl)); discriminate |].
      + destruct (nth_error tail i) as [B|] eqn:Ei; [|discriminate]. cbn [option_map] in L.
        destruct (cfg_letters tail c) as [ls0|] eqn:L0; [|discriminate]. injection L as <-. inversion SP as [| |A d w a f0 v0 HD HY SP0]; subst.
        destruct (IH ls0 f0 v0 eq_refl SP0) as (H1 & H2 & H3); [intros; eapply Z; right; eassumption|].
        cbn [flat_map as_var app map fst combine length]. split; [congruence|]. split.
        * intros i' d' [H|H]; [injection H as <- <-; eauto|now apply H2].
        * intros ts Hts. cbn [opt_all]. rewrite (sval_var ts i 0 d [w] (Hts i d (or_introl eq_refl)) HY). cbn [nth_error].
          specialize (H3 ts). destruct (opt_all (sval ts) c); cbn in *; [|discriminate H3; auto]. f_equal. f_equal. assert (G : Some (concat l) = Some v0) by (apply H3; auto). congruence.
      + destruct (cfg_letters tail c) as [ls0|] eqn:L0; [|discriminate]. injection L as <-. inversion SP as [|y a f0 v0 SP0|]; subst.
        destruct (IH ls0 fs v0 eq_refl SP0) as (H1 & H2 & H3); [intros; eapply Z; eassumption|].
        cbn [flat_map as_var app]. split; [assumption|]. split; [assumption|].
        intros ts Hts. cbn [opt_all sval]. specialize (H3 ts Hts). destruct (opt_all (sval ts) c); cbn in *; [|discriminate]. congruence.
  Qed.

  Lemma leftmost_to_tree alpha ds v : leftmost R' alpha ds v -> exists fs, spell alpha fs v /\ wprod (map cr_weight ds) = wprod (map d_weight fs).
  Proof.
    induction 1 as [|x alpha ds w H (fs & S1 & W1)|r' alpha ds w Hr' H (fs & S1 & W1)].
    - exists []. split; [constructor|reflexivity].
    - exists fs. split; [now constructor|assumption].
    - apply spell_app in S1. destruct S1 as (f1 & f2 & v1 & v2 & -> & -> & S1 & S2).
      destruct (rule_of r' Hr') as (r & c & ls & Hr & Ec & L & ->). cbn [cr_rhs cr_head cr_weight] in *.
      destruct (cf_vars r c (CF r Hr) Ec) as [PV Z].
      destruct (spell_letters (pr_tail r) c ls f1 v1 L S1 Z) as (H1 & H2 & H3).
      set (l := map fst (variables [c])) in *.
      assert (Ll : length f1 = length l) by (unfold l; rewrite map_length; exact H1).
      assert (CF1 : map fst (combine l f1) = l /\ map snd (combine l f1) = f1).
      { clear -Ll. revert f1 Ll. induction l as [|i l IH]; intros [|d f1] L; try discriminate; [auto|]. cbn in *. destruct (IH f1) as [-> ->]; [lia|]. auto. }
      destruct CF1 as [CF1 CF2]. rewrite <- CF1 in PV. symmetry in PV. apply Permutation_map_inv in PV. destruct PV as (q & Eq & Pq).
      set (ts := map snd q).
      assert (TS : forall i d, In (i, d) (combine l f1) <-> nth_error ts i = Some d).
      { assert (Q : forall i, match nth_error q i with Some (k, d) => k = i | None => True end).
        { intros i. pose proof (f_equal (fun l => nth_error l i) Eq) as G. cbn in G. rewrite nth_error_map in G. destruct (nth_error q i) as [[k d]|] eqn:Ei; [|exact I].
          cbn in G. assert (i < length (pr_tail r)). { apply (f_equal (@length nat)) in Eq. rewrite seq_length, map_length in Eq. rewrite Eq. apply nth_error_Some. congruence. }
          rewrite (nth_error_nth' _ 0) in G by (rewrite seq_length; assumption). rewrite seq_nth in G by assumption. cbn in G. congruence. }
        intros i d. split.
        - intros H0. apply (Permutation_in _ Pq) in H0. apply In_nth_error in H0. destruct H0 as [k Hk]. pose proof (Q k) as Qk. rewrite Hk in Qk. subst k.
          unfold ts. now rewrite nth_error_map, Hk.
        - unfold ts. rewrite nth_error_map. pose proof (Q i) as Qi. destruct (nth_error q i) as [[k d']|] eqn:Ei; [|discriminate]. subst k. intros E'. injection E' as <-.
          symmetry in Pq. apply (Permutation_in _ Pq). eapply nth_error_In; eauto. }
      assert (Lt : length ts = length (pr_tail r)) by (unfold ts; apply (f_equal (@length nat)) in Eq; rewrite seq_length, map_length in Eq; rewrite map_length; auto).
      assert (Pf : Permutation f1 ts) by (unfold ts; rewrite <- CF2; now apply Permutation_map).
      exists (DNode r ts :: f2). split.
      + constructor; [| |assumption].
        * constructor; [assumption|]. clear -TS Lt H2. clearbody ts. assert (G : forall i B d, nth_error (pr_tail r) i = Some B -> nth_error ts i = Some d -> deriv (fun r => In r rules) B d).
          { intros i B d HB Hd. apply TS, H2 in Hd. destruct Hd as (B' & HB' & Hd). congruence. }
          clear TS H2. revert ts Lt G. generalize (pr_tail r) as tl. induction tl as [|B tl IH]; intros [|d ts] Lt G; try discriminate; constructor.
          -- now apply (G 0).
          -- apply IH; [cbn in Lt; lia|]. intros i B' d' Hb Hd. apply (G (S i)); assumption.
        * rewrite yield_eq, Ec. cbn [opt_all]. rewrite (H3 ts); [reflexivity|]. intros i d Hd. now apply TS.
      + cbn [map]. cbn [wprod fold_right cr_weight]. fold (wprod (map cr_weight ds)). fold (wprod (map d_weight f2)). rewrite W1, map_app, wprod_app, d_weight_node by assumption.
        rewrite (wl_assoc _ KL). f_equal. f_equal. apply (wprod_perm KL). now apply Permutation_map.
  Qed.

  Lemma cfg_equiv A w k :
    (exists d, deriv R A d /\ yield d = Some [w] /\ d_weight d = k) <-> (exists ds, leftmost R' [Label A] ds w /\ wprod (map cr_weight ds) = k).
  Proof.
    split.
    - intros (d & HD & HY & <-). destruct (tree_to_leftmost d A HD) as (w' & HY' & G). assert (w' = w) by congruence. subst w'.
      destruct (G [] [] [] (lm_nil _)) as (ds & H1 & W1). rewrite app_nil_r in H1. exists ds. split; [assumption|]. rewrite W1. cbn. rewrite (wl_comm _ KL). apply (wl_one_l _ KL).
    - intros (ds & H & <-). apply leftmost_to_tree in H. destruct H as (fs & SP & W1). inversion SP as [| |A' d w' a f0 v0 HD HY SP0]; subst. inversion SP0; subst.
      rewrite app_nil_r. exists d. split; [assumption|]. split; [assumption|]. rewrite W1. cbn. rewrite (wl_comm _ KL). symmetry. apply (wl_one_l _ KL).
  Qed.
End CFG.
