(* Words of the CFG made of a PMCFG whose rules may copy or delete. *)
From Verif Require Import Base BMap M_Util M_Recog M_Automata M_CFG M_TreeStack M_Grammar S_Recog S_CFG S_Grammar P_Automata P_TreeStack P_Grammar P_GrammarCFG.

Lemma choose_all {X Y} (P : nat -> X -> Y -> Prop) l : forall k, (forall i x, nth_error l i = Some x -> exists y, P (k + i) x y) ->
  exists ys, length ys = length l /\ forall i x y, nth_error l i = Some x -> nth_error ys i = Some y -> P (k + i) x y.
Proof.
  induction l as [|x l IH]; intros k H; [exists []; split; [reflexivity|intros [|i] ? ? H1; discriminate]|].
  destruct (H 0 x eq_refl) as [y Hy]. destruct (IH (S k)) as (ys & L & G).
  { intros i x' Hx. destruct (H (S i) x' Hx) as [y' Hy']. exists y'. now replace (S k + i) with (k + S i) by lia. }
  exists (y :: ys). split; [cbn; congruence|]. intros [|i] x' y' H1 H2; cbn in H1, H2.
  - injection H1 as <-. injection H2 as <-. exact Hy.
  - replace (k + S i) with (S k + i) by lia. eapply G; eauto.
Qed.

Section Words.
  Context {N T : Type} {K : Weight}.
  Notation rule := (prule N T K).
  Context (rules : list rule) (rules' : list (cfg_rule N T K)) (HR : opt_all cfg_rule_from rules = Some rules').
  Notation R := (fun r => In r rules).
  Notation R' := (fun r => In r rules').

  Lemma letters_zero (tail : list N) (c : list (vart T)) ls : cfg_letters tail c = Some ls -> forall i j, In (i, j) (variables [c]) -> j = 0.
  Proof.
    intros L i j H. destruct (Nat.eq_dec j 0) as [|Hj]; [assumption|]. exfalso.
    assert (G : exists i j, In (i, j) (variables [c]) /\ (j <> 0 \/ length tail <= i)) by (exists i, j; auto). apply cfg_letters_None in G. congruence.
  Qed.

  Definition spelt (A : N) (d : dtree N T K) := exists w, yield d = Some [w] /\
    forall alpha ds v, leftmost R' alpha ds v -> exists ds', leftmost R' (Label A :: alpha) ds' (w ++ v).
  Lemma tree_spelt d : forall A, deriv R A d -> spelt A d.
  Proof.
    induction d as [r ts IH] using dtree_ind2. intros A HD. apply deriv_inv in HD. destruct HD as (-> & Hr & F2).
    destruct (rule_to rules rules' HR r Hr) as (c & ls & Ec & L & Hr'). pose proof (letters_zero _ _ _ L) as Z.
    assert (GF : Forall2 spelt (pr_tail r) ts).
    { clear -F2 IH. induction F2 as [|A d l1 l2 H _ IHF]; constructor; inversion IH; subst; auto. }
    assert (C : exists w, option_map (@concat T) (opt_all (sval ts) c) = Some w /\ forall alpha ds v, leftmost R' alpha ds v -> exists ds', leftmost R' (ls ++ alpha) ds' (w ++ v)).
    { clear Ec Hr'. unfold variables in *. cbn [concat] in *. rewrite app_nil_r in *. revert ls L. induction c as [|x c IHc]; intros ls L.
      - injection L as <-. exists []. split; [reflexivity|]. intros alpha ds v H. exists ds. assumption.
      - cbn [cfg_letters] in L. destruct x as [i [|j]|t]; [| exfalso; specialize (Z i (S j) (or_introl eq_refl)); discriminate |].
        + destruct (nth_error (pr_tail r) i) as [B|] eqn:Ei; [|discriminate]. cbn [option_map] in L.
          destruct (cfg_letters (pr_tail r) c) as [ls0|] eqn:L0; [|discriminate]. injection L as <-.
          pose proof (F2_nth _ _ _ GF i) as G. rewrite Ei in G. destruct (nth_error ts i) as [d|] eqn:Et; [|tauto].
          destruct G as (w & Y & G). destruct IHc with (ls := ls0) as (w0 & E0 & H0); [intros; eapply Z; right; eassumption|reflexivity|].
          exists (w ++ w0). split.
          * cbn [opt_all]. rewrite (sval_var ts i 0 d [w] Et Y). cbn [nth_error]. destruct (opt_all (sval ts) c); [|discriminate]. cbn in *. congruence.
          * intros alpha ds v H. destruct (H0 alpha ds v H) as (ds1 & H1). destruct (G _ _ _ H1) as (ds2 & H2). exists ds2. rewrite <- app_assoc. exact H2.
        + destruct (cfg_letters (pr_tail r) c) as [ls0|] eqn:L0; [|discriminate]. injection L as <-.
          destruct IHc with (ls := ls0) as (w0 & E0 & H0); [intros; eapply Z; eassumption|reflexivity|].
          exists (t :: w0). split.
          * cbn [opt_all sval]. destruct (opt_all (sval ts) c); [|discriminate]. cbn in *. congruence.
          * intros alpha ds v H. destruct (H0 alpha ds v H) as (ds1 & H1). exists ds1. cbn. now constructor. }
    destruct C as (w & Ew & C). exists w. split.
    - rewrite yield_eq, Ec. cbn [opt_all]. now rewrite Ew.
    - intros alpha ds v H. destruct (C alpha ds v H) as (ds1 & H1). exists (CFGRule (pr_head r) ls (pr_weight r) :: ds1).
      change (Label (pr_head r)) with (@Label N T (cr_head (CFGRule (pr_head r) ls (pr_weight r)))). now constructor.
  Qed.

  Context (NC : forall r, In r rules -> linear r) (PD : forall r B, In r rules -> In B (pr_tail r) -> exists d, deriv R B d).

  Lemma leftmost_spelt alpha ds v : leftmost R' alpha ds v -> exists fs, spell rules alpha fs v.
  Proof.
    induction 1 as [|x alpha ds w H (fs & S1)|r' alpha ds w Hr' H (fs & S1)].
    - exists []. constructor.
    - exists fs. now constructor.
    - apply spell_app in S1. destruct S1 as (f1 & f2 & v1 & v2 & -> & -> & S1 & S2).
      destruct (rule_of rules rules' HR r' Hr') as (r & c & ls & Hr & Ec & L & ->). cbn [cr_rhs cr_head cr_weight] in *.
      pose proof (letters_zero _ _ _ L) as Z.
      destruct (spell_letters rules (pr_tail r) c ls f1 v1 L S1 Z) as (H1 & H2 & H3).
      set (l := map fst (variables [c])) in *.
      assert (NL : NoDup l).
      { pose proof (NC r Hr) as LN. unfold linear in LN. rewrite Ec in LN. unfold l. clear -LN Z. induction LN as [|[i j] l H1 H2 IH]; cbn; constructor.
        - intros Hin. apply in_map_iff in Hin. destruct Hin as ([i' j'] & Ei & Hin). cbn in Ei. subst i'. apply H1.
          rewrite (Z i j (or_introl eq_refl)), <- (Z i j' (or_intror Hin)). assumption.
        - apply IH. intros; eapply Z; right; eassumption. }
      assert (UN : forall i d d', In (i, d) (combine l f1) -> In (i, d') (combine l f1) -> d = d').
      { clear -NL. revert f1. induction l as [|k l IH]; intros [|d0 f1] i d d' A B; cbn in A, B; try contradiction. inversion NL as [|? ? NI NL']; subst. destruct A as [A|A], B as [B|B].
        - congruence.
        - injection A as -> ->. apply in_combine_l in B. contradiction.
        - injection B as -> ->. apply in_combine_l in A. contradiction.
        - eapply IH; eauto. }
      assert (LL : length f1 = length l) by (unfold l; rewrite map_length; exact H1).
      destruct (choose_all (fun i B d => deriv R B d /\ forall d', In (i, d') (combine l f1) -> d' = d) (pr_tail r) 0) as (ts & Lt & TS).
      { intros i B HB. cbn. destruct (in_dec Nat.eq_dec i l) as [Hi|Hi].
        - assert (G : exists d, In (i, d) (combine l f1)).
          { clear -Hi LL. revert f1 LL. induction l as [|k l IH]; intros [|d f1] LL; try discriminate; [contradiction|]. destruct Hi as [->|Hi]; [exists d; now left|].
            destruct (IH Hi f1) as [d' Hd]; [now injection LL|]. exists d'. now right. }
          destruct G as [d Hd]. exists d. split; [|intros d' Hd'; eapply UN; eauto]. destruct (H2 i d Hd) as (B' & HB' & D). congruence.
        - destruct (PD r B Hr (nth_error_In _ _ HB)) as [d Hd]. exists d. split; [assumption|]. intros d' Hd'. apply in_combine_l in Hd'. contradiction. }
      cbn [Nat.add] in TS. exists (DNode r ts :: f2). constructor; [| |assumption].
      + constructor; [assumption|]. assert (G : forall i B d, nth_error (pr_tail r) i = Some B -> nth_error ts i = Some d -> deriv R B d) by (intros i B d A1 A2; now apply (TS i B d)).
        clear -Lt G. revert ts Lt G. generalize (pr_tail r) as tl. induction tl as [|B tl IH]; intros [|d ts] Lt G; try discriminate; constructor.
        * now apply (G 0).
        * apply IH; [cbn in Lt; lia|]. intros i B' d' Hb Hd. apply (G (S i)); assumption.
      + rewrite yield_eq, Ec. cbn [opt_all]. rewrite (H3 ts); [reflexivity|]. intros i d Hd. destruct (H2 i d Hd) as (B & HB & _).
        destruct (nth_error ts i) as [d'|] eqn:Ed; [|apply nth_error_None in Ed; assert (i < length (pr_tail r)) by (apply nth_error_Some; congruence); lia].
        f_equal. symmetry. now apply (TS i B d').
  Qed.
End Words.
