(* The rule mask enables exactly the reachable and productive rules. *)
From Verif Require Import Base M_Util P_Util M_Automata P_Automata M_Grammar M_Chart P_Chart M_CSAuto S_Grammar S_CS P_Grammar P_GrammarCFG P_CSAuto P_FillChart P_Estimates M_RuleMask S_RuleMask.

Lemma all_p_spec (v : list bool) l : (forall x, In x l -> x < length v) -> exists b, all_p (nth_error v) l = Some b /\ (b = true <-> forall x, In x l -> nth_error v x = Some true).
Proof.
  induction l as [|x l IH]; cbn; intros HL; [exists true; split; [reflexivity|tauto]|].
  destruct (nth_error v x) as [b|] eqn:E; [|apply nth_error_None in E; specialize (HL x (or_introl eq_refl)); lia].
  destruct b.
  - destruct IH as (b & E1 & E2); [intros y Hy; apply HL; now right|]. exists b. split; [exact E1|]. rewrite E2. split; [intros A y [<-|Hy]; auto|auto].
  - exists false. split; [reflexivity|]. split; [discriminate|]. intros A. specialize (A x (or_introl eq_refl)). congruence.
Qed.
Lemma removals_In l : forall front x rest, In (x, rest) (removals front l) <-> exists l1 l2, l = l1 ++ x :: l2 /\ rest = front ++ l1 ++ l2.
Proof.
  induction l as [|y l IH]; intros front x rest; cbn.
  - split; [tauto|]. intros ([|z l1] & l2 & E & _); discriminate.
  - split.
    + intros [[= <- <-]|Hin]; [exists [], l; auto|]. apply IH in Hin. destruct Hin as (l1 & l2 & -> & ->). exists (y :: l1), l2. split; [reflexivity|]. now rewrite <- app_assoc.
    + intros ([|z l1] & l2 & E & ->); cbn in E; injection E as -> ->; [now left|]. right. apply IH. exists l1, l2. split; [reflexivity|]. now rewrite <- app_assoc.
Qed.
Lemma in_push_all x l st : In x (push_all l st) <-> In x l \/ In x st.
Proof. unfold push_all. rewrite in_app_iff, <- in_rev. tauto. Qed.

(* number of rules of the approximation for one rule of the grammar *)
Definition rule_len {N T W} (r : prule N T W) : nat := fold_right (fun c n => Nat.max (length c - 1) 1 + n) 0 (pr_comp r).
Lemma component_rids_spec {T} (cs : composition T) : (forall c, In c cs -> c <> []) -> forall rid,
  component_rids rid cs = Some (seq rid (fold_right (fun c n => Nat.max (length c - 1) 1 + n) 0 cs), rid + fold_right (fun c n => Nat.max (length c - 1) 1 + n) 0 cs).
Proof.
  induction cs as [|c cs IH]; intros HC rid; cbn [component_rids fold_right]; [now rewrite Nat.add_0_r|].
  destruct (length c) as [|l] eqn:L; [destruct c; [destruct (HC [] (or_introl eq_refl) eq_refl)|discriminate]|]. rewrite IH by (intros c' Hc; apply HC; now right). f_equal. f_equal; [|lia].
  replace (S l - 1) with l by lia. now rewrite <- seq_app.
Qed.

Section Len.
  Context {N T : Type} {K : ZWeight} (factorize : K -> nat -> list K) (FL : FactorLaws factorize).
  Lemma cs_rest_len rid (r : prule N T K) cid rest : forall off left, length (cs_rest rid r cid off left rest) = length rest.
  Proof. induction rest as [|x rest IH]; intros off left; cbn; [reflexivity|]. now rewrite IH. Qed.
  Lemma cs_component_len rid (r : prule N T K) cid c w : c <> [] -> length (cs_component rid r cid c w) = Nat.max (length c - 1) 1.
  Proof. destruct c as [|x [|y rest]]; intros HC; [contradiction| |]; [destruct x; reflexivity|]. cbn [cs_component]. destruct x; cbn [length]; rewrite cs_rest_len; lia. Qed.
  Lemma cs_rule_len rid (r : prule N T K) : rule_nf r -> length (cs_rule factorize rid r) = rule_len r.
  Proof.
    intros NF. assert (HC : forall c, In c (pr_comp r) -> c <> []). { intros c Hc. destruct NF as [(t & E)|A]; [rewrite E in Hc; destruct Hc as [<-|[]]; discriminate|now apply A]. }
    assert (G : forall cs cid ws, (forall c, In c cs -> c <> []) -> length ws = length cs -> length (cs_components rid r cid (combine cs ws)) = fold_right (fun c n => Nat.max (length c - 1) 1 + n) 0 cs).
    { induction cs as [|c cs IH]; intros cid ws HC' L; [reflexivity|]. destruct ws as [|w ws]; [discriminate|]. cbn [combine cs_components fold_right]. rewrite app_length, cs_component_len by (apply HC'; now left). f_equal. apply IH; [intros c' Hc'; apply HC'; now right|]. injection L as L. exact L. }
    unfold cs_rule, rule_len. apply G; [exact HC|]. apply (fl_len _ FL).
  Qed.
  Lemma cs_rules_from_len rules : (forall r : prule N T K, In r rules -> rule_nf r) -> forall rid, length (cs_rules_from factorize rid rules) = fold_right (fun r n => rule_len r + n) 0 rules.
  Proof. induction rules as [|r rules IH]; intros NF rid; cbn; [reflexivity|]. rewrite app_length, cs_rule_len, IH; auto; [intros r' Hr'; apply NF; now right|apply NF; now left]. Qed.
End Len.
Definition lens {N T W} (rules : list (prule N T W)) : nat := fold_right (fun r n => rule_len r + n) 0 rules.
Lemma lens_snoc {N T W} (rules : list (prule N T W)) r : lens (rules ++ [r]) = lens rules + rule_len r.
Proof. induction rules as [|x rules IH]; cbn; [lia|]. fold (lens (rules ++ [r])). rewrite IH. unfold lens. lia. Qed.
Lemma firstn_S {X} (l : list X) i x : nth_error l i = Some x -> firstn (S i) l = firstn i l ++ [x].
Proof. revert i. induction l as [|y l IH]; intros [|i] E; cbn in E; try discriminate; [injection E as ->; reflexivity|]. cbn [firstn app]. f_equal. now apply IH. Qed.

Section Mask.
  Context {N T W : Type} (neqb : N -> N -> bool) (teqb : T -> T -> bool) (NE : EqbSpec neqb) (TE : EqbSpec teqb).
  Context (distinct : list nat -> list nat) (DN : forall l, NoDup (distinct l)) (DI : forall l x, In x (distinct l) <-> In x l).
  Notation rule := (prule N T W).
  Notation "'cd'" := (enc neqb).
  Definition is_term (r : rule) : Prop := exists t, pr_comp r = [[Tm t]].
  Definition bottoms (L : list N) (r : rule) : list nat := match pr_comp r with [[Tm _]] => [] | _ => distinct (map (enc neqb L) (pr_tail r)) end.
  Definition terms_of (m : list (T * list nat)) (t : T) : list nat := match hm_get teqb t m with Some l => l | None => [] end.
  Definition within (L : list N) (r : rule) : Prop := In (pr_head r) L /\ forall B, In B (pr_tail r) -> ~ is_term r -> In B L.
  (* the tables list the given rules, names being coded by L *)
  Record minv (L : list N) (rs : list rule) (s : @rm_state N T) : Prop := {
    mi_ints : exists ext, L = rs_ints s ++ ext;
    mi_in : forall r, In r rs -> within (rs_ints s) r;
    mi_rid : rs_rid s = lens rs;
    mi_term : forall t q, In q (terms_of (rs_terminal s) t) <-> exists r, In r rs /\ pr_comp r = [[Tm t]] /\ q = enc neqb L (pr_head r);
    mi_inner : forall q rest top, In (rest, top) (nth q (rs_inner s) []) <-> exists r l1 l2, In r rs /\ bottoms L r = l1 ++ q :: l2 /\ rest = l1 ++ l2 /\ top = enc neqb L (pr_head r);
    mi_td : forall q rids bots, In (rids, bots) (nth q (rs_td s) []) <-> exists i r, nth_error rs i = Some r /\ q = enc neqb L (pr_head r) /\ rids = seq (lens (firstn i rs)) (rule_len r) /\ bots = bottoms L r }.
  Lemma fold_push (xs : list (nat * list nat)) (top : nat) : forall m : list (list (list nat * nat)), exists m', fold_p (fun inner x => vmm_push_to (fst x) (snd x, top) inner) xs m = Some m' /\
    forall q y, In y (nth q m' []) <-> In y (nth q m []) \/ exists rest, In (q, rest) xs /\ y = (rest, top).
  Proof.
    induction xs as [|[q0 rest0] xs IH]; intros m; cbn [fold_p].
    - exists m. split; [reflexivity|]. intros q y. split; [tauto|]. intros [A|(rest & [] & _)]. exact A.
    - cbn [fst snd]. destruct (push_total q0 (rest0, top) m) as (m1 & E1). rewrite E1. destruct (IH m1) as (m' & E & C). exists m'. split; [exact E|]. intros q y. rewrite C, (In_push _ _ _ _ _ _ E1). split.
      + intros [[A|[-> ->]]|(rest & A & ->)]; [now left|right; exists rest0; split; [now left|reflexivity]|right; exists rest; split; [now right|reflexivity]].
      + intros [A|(rest & [[= -> ->]|A] & ->)]; [tauto|tauto|]. right. eauto.
  Qed.
  Lemma rm_rule_total s (r : rule) : (forall c, In c (pr_comp r) -> c <> []) -> exists s' ext, rm_rule neqb teqb distinct s r = Some s' /\ rs_ints s' = rs_ints s ++ ext /\ within (rs_ints s') r /\
    forall L rs, (exists e, L = rs_ints s' ++ e) -> minv L rs s -> minv L (rs ++ [r]) s'.
  Proof.
    intros HC. unfold rm_rule. pose proof (int_enc neqb NE (rs_ints s) (pr_head r)) as HI. destruct (int_integerise neqb (rs_ints s) (pr_head r)) as [ints nid] eqn:EI. destruct HI as ((e1 & ->) & In1 & ->).
    assert (TT : forall P : Prop, (forall t, pr_comp r = [[Tm t]] -> P) -> (~ is_term r -> P) -> P).
    { intros P P1 P2. destruct (pr_comp r) as [|[|[i j|t] [|]] [|]] eqn:E; try (apply P2; intros (t' & E'); rewrite E in E'; discriminate). now apply (P1 t). }
    apply TT; clear TT.
    - intros t EC. rewrite EC. destruct (push_total (enc neqb (rs_ints s ++ e1) (pr_head r)) ([rs_rid s], []) (rs_td s)) as (td & ET). rewrite ET. eexists. exists e1. split; [reflexivity|]. split; [reflexivity|].
      assert (WI : within (rs_ints s ++ e1) r) by (split; [exact In1|]; intros B HB HT; destruct HT; exists t; exact EC). split; [exact WI|]. intros L rs (e & EL) I. destruct I as [I1 I2 I3 I4 I5 I6]. cbn [rs_ints rs_rid rs_terminal rs_inner rs_td] in *.
      assert (CE : enc neqb (rs_ints s ++ e1) (pr_head r) = enc neqb L (pr_head r)) by (rewrite EL; symmetry; now apply enc_app).
      assert (BT : bottoms L r = []) by (unfold bottoms; now rewrite EC).
      split; cbn [rs_ints rs_rid rs_terminal rs_inner rs_td].
      + eauto.
      + intros r' Hr'. apply in_app_iff in Hr'. destruct Hr' as [Hr'|[<-|[]]]; [|exact WI]. destruct (I2 r' Hr') as [A1 A2]. split; [apply in_or_app; now left|]. intros B HB HT. apply in_or_app. left. auto.
      + rewrite I3, lens_snoc. f_equal. unfold rule_len. now rewrite EC.
      + intros t' q. unfold terms_of. rewrite (hm_get_push teqb TE). destruct (teqb t' t) eqn:Et.
        * apply TE in Et. subst t'. specialize (I4 t q). unfold terms_of in I4. split.
          -- intros Hin. assert (X : In q (match hm_get teqb t (rs_terminal s) with Some l => l | None => [] end) \/ q = enc neqb (rs_ints s ++ e1) (pr_head r)).
             { destruct (hm_get teqb t (rs_terminal s)) as [l|]; [apply in_app_iff in Hin; destruct Hin as [Hin|[<-|[]]]; tauto|destruct Hin as [<-|[]]; tauto]. }
             destruct X as [X| ->]; [apply I4 in X; destruct X as (r' & X1 & X2); exists r'; split; [apply in_or_app; now left|exact X2]|]. exists r. split; [apply in_or_app; right; now left|]. auto.
          -- intros (r' & Hr' & E1 & ->). apply in_app_iff in Hr'. destruct Hr' as [Hr'|[<-|[]]].
             ++ assert (X : In (enc neqb L (pr_head r')) (match hm_get teqb t (rs_terminal s) with Some l => l | None => [] end)) by (apply I4; eauto). destruct (hm_get teqb t (rs_terminal s)) as [l|]; [apply in_or_app; now left|destruct X].
             ++ rewrite <- CE. destruct (hm_get teqb t (rs_terminal s)) as [l|]; [apply in_or_app; right; now left|now left].
        * rewrite (I4 t' q). split; intros (r' & Hr' & E1 & ->); exists r'; (split; [|auto]).
          -- apply in_or_app. now left.
          -- apply in_app_iff in Hr'. destruct Hr' as [Hr'|[<-|[]]]; [assumption|]. rewrite EC in E1. injection E1 as ->. rewrite (proj2 (TE t' t') eq_refl) in Et. discriminate.
      + intros q rest top. rewrite I5. split; intros (r' & l1 & l2 & Hr' & A); exists r', l1, l2; (split; [|exact A]).
        * apply in_or_app. now left.
        * apply in_app_iff in Hr'. destruct Hr' as [Hr'|[<-|[]]]; [assumption|]. rewrite BT in A. destruct A as [A _]. destruct l1; discriminate.
      + intros q rids bots. rewrite (In_push _ _ _ _ _ _ ET), I6. split.
        * intros [(i & r' & A1 & A2 & A3 & A4)|[-> E]].
          -- exists i, r'. split; [rewrite nth_error_app1; [exact A1|apply nth_error_Some; congruence]|]. split; [exact A2|]. split; [|exact A4]. rewrite firstn_app. replace (i - length rs) with 0 by (assert (i < length rs) by (apply nth_error_Some; congruence); lia). cbn [firstn]. now rewrite app_nil_r.
          -- injection E as -> ->. exists (length rs), r. split; [rewrite nth_error_app2, Nat.sub_diag by lia; reflexivity|]. split; [exact CE|]. split; [|symmetry; exact BT]. rewrite firstn_app, firstn_all, Nat.sub_diag. cbn [firstn]. rewrite app_nil_r, <- I3. unfold rule_len. rewrite EC. reflexivity.
        * intros (i & r' & A1 & A2 & A3 & A4). destruct (Nat.lt_ge_cases i (length rs)) as [Li|Li].
          -- left. exists i, r'. rewrite nth_error_app1 in A1 by assumption. split; [exact A1|]. split; [exact A2|]. split; [|exact A4]. rewrite A3, firstn_app. replace (i - length rs) with 0 by lia. cbn [firstn]. now rewrite app_nil_r.
          -- right. rewrite nth_error_app2 in A1 by assumption. assert (i = length rs) as -> by (assert (LL : i - length rs < length [r]) by (apply nth_error_Some; congruence); cbn in LL; lia). rewrite Nat.sub_diag in A1. injection A1 as <-. split; [congruence|].
             subst. rewrite firstn_app, firstn_all, Nat.sub_diag. cbn [firstn]. rewrite app_nil_r, <- I3, BT. f_equal. unfold rule_len. now rewrite EC.
    - intros NT_. assert (EQ : forall (X : Type) (a : T -> X) (b : X), match pr_comp r with [[Tm t]] => a t | _ => b end = b).
      { intros X a b. destruct (pr_comp r) as [|[|[i j|t] [|]] [|]] eqn:E; try reflexivity. destruct NT_. exists t. exact E. }
      rewrite EQ. rewrite (component_rids_spec (pr_comp r) HC (rs_rid s)). pose proof (int_list_enc neqb NE (pr_tail r) (rs_ints s ++ e1)) as HL. destruct (int_list neqb (rs_ints s ++ e1) (pr_tail r)) as [ints2 codes]. destruct HL as ((e2 & ->) & In2 & ->).
      set (nid := enc neqb (rs_ints s ++ e1) (pr_head r)). set (irhs := distinct _). destruct (fold_push (removals [] irhs) nid (rs_inner s)) as (inner & EF & CF). rewrite EF.
      destruct (push_total nid (seq (rs_rid s) (fold_right (fun c n => Nat.max (length c - 1) 1 + n) 0 (pr_comp r)), irhs) (rs_td s)) as (td & ET). rewrite ET. eexists. exists (e1 ++ e2). split; [reflexivity|]. cbn [rs_ints]. split; [now rewrite app_assoc|].
      assert (WI : within ((rs_ints s ++ e1) ++ e2) r) by (split; [apply in_or_app; now left|]; intros B HB _; now apply In2). split; [exact WI|]. intros L rs (e & EL) I. destruct I as [I1 I2 I3 I4 I5 I6].
      assert (CE : nid = enc neqb L (pr_head r)). { unfold nid. rewrite EL, <- !app_assoc. rewrite (app_assoc (rs_ints s)). symmetry. now apply enc_app. }
      assert (BT : bottoms L r = irhs). { unfold bottoms. rewrite EQ. unfold irhs. f_equal. rewrite EL. now apply map_enc_app. }
      split; cbn [rs_ints rs_rid rs_terminal rs_inner rs_td].
      + eauto.
      + intros r' Hr'. apply in_app_iff in Hr'. destruct Hr' as [Hr'|[<-|[]]]; [|exact WI]. destruct (I2 r' Hr') as [A1 A2]. split; [rewrite <- app_assoc; apply in_or_app; now left|]. intros B HB HT. rewrite <- app_assoc. apply in_or_app. left. auto.
      + rewrite I3, lens_snoc. reflexivity.
      + intros t' q. rewrite (I4 t' q). split; intros (r' & Hr' & E1 & ->); exists r'; (split; [|auto]).
        * apply in_or_app. now left.
        * apply in_app_iff in Hr'. destruct Hr' as [Hr'|[<-|[]]]; [assumption|]. destruct NT_. eexists. exact E1.
      + intros q rest top. rewrite CF, I5. split.
        * intros [(r' & l1 & l2 & Hr' & A)|(rest' & A & E)].
          -- exists r', l1, l2. split; [apply in_or_app; now left|exact A].
          -- injection E as -> ->. apply removals_In in A. destruct A as (l1 & l2 & A1 & A2). exists r, l1, l2. split; [apply in_or_app; right; now left|]. rewrite BT. split; [exact A1|]. split; [exact A2|exact CE].
        * intros (r' & l1 & l2 & Hr' & A1 & A2 & A3). apply in_app_iff in Hr'. destruct Hr' as [Hr'|[<-|[]]]; [left; exists r', l1, l2; auto|]. right. exists rest. split; [apply removals_In; exists l1, l2; rewrite <- BT; auto|]. congruence.
      + intros q rids bots. rewrite (In_push _ _ _ _ _ _ ET), I6. split.
        * intros [(i & r' & A1 & A2 & A3 & A4)|[-> E]].
          -- exists i, r'. split; [rewrite nth_error_app1; [exact A1|apply nth_error_Some; congruence]|]. split; [exact A2|]. split; [|exact A4]. rewrite firstn_app. replace (i - length rs) with 0 by (assert (i < length rs) by (apply nth_error_Some; congruence); lia). cbn [firstn]. now rewrite app_nil_r.
          -- injection E as -> ->. exists (length rs), r. split; [rewrite nth_error_app2, Nat.sub_diag by lia; reflexivity|]. split; [exact CE|]. split; [|symmetry; exact BT]. rewrite firstn_app, firstn_all, Nat.sub_diag. cbn [firstn]. rewrite app_nil_r, <- I3. reflexivity.
        * intros (i & r' & A1 & A2 & A3 & A4). destruct (Nat.lt_ge_cases i (length rs)) as [Li|Li].
          -- left. exists i, r'. rewrite nth_error_app1 in A1 by assumption. split; [exact A1|]. split; [exact A2|]. split; [|exact A4]. rewrite A3, firstn_app. replace (i - length rs) with 0 by lia. cbn [firstn]. now rewrite app_nil_r.
          -- right. rewrite nth_error_app2 in A1 by assumption. assert (i = length rs) as -> by (assert (LL : i - length rs < length [r]) by (apply nth_error_Some; congruence); cbn in LL; lia). rewrite Nat.sub_diag in A1. injection A1 as <-. split; [congruence|].
             subst rids bots. rewrite firstn_app, firstn_all, Nat.sub_diag. cbn [firstn]. rewrite app_nil_r, <- I3, BT. reflexivity.
  Qed.
  Lemma rm_rules_total (rules : list rule) : (forall r c, In r rules -> In c (pr_comp r) -> c <> []) -> forall s, exists s' ext, fold_p (rm_rule neqb teqb distinct) rules s = Some s' /\ rs_ints s' = rs_ints s ++ ext /\
    forall L rs, (exists e, L = rs_ints s' ++ e) -> minv L rs s -> minv L (rs ++ rules) s'.
  Proof.
    induction rules as [|r rules IH]; intros HC s; cbn [fold_p].
    - exists s, []. split; [reflexivity|]. split; [now rewrite app_nil_r|]. intros L rs HL I. now rewrite app_nil_r.
    - destruct (rm_rule_total s r) as (s1 & e1 & -> & E1 & _ & F1); [intros c Hc; apply (HC r); [now left|exact Hc]|]. destruct (IH) with (s := s1) as (s' & e2 & -> & E2 & F2); [intros r' c Hr'; apply HC; now right|].
      exists s', (e1 ++ e2). split; [reflexivity|]. split; [now rewrite E2, E1, app_assoc|]. intros L rs (e & EL) I. replace (rs ++ r :: rules) with ((rs ++ [r]) ++ rules) by now rewrite <- app_assoc. apply F2; [eauto|]. apply F1; [|exact I]. exists (e2 ++ e). rewrite EL, E2. now rewrite <- app_assoc.
  Qed.

  (* ---- the tables of the builder ---- *)
  Record mtab (rules : list rule) (init : N) (L : list N) (m : @rule_mask_builder T) : Prop := {
    mt_in : forall r, In r rules -> within L r;
    mt_init : In init L /\ rm_initial m = enc neqb L init;
    mt_states : rm_states m = length L;
    mt_ids : rm_ruleids m = lens rules;
    mt_len : length (rm_inner m) = length L /\ length (rm_td_inner m) = length L;
    mt_term : forall t q, In q (terms_of (rm_terminal m) t) <-> exists r, In r rules /\ pr_comp r = [[Tm t]] /\ q = enc neqb L (pr_head r);
    mt_inner : forall q rest top, In (rest, top) (nth q (rm_inner m) []) <-> exists r l1 l2, In r rules /\ bottoms L r = l1 ++ q :: l2 /\ rest = l1 ++ l2 /\ top = enc neqb L (pr_head r);
    mt_td : forall q rids bots, In (rids, bots) (nth q (rm_td_inner m) []) <-> exists i r, nth_error rules i = Some r /\ q = enc neqb L (pr_head r) /\ rids = seq (lens (firstn i rules)) (rule_len r) /\ bots = bottoms L r }.
  Lemma enc_lt (L : list N) x : In x L -> enc neqb L x < length L.
  Proof. intros Hx. pose proof (enc_In neqb NE L x Hx) as E. unfold int_find_value in E. apply nth_error_Some. congruence. Qed.
  Lemma bottoms_In (L : list N) (r : rule) q : In q (bottoms L r) <-> ~ is_term r /\ exists B, In B (pr_tail r) /\ q = enc neqb L B.
  Proof.
    unfold bottoms. assert (D : is_term r \/ ~ is_term r) by (unfold is_term; destruct (pr_comp r) as [|[|[i j|t] [|]] [|]]; try (right; intros (t' & E'); discriminate); left; eauto). destruct D as [(t & E)|D].
    - rewrite E. split; [intros []|]. intros [A _]. destruct A. exists t. exact E.
    - replace (match pr_comp r with [[Tm _]] => [] | _ => distinct (map (enc neqb L) (pr_tail r)) end) with (distinct (map (enc neqb L) (pr_tail r))).
      + rewrite DI, in_map_iff. split; [intros (B & <- & HB); eauto|intros (_ & B & HB & ->); eauto].
      + unfold is_term in D. destruct (pr_comp r) as [|[|[i j|t] [|]] [|]]; try reflexivity. destruct D. eauto.
  Qed.
  Lemma bottoms_lt (L : list N) (r : rule) q : within L r -> In q (bottoms L r) -> q < length L.
  Proof. intros [_ HW] Hq. apply bottoms_In in Hq. destruct Hq as (NT_ & B & HB & ->). apply enc_lt. auto. Qed.
  Lemma rm_new_spec (rules : list rule) init : (forall r c, In r rules -> In c (pr_comp r) -> c <> []) ->
    (exists r, In r rules /\ (pr_head r = init \/ ~ is_term r /\ In init (pr_tail r))) ->
    exists m L, rm_new neqb teqb distinct rules init = Some m /\ mtab rules init L m.
  Proof.
    intros HC HI. unfold rm_new. destruct (rm_rules_total rules HC (RmState 0 [] [] vmm_new vmm_new)) as (s & ext & -> & _ & F).
    assert (I : minv (rs_ints s) ([] ++ rules) s).
    { apply F; [exists []; now rewrite app_nil_r|]. assert (Z : forall X k, nth k (@vmm_new X) [] = []) by (intros X [|k]; reflexivity). split; cbn [rs_ints rs_rid rs_terminal rs_inner rs_td]; try reflexivity.
      - eexists. reflexivity.
      - intros r [].
      - intros t q. split; [intros []|intros (r & [] & _)].
      - intros q rest top. rewrite Z. split; [intros []|intros (r & l1 & l2 & [] & _)].
      - intros q rids bots. rewrite Z. split; [intros []|intros ([|i] & r & E & _); discriminate]. }
    cbn in I. clear F. destruct I as [_ I2 I3 I4 I5 I6]. set (L := rs_ints s) in *.
    assert (II : In init L). { destruct HI as (r & Hr & [<-|[HT HB]]); [apply I2; exact Hr|]. now apply (I2 r Hr). }
    rewrite (find_key_enc neqb NE), (proj2 (memb_In neqb NE init L) II). eexists. exists L. split; [reflexivity|].
    split; cbn [rm_initial rm_terminal rm_inner rm_td_inner rm_ruleids rm_states]; try assumption; try reflexivity.
    - auto.
    - unfold vmm_into_vec_with_size. now rewrite !resize_length.
    - intros q rest top. rewrite nth_resize', <- I5. destruct (Nat.ltb_spec q (length L)) as [Lq|Lq]; [reflexivity|]. split; [intros []|]. intros Hin. exfalso. apply I5 in Hin. destruct Hin as (r & l1 & l2 & Hr & EB & _). assert (q < length L); [|lia]. eapply bottoms_lt; [apply I2; exact Hr|]. rewrite EB. apply in_or_app. right. now left.
    - intros q rids bots. rewrite nth_resize', <- I6. destruct (Nat.ltb_spec q (length L)) as [Lq|Lq]; [reflexivity|]. split; [intros []|]. intros Hin. exfalso. apply I6 in Hin. destruct Hin as (i & r & Hr & -> & _). apply nth_error_In in Hr. apply I2 in Hr. destruct Hr as [Hr _]. apply enc_lt in Hr. lia.
  Qed.

  (* ---- build ---- *)
  Section Build.
    Context (rules : list rule) (init : N) (L : list N) (m : @rule_mask_builder T) (MT : mtab rules init L m) (word : list T).
    Context (NF : forall r, In r rules -> pr_comp r <> [] /\ rule_nf r /\ forall t, pr_comp r = [[Tm t]] -> pr_tail r = []).
    Notation ns := (length L). Notation "'cod'" := (enc neqb L).
    Definition uq (q : nat) : Prop := exists A, In A L /\ q = enc neqb L A /\ usable rules word A.
    Lemma term_dec (r : rule) : is_term r \/ ~ is_term r.
    Proof. unfold is_term. destruct (pr_comp r) as [|[|[i j|t] [|]] [|]]; try (right; intros (t' & E'); discriminate). left. eauto. Qed.
    Lemma non_term (r : rule) : In r rules -> ~ is_term r -> (forall t, ~ In (Tm t) (concat (pr_comp r))) /\ pr_tail r <> [].
    Proof.
      intros Hr HT. destruct (NF r Hr) as (C0 & [HT'|NFr] & _); [contradiction|]. split.
      - intros t Hin. apply in_concat in Hin. destruct Hin as (c & Hc & Hin). destruct (NFr c Hc) as [_ V]. destruct (V _ Hin) as (i & j & E & _). discriminate.
      - intros E. destruct (pr_comp r) as [|c cs]; [contradiction|]. destruct (NFr c (or_introl eq_refl)) as [Cn V]. destruct c as [|x c]; [contradiction|]. destruct (V x (or_introl eq_refl)) as (i & j & _ & Hi). rewrite E in Hi. cbn in Hi. lia.
    Qed.
    Lemma usable_node (r : rule) : In r rules -> (forall t, In (Tm t) (concat (pr_comp r)) -> In t word) -> (forall B, In B (pr_tail r) -> usable rules word B) -> usable rules word (pr_head r).
    Proof.
      intros Hr HT HB. assert (X : exists ts, Forall2 (fun B d => deriv (fun r => In r rules) B d /\ forall r t, In r (d_rules d) -> In (Tm t) (concat (pr_comp r)) -> In t word) (pr_tail r) ts).
      { clear HT. revert HB. generalize (pr_tail r) as tl. induction tl as [|B tl IH]; intros HB; [exists []; constructor|]. destruct IH as (ts & F); [intros; apply HB; now right|]. destruct (HB B (or_introl eq_refl)) as (d & D). exists (d :: ts). now constructor. }
      destruct X as (ts & F). exists (DNode r ts). split.
      - constructor; [exact Hr|]. clear -F. induction F as [|? ? ? ? [A _]]; constructor; auto.
      - intros r' t [<-|Hin]; [apply HT|]. apply in_flat_map in Hin. destruct Hin as (d & Hd & Hin). destruct (F2_in_r _ _ _ F d Hd) as (B & _ & _ & A). eauto.
    Qed.
    Lemma usable_inv A : usable rules word A -> exists r, In r rules /\ pr_head r = A /\ (forall t, In (Tm t) (concat (pr_comp r)) -> In t word) /\ forall B, In B (pr_tail r) -> usable rules word B.
    Proof.
      intros ([r ts] & D & HT). apply deriv_inv in D. destruct D as (-> & Hr & F). exists r. split; [exact Hr|]. split; [reflexivity|]. split; [intros t; apply HT; now left|].
      intros B HB. destruct (F2_in_l _ _ _ F B HB) as (d & Hd & D). exists d. split; [exact D|]. intros r' t Hin. apply HT. right. apply in_flat_map. eauto.
    Qed.
    Lemma usable_ind_strong (P : N -> Prop) : (forall r, In r rules -> (forall t, In (Tm t) (concat (pr_comp r)) -> In t word) -> (forall B, In B (pr_tail r) -> usable rules word B /\ P B) -> P (pr_head r)) ->
      forall A, usable rules word A -> P A.
    Proof.
      intros HP A (d & D & HT). revert A D. induction d as [r ts IH] using dtree_ind2. intros A D. apply deriv_inv in D. destruct D as (-> & Hr & F). apply HP; [exact Hr|intros t; apply HT; now left|].
      intros B HB. destruct (F2_in_l _ _ _ F B HB) as (d & Hd & D). assert (HTd : forall r t, In r (d_rules d) -> In (Tm t) (concat (pr_comp r)) -> In t word) by (intros r' t Hin; apply HT; right; apply in_flat_map; eauto).
      split; [exists d; auto|]. rewrite Forall_forall in IH. apply (IH d Hd HTd). exact D.
    Qed.

    (* step 1 *)
    Lemma initial_stack_In q : In q (initial_stack teqb m word) <-> exists r t, In r rules /\ pr_comp r = [[Tm t]] /\ In t word /\ q = enc neqb L (pr_head r).
    Proof.
      unfold initial_stack. assert (X : forall w st, In q (fold_left (fun st t => match hm_get teqb t (rm_terminal m) with Some v => push_all v st | None => st end) w st) <-> In q st \/ exists t, In t w /\ In q (terms_of (rm_terminal m) t)).
      { induction w as [|t w IH]; intros st; cbn [fold_left]; [split; [tauto|intros [A|(t & [] & _)]; exact A]|]. rewrite IH. assert (Y : In q (match hm_get teqb t (rm_terminal m) with Some v => push_all v st | None => st end) <-> In q st \/ In q (terms_of (rm_terminal m) t)).
        { unfold terms_of. destruct (hm_get teqb t (rm_terminal m)) as [v|]; [rewrite in_push_all; tauto|cbn; tauto]. }
        rewrite Y. split.
        - intros [[A|A]|(t' & A & B)]; [tauto|right; exists t; split; [now left|exact A]|right; exists t'; split; [now right|exact B]].
        - intros [A|(t' & [<-|A] & B)]; [tauto|tauto|]. right. eauto. }
      rewrite X. split.
      - intros [[]|(t & Ht & A)]. apply (mt_term _ _ _ _ MT) in A. destruct A as (r & A1 & A2 & A3). exists r, t. auto.
      - intros (r & t & A1 & A2 & A3 & A4). right. exists t. split; [exact A3|]. apply (mt_term _ _ _ _ MT). eauto.
    Qed.
    Definition marked (v : list bool) (q : nat) : Prop := nth_error v q = Some true.
    Definition closed_upto (v : list bool) (st : list nat) : Prop :=
      (forall r t, In r rules -> pr_comp r = [[Tm t]] -> In t word -> marked v (enc neqb L (pr_head r)) \/ In (enc neqb L (pr_head r)) st) /\
      forall r, In r rules -> ~ is_term r -> (forall q, In q (bottoms L r) -> marked v q) -> marked v (enc neqb L (pr_head r)) \/ In (enc neqb L (pr_head r)) st.
    Lemma uq_lt q : uq q -> q < ns.
    Proof. intros (A & HA & -> & _). now apply enc_lt. Qed.
    Lemma uq_top (r : rule) : In r rules -> ~ is_term r -> (forall q, In q (bottoms L r) -> uq q) -> uq (enc neqb L (pr_head r)).
    Proof.
      intros Hr HT HB. destruct (mt_in _ _ _ _ MT r Hr) as [W1 W2]. exists (pr_head r). split; [exact W1|]. split; [reflexivity|]. apply usable_node; [exact Hr|intros t Hin; destruct (proj1 (non_term r Hr HT) t Hin)|].
      intros B HBt. assert (Q : uq (enc neqb L B)) by (apply HB, bottoms_In; eauto). destruct Q as (B' & HB' & E & U). apply (enc_inj neqb NE) in E; [now subst|now apply W2|exact HB'].
    Qed.
    Lemma productive_loop_spec : forall fuel st v, length v = ns -> (forall q, In q st -> uq q) -> (forall q, marked v q -> uq q) -> closed_upto v st -> length st + cpot (rm_inner m) v < fuel ->
      exists v', productive_loop m fuel st v = Some v' /\ length v' = ns /\ (forall q, marked v' q -> uq q) /\ closed_upto v' [].
    Proof.
      destruct (mt_len _ _ _ _ MT) as [LI _].
      induction fuel as [|fuel IH]; intros st v LV S1 S2 CL HF; [lia|]. cbn [productive_loop]. destruct st as [|nt st]; [exists v; auto|].
      assert (Hn : nt < ns) by (apply uq_lt, S1; now left). destruct (nth_error v nt) as [seen|] eqn:ES; [|apply nth_error_None in ES; lia].
      destruct (vset_ok v nt true ltac:(lia)) as (v1 & EV & LV1 & NV). rewrite EV.
      assert (MV : forall q, marked v1 q <-> marked v q \/ q = nt). { intros q. unfold marked. rewrite NV. destruct (Nat.eqb_spec q nt); [subst; tauto|]. tauto. }
      destruct seen.
      - assert (MV' : forall q, marked v1 q <-> marked v q) by (intros q; rewrite MV; split; [intros [A| ->]; [exact A|exact ES]|tauto]).
        apply IH; [lia|intros q Hq; apply S1; now right|intros q Hq; apply S2, MV'; exact Hq| |rewrite (cpot_same (rm_inner m) v nt v1 ES EV); cbn in HF; lia].
        destruct CL as [C1 C2]. split.
        + intros r t Hr Et Ht. rewrite MV'. destruct (C1 r t Hr Et Ht) as [A|[A|A]]; [tauto|left; rewrite <- A; exact ES|tauto].
        + intros r Hr HT HB. rewrite MV'. destruct (C2 r Hr HT) as [A|[A|A]]; [intros q Hq; apply MV', HB, Hq|tauto|left; rewrite <- A; exact ES|tauto].
      - rewrite (tnth (rm_inner m) ns nt LI Hn). set (parents := nth nt (rm_inner m) []).
        assert (RG : forall rest top, In (rest, top) parents -> top < ns /\ forall q, In q rest -> q < ns).
        { intros rest top Hin. apply (mt_inner _ _ _ _ MT) in Hin. destruct Hin as (r & l1 & l2 & Hr & EB & -> & ->). pose proof (mt_in _ _ _ _ MT r Hr) as WI. split; [apply enc_lt; exact (proj1 WI)|]. intros q Hq. eapply bottoms_lt; [exact WI|]. rewrite EB. apply in_app_iff in Hq. apply in_or_app. cbn. tauto. }
        set (g := fun x : list nat * nat => _).
        assert (G : forall rest top, In (rest, top) parents -> exists o, g (rest, top) = Some o /\ forall y, o = Some y <-> y = top /\ ~ marked v1 top /\ forall q, In q rest -> marked v1 q).
        { intros rest top Hin. destruct (RG rest top Hin) as [T1 T2]. unfold g. destruct (nth_error v1 top) as [p|] eqn:Ep; [|apply nth_error_None in Ep; lia]. destruct p.
          - exists None. split; [reflexivity|]. intros y. split; [discriminate|]. intros (_ & A & _). contradiction.
          - destruct (all_p_spec v1 rest) as (b & Eb & Hb); [intros q Hq; rewrite LV1, LV; now apply T2|]. rewrite Eb. exists (if b then Some top else None). split; [reflexivity|]. intros y. destruct b.
            + split; [intros [= <-]; split; [reflexivity|split; [unfold marked; rewrite Ep; discriminate|now apply Hb]]|intros (-> & _); reflexivity].
            + split; [discriminate|]. intros (_ & _ & A). enough (false = true) by discriminate. now apply Hb. }
        destruct (filter_map_p_spec g parents) as (tops & ET & MTops & LT); [intros [rest top] Hin; destruct (G rest top Hin) as (o & -> & _); discriminate|]. rewrite ET.
        assert (TI : forall y, In y tops <-> exists rest, In (rest, y) parents /\ ~ marked v1 y /\ forall q, In q rest -> marked v1 q).
        { intros y. rewrite MTops. split.
          - intros ([rest top] & Hin & Eg). destruct (G rest top Hin) as (o & Eo & HO). rewrite Eo in Eg. injection Eg as ->. destruct (proj1 (HO y) eq_refl) as (-> & A1 & A2). exists rest. auto.
          - intros (rest & Hin & A1 & A2). exists (rest, y). split; [exact Hin|]. destruct (G rest y Hin) as (o & Eo & HO). rewrite Eo. f_equal. apply HO. auto. }
        assert (U1 : forall q, marked v1 q -> uq q) by (intros q Hq; apply MV in Hq; destruct Hq as [Hq| ->]; [auto|apply S1; now left]).
        destruct (IH (push_all tops st) v1) as (v' & E' & R'); [lia| |exact U1| | |exists v'; auto].
        + intros q Hq. apply in_push_all in Hq. destruct Hq as [Hq|Hq]; [|apply S1; now right]. apply TI in Hq. destruct Hq as (rest & Hin & _ & A). apply (mt_inner _ _ _ _ MT) in Hin. destruct Hin as (r & l1 & l2 & Hr & EB & -> & ->).
          apply uq_top; [exact Hr|intros HT; assert (In nt (bottoms L r)) by (rewrite EB; apply in_or_app; right; now left); apply bottoms_In in H; tauto|].
          intros q Hq. rewrite EB in Hq. apply in_app_iff in Hq. cbn in Hq. apply U1. destruct Hq as [Hq|[<-|Hq]]; [apply A, in_or_app; tauto|apply MV; tauto|apply A, in_or_app; tauto].
        + destruct CL as [C1 C2]. split.
          * intros r t Hr Et Ht. rewrite MV, in_push_all. destruct (C1 r t Hr Et Ht) as [A|[A|A]]; [tauto|symmetry in A; tauto|tauto].
          * intros r Hr HT HB. destruct (in_dec Nat.eq_dec nt (bottoms L r)) as [Hin|Hin].
            -- assert (D : marked v1 (enc neqb L (pr_head r)) \/ ~ marked v1 (enc neqb L (pr_head r))) by (unfold marked; destruct (nth_error v1 _) as [[|]|]; [left; reflexivity|right; discriminate|right; discriminate]).
               destruct D as [D|D]; [tauto|]. right. apply in_push_all. left. apply TI. apply in_split in Hin. destruct Hin as (l1 & l2 & EB). exists (l1 ++ l2). split; [apply (mt_inner _ _ _ _ MT); exists r, l1, l2; auto|]. split; [exact D|]. intros q Hq. apply HB. rewrite EB. apply in_app_iff in Hq. apply in_or_app. cbn. tauto.
            -- rewrite MV, in_push_all. destruct (C2 r Hr HT) as [A|[A|A]]; [|tauto|symmetry in A; tauto|tauto]. intros q Hq. specialize (HB q Hq). apply MV in HB. destruct HB as [HB| ->]; [exact HB|contradiction].
        + unfold push_all. rewrite app_length, rev_length. pose proof (cpot_set ns (rm_inner m) LI v nt v1 LV ES EV) as P. fold parents in P. cbn in HF. lia.
    Qed.
    Lemma productive_spec : exists v, productive_loop m (S (length (initial_stack teqb m word) + length (concat (rm_inner m)))) (initial_stack teqb m word) (repeat false (rm_states m)) = Some v /\
      length v = ns /\ forall A, In A L -> (marked v (enc neqb L A) <-> usable rules word A).
    Proof.
      rewrite (mt_states _ _ _ _ MT). destruct (mt_len _ _ _ _ MT) as [LI _].
      destruct (productive_loop_spec (S (length (initial_stack teqb m word) + length (concat (rm_inner m)))) (initial_stack teqb m word) (repeat false ns)) as (v & E & LV & SD & C1 & C2).
      - apply repeat_length.
      - intros q Hq. apply initial_stack_In in Hq. destruct Hq as (r & t & Hr & Et & Ht & ->). destruct (mt_in _ _ _ _ MT r Hr) as [W1 _]. exists (pr_head r). split; [exact W1|]. split; [reflexivity|]. apply usable_node; [exact Hr| |].
        + rewrite Et. cbn. intros t' [[= <-]|[]]. exact Ht.
        + destruct (NF r Hr) as (_ & _ & TL). rewrite (TL t Et). intros B [].
      - intros q Hq. unfold marked in Hq. apply nth_error_In, repeat_spec in Hq. discriminate.
      - split.
        + intros r t Hr Et Ht. right. apply initial_stack_In. eauto 6.
        + intros r Hr HT HB. exfalso. destruct (non_term r Hr HT) as [_ TN]. destruct (pr_tail r) as [|B tl] eqn:ETl; [contradiction|]. assert (X : In (enc neqb L B) (bottoms L r)) by (apply bottoms_In; split; [exact HT|]; exists B; rewrite ETl; split; [now left|reflexivity]). apply HB in X. unfold marked in X. apply nth_error_In, repeat_spec in X. discriminate.
      - rewrite (cpot_init ns (rm_inner m) LI). lia.
      - exists v. split; [exact E|]. split; [exact LV|]. intros A HA. split.
        + intros M. destruct (SD _ M) as (A' & HA' & EA & U). apply (enc_inj neqb NE) in EA; [now subst|exact HA|exact HA'].
        + intros U. revert HA. revert A U. apply (usable_ind_strong (fun A => In A L -> marked v (enc neqb L A))). intros r Hr Ht HB _. destruct (term_dec r) as [(t & Et)|HT].
          * destruct (C1 r t Hr Et) as [M|[]]; [|exact M]. apply Ht. rewrite Et. cbn. tauto.
          * destruct (C2 r Hr HT) as [M|[]]; [|exact M]. intros q Hq. apply bottoms_In in Hq. destruct Hq as (_ & B & HBt & ->). apply HB; [exact HBt|]. now apply (mt_in _ _ _ _ MT r Hr).
    Qed.

    (* step 2 *)
    Context (pv : list bool) (LP : length pv = ns) (PV : forall A, In A L -> (marked pv (enc neqb L A) <-> usable rules word A)).
    Definition ok_rule (r : rule) : Prop := forall B, In B (pr_tail r) -> usable rules word B.
    Definition rq (q : nat) : Prop := exists A, In A L /\ q = enc neqb L A /\ in_reach rules init word A.
    Definition enabled (k : nat) : Prop := exists i r, nth_error rules i = Some r /\ lens (firstn i rules) <= k < lens (firstn i rules) + rule_len r /\
      in_reach rules init word (pr_head r) /\ usable rules word (pr_head r) /\ ok_rule r.
    Lemma ok_bottoms (r : rule) : In r rules -> (ok_rule r <-> forall q, In q (bottoms L r) -> marked pv q).
    Proof.
      intros Hr. destruct (mt_in _ _ _ _ MT r Hr) as [W1 W2]. split.
      - intros OK q Hq. apply bottoms_In in Hq. destruct Hq as (HT & B & HB & ->). apply PV; auto.
      - intros A B HB. destruct (term_dec r) as [(t & Et)|HT]; [destruct (NF r Hr) as (_ & _ & TL); rewrite (TL t Et) in HB; destruct HB|]. apply PV; [auto|]. apply A, bottoms_In. eauto.
    Qed.
    Lemma range_lt i (r : rule) : nth_error rules i = Some r -> lens (firstn i rules) + rule_len r <= lens rules.
    Proof.
      intros E. rewrite <- lens_snoc, <- (firstn_S _ _ _ E). assert (X : forall a b : list rule, lens a <= lens (a ++ b)) by (induction a as [|x a IHa]; intros b; cbn; [lia|]; specialize (IHa b); unfold lens in IHa; lia).
      specialize (X (firstn (S i) rules) (skipn (S i) rules)). now rewrite firstn_skipn in X.
    Qed.
    Lemma set_range (n : nat) : forall k mask, k + n <= length mask -> exists mask', fold_p (fun mask rid => vset mask rid true) (seq k n) mask = Some mask' /\ length mask' = length mask /\ forall x, marked mask' x <-> marked mask x \/ k <= x < k + n.
    Proof.
      induction n as [|n IH]; intros k mask HL; cbn [seq fold_p]; [exists mask; split; [reflexivity|]; split; [reflexivity|]; intros x; split; [tauto|]; intros [A|A]; [exact A|lia]|].
      destruct (vset_ok mask k true ltac:(lia)) as (m1 & -> & L1 & N1). destruct (IH (S k) m1 ltac:(lia)) as (m' & -> & L' & N'). exists m'. split; [reflexivity|]. split; [lia|]. intros x. rewrite N'. unfold marked. rewrite N1. destruct (Nat.eqb_spec x k).
      - subst x. split; [intros _; right; lia|intros _; now left].
      - split; [intros [A|A]; [tauto|right; lia]|intros [A|A]; [tauto|right; lia]].
    Qed.
    Definition good (x : list nat * list nat) : Prop := forall q, In q (snd x) -> marked pv q.
    Definition entry_ok (x : list nat * list nat) : Prop := (exists k n, fst x = seq k n /\ k + n <= lens rules) /\ forall q, In q (snd x) -> q < ns.
    Lemma enable_rules (xs : list (list nat * list nat)) : (forall x, In x xs -> entry_ok x) -> forall st mask, length mask = lens rules ->
      exists st' mask', fold_p (enable_rule pv) xs (st, mask) = Some (st', mask') /\ length mask' = length mask /\ length st' <= length st + length (concat (map snd xs)) /\
        (forall q, In q st' <-> In q st \/ exists x, In x xs /\ good x /\ In q (snd x)) /\ forall k, marked mask' k <-> marked mask k \/ exists x, In x xs /\ good x /\ In k (fst x).
    Proof.
      induction xs as [|x xs IH]; intros HX st mask LM; cbn [fold_p].
      - exists st, mask. split; [reflexivity|]. split; [reflexivity|]. split; [cbn; lia|]. split; intros q; (split; [tauto|intros [A|(x & [] & _)]; exact A]).
      - destruct x as [rids bots]. destruct (HX _ (or_introl eq_refl)) as [(k & n & E1 & Hk) HB]. cbn [fst snd] in E1, HB. subst rids. unfold enable_rule at 1.
        destruct (all_p_spec pv bots) as (b & -> & Hb); [intros q Hq; rewrite LP; now apply HB|]. destruct b.
        + destruct (set_range n k mask ltac:(lia)) as (m1 & -> & L1 & N1). destruct (IH (fun x Hx => HX x (or_intror Hx)) (push_all bots st) m1 ltac:(lia)) as (st' & m' & -> & L' & LS & I1 & I2).
          exists st', m'. split; [reflexivity|]. split; [lia|]. split; [|split].
          * unfold push_all in LS. rewrite app_length, rev_length in LS. cbn [map concat snd]. rewrite app_length. lia.
          * intros q. rewrite I1, in_push_all. split.
            -- intros [[A|A]|(x & A1 & A2)]; [right; exists (seq k n, bots); split; [now left|]; split; [exact (proj1 Hb eq_refl)|exact A]|tauto|right; exists x; split; [now right|exact A2]].
            -- intros [A|(x & [<-|A1] & A2 & A3)]; [tauto|cbn in A3; tauto|right; eauto].
          * intros q. rewrite I2, N1. split.
            -- intros [[A|A]|(x & A1 & A2)]; [tauto|right; exists (seq k n, bots); split; [now left|]; split; [exact (proj1 Hb eq_refl)|cbn; apply in_seq; lia]|right; exists x; split; [now right|exact A2]].
            -- intros [A|(x & [<-|A1] & A2 & A3)]; [tauto|cbn in A3; apply in_seq in A3; left; right; lia|right; eauto].
        + assert (NG : ~ good (seq k n, bots)) by (intros G; enough (false = true) by discriminate; apply Hb; exact G).
          destruct (IH (fun x Hx => HX x (or_intror Hx)) st mask LM) as (st' & m' & -> & L' & LS & I1 & I2). exists st', m'. split; [reflexivity|]. split; [lia|]. split; [cbn [map concat snd]; rewrite app_length; lia|]. split; intros q.
          * rewrite I1. split; [intros [A|(x & A1 & A2)]; [tauto|right; exists x; split; [now right|exact A2]]|intros [A|(x & [<-|A1] & A2 & A3)]; [tauto|contradiction|right; eauto]].
          * rewrite I2. split; [intros [A|(x & A1 & A2)]; [tauto|right; exists x; split; [now right|exact A2]]|intros [A|(x & [<-|A1] & A2 & A3)]; [tauto|contradiction|right; eauto]].
    Qed.
    Lemma td_ok nt x : In x (nth nt (rm_td_inner m) []) -> entry_ok x.
    Proof.
      destruct x as [rids bots]. intros Hin. apply (mt_td _ _ _ _ MT) in Hin. destruct Hin as (i & r & Hi & _ & -> & ->). split; cbn [fst snd]; [exists (lens (firstn i rules)), (rule_len r); split; [reflexivity|now apply range_lt]|].
      intros q Hq. eapply bottoms_lt; [|exact Hq]. apply (mt_in _ _ _ _ MT). now apply nth_error_In in Hi.
    Qed.
    (* every rule of a marked nonterminal is dealt with *)
    Definition done_upto (rv mask : list bool) (st : list nat) : Prop :=
      forall q i r, marked rv q -> marked pv q -> nth_error rules i = Some r -> q = enc neqb L (pr_head r) -> ok_rule r ->
        (forall k, lens (firstn i rules) <= k < lens (firstn i rules) + rule_len r -> marked mask k) /\ (forall p, In p (bottoms L r) -> marked rv p \/ In p st).
    Lemma reachable_loop_spec : forall fuel st rv mask, length rv = ns -> length mask = lens rules -> (forall q, In q st -> rq q) -> (forall q, marked rv q -> rq q) -> (forall k, marked mask k -> enabled k) ->
      (marked rv (enc neqb L init) \/ In (enc neqb L init) st) -> done_upto rv mask st -> length st + cpot (map (fun rs => concat (map snd rs)) (rm_td_inner m)) rv < fuel ->
      exists mask', reachable_loop m fuel pv st rv mask = Some mask' /\ length mask' = lens rules /\ forall k, marked mask' k <-> enabled k.
    Proof.
      destruct (mt_len _ _ _ _ MT) as [_ LI]. destruct (mt_init _ _ _ _ MT) as [II _]. assert (LI' : length (map (fun rs => concat (map snd rs)) (rm_td_inner m)) = ns) by now rewrite map_length.
      induction fuel as [|fuel IH]; intros st rv mask LV LM S1 S2 S3 IN DU HF; [lia|]. cbn [reachable_loop]. destruct st as [|nt st].
      { exists mask. split; [reflexivity|]. split; [exact LM|]. intros k. split; [apply S3|]. destruct IN as [IN|[]].
        assert (RE : forall A, in_reach rules init word A -> In A L /\ marked rv (enc neqb L A)).
        { intros A R. induction R as [|r B Hr R [IH1 IH2] OK HB]; [auto|]. destruct (mt_in _ _ _ _ MT r Hr) as [W1 W2].
          assert (HT : ~ is_term r) by (intros (t & Et); destruct (NF r Hr) as (_ & _ & TL); rewrite (TL t Et) in HB; destruct HB). split; [auto|].
          assert (UH : usable rules word (pr_head r)) by (apply usable_node; [exact Hr|intros t Hin; destruct (proj1 (non_term r Hr HT) t Hin)|exact OK]).
          destruct (In_nth_error _ _ Hr) as (i & Hi). destruct (DU _ i r IH2 (proj2 (PV _ W1) UH) Hi eq_refl OK) as [_ D]. destruct (D (enc neqb L B)) as [D'|[]]; [|exact D']. apply bottoms_In. eauto. }
        intros (i & r & Hi & Hk & R & U & OK). destruct (RE _ R) as [R1 R2]. eapply (proj1 (DU _ i r R2 (proj2 (PV _ R1) U) Hi eq_refl OK)). exact Hk. }
      assert (Hn : nt < ns) by (destruct (S1 nt (or_introl eq_refl)) as (A & HA & -> & _); now apply enc_lt). destruct (nth_error rv nt) as [seen|] eqn:ES; [|apply nth_error_None in ES; lia].
      destruct (vset_ok rv nt true ltac:(lia)) as (v1 & EV & LV1 & NV). rewrite EV.
      assert (MV : forall q, marked v1 q <-> marked rv q \/ q = nt). { intros q. unfold marked. rewrite NV. destruct (Nat.eqb_spec q nt); [subst; tauto|]. tauto. }
      assert (U1 : forall q, marked v1 q -> rq q) by (intros q Hq; apply MV in Hq; destruct Hq as [Hq| ->]; [auto|apply S1; now left]).
      assert (IN' : marked v1 (enc neqb L init) \/ In (enc neqb L init) st) by (rewrite MV; destruct IN as [A|[A|A]]; [tauto|symmetry in A; tauto|tauto]).
      destruct seen.
      - apply IH; [lia|exact LM|intros q Hq; apply S1; now right|exact U1|exact S3|exact IN'| |rewrite (cpot_same _ rv nt v1 ES EV); cbn [length] in HF; lia].
        intros q i r M1 M2 Hi Eq OK. apply MV in M1. assert (M1' : marked rv q) by (destruct M1 as [M1| ->]; [exact M1|exact ES]). destruct (DU q i r M1' M2 Hi Eq OK) as [D1 D2]. split; [exact D1|]. intros p Hp. rewrite MV. destruct (D2 p Hp) as [A|[A|A]]; [tauto|symmetry in A; tauto|tauto].
      - destruct (nth_error pv nt) as [p|] eqn:EP; [|apply nth_error_None in EP; lia]. pose proof (cpot_set ns _ LI' rv nt v1 LV ES EV) as CP. cbn [length] in HF. destruct p; cbn [negb].
        + rewrite (tnth (rm_td_inner m) ns nt LI Hn). destruct (enable_rules (nth nt (rm_td_inner m) []) (td_ok nt) st mask LM) as (st' & m' & -> & L' & LS & I1 & I2).
          assert (ENT : forall x, In x (nth nt (rm_td_inner m) []) -> good x -> exists i r, nth_error rules i = Some r /\ nt = enc neqb L (pr_head r) /\ x = (seq (lens (firstn i rules)) (rule_len r), bottoms L r) /\ ok_rule r).
          { intros [rids bots] Hx G. apply (mt_td _ _ _ _ MT) in Hx. destruct Hx as (i & r & Hi & E1 & -> & ->). exists i, r. split; [exact Hi|]. split; [exact E1|]. split; [reflexivity|]. apply ok_bottoms; [now apply nth_error_In in Hi|exact G]. }
          assert (RN : forall r, In r rules -> nt = enc neqb L (pr_head r) -> in_reach rules init word (pr_head r) /\ usable rules word (pr_head r)).
          { intros r Hr E. destruct (mt_in _ _ _ _ MT r Hr) as [W1 _]. split; [|apply PV; [exact W1|]; rewrite <- E; exact EP]. destruct (S1 nt (or_introl eq_refl)) as (A & HA & EA & RA). rewrite E in EA. apply (enc_inj neqb NE) in EA; [now subst|exact W1|exact HA]. }
          apply IH; [lia|lia| |exact U1| | | |].
          * intros q Hq. apply I1 in Hq. destruct Hq as [Hq|(x & Hx & G & Hq)]; [apply S1; now right|]. destruct (ENT x Hx G) as (i & r & Hi & E1 & -> & OK). cbn [snd] in Hq. pose proof (nth_error_In _ _ Hi) as Hr. destruct (RN r Hr E1) as [R1 _].
            apply bottoms_In in Hq. destruct Hq as (HT & B & HB & ->). exists B. split; [now apply (mt_in _ _ _ _ MT r Hr)|]. split; [reflexivity|]. eapply ir_step; eauto.
          * intros k Hk. apply I2 in Hk. destruct Hk as [Hk|(x & Hx & G & Hk)]; [auto|]. destruct (ENT x Hx G) as (i & r & Hi & E1 & -> & OK). cbn [fst] in Hk. apply in_seq in Hk. pose proof (nth_error_In _ _ Hi) as Hr. destruct (RN r Hr E1) as [R1 R2]. exists i, r. auto.
          * rewrite I1. tauto.
          * intros q i r M1 M2 Hi Eq OK. apply MV in M1.
            assert (CASE : q = nt \/ marked rv q) by tauto. destruct CASE as [->|M1'].
            -- assert (Hx : In (seq (lens (firstn i rules)) (rule_len r), bottoms L r) (nth nt (rm_td_inner m) [])) by (apply (mt_td _ _ _ _ MT); eauto 6).
               assert (G : good (seq (lens (firstn i rules)) (rule_len r), bottoms L r)) by (unfold good; cbn [snd]; apply (ok_bottoms r); [now apply nth_error_In in Hi|exact OK]).
               split; [intros k Hk; apply I2; right; eexists; split; [exact Hx|]; split; [exact G|]; cbn [fst]; now apply in_seq|]. intros p Hp. right. apply I1. right. eexists. split; [exact Hx|]. split; [exact G|exact Hp].
            -- destruct (DU q i r M1' M2 Hi Eq OK) as [D1 D2]. split; [intros k Hk; apply I2; left; auto|]. intros p Hp. rewrite MV, I1. destruct (D2 p Hp) as [A|[A|A]]; [tauto|symmetry in A; tauto|tauto].
          * rewrite (nth_indep _ [] (concat (map snd (@nil (list nat * list nat))))) in CP by (rewrite map_length; lia). rewrite (map_nth (fun rs => concat (map snd rs))) in CP. lia.
        + apply IH; [lia|exact LM|intros q Hq; apply S1; now right|exact U1|exact S3|exact IN'| |lia].
          intros q i r M1 M2 Hi Eq OK. apply MV in M1. destruct M1 as [M1| ->]; [|unfold marked in M2; congruence]. destruct (DU q i r M1 M2 Hi Eq OK) as [D1 D2]. split; [exact D1|]. intros p Hp. rewrite MV. destruct (D2 p Hp) as [A|[A|A]]; [tauto|symmetry in A; tauto|tauto].
    Qed.
    Lemma reachable_spec : exists mask, reachable_loop m (S (1 + length (concat (concat (map (map snd) (rm_td_inner m)))))) pv [rm_initial m] (repeat false (rm_states m)) (repeat false (rm_ruleids m)) = Some mask /\
      length mask = lens rules /\ forall k, marked mask k <-> enabled k.
    Proof.
      destruct (mt_len _ _ _ _ MT) as [_ LI]. destruct (mt_init _ _ _ _ MT) as [II IE]. rewrite (mt_states _ _ _ _ MT), (mt_ids _ _ _ _ MT), IE.
      assert (NM : forall n q, ~ marked (repeat false n) q) by (intros n q M; unfold marked in M; apply nth_error_In, repeat_spec in M; discriminate).
      apply reachable_loop_spec; try apply repeat_length; try (intros q M; destruct (NM _ _ M)).
      - intros q [<-|[]]. exists init. split; [exact II|]. split; [reflexivity|constructor].
      - right. now left.
      - intros q i r M. destruct (NM _ _ M).
      - rewrite (cpot_init ns) by (rewrite map_length; exact LI). cbn [length]. enough (X : length (concat (map (fun rs => concat (map snd rs)) (rm_td_inner m))) = length (concat (concat (map (map snd) (rm_td_inner m))))) by lia.
        generalize (rm_td_inner m) as l. induction l as [|x l IHl]; [reflexivity|]. cbn [map concat]. rewrite !concat_app, !app_length. now rewrite IHl.
    Qed.
  End Build.
  Lemma rm_build_spec (rules : list rule) (init : N) (L : list N) (m : @rule_mask_builder T) : mtab rules init L m ->
    (forall r, In r rules -> pr_comp r <> [] /\ rule_nf r /\ forall t, pr_comp r = [[Tm t]] -> pr_tail r = []) -> forall word,
    exists mask, rm_build teqb m word = Some mask /\ length mask = lens rules /\ forall k, nth_error mask k = Some true <-> enabled rules init word k.
  Proof.
    intros MT NF word. unfold rm_build. destruct (productive_spec rules init L m MT word NF) as (pv & -> & LP & PV). exact (reachable_spec rules init L m MT word NF pv LP PV).
  Qed.
End Mask.
