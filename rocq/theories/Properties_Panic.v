(* C18: for which grammars the conversion to a tree stack automaton panics, exactly. *)
From Verif Require Import M_Nom Base M_Util M_Recog M_Agenda M_Automata M_TreeStack M_Grammar M_FromPmcfg.
From Verif Require Import P_Agenda P_FromPmcfg Properties_FromPmcfg.

(* the grammar is complete: rules of initial nonterminals have a component, every successor has a rule, and every variable stands
   for a component that all rules of the successor have *)
Definition complete_grammar {N T : Type} {K : Weight} (g : pmcfg N T K) : Prop :=
  (forall r, In r (pg_rules g) -> In (pr_head r) (pg_initial g) -> pr_comp r <> []) /\
  (forall r A, In r (pg_rules g) -> In A (pr_tail r) -> exists s, In s (pg_rules g) /\ pr_head s = A) /\
  (forall r c i j, In r (pg_rules g) -> In c (pr_comp r) -> In (Var i j) c ->
     exists A, nth_error (pr_tail r) i = Some A /\ forall s, In s (pg_rules g) -> pr_head s = A -> j < length (pr_comp s)).

Lemma opt_all_some {X Y : Type} (f : X -> option Y) (l : list X) : (exists ys, opt_all f l = Some ys) <-> (forall x, In x l -> exists y, f x = Some y).
Proof.
  induction l as [|x l [IH1 IH2]]; cbn.
  - split; [intros _ x []|intros _; now exists []].
  - split.
    + intros (ys & E). destruct (f x) as [y|] eqn:Ex; [|discriminate]. destruct (opt_all f l) as [ys'|]; [|discriminate]. intros z [<-|HI]; [now exists y|]. apply IH1; [now exists ys'|exact HI].
    + intros HA. destruct (HA x (or_introl eq_refl)) as (y & ->). destruct IH2 as (ys & ->); [intros z HZ; apply HA; now right|]. now exists (y :: ys).
Qed.
Lemma opt_all_nth {X Y : Type} (f : X -> option Y) (l : list X) ys : opt_all f l = Some ys -> length ys = length l /\ forall i x, nth_error l i = Some x -> exists y, nth_error ys i = Some y /\ f x = Some y.
Proof.
  revert ys. induction l as [|x l IH]; intros ys; cbn.
  - intros E. injection E as <-. split; [reflexivity|]. intros [|i] x; discriminate.
  - destruct (f x) as [y|] eqn:Ex; [|discriminate]. destruct (opt_all f l) as [ys'|] eqn:El; [|discriminate]. intros E. injection E as <-. destruct (IH ys' eq_refl) as [HL HN]. split; [cbn; now rewrite HL|].
    intros [|i] z; cbn; [intros E; injection E as <-; now exists y|apply HN].
Qed.

Section Panic.
  Context {N T : Type} {K : Weight} (neqb : N -> N -> bool) (NE : EqbSpec neqb).
  Notation rule := (prule N T K).
  Lemma down_infos_length (buffer : list T) cs : length (down_infos buffer cs) = length cs.
  Proof. revert buffer. induction cs as [|c cs IH]; intros buffer; cbn; [reflexivity|]. now rewrite IH. Qed.
  Lemma down_info_some (r : rule) j : (exists x, nth_error (down_info r) j = Some x) <-> j < length (pr_comp r).
  Proof.
    unfold down_info. rewrite <- (down_infos_length [] (pr_comp r)). rewrite <- nth_error_Some. destruct (nth_error (down_infos [] (pr_comp r)) j) as [x|]; split; try congruence; [intros _; now exists x|intros (x & E); discriminate].
  Qed.
  Lemma var_some (r : rule) j k buffer prev i1 j1 (ri : rule) : (forall j0, prev = Some j0 -> j0 < length (pr_comp ri)) ->
    (exists l, var_transitions r j k buffer prev i1 j1 ri = Some l) <-> j1 < length (pr_comp ri).
  Proof.
    intros HP. rewrite <- (down_info_some ri j1). unfold var_transitions.
    assert (X : exists a, match prev with None => Some (pr_weight ri, IPush i1 (Position r j k) (Position ri j1 0)) | Some j0 => match nth_error (down_info ri) j0 with Some (e0, _) => Some (wone, IUp i1 (Position r j k) (Position ri j0 e0) (Position ri j1 0)) | None => None end end = Some a).
    { destruct prev as [j0|]; [|eexists; reflexivity]. destruct (proj2 (down_info_some ri j0) (HP j0 eq_refl)) as ([e0 w0] & ->). eexists. reflexivity. }
    destruct X as ([w a] & ->). destruct (nth_error (down_info ri) j1) as [[e1 w1]|]; [|split; intros (x & E); discriminate]. split; intros _; eexists; reflexivity.
  Qed.
  (* the indices of previous_component are components of the rules *)
  Definition prev_ok (rss : list (list rule)) (prev : list (option nat)) : Prop :=
    length prev = length rss /\ forall i rs j0, nth_error rss i = Some rs -> nth_error prev i = Some (Some j0) -> forall s, In s rs -> j0 < length (pr_comp s).
  Definition vars_ok (rss : list (list rule)) (c : list (vart T)) : Prop :=
    forall i j, In (Var i j) c -> exists rs, nth_error rss i = Some rs /\ forall s, In s rs -> j < length (pr_comp s).
  Lemma set_nth_length {X : Type} i (x : X) l : length (set_nth i x l) = length l.
  Proof. revert i. induction l as [|y l IH]; intros [|i]; cbn; auto. Qed.
  Lemma set_nth_get {X : Type} i k (x y : X) l : nth_error (set_nth i x l) k = Some y -> k = i /\ y = x \/ nth_error l k = Some y.
  Proof.
    revert i k. induction l as [|z l IH]; intros [|i] [|k]; cbn; try discriminate; auto.
    - intros E. injection E as <-. now left.
    - intros E. destruct (IH i k E) as [[-> ->]|E2]; [now left|now right].
  Qed.
  Lemma component_some (r : rule) rss j c : forall k prev buffer, prev_ok rss prev ->
    (vars_ok rss c -> exists l prev', component_transitions r rss j k prev buffer c = Some (l, prev') /\ prev_ok rss prev') /\
    (forall l prev', component_transitions r rss j k prev buffer c = Some (l, prev') -> vars_ok rss c /\ prev_ok rss prev').
  Proof.
    induction c as [|x c IH]; intros k prev buffer HP; cbn [component_transitions].
    - split; [intros _; exists [], prev; now split|]. intros l prev' E. injection E as <- <-. split; [intros i0 j0 []|exact HP].
    - destruct x as [i1 j1|t].
      + split.
        * intros HV. destruct (HV i1 j1 (or_introl eq_refl)) as (rs & ER & HS). rewrite ER.
          destruct (nth_error prev i1) as [p|] eqn:EP; [|exfalso; apply nth_error_None in EP; destruct HP as [HL _]; assert (i1 < length rss) by (apply nth_error_Some; congruence); lia].
          destruct (proj2 (opt_all_some (var_transitions r j k buffer p i1 j1) rs)) as (ls & ->).
          { intros s HI. apply var_some; [|now apply HS]. intros j0 ->. exact (proj2 HP i1 rs j0 ER EP s HI). }
          assert (HP' : prev_ok rss (set_nth i1 (Some j1) prev)).
          { split; [rewrite set_nth_length; exact (proj1 HP)|]. intros i rs' j0 ER' EN s HI. apply set_nth_get in EN. destruct EN as [[-> EJ]|EN]; [injection EJ as ->; rewrite ER in ER'; injection ER' as <-; now apply HS|exact (proj2 HP i rs' j0 ER' EN s HI)]. }
          destruct (proj1 (IH (S k) _ [] HP')) as (l & prev' & -> & HQ); [intros i j0 HI; apply HV; now right|]. eexists _, _. split; [reflexivity|exact HQ].
        * intros l prev'. destruct (nth_error rss i1) as [rs|] eqn:ER; [|discriminate]. destruct (nth_error prev i1) as [p|] eqn:EP; [|discriminate].
          destruct (opt_all (var_transitions r j k buffer p i1 j1) rs) as [ls|] eqn:EA; [|discriminate].
          assert (HS : forall s, In s rs -> j1 < length (pr_comp s)).
          { intros s HI. destruct (proj1 (opt_all_some _ rs) (ex_intro _ ls EA) s HI) as (y & EY). refine (proj1 (var_some r j k buffer p i1 j1 s _) (ex_intro _ y EY)). intros j0 ->. exact (proj2 HP i1 rs j0 ER EP s HI). }
          assert (HP' : prev_ok rss (set_nth i1 (Some j1) prev)).
          { split; [rewrite set_nth_length; exact (proj1 HP)|]. intros i rs' j0 ER' EN s HI. apply set_nth_get in EN. destruct EN as [[-> EJ]|EN]; [injection EJ as ->; rewrite ER in ER'; injection ER' as <-; now apply HS|exact (proj2 HP i rs' j0 ER' EN s HI)]. }
          destruct (component_transitions r rss j (S k) (set_nth i1 (Some j1) prev) [] c) as [[l' pr']|] eqn:EC; [|discriminate]. intros E. injection E as <- <-.
          destruct (proj2 (IH (S k) _ [] HP') _ _ EC) as [HV HQ]. split; [|exact HQ]. intros i j0 [E|HI]; [injection E as <- <-; now exists rs|now apply HV].
      + destruct (IH k prev (buffer ++ [t]) HP) as [IH1 IH2]. split.
        * intros HV. apply IH1. intros i j0 HI. apply HV. now right.
        * intros l prev' E. destruct (IH2 _ _ E) as [HV HQ]. split; [|exact HQ]. intros i j0 [X|HI]; [discriminate|now apply HV].
  Qed.
  Lemma components_some (r : rule) rss cs : forall j prev, prev_ok rss prev -> (exists l, components_transitions r rss j prev cs = Some l) <-> (forall c, In c cs -> vars_ok rss c).
  Proof.
    induction cs as [|c cs IH]; intros j prev HP; cbn [components_transitions].
    - split; [intros _ c []|intros _; now exists []].
    - destruct (component_some r rss j c 0 prev [] HP) as [C1 C2]. split.
      + intros (l & E). destruct (component_transitions r rss j 0 prev [] c) as [[l1 prev']|]; [|discriminate]. destruct (C2 _ _ eq_refl) as [HV HQ].
        destruct (components_transitions r rss (S j) prev' cs) as [l2|] eqn:E2; [|discriminate]. intros d [<-|HI]; [exact HV|]. exact (proj1 (IH (S j) prev' HQ) (ex_intro _ l2 E2) d HI).
      + intros HA. destruct (C1 (HA c (or_introl eq_refl))) as (l1 & prev' & -> & HQ). destruct (proj2 (IH (S j) prev' HQ)) as (l2 & ->); [intros d HI; apply HA; now right|]. now exists (l1 ++ l2).
  Qed.
  Lemma rules_of_some (rules : list rule) A : (exists rs, rules_of neqb rules A = Some rs) <-> exists s, In s rules /\ pr_head s = A.
  Proof.
    unfold rules_of. destruct (filter (fun r => neqb (pr_head r) A) rules) as [|s l] eqn:E.
    - split; [intros (rs & X); discriminate|]. intros (s & HI & HA). assert (X : In s (filter (fun r => neqb (pr_head r) A) rules)) by (apply filter_In; split; [exact HI|now apply NE]). rewrite E in X. destruct X.
    - split; [|intros _; eexists; reflexivity]. intros _. assert (X : In s (filter (fun r => neqb (pr_head r) A) rules)) by (rewrite E; now left). apply filter_In in X. destruct X as [HI X]. apply NE in X. now exists s.
  Qed.
  Lemma rules_of_in (rules : list rule) A rs : rules_of neqb rules A = Some rs -> forall s, In s rs <-> In s rules /\ pr_head s = A.
  Proof.
    unfold rules_of. intros E s. assert (X : In s (filter (fun r => neqb (pr_head r) A) rules) <-> In s rules /\ pr_head s = A) by (rewrite filter_In; rewrite (NE (pr_head s) A); tauto).
    rewrite <- X. destruct (filter (fun r => neqb (pr_head r) A) rules); [discriminate|]. injection E as <-. reflexivity.
  Qed.
  Lemma rule_some (rules : list rule) r : (exists l, rule_transitions neqb rules r = Some l) <->
    (forall A, In A (pr_tail r) -> exists s, In s rules /\ pr_head s = A) /\
    (forall c i j, In c (pr_comp r) -> In (Var i j) c -> exists A, nth_error (pr_tail r) i = Some A /\ forall s, In s rules -> pr_head s = A -> j < length (pr_comp s)).
  Proof.
    unfold rule_transitions. destruct (opt_all (rules_of neqb rules) (pr_tail r)) as [rss|] eqn:E.
    - destruct (opt_all_nth _ _ _ E) as [HL HN].
      assert (HP : prev_ok rss (map (fun _ => None) rss)).
      { split; [apply map_length|]. intros i rs j0 _ EN. rewrite nth_error_map in EN. destruct (nth_error rss i); discriminate. }
      rewrite (components_some r rss (pr_comp r) 0 _ HP). split.
      + intros HV. split; [intros A HA; apply rules_of_some; exact (proj1 (opt_all_some _ _) (ex_intro _ rss E) A HA)|].
        intros c i j Hc HI. destruct (HV c Hc i j HI) as (rs & ER & HS).
        assert (Hi : i < length (pr_tail r)) by (rewrite <- HL; apply nth_error_Some; congruence). destruct (nth_error (pr_tail r) i) as [A|] eqn:EA; [|apply nth_error_None in EA; lia].
        exists A. split; [reflexivity|]. intros s Hs HA. destruct (HN i A EA) as (rs' & ER' & EO). rewrite ER in ER'. injection ER' as <-. apply HS. apply (rules_of_in _ _ _ EO). now split.
      + intros [_ HV] c Hc i j HI. destruct (HV c i j Hc HI) as (A & EA & HS). destruct (HN i A EA) as (rs & ER & EO). exists rs. split; [exact ER|]. intros s Hs. apply (rules_of_in _ _ _ EO) in Hs. now apply HS.
    - split; [intros (l & X); discriminate|]. intros [HA _]. exfalso.
      assert (X : exists ys, opt_all (rules_of neqb rules) (pr_tail r) = Some ys) by (apply opt_all_some; intros A HI; apply rules_of_some; now apply HA). destruct X as (ys & X). congruence.
  Qed.
End Panic.

(* C18: the conversion succeeds if and only if the grammar is complete. *)
Theorem C18_conversion_defined :
  forall (N T : Type) (K : Weight) (neqb : N -> N -> bool) (reqb : prule N T K -> prule N T K -> bool) (teqb : T -> T -> bool), EqbSpec neqb ->
  forall g : pmcfg N T K, (exists M, tsa_from_pmcfg neqb reqb teqb g = Some M) <-> complete_grammar g.
Proof.
  intros N T K neqb reqb teqb NE g. unfold tsa_from_pmcfg, pmcfg_transitions.
  assert (I : (exists l, opt_all (@initial_transitions N T K) (filter (fun r => memb neqb (pr_head r) (pg_initial g)) (pg_rules g)) = Some l) <->
              (forall r, In r (pg_rules g) -> In (pr_head r) (pg_initial g) -> pr_comp r <> [])).
  { rewrite opt_all_some. split.
    - intros HA r HI HH. destruct (HA r) as (l & E). { apply filter_In. split; [exact HI|]. now apply (P_Agenda.memb_In neqb NE). }
      unfold initial_transitions in E. intros X. unfold down_info in E. rewrite X in E. discriminate.
    - intros HA r HI. apply filter_In in HI. destruct HI as [HI HM]. apply (P_Agenda.memb_In neqb NE) in HM. specialize (HA r HI HM). unfold initial_transitions.
      destruct (proj2 (down_info_some r 0)) as ([j w] & ->); [destruct (pr_comp r); [now elim HA|cbn; lia]|]. eexists. reflexivity. }
  assert (R : (exists l, opt_all (rule_transitions neqb (pg_rules g)) (pg_rules g) = Some l) <->
              (forall r, In r (pg_rules g) -> (forall A, In A (pr_tail r) -> exists s, In s (pg_rules g) /\ pr_head s = A) /\
                (forall c i j, In c (pr_comp r) -> In (Var i j) c -> exists A, nth_error (pr_tail r) i = Some A /\ forall s, In s (pg_rules g) -> pr_head s = A -> j < length (pr_comp s)))).
  { rewrite opt_all_some. split; intros HA r HI; [apply (rule_some neqb NE)|apply (rule_some neqb NE)]; now apply HA. }
  unfold complete_grammar. split.
  - intros (M & E). destruct (opt_all initial_transitions _) as [l1|]; [|discriminate]. destruct (opt_all (rule_transitions neqb (pg_rules g)) (pg_rules g)) as [l2|]; [|discriminate].
    pose proof (proj1 R (ex_intro _ l2 eq_refl)) as HR. split; [apply I; now exists l1|]. split; [intros r A HI; now apply HR|intros r c i j HI; now apply HR].
  - intros (H1 & H2 & H3). destruct (proj2 I H1) as (l1 & ->). destruct (proj2 R) as (l2 & ->); [intros r HI; split; [intros A; now apply H2|intros c i j; now apply H3]|]. eexists. reflexivity.
Qed.
Print Assumptions C18_conversion_defined.
Example C18_conversion_example :
  complete_grammar (PMCFG [0] [ex_rule 0 [1] [[Var 0 1; Tm 7; Var 0 0]] 0; ex_rule 1 [] [[Tm 0]; [Tm 1]] 0] : pmcfg nat nat CostWeight) /\
  ~ complete_grammar (PMCFG [0] [ex_rule 0 [1] [[Var 0 1]] 0; ex_rule 1 [] [[Tm 0]] 0] : pmcfg nat nat CostWeight) /\
  ~ complete_grammar (PMCFG [0] [ex_rule 0 [] [] 0] : pmcfg nat nat CostWeight).
Proof.
  assert (NE : EqbSpec Nat.eqb) by (intros x y; apply Nat.eqb_eq).
  split; [|split]; [| |]; rewrite <- (C18_conversion_defined nat nat CostWeight Nat.eqb ex_reqb Nat.eqb NE).
  - eexists. vm_compute. reflexivity.
  - intros (M & E). discriminate.
  - intros (M & E). discriminate.
Qed.
