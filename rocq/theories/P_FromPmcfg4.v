(* Proofs: the tree stack automaton of a grammar has no transition twice if no rule is listed twice. *)
From Verif Require Import Base BMap M_Agenda M_Search M_Util M_Recog M_Automata M_CFG M_TreeStack M_Grammar M_FromPmcfg
  S_Recog S_TreeStack S_Grammar S_FromPmcfg P_Agenda P_Search P_Recog P_Automata P_TreeStack P_Grammar P_GrammarCFG P_Conversion P_FromPmcfg.

Lemma nodup_concat_key {X Y Z : Type} (F : X -> option (list Y)) (key : Y -> Z) (kx : X -> Z) : forall xs ll, opt_all F xs = Some ll ->
  NoDup (map kx xs) -> (forall x ys, In x xs -> F x = Some ys -> NoDup ys /\ forall y, In y ys -> key y = kx x) -> NoDup (concat ll).
Proof.
  induction xs as [|x xs IH]; intros ll E ND HF; cbn in E; [injection E as <-; constructor|].
  destruct (F x) as [ys|] eqn:Ex; [|discriminate]. destruct (opt_all F xs) as [l|] eqn:El; [|discriminate]. injection E as <-. cbn [concat].
  inversion ND as [|? ? N1 N2]; subst. destruct (HF x ys (or_introl eq_refl) Ex) as [Y1 Y2].
  apply NoDup_app_intro; [exact Y1|apply IH; auto; intros x' ys' Hx; apply HF; now right|].
  intros y Hy Hc. apply in_concat in Hc. destruct Hc as (ys' & Hl & Hy'). apply (opt_all_In _ _ _ El) in Hl. destruct Hl as (x' & Hx' & Ex').
  destruct (HF x' ys' (or_intror Hx') Ex') as [_ Y3]. apply N1. rewrite <- (Y2 y Hy), (Y3 y Hy'). apply in_map_iff. eauto.
Qed.

Section Once.
  Context {N T : Type} {K : Weight} (neqb : N -> N -> bool).
  Notation rule := (prule N T K).
  Notation trans := (transition (ts_instr (posstate rule)) T K).
  (* the position a transition belongs to, and the rule below it *)
  Definition home (t : trans) : posstate rule := match t_ins t with IPush _ p _ => p | IUp _ p _ _ => p | IDown _ p _ => p end.
  Definition guest (t : trans) : option rule :=
    match match t_ins t with IPush _ _ q => q | IUp _ _ q _ => q | IDown q _ _ => q end with Position r _ _ => Some r | _ => None end.

  Lemma initial_once (r : rule) ts : initial_transitions r = Some ts -> NoDup ts /\ forall t, In t ts -> home t = Initial /\ guest t = Some r.
  Proof.
    unfold initial_transitions. destruct (nth_error (down_info r) 0) as [[j w]|]; [|discriminate]. intros E. injection E as <-. split.
    - constructor; [intros [E|[]]; discriminate|constructor; [intros []|constructor]].
    - intros t [<-|[<-|[]]]; auto.
  Qed.
  Lemma var_once (r : rule) j k b p i1 j1 ri ts : var_transitions r j k b p i1 j1 ri = Some ts -> NoDup ts /\ forall t, In t ts -> home t = Position r j k /\ guest t = Some ri.
  Proof.
    unfold var_transitions. intros E.
    destruct p as [j0|]; [destruct (nth_error (down_info ri) j0) as [[e0 w0]|]; [|discriminate]|]; (destruct (nth_error (down_info ri) j1) as [[e1 w1]|]; [|discriminate]); injection E as <-;
      (split; [constructor; [intros [E|[]]; discriminate|constructor; [intros []|constructor]]|intros t [<-|[<-|[]]]; auto]).
  Qed.
  Context (r : rule) (rss : list (list rule)) (ND : forall rs, In rs rss -> NoDup rs).
  Lemma component_once j : forall c k prev b ts prev', component_transitions r rss j k prev b c = Some (ts, prev') ->
    NoDup ts /\ forall t, In t ts -> exists k', k <= k' /\ home t = Position r j k'.
  Proof.
    induction c as [|[i1 j1|t0] c IH]; intros k prev b ts prev' E; cbn [component_transitions] in E.
    - injection E as <- <-. split; [constructor|intros t []].
    - destruct (nth_error rss i1) as [rs|] eqn:Ers; [|discriminate]. destruct (nth_error prev i1) as [p|]; [|discriminate].
      destruct (opt_all (var_transitions r j k b p i1 j1) rs) as [l|] eqn:El; [|discriminate].
      destruct (component_transitions r rss j (S k) _ [] c) as [[l' prev2]|] eqn:Ec; [|discriminate]. injection E as <- <-.
      destruct (IH _ _ _ _ _ Ec) as [N1 H1].
      assert (H2 : forall t, In t (concat l) -> home t = Position r j k).
      { intros t Ht. apply in_concat in Ht. destruct Ht as (ys & Hy & Ht). apply (opt_all_In _ _ _ El) in Hy. destruct Hy as (ri & _ & E). now apply (var_once _ _ _ _ _ _ _ _ _ E). }
      split.
      + apply NoDup_app_intro; [|exact N1|].
        * apply (nodup_concat_key (var_transitions r j k b p i1 j1) guest Some rs l El).
          -- apply FinFun.Injective_map_NoDup; [intros x y E; congruence|]. apply ND. eapply nth_error_In; eassumption.
          -- intros ri ys _ E. destruct (var_once _ _ _ _ _ _ _ _ _ E) as [V1 V2]. split; [exact V1|]. intros y Hy. now apply V2.
        * intros t Ht Ht'. destruct (H1 t Ht') as (k' & L & E). rewrite (H2 t Ht) in E. injection E as E. lia.
      + intros t Ht. apply in_app_iff in Ht. destruct Ht as [Ht|Ht]; [exists k; auto|]. destruct (H1 t Ht) as (k' & L & E). exists k'. split; [lia|exact E].
    - now apply IH in E.
  Qed.
  Lemma components_once : forall cs j prev ts, components_transitions r rss j prev cs = Some ts ->
    NoDup ts /\ forall t, In t ts -> exists j' k', j <= j' /\ home t = Position r j' k'.
  Proof.
    induction cs as [|c cs IH]; intros j prev ts E; cbn [components_transitions] in E.
    - injection E as <-. split; [constructor|intros t []].
    - destruct (component_transitions r rss j 0 prev [] c) as [[l prev']|] eqn:Ec; [|discriminate].
      destruct (components_transitions r rss (S j) prev' cs) as [l'|] eqn:Ecs; [|discriminate]. injection E as <-.
      destruct (component_once _ _ _ _ _ _ _ Ec) as [N1 H1]. destruct (IH _ _ _ Ecs) as [N2 H2]. split.
      + apply NoDup_app_intro; [exact N1|exact N2|]. intros t Ht Ht'. destruct (H1 t Ht) as (k & _ & E1). destruct (H2 t Ht') as (j' & k' & L & E2). rewrite E1 in E2. injection E2 as E2 _. lia.
      + intros t Ht. apply in_app_iff in Ht. destruct Ht as [Ht|Ht]; [destruct (H1 t Ht) as (k & _ & E1); exists j, k; auto|].
        destruct (H2 t Ht) as (j' & k' & L & E2). exists j', k'. split; [lia|exact E2].
  Qed.
End Once.

Lemma transitions_once {N T : Type} {K : Weight} (neqb : N -> N -> bool) (g : pmcfg N T K) ts : NoDup (pg_rules g) -> pmcfg_transitions neqb g = Some ts -> NoDup ts.
Proof.
  intros ND E. unfold pmcfg_transitions in E. set (ir := filter _ _) in E.
  destruct (opt_all initial_transitions ir) as [l1|] eqn:E1; [|discriminate]. destruct (opt_all _ (pg_rules g)) as [l2|] eqn:E2; [|discriminate]. injection E as <-.
  assert (RO : forall r ts, rule_transitions neqb (pg_rules g) r = Some ts -> NoDup ts /\ forall t, In t ts -> exists j k, home t = Position r j k).
  { intros r ts E. unfold rule_transitions in E. destruct (opt_all (rules_of neqb (pg_rules g)) (pr_tail r)) as [rss|] eqn:Er; [|discriminate].
    assert (NR : forall rs, In rs rss -> NoDup rs).
    { intros rs Hr. apply (opt_all_In _ _ _ Er) in Hr. destruct Hr as (n & _ & En). unfold rules_of in En.
      assert (NF : NoDup (filter (fun r => neqb (pr_head r) n) (pg_rules g))) by now apply NoDup_filter. destruct (filter (fun r => neqb (pr_head r) n) (pg_rules g)) as [|x l] in En, NF; [discriminate|]. assert (EL : x :: l = rs) by congruence. now rewrite <- EL. }
    destruct (components_once r rss NR _ _ _ _ E) as [N1 H1]. split; [exact N1|]. intros t Ht. destruct (H1 t Ht) as (j' & k' & _ & E'). eauto. }
  apply NoDup_app_intro.
  - apply (nodup_concat_key initial_transitions guest Some ir l1 E1).
    + apply FinFun.Injective_map_NoDup; [intros x y E; congruence|]. now apply NoDup_filter.
    + intros r ys _ E. destruct (initial_once r ys E) as [I1 I2]. split; [exact I1|]. intros y Hy. now apply I2.
  - apply (nodup_concat_key (rule_transitions neqb (pg_rules g)) (fun t => match home t with Position r _ _ => Some r | _ => None end) Some (pg_rules g) l2 E2).
    + apply FinFun.Injective_map_NoDup; [intros x y E; congruence|assumption].
    + intros r ys _ E. destruct (RO r ys E) as [I1 I2]. split; [exact I1|]. intros y Hy. destruct (I2 y Hy) as (j & k & ->). reflexivity.
  - intros t H1 H2. apply in_concat in H1, H2. destruct H1 as (ys & Hl & Hy). destruct H2 as (zs & Hl' & Hz).
    apply (opt_all_In _ _ _ E1) in Hl. apply (opt_all_In _ _ _ E2) in Hl'. destruct Hl as (r & _ & Er). destruct Hl' as (r' & _ & Er').
    destruct (initial_once r ys Er) as [_ I1]. destruct (RO r' zs Er') as [_ I2]. destruct (I1 t Hy) as [E _]. destruct (I2 t Hz) as (j & k & E'). congruence.
Qed.
