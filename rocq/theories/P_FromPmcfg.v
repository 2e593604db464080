(* Proofs: the tree stack automaton of a grammar. *)
From Verif Require Import Base BMap M_Agenda M_Search M_Util M_Recog M_Automata M_CFG M_TreeStack M_Grammar M_FromPmcfg
  S_Recog S_TreeStack S_Grammar S_FromPmcfg P_Recog P_Automata P_TreeStack P_Grammar P_GrammarCFG P_Conversion.

(* ---- components as sequences of variables, each with the terminals before it ---- *)
Section Segs.
  Context {T : Type}.
  Notation seg := (list T * (nat * nat))%type.
  Fixpoint sg (buf : list T) (c : list (vart T)) : list seg :=
    match c with
    | [] => []
    | Tm t :: c => sg (buf ++ [t]) c
    | Var i j :: c => (buf, (i, j)) :: sg [] c
    end.
  Definition vars (c : list (vart T)) : list (nat * nat) := flat_map as_var c.
  Definition unseg (x : seg) : list (vart T) := map Tm (fst x) ++ [Var (fst (snd x)) (snd (snd x))].

  Lemma variables_one (c : list (vart T)) : variables [c] = vars c.
  Proof. unfold variables, vars. cbn. now rewrite app_nil_r. Qed.
  Lemma variables_app (a b : composition T) : variables (a ++ b) = variables a ++ variables b.
  Proof. unfold variables. now rewrite concat_app, flat_map_app. Qed.
  Lemma variables_cons c (b : composition T) : variables (c :: b) = vars c ++ variables b.
  Proof. unfold variables, vars. cbn. now rewrite flat_map_app. Qed.
  Lemma sg_vars (c : list (vart T)) : forall buf, map snd (sg buf c) = vars c.
  Proof. induction c as [|[i j|t] c IH]; intros buf; cbn; [reflexivity| |apply IH]. now rewrite IH. Qed.
  Lemma sg_length (c : list (vart T)) buf : length (sg buf c) = length (vars c).
  Proof. now rewrite <- (sg_vars c buf), map_length. Qed.
  Lemma sg_flat (c : list (vart T)) : forall buf, flat_map unseg (sg buf c) = match vars c with [] => [] | _ => map Tm buf ++ drop_tail c end.
  Proof.
    induction c as [|[i j|t] c IH]; intros buf; [reflexivity| |].
    - cbn [sg flat_map vars as_var app drop_tail]. unfold unseg at 1. cbn [fst snd]. rewrite IH, <- app_assoc. cbn [map app]. f_equal. f_equal.
      fold (vars c). destruct (vars c) eqn:E; [|reflexivity]. clear -E. induction c as [|[i j|t] c IH]; [reflexivity|discriminate|]. cbn [drop_tail]. cbn in E. fold (vars c) in E. now rewrite variables_one, E.
    - cbn [sg]. rewrite IH. cbn [vars flat_map as_var app drop_tail]. fold (vars c). rewrite variables_one. destruct (vars c); [reflexivity|]. rewrite map_app, <- app_assoc. reflexivity.
  Qed.
  Lemma drop_tail_sg (c : list (vart T)) : drop_tail c = flat_map unseg (sg [] c).
  Proof.
    rewrite sg_flat. cbn. destruct (vars c) eqn:E; [|reflexivity]. induction c as [|[i j|t] c IH]; [reflexivity|discriminate|]. cbn [drop_tail]. cbn in E. fold (vars c) in E. now rewrite variables_one, E.
  Qed.

  (* ---- the words and counters for the way down ---- *)
  Lemma last_terminal_snoc (c : list (vart T)) x : last_terminal (c ++ [x]) = match x with Tm t => [t] | _ => [] end.
  Proof. unfold last_terminal. rewrite rev_app_distr. cbn. now destruct x. Qed.
  Lemma down_fold (c : list (vart T)) : forall before n, fold_left down_step c (n, last_terminal before) = (n + length (vars c), last_terminal (before ++ c)).
  Proof.
    induction c as [|x c IH]; intros before n; cbn [fold_left]; [now rewrite app_nil_r, Nat.add_0_r|].
    replace (before ++ x :: c) with ((before ++ [x]) ++ c) by (rewrite <- app_assoc; reflexivity).
    replace (down_step (n, last_terminal before) x) with (n + length (as_var x), last_terminal (before ++ [x])).
    - rewrite IH. cbn [vars flat_map]. rewrite app_length. fold (vars c). f_equal. lia.
    - rewrite last_terminal_snoc. destruct x; cbn; f_equal; lia.
  Qed.
  Lemma down_infos_nth (cs : composition T) : forall before j, nth_error (down_infos (last_terminal before) cs) j =
    option_map (fun c => (length (vars c), last_terminal (before ++ concat (firstn (S j) cs)))) (nth_error cs j).
  Proof.
    induction cs as [|c cs IH]; intros before j; [now destruct j|]. cbn [down_infos]. rewrite down_fold. cbn [snd]. destruct j as [|j].
    - cbn. now rewrite app_nil_r.
    - cbn [nth_error]. rewrite IH. destruct (nth_error cs j) as [c'|]; [|reflexivity]. cbn [option_map]. do 3 f_equal. rewrite <- app_assoc. reflexivity.
  Qed.
  Lemma read_comps_nth (cs : composition T) : forall before j, nth_error (read_comps before cs) j =
    option_map (fun c => flat_map unseg (sg [] c) ++ map Tm (last_terminal (before ++ concat (firstn (S j) cs)))) (nth_error cs j).
  Proof.
    induction cs as [|c cs IH]; intros before j; [now destruct j|]. cbn [read_comps]. destruct j as [|j].
    - cbn. now rewrite app_nil_r, drop_tail_sg.
    - cbn [nth_error]. rewrite IH. destruct (nth_error cs j) as [c'|]; [|reflexivity]. cbn [option_map]. do 3 f_equal. rewrite <- app_assoc. reflexivity.
  Qed.

  (* ---- the components of one successor, in textual order ---- *)
  Definition comps_of (i : nat) (l : list (nat * nat)) : list nat := map snd (filter (fun v => Nat.eqb (fst v) i) l).
  Definition lastc (i : nat) (l : list (nat * nat)) : option nat := hd_error (rev (comps_of i l)).
  Lemma comps_of_app i a b : comps_of i (a ++ b) = comps_of i a ++ comps_of i b.
  Proof. unfold comps_of. now rewrite filter_app, map_app. Qed.
  Lemma comps_of_one i i' j : comps_of i [(i', j)] = if Nat.eqb i' i then [j] else [].
  Proof. unfold comps_of. cbn. now destruct (Nat.eqb i' i). Qed.
  Lemma in_comps_of i j l : In j (comps_of i l) <-> In (i, j) l.
  Proof.
    unfold comps_of. rewrite in_map_iff. split.
    - intros ([a b] & E & H). apply filter_In in H. destruct H as [H1 H2]. apply Nat.eqb_eq in H2. cbn in *. now subst.
    - intros H. exists (i, j). split; [reflexivity|]. apply filter_In. cbn. now rewrite Nat.eqb_refl.
  Qed.
  Lemma lastc_snoc i i' j l : lastc i (l ++ [(i', j)]) = if Nat.eqb i' i then Some j else lastc i l.
  Proof. unfold lastc. rewrite comps_of_app, comps_of_one. destruct (Nat.eqb i' i); [now rewrite rev_app_distr|now rewrite app_nil_r]. Qed.
  Lemma lastc_In i j l : lastc i l = Some j -> In (i, j) l.
  Proof. unfold lastc. intros H. apply in_comps_of. apply in_rev. destruct (rev (comps_of i l)); [discriminate|]. injection H as ->. now left. Qed.
End Segs.

Lemma seq_sorted n : forall a, sorted_keys Nat.compare (seq a n).
Proof. induction n as [|n IH]; intros a; cbn; [exact I|]. split; [|apply IH]. intros x Hx. apply in_seq in Hx. apply Nat.compare_lt_iff. lia. Qed.
Lemma sorted_split (l : list nat) : (forall l1 j l2 j' l3, l = l1 ++ j :: l2 ++ j' :: l3 -> j < j') -> sorted_keys Nat.compare l.
Proof.
  induction l as [|x l IH]; intros H; cbn; [exact I|]. split.
  - intros y Hy. apply in_split in Hy. destruct Hy as (l2 & l3 & ->). apply Nat.compare_lt_iff. now apply (H [] x l2 y l3).
  - apply IH. intros l1 j l2 j' l3 ->. now apply (H (x :: l1) j l2 j' l3).
Qed.
Lemma comps_of_split i (l : list (nat * nat)) l1 j l2 : comps_of i l = l1 ++ j :: l2 -> exists a b, l = a ++ (i, j) :: b /\ comps_of i a = l1 /\ comps_of i b = l2.
Proof.
  revert l1. induction l as [|[i' j'] l IH]; intros l1 H; [now destruct l1|].
  change (comps_of i ((i', j') :: l)) with (comps_of i ([(i', j')] ++ l)) in H. rewrite comps_of_app, comps_of_one in H.
  destruct (Nat.eqb_spec i' i) as [->|Ne]; cbn [app] in H.
  - destruct l1 as [|x l1]; cbn in H.
    + injection H as -> H. exists [], l. repeat split. exact H.
    + injection H as -> H. destruct (IH _ H) as (a & b & -> & H1 & H2). exists ((i, x) :: a), b. repeat split; [|assumption].
      change (comps_of i ((i, x) :: a)) with (comps_of i ([(i, x)] ++ a)). rewrite comps_of_app, comps_of_one, Nat.eqb_refl. cbn. now rewrite H1.
  - destruct (IH _ H) as (a & b & -> & H1 & H2). exists ((i', j') :: a), b. repeat split; [|assumption].
    change (comps_of i ((i', j') :: a)) with (comps_of i ([(i', j')] ++ a)). rewrite comps_of_app, comps_of_one. apply Nat.eqb_neq in Ne. now rewrite Ne.
Qed.
Lemma monotone_seq {N T W} (f : N -> nat) (r : prule N T W) : lcfrs_rule f r -> monotone r ->
  forall i, comps_of i (variables (pr_comp r)) = seq 0 (match nth_error (pr_tail r) i with Some B => f B | None => 0 end).
Proof.
  intros (_ & VE & ND) M i. apply (sorted_ext _ nat_ord).
  - apply sorted_split. intros l1 j l2 j' l3 H. destruct (comps_of_split _ _ _ _ _ H) as (a & b & E & _ & Hb).
    destruct (comps_of_split _ _ _ _ _ Hb) as (a' & b' & E' & _). subst b. now apply (M a a' b' i j j').
  - apply seq_sorted.
  - intros j. rewrite in_comps_of, in_seq. split.
    + intros H. destruct (VE _ _ H) as (B & HB & L). rewrite HB. lia.
    + intros H. destruct (nth_error (pr_tail r) i) as [B|] eqn:E; [|lia]. apply (ND i B j E). lia.
Qed.

Section Trans.
  Context {N T : Type} {K : Weight} (neqb : N -> N -> bool) (NE : EqbSpec neqb).
  Notation rule := (prule N T K).
  Notation trans := (transition (ts_instr (posstate rule)) T K).

  Definition nv (r : rule) (j : nat) : nat := match nth_error (pr_comp r) j with Some c => length (vars c) | None => 0 end.
  Definition dw (r : rule) (j : nat) : list T := last_terminal (concat (firstn (S j) (pr_comp r))).
  Definition at_var (r : rule) (j k : nat) : option (list T * (nat * nat)) :=
    match nth_error (pr_comp r) j with Some c => nth_error (sg [] c) k | None => None end.
  Definition before (r : rule) (j k : nat) : list (nat * nat) :=
    variables (firstn j (pr_comp r)) ++ match nth_error (pr_comp r) j with Some c => firstn k (vars c) | None => [] end.

  Lemma down_info_nth r j : nth_error (down_info r) j = if Nat.ltb j (length (pr_comp r)) then Some (nv r j, dw r j) else None.
  Proof.
    unfold down_info. change (@nil T) with (last_terminal (@nil (vart T))). rewrite down_infos_nth. unfold nv, dw.
    destruct (Nat.ltb_spec j (length (pr_comp r))) as [L|L].
    - destruct (nth_error (pr_comp r) j) as [c|] eqn:E; [reflexivity|]. apply nth_error_None in E. lia.
    - now rewrite (proj2 (nth_error_None _ _) L).
  Qed.

  Definition enter (r : rule) (j k : nat) (b : list T) (p : option nat) (i j1 : nat) (ri : rule) : trans :=
    match p with
    | None => Trans b (pr_weight ri) (IPush i (Position r j k) (Position ri j1 0))
    | Some j0 => Trans b wone (IUp i (Position r j k) (Position ri j0 (nv ri j0)) (Position ri j1 0))
    end.
  Definition leave (r : rule) (j k j1 : nat) (ri : rule) : trans :=
    Trans (dw ri j1) wone (IDown (Position ri j1 (nv ri j1)) (Position r j k) (Position r j (S k))).

  Lemma var_trans r j k b p i j1 ri : j1 < length (pr_comp ri) -> (forall j0, p = Some j0 -> j0 < length (pr_comp ri)) ->
    var_transitions r j k b p i j1 ri = Some [enter r j k b p i j1 ri; leave r j k j1 ri].
  Proof.
    intros H1 H2. unfold var_transitions, enter, leave. rewrite !down_info_nth. apply Nat.ltb_lt in H1. rewrite H1. destruct p as [j0|]; [|reflexivity].
    rewrite down_info_nth. specialize (H2 j0 eq_refl). apply Nat.ltb_lt in H2. now rewrite H2.
  Qed.

  Definition prev_ok (rss : list (list rule)) (prev : list (option nat)) (l : list (nat * nat)) : Prop :=
    length prev = length rss /\ forall i, i < length rss -> nth_error prev i = Some (lastc i l).

  Lemma component_ok r rss j c : forall k prev buf l, prev_ok rss prev l ->
    (forall i j1, In (i, j1) (l ++ vars c) -> i < length rss) ->
    (forall i j1 rs ri, In (i, j1) (l ++ vars c) -> nth_error rss i = Some rs -> In ri rs -> j1 < length (pr_comp ri)) ->
    exists ts prev', component_transitions r rss j k prev buf c = Some (ts, prev') /\ prev_ok rss prev' (l ++ vars c) /\
      forall t, In t ts <-> exists m b i j1 rs ri, nth_error (sg buf c) m = Some (b, (i, j1)) /\ nth_error rss i = Some rs /\ In ri rs /\
        (t = enter r j (k + m) b (lastc i (l ++ firstn m (vars c))) i j1 ri \/ t = leave r j (k + m) j1 ri).
  Proof.
    induction c as [|[i j1|t] c IH]; intros k prev buf l PO HI HJ.
    - exists [], prev. split; [reflexivity|]. split; [cbn; now rewrite app_nil_r|]. intros t. split; [intros []|]. intros (m & b & i & j1 & rs & ri & H & _). now destruct m.
    - cbn [component_transitions]. assert (Hi : i < length rss) by (apply (HI i j1); apply in_or_app; right; now left).
      destruct PO as [PL PO]. rewrite (PO i Hi). destruct (nth_error rss i) as [rs|] eqn:Ers; [|apply nth_error_None in Ers; lia].
      assert (HV : forall ri, In ri rs -> var_transitions r j k buf (lastc i l) i j1 ri = Some [enter r j k buf (lastc i l) i j1 ri; leave r j k j1 ri]).
      { intros ri Hri. apply var_trans.
        - apply (HJ i j1 rs ri); auto. apply in_or_app; right; now left.
        - intros j0 E. apply (HJ i j0 rs ri); auto. apply lastc_In in E. apply in_or_app. now left. }
      assert (HA : exists ll, opt_all (var_transitions r j k buf (lastc i l) i j1) rs = Some ll /\
                forall t, In t (concat ll) <-> exists ri, In ri rs /\ (t = enter r j k buf (lastc i l) i j1 ri \/ t = leave r j k j1 ri)).
      { clear -HV. induction rs as [|ri rs IH]; [exists []; split; [reflexivity|]; intros t; split; [intros []|intros (x & [] & _)]|].
        destruct IH as (ll & E & H); [intros x Hx; apply HV; now right|]. cbn [opt_all]. rewrite (HV ri (or_introl eq_refl)), E. eexists. split; [reflexivity|].
        intros t. cbn [concat]. rewrite in_app_iff, H. cbn [In]. split.
        - intros [[<-|[<-|[]]]|(x & Hx & D)]; [exists ri; auto|exists ri; auto|exists x; auto].
        - intros (x & [<-|Hx] & D); [left; destruct D as [->| ->]; auto|right; eauto]. }
      destruct HA as (ll & -> & HL).
      destruct (IH (S k) (set_nth i (Some j1) prev) [] (l ++ [(i, j1)])) as (ts & prev' & E1 & E2 & E3).
      + split; [now rewrite set_nth_length|]. intros i' Hi'. rewrite nth_error_set_nth, lastc_snoc, PL. rewrite (Nat.eqb_sym i i'). destruct (Nat.eqb_spec i' i) as [->|]; [|now apply PO].
        destruct (Nat.ltb_spec i (length rss)); [reflexivity|lia].
      + intros i' j' H. apply (HI i' j'). rewrite <- app_assoc in H. exact H.
      + intros i' j' rs' ri' H. apply (HJ i' j' rs' ri'). rewrite <- app_assoc in H. exact H.
      + rewrite E1. exists (concat ll ++ ts), prev'. split; [reflexivity|]. split; [rewrite <- app_assoc in E2; exact E2|].
        intros t. rewrite in_app_iff, HL, E3. cbn [sg]. split.
        * intros [(ri & Hri & D)|(m & b & i' & j' & rs' & ri & H1 & H2 & H3 & H4)].
          -- exists 0, buf, i, j1, rs, ri. rewrite Nat.add_0_r. cbn [firstn]. rewrite app_nil_r. repeat split; auto.
          -- exists (S m), b, i', j', rs', ri. cbn [vars flat_map as_var app firstn]. fold (vars c). rewrite <- app_assoc in H4. replace (k + S m) with (S k + m) by lia. repeat split; auto.
        * intros (m & b & i' & j' & rs' & ri & H1 & H2 & H3 & H4). destruct m as [|m].
          -- left. cbn in H1. injection H1 as <- <- <-. rewrite Nat.add_0_r in H4. cbn [firstn] in H4. rewrite app_nil_r in H4. exists ri. rewrite Ers in H2. injection H2 as <-. auto.
          -- right. exists m, b, i', j', rs', ri. cbn [vars flat_map as_var app firstn] in H4. fold (vars c) in H4. rewrite <- app_assoc. replace (S k + m) with (k + S m) by lia. repeat split; auto.
    - cbn [component_transitions]. destruct (IH k prev (buf ++ [t]) l PO HI HJ) as (ts & prev' & E). exists ts, prev'. exact E.
  Qed.

  Lemma components_ok r rss cs : forall j prev l, prev_ok rss prev l ->
    (forall i j1, In (i, j1) (l ++ variables cs) -> i < length rss) ->
    (forall i j1 rs ri, In (i, j1) (l ++ variables cs) -> nth_error rss i = Some rs -> In ri rs -> j1 < length (pr_comp ri)) ->
    exists ts, components_transitions r rss j prev cs = Some ts /\
      forall t, In t ts <-> exists m c k b i j1 rs ri, nth_error cs m = Some c /\ nth_error (sg [] c) k = Some (b, (i, j1)) /\ nth_error rss i = Some rs /\ In ri rs /\
        (t = enter r (j + m) k b (lastc i (l ++ variables (firstn m cs) ++ firstn k (vars c))) i j1 ri \/ t = leave r (j + m) k j1 ri).
  Proof.
    induction cs as [|c cs IH]; intros j prev l PO HI HJ.
    - exists []. split; [reflexivity|]. intros t. split; [intros []|]. intros (m & c & k & b & i & j1 & rs & ri & H & _). now destruct m.
    - rewrite variables_cons in HI, HJ. cbn [components_transitions].
      destruct (component_ok r rss j c 0 prev [] l PO) as (ts1 & prev' & E1 & E2 & E3).
      + intros i j1 H. apply (HI i j1). rewrite app_assoc. apply in_or_app. now left.
      + intros i j1 rs ri H. apply (HJ i j1 rs ri). rewrite app_assoc. apply in_or_app. now left.
      + rewrite E1. destruct (IH (S j) prev' (l ++ vars c) E2) as (ts2 & E4 & E5).
        * intros i j1 H. apply (HI i j1). now rewrite app_assoc.
        * intros i j1 rs ri H. apply (HJ i j1 rs ri). now rewrite app_assoc.
        * rewrite E4. exists (ts1 ++ ts2). split; [reflexivity|]. intros t. rewrite in_app_iff, E3, E5. split.
          -- intros [(m & b & i & j1 & rs & ri & H1 & H2 & H3 & H4)|(m & c' & k & b & i & j1 & rs & ri & H1 & H2 & H3 & H4 & H5)].
             ++ exists 0, c, m, b, i, j1, rs, ri. rewrite Nat.add_0_r. cbn [firstn variables concat flat_map app]. cbn [Nat.add] in H4. repeat split; auto.
             ++ exists (S m), c', k, b, i, j1, rs, ri. cbn [firstn]. rewrite variables_cons, <- app_assoc. rewrite <- app_assoc in H5. replace (j + S m) with (S j + m) by lia. repeat split; auto.
          -- intros (m & c' & k & b & i & j1 & rs & ri & H1 & H2 & H3 & H4 & H5). destruct m as [|m].
             ++ left. cbn in H1. injection H1 as <-. rewrite Nat.add_0_r in H5. cbn [firstn variables concat flat_map app] in H5. exists k, b, i, j1, rs, ri. repeat split; auto.
             ++ right. cbn [firstn] in H5. rewrite variables_cons, <- app_assoc in H5. exists m, c', k, b, i, j1, rs, ri. rewrite <- app_assoc. replace (S j + m) with (j + S m) by lia. repeat split; auto.
  Qed.

  Lemma rules_of_spec (rules : list rule) n : match rules_of neqb rules n with
    | Some rs => forall ri, In ri rs <-> In ri rules /\ pr_head ri = n
    | None => forall ri, In ri rules -> pr_head ri <> n end.
  Proof.
    unfold rules_of. assert (H : forall ri, In ri (filter (fun r => neqb (pr_head r) n) rules) <-> In ri rules /\ pr_head ri = n).
    { intros ri. rewrite filter_In. now rewrite (NE (pr_head ri) n). }
    destruct (filter _ rules) as [|x l]; [|exact H]. intros ri H1 H2. now apply (H ri).
  Qed.

  Context (f : N -> nat) (g : pmcfg N T K) (OG : ordered_grammar f g).
  Notation rules := (pg_rules g).

  Definition prevc (j1 : nat) : option nat := match j1 with 0 => None | S j0 => Some j0 end.
  Lemma at_before r j k b i j1 : at_var r j k = Some (b, (i, j1)) -> exists rest, variables (pr_comp r) = before r j k ++ (i, j1) :: rest.
  Proof.
    unfold at_var, before. destruct (nth_error (pr_comp r) j) as [c|] eqn:E; [|discriminate]. intros H.
    assert (HV : nth_error (vars c) k = Some (i, j1)) by (rewrite <- (sg_vars c []), nth_error_map, H; reflexivity).
    destruct (nth_error_split _ _ HV) as (l1 & l2 & E1 & E2). destruct (nth_error_split _ _ E) as (c1 & c2 & E3 & E4).
    exists (l2 ++ variables c2). rewrite E3, <- E4. rewrite firstn_app, firstn_all, Nat.sub_diag. cbn [firstn]. rewrite app_nil_r.
    rewrite variables_app, variables_cons, E1, <- E2. rewrite firstn_app, firstn_all, Nat.sub_diag. cbn [firstn]. rewrite app_nil_r, <- !app_assoc. reflexivity.
  Qed.
  Lemma at_seq r j k b i j1 : In r rules -> at_var r j k = Some (b, (i, j1)) ->
    comps_of i (before r j k) = seq 0 j1 /\ exists B, nth_error (pr_tail r) i = Some B /\ j1 < f B.
  Proof.
    intros Hr H. destruct (at_before _ _ _ _ _ _ H) as [rest E]. destruct OG as (_ & OR & _). destruct (OR r Hr) as (L & M & _).
    pose proof (monotone_seq f r L M i) as S1. rewrite E in S1. change ((i, j1) :: rest) with ([(i, j1)] ++ rest) in S1. rewrite !comps_of_app, comps_of_one, Nat.eqb_refl in S1. cbn [app] in S1.
    assert (G : forall a n l1 x l2, l1 ++ x :: l2 = seq a n -> l1 = seq a (length l1) /\ x = a + length l1 /\ length l1 < n).
    { clear. intros a n l1. revert a n. induction l1 as [|y l1 IH]; intros a n x l2 E; destruct n as [|n]; try discriminate; cbn in E; injection E as E1 E2.
      - cbn. repeat split; lia.
      - destruct (IH _ _ _ _ E2) as (H1 & H2 & H3). cbn. rewrite <- H1. repeat split; [congruence|lia|lia]. }
    destruct (G _ _ _ _ _ S1) as (G1 & G2 & G3). cbn in G2. rewrite G2. split; [exact G1|]. destruct (nth_error (pr_tail r) i) as [B|]; [|lia]. exists B. split; [reflexivity|assumption].
  Qed.
  Lemma lastc_seq i l j1 : comps_of i l = seq 0 j1 -> lastc i l = prevc j1.
  Proof.
    intros H. unfold lastc. rewrite H. destruct j1 as [|j0]; [reflexivity|]. rewrite seq_S, rev_app_distr. reflexivity.
  Qed.

  Lemma rule_ok r : In r rules -> exists ts, rule_transitions neqb rules r = Some ts /\
    forall t, In t ts <-> exists j k b i j1 ri, at_var r j k = Some (b, (i, j1)) /\ nth_error (pr_tail r) i = Some (pr_head ri) /\ In ri rules /\
      (t = enter r j k b (prevc j1) i j1 ri \/ t = leave r j k j1 ri).
  Proof.
    intros Hr. destruct OG as (FO & OR & DT & _). destruct (OR r Hr) as ((_ & VE & _) & _).
    unfold rule_transitions. destruct (opt_all (rules_of neqb rules) (pr_tail r)) as [rss|] eqn:Erss.
    2:{ exfalso. apply opt_all_None in Erss. destruct Erss as (n & Hn & E). pose proof (rules_of_spec rules n) as H. rewrite E in H. destruct (DT r n Hr Hn) as (r' & H1 & H2). now apply (H r'). }
    pose proof (opt_all_nth _ _ _ Erss) as HN. pose proof (opt_all_len _ _ _ Erss) as HL.
    assert (HR : forall i rs ri, nth_error rss i = Some rs -> (In ri rs <-> In ri rules /\ nth_error (pr_tail r) i = Some (pr_head ri))).
    { intros i rs ri E. rewrite HN in E. destruct (nth_error (pr_tail r) i) as [n|]; [|discriminate]. pose proof (rules_of_spec rules n) as H. rewrite E in H. rewrite H. split; intros [H1 H2]; split; auto; congruence. }
    destruct (components_ok r rss (pr_comp r) 0 (map (fun _ => None) rss) []) as (ts & E1 & E2).
    - split; [apply map_length|]. intros i Hi. rewrite nth_error_map. destruct (nth_error rss i) eqn:E; [reflexivity|]. apply nth_error_None in E. lia.
    - intros i j1 H. cbn in H. destruct (VE i j1 H) as (B & HB & _). rewrite HL. apply nth_error_Some. congruence.
    - intros i j1 rs ri H E Hri. cbn in H. destruct (VE i j1 H) as (B & HB & L). apply (HR i rs ri E) in Hri. destruct Hri as [H1 H2]. rewrite (FO ri H1). congruence.
    - exists ts. split; [exact E1|]. intros t. rewrite E2. split.
      + intros (j & c & k & b & i & j1 & rs & ri & H1 & H2 & H3 & H4 & H5). exists j, k, b, i, j1, ri.
        assert (A : at_var r j k = Some (b, (i, j1))) by (unfold at_var; now rewrite H1).
        apply (HR i rs ri H3) in H4. destruct H4 as [H4 H6]. repeat split; auto.
        destruct (at_seq _ _ _ _ _ _ Hr A) as [S1 _]. unfold before in S1. rewrite H1 in S1. rewrite <- (lastc_seq _ _ _ S1). exact H5.
      + intros (j & k & b & i & j1 & ri & A & H2 & H3 & H4). pose proof A as A0. unfold at_var in A. destruct (nth_error (pr_comp r) j) as [c|] eqn:E; [|discriminate].
        destruct (nth_error rss i) as [rs|] eqn:Ers; [|apply nth_error_None in Ers; rewrite HL in Ers; apply nth_error_None in Ers; congruence].
        exists j, c, k, b, i, j1, rs, ri. repeat split; auto; [now apply (HR i rs ri Ers)|].
        destruct (at_seq _ _ _ _ _ _ Hr A0) as [S1 _]. unfold before in S1. rewrite E in S1. cbn [app]. rewrite (lastc_seq _ _ _ S1). exact H4.
  Qed.

  Definition ipush (r : rule) : trans := Trans [] (pr_weight r) (IPush 0 Initial (Position r 0 0)).
  Definition idown (r : rule) : trans := Trans (dw r 0) wone (IDown (Position r 0 (nv r 0)) Initial Designated).

  Lemma opt_all_concat {X Y} (F : X -> option (list Y)) l : (forall x, In x l -> F x <> None) ->
    exists ll, opt_all F l = Some ll /\ forall y, In y (concat ll) <-> exists x ys, In x l /\ F x = Some ys /\ In y ys.
  Proof.
    intros H. destruct (opt_all_total F l H) as [ll E]. exists ll. split; [exact E|]. intros y. rewrite in_concat. split.
    - intros (ys & H1 & H2). apply (opt_all_In _ _ _ E) in H1. destruct H1 as (x & H3 & H4). eauto.
    - intros (x & ys & H1 & H2 & H3). exists ys. split; [|assumption]. apply (opt_all_In _ _ _ E). eauto.
  Qed.

  Definition is_trans (t : trans) : Prop :=
    (exists r, In r rules /\ In (pr_head r) (pg_initial g) /\ (t = ipush r \/ t = idown r)) \/
    (exists r j k b i j1 ri, In r rules /\ at_var r j k = Some (b, (i, j1)) /\ nth_error (pr_tail r) i = Some (pr_head ri) /\ In ri rules /\
      (t = enter r j k b (prevc j1) i j1 ri \/ t = leave r j k j1 ri)).
  Lemma pmcfg_transitions_spec : exists ts, pmcfg_transitions neqb g = Some ts /\ forall t, In t ts <-> is_trans t.
  Proof.
    unfold pmcfg_transitions.
    set (ir := filter (fun r => memb neqb (pr_head r) (pg_initial g)) rules).
    assert (IR : forall r, In r ir <-> In r rules /\ In (pr_head r) (pg_initial g)).
    { intros r. unfold ir. rewrite filter_In. now rewrite (memb_In neqb NE). }
    assert (II : forall r, In r ir -> initial_transitions r = Some [ipush r; idown r]).
    { intros r Hr. apply IR in Hr. destruct Hr as [Hr _]. unfold initial_transitions. rewrite down_info_nth. destruct OG as (_ & OR & _). destruct (OR r Hr) as (_ & _ & C).
      destruct (pr_comp r) eqn:E; [congruence|]. reflexivity. }
    destruct (opt_all_concat initial_transitions ir) as (l1 & -> & H1); [intros r Hr; rewrite (II r Hr); discriminate|].
    destruct (opt_all_concat (rule_transitions neqb rules) rules) as (l2 & -> & H2); [intros r Hr; destruct (rule_ok r Hr) as (ts & -> & _); discriminate|].
    eexists. split; [reflexivity|]. intros t. rewrite in_app_iff, H1, H2. unfold is_trans. split.
    - intros [(r & ys & H3 & H4 & H5)|(r & ys & H3 & H4 & H5)].
      + left. exists r. rewrite (II r H3) in H4. injection H4 as <-. apply IR in H3. destruct H3. repeat split; auto. destruct H5 as [<-|[<-|[]]]; auto.
      + right. destruct (rule_ok r H3) as (ts & E1 & E2). rewrite E1 in H4. injection H4 as <-. apply E2 in H5. destruct H5 as (j & k & b & i & j1 & ri & H5). exists r, j, k, b, i, j1, ri. split; assumption.
    - intros [(r & H3 & H4 & H5)|(r & j & k & b & i & j1 & ri & H3 & H4)].
      + left. exists r, [ipush r; idown r]. assert (HI : In r ir) by now apply IR. repeat split; auto. destruct H5 as [->| ->]; cbn; auto.
      + right. destruct (rule_ok r H3) as (ts & E1 & E2). exists r, ts. repeat split; auto. apply E2. exists j, k, b, i, j1, ri. assumption.
  Qed.
End Trans.
