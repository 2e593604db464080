(* Proofs: the runs of the tree stack automaton of a grammar are its derivations. *)
From Verif Require Import Base BMap M_Agenda M_Search M_Util M_Recog M_Automata M_CFG M_TreeStack M_Grammar M_FromPmcfg
  S_Recog S_TreeStack S_Grammar S_FromPmcfg P_Recog P_Automata P_TreeStack P_Grammar P_GrammarCFG P_Conversion P_FromPmcfg P_FromPmcfg2.

Lemma list_choice {X Y} (P : nat -> X -> Y -> Prop) (l : list X) : (forall i x, nth_error l i = Some x -> exists y, P i x y) ->
  exists ys, length ys = length l /\ forall i x, nth_error l i = Some x -> exists y, nth_error ys i = Some y /\ P i x y.
Proof.
  revert P. induction l as [|x l IH]; intros P H; [exists []; split; [reflexivity|]; intros [|i] y E; discriminate|].
  destruct (H 0 x eq_refl) as [y Hy]. destruct (IH (fun i => P (S i))) as (ys & L & HY); [intros i z E; apply (H (S i) z E)|].
  exists (y :: ys). split; [cbn; now rewrite L|]. intros [|i] z E; cbn in E; [injection E as <-; exists y; auto|]. now apply HY.
Qed.
Lemma nth_firstn {X} (l : list X) : forall n m, m < n -> nth_error (firstn n l) m = nth_error l m.
Proof. induction l as [|x l IH]; intros [|n] [|m] L; cbn; try lia; try reflexivity. apply IH. lia. Qed.
Lemma perm_aux {X} (p2 p1 a k : list X) x : Permutation (p2 ++ (x :: p1 ++ a) ++ k) ((p1 ++ p2) ++ (x :: a) ++ k).
Proof.
  rewrite <- (app_assoc p1 p2). rewrite (Permutation_app_swap_app p1 p2). apply Permutation_app_head. cbn [app]. rewrite <- app_assoc. apply Permutation_middle.
Qed.
Lemma rule_at_ext {N T W} (d : dtree N T W) : forall d', (forall a, rule_at d a = rule_at d' a) -> d = d'.
Proof.
  induction d as [r ts IH] using dtree_ind2. intros [r' ts'] H. pose proof (H []) as H0. cbn in H0. injection H0 as ->. f_equal.
  assert (HC : forall i a, match nth_error ts i with Some c => rule_at c a | None => None end = match nth_error ts' i with Some c => rule_at c a | None => None end) by (intros i a; apply (H (i :: a))).
  clear H. revert ts' HC. induction IH as [|t ts H1 _ IH2]; intros [|t' ts'] HC; [reflexivity| | |].
  - specialize (HC 0 []). cbn in HC. discriminate.
  - specialize (HC 0 []). cbn in HC. discriminate.
  - f_equal; [apply H1; intros a; apply (HC 0 a)|]. apply IH2. intros i a. apply (HC (S i) a).
Qed.

Section Deriv.
  Context {N T : Type} {K : Weight}.
  Notation rule := (prule N T K).
  Notation pos := (posstate rule).
  Notation trans := (transition (ts_instr pos) T K).
  Notation kids := (list (option (tstack pos))).
  Notation words := (list (list T)).
  Context (f : N -> nat) (g : pmcfg N T K) (OG : ordered_grammar f g).
  Notation rules := (pg_rules g).
  Notation is_trans := (is_trans g).
  Notation Go := (Go g).

  (* ---- what is read ---- *)
  Definition ev (wss : nat -> words) (c : list (vart T)) : list T :=
    flat_map (fun x => match x with Tm t => [t] | Var i j => nth j (wss i) [] end) c.
  Definition rest (r : rule) (j k : nat) : list (vart T) :=
    match nth_error (pr_comp r) j with Some c => flat_map unseg (skipn k (sg [] c)) ++ map Tm (dw r j) | None => [] end.
  Lemma ev_app wss a b : ev wss (a ++ b) = ev wss a ++ ev wss b.
  Proof. apply flat_map_app. Qed.
  Lemma ev_Tm wss b : ev wss (map Tm b) = b.
  Proof. induction b as [|t b IH]; [reflexivity|]. cbn. f_equal. exact IH. Qed.
  Lemma rest_var r j k b i j1 : at_var r j k = Some (b, (i, j1)) -> rest r j k = map Tm b ++ Var i j1 :: rest r j (S k).
  Proof.
    unfold at_var, rest. destruct (nth_error (pr_comp r) j) as [c|]; [|discriminate]. intros E.
    assert (H : skipn k (sg [] c) = (b, (i, j1)) :: skipn (S k) (sg [] c)).
    { revert k E. generalize (sg [] c). intros l. induction l as [|x l IH]; intros [|k] E; cbn in E; try discriminate; [injection E as ->; reflexivity|]. cbn [skipn]. now apply IH. }
    rewrite H. cbn [flat_map]. unfold unseg at 1. cbn [fst snd]. rewrite <- !app_assoc. reflexivity.
  Qed.
  Lemma rest_end r j : j < length (pr_comp r) -> rest r j (nv r j) = map Tm (dw r j).
  Proof.
    intros L. unfold rest, nv. destruct (nth_error (pr_comp r) j) as [c|] eqn:E; [|apply nth_error_None in E; lia].
    rewrite <- (sg_length c []), skipn_all. reflexivity.
  Qed.
  Lemma rest_0 r j : nth_error (pr_comp (read_rule r)) j = if Nat.ltb j (length (pr_comp r)) then Some (rest r j 0) else None.
  Proof.
    cbn [read_rule pr_comp]. rewrite read_comps_nth. unfold rest, dw. cbn [app skipn].
    destruct (Nat.ltb_spec j (length (pr_comp r))) as [L|L]; [|now rewrite (proj2 (nth_error_None _ _) L)].
    destruct (nth_error (pr_comp r) j) as [c|] eqn:E; [reflexivity|]. apply nth_error_None in E. lia.
  Qed.
  Lemma read_length (r : rule) : length (pr_comp (read_rule r)) = length (pr_comp r).
  Proof.
    cbn. generalize (@nil (vart T)). induction (pr_comp r) as [|c cs IH]; intros b; cbn; [reflexivity|]. now rewrite IH.
  Qed.
  Lemma before_S (r : rule) j k b v : at_var r j k = Some (b, v) -> before r j (S k) = before r j k ++ [v].
  Proof.
    unfold at_var, before. destruct (nth_error (pr_comp r) j) as [c|]; [|discriminate]. intros H. rewrite <- app_assoc. f_equal.
    assert (HV : nth_error (vars c) k = Some v) by (rewrite <- (sg_vars c []), nth_error_map, H; reflexivity).
    clear H. revert k HV. generalize (vars c). intros l. induction l as [|x l IH]; intros [|k] E; cbn in E; try discriminate; [injection E as ->; reflexivity|].
    cbn [firstn app]. f_equal. now apply IH.
  Qed.
  Lemma before_end (r : rule) j : j < length (pr_comp r) -> before r j (nv r j) = before r (S j) 0.
  Proof.
    intros L. unfold before, nv. destruct (nth_error (pr_comp r) j) as [c|] eqn:E; [|apply nth_error_None in E; lia].
    rewrite firstn_all. destruct (nth_error_split _ _ E) as (c1 & c2 & E3 & E4).
    assert (F1 : firstn j (pr_comp r) = c1) by (rewrite E3, <- E4, firstn_app, firstn_all, Nat.sub_diag; cbn [firstn]; apply app_nil_r).
    assert (F2 : firstn (S j) (pr_comp r) = c1 ++ [c]).
    { rewrite E3. change (c :: c2) with ([c] ++ c2). rewrite app_assoc. replace (S j) with (length (c1 ++ [c])) by (rewrite app_length; cbn; lia).
      rewrite firstn_app, firstn_all, Nat.sub_diag. cbn [firstn]. apply app_nil_r. }
    rewrite F1, F2, variables_app, variables_one. destruct (nth_error (pr_comp r) (S j)); cbn [firstn]; now rewrite app_nil_r.
  Qed.
  Lemma before_0 (r : rule) : before r 0 0 = [].
  Proof. unfold before. cbn. destruct (pr_comp r); reflexivity. Qed.
  Lemma before_all (r : rule) : before r (length (pr_comp r)) 0 = variables (pr_comp r).
  Proof. unfold before. rewrite firstn_all. destruct (nth_error _ _); cbn; now rewrite app_nil_r. Qed.
  Lemma before_prefix (r : rule) j : exists l, variables (pr_comp r) = before r j 0 ++ l.
  Proof.
    exists (variables (skipn j (pr_comp r))). unfold before.
    replace (match nth_error (pr_comp r) j with Some c => firstn 0 (vars c) | None => [] end) with (@nil (nat * nat)) by (destruct (nth_error _ _); reflexivity).
    rewrite app_nil_r, <- variables_app, firstn_skipn. reflexivity.
  Qed.
  Lemma prefix_seq a n l1 l2 : l1 ++ l2 = seq a n -> l1 = seq a (length l1).
  Proof. revert a n. induction l1 as [|x l1 IH]; intros a [|n] E; cbn in *; try discriminate; [reflexivity|reflexivity|]. injection E as -> E. f_equal. now apply (IH _ n). Qed.
  Lemma before_seq r j i : In r rules -> comps_of i (before r j 0) = seq 0 (length (comps_of i (before r j 0))).
  Proof.
    intros Hr. destruct OG as (_ & OR & _). destruct (OR r Hr) as (L & M & _). destruct (before_prefix r j) as [l E].
    pose proof (monotone_seq f r L M i) as S1. rewrite E, comps_of_app in S1. now apply prefix_seq in S1.
  Qed.
  Lemma rest_vars r J j i j' : In r rules -> J < j -> j <= length (pr_comp r) -> In (Var i j') (rest r J 0) -> j' < length (comps_of i (before r j 0)).
  Proof.
    intros Hr H1 H2 H. assert (HI : In (i, j') (before r j 0)).
    { unfold rest in H. destruct (nth_error (pr_comp r) J) as [c|] eqn:E; [|destruct H]. apply in_app_iff in H. destruct H as [H|H]; [|apply in_map_iff in H; destruct H as (t & H & _); discriminate].
      cbn [skipn] in H. assert (HV : In (i, j') (vars c)).
      { apply in_flat_map in H. destruct H as ([b [x y]] & Hs & H). apply in_app_iff in H. destruct H as [H|[H|[]]]; [apply in_map_iff in H; destruct H as (t & H & _); discriminate|].
        cbn in H. injection H as <- <-. rewrite <- (sg_vars c []). apply in_map_iff. exists (b, (x, y)). auto. }
      unfold before. apply in_or_app. left. unfold variables. apply in_flat_map in HV. destruct HV as (v & H3 & H4). apply in_flat_map. exists v. split; [|assumption].
      apply in_concat. exists c. split; [|assumption]. apply (nth_error_In _ J). now rewrite nth_firstn. }
    apply in_comps_of in HI. rewrite (before_seq r j i Hr) in HI. apply in_seq in HI. lia.
  Qed.

  (* ---- soundness: what a node of the storage has read so far ---- *)
  Inductive Vis : tstack pos -> rule -> words -> Prop :=
    vis r j ch ws (wss : nat -> words) (rs : nat -> rule) : In r rules -> j < length (pr_comp r) ->
      (forall i, chl ch i = None -> wss i = []) ->
      (forall i y, chl ch i = Some y -> nth_error (pr_tail r) i = Some (pr_head (rs i))) ->
      (forall i y, chl ch i = Some y -> Vis y (rs i) (wss i)) ->
      (forall i, length (wss i) = length (comps_of i (before r (S j) 0))) ->
      ws = map (fun j' => ev wss (rest r j' 0)) (seq 0 (S j)) ->
      Vis (TStack None (Position r j (nv r j)) ch) r ws.

  Definition KI (r : rule) (ch : kids) (wss : nat -> words) (rs : nat -> rule) (l : list (nat * nat)) : Prop :=
    (forall i, chl ch i = None -> wss i = []) /\
    (forall i y, chl ch i = Some y -> nth_error (pr_tail r) i = Some (pr_head (rs i))) /\
    (forall i y, chl ch i = Some y -> Vis y (rs i) (wss i)) /\
    (forall i, length (wss i) = length (comps_of i l)).
  Definition ext (w w' : nat -> words) : Prop := forall i, exists e, w' i = w i ++ e.
  Lemma ext_refl w : ext w w. Proof. intros i. exists []. now rewrite app_nil_r. Qed.
  Lemma ext_trans a b c : ext a b -> ext b c -> ext a c.
  Proof. intros H1 H2 i. destruct (H1 i) as [x E1], (H2 i) as [y E2]. exists (x ++ y). now rewrite E2, E1, app_assoc. Qed.
  Lemma ev_ext w w' c : ext w w' -> (forall i j, In (Var i j) c -> j < length (w i)) -> ev w' c = ev w c.
  Proof.
    intros E H. induction c as [|x c IH]; [reflexivity|]. unfold ev in *. cbn [flat_map]. rewrite IH by (intros; apply H; now right). f_equal.
    destruct x as [i j|t]; [|reflexivity]. destruct (E i) as [e ->]. apply app_nth1. apply H. now left.
  Qed.

  Lemma Vis_extend ri j1 c wss rs c' wss' rs' : In ri rules -> j1 < length (pr_comp ri) -> KI ri c wss rs (before ri j1 0) -> KI ri c' wss' rs' (before ri (S j1) 0) -> ext wss wss' ->
    Vis (TStack None (Position ri j1 (nv ri j1)) c') ri (map (fun j' => ev wss (rest ri j' 0)) (seq 0 j1) ++ [ev wss' (rest ri j1 0)]).
  Proof.
    intros Hr L (_ & _ & _ & KL) (A1 & A2 & A3 & A4) E. apply (vis ri j1 c' _ wss' rs'); auto.
    rewrite seq_S, map_app. cbn [Nat.add map]. f_equal. apply map_ext_in. intros j' Hj. apply in_seq in Hj. symmetry. apply ev_ext; [assumption|].
    intros i j H. rewrite KL. apply (rest_vars ri j' j1 i j); auto; lia.
  Qed.

  Lemma Vis_inv x r0 ws ri j0 e : Vis x r0 ws -> ts_value x = Position ri j0 e -> exists wx rx, KI ri (ts_children x) wx rx (before ri (S j0) 0) /\ ws = map (fun j' => ev wx (rest ri j' 0)) (seq 0 (S j0)).
  Proof.
    intros H. destruct H as [r j ch ws wss rs B1 B2 B3 B4 B5 B6 B7]. cbn [ts_value ts_children]. intros V. injection V as -> -> _. exists wss, rs. split; [|assumption]. split; [assumption|split; [assumption|split; assumption]].
  Qed.
  Lemma Go_sound r j k ch us ch' : Go r j k ch us ch' -> In r rules -> j < length (pr_comp r) -> forall wss rs, KI r ch wss rs (before r j k) ->
    exists wss' rs', KI r ch' wss' rs' (before r (S j) 0) /\ ext wss wss' /\ run_word us ++ dw r j = ev wss' (rest r j k).
  Proof.
    induction 1 as [r j ch|r j k b i j1 ri ch c ch0 us1 c' us2 ch' H1 H2 H3 H4 G1 IH1 G2 IH2]; intros Hr L wss rs KI0.
    - exists wss, rs. rewrite (before_end r j L) in KI0. split; [assumption|]. split; [apply ext_refl|]. rewrite (rest_end r j L), ev_Tm. reflexivity.
    - destruct (at_seq f g OG r j k b i j1 Hr H1) as (SQ & B & HB & LB). rewrite H2 in HB. injection HB as <-.
      pose proof OG as (FO & _). assert (L1 : j1 < length (pr_comp ri)) by (rewrite (FO ri H3); assumption).
      destruct KI0 as (A1 & A2 & A3 & A4).
      assert (CH : exists w1, Vis (TStack None (Position ri j1 (nv ri j1)) c') ri (wss i ++ [w1]) /\ run_word us1 ++ dw ri j1 = w1).
      { inversion H4 as [? ? C|j0 ? ? x C V]; subst.
        - destruct (IH1 H3 L1 (fun _ => []) (fun _ => ri)) as (wc & rc & K1 & E1 & W1).
          { rewrite before_0. split; [auto|]. split; [intros i' y E; now destruct i'|]. split; [intros i' y E; now destruct i'|]. auto. }
          exists (ev wc (rest ri 0 0)). split; [|exact W1]. rewrite (A1 i C).
          refine (Vis_extend ri 0 [] (fun _ => []) (fun _ => ri) c' wc rc H3 L1 _ K1 E1). rewrite before_0. split; [auto|]. split; [intros i' y E; now destruct i'|]. split; [intros i' y E; now destruct i'|]. auto.
        - destruct (Vis_inv _ _ _ _ _ _ (A3 i x C) V) as (wx & rx & KX & B7).
          destruct (IH1 H3 L1 wx rx KX) as (wc & rc & K1 & E1 & W1).
          exists (ev wc (rest ri (S j0) 0)). split; [|exact W1]. rewrite B7. exact (Vis_extend ri (S j0) _ wx rx c' wc rc H3 L1 KX K1 E1). }
      destruct CH as (w1 & VC & W1).
      assert (LW : length (wss i) = j1) by (rewrite A4, SQ; apply seq_length).
      set (wss2 := fun i' => if Nat.eqb i' i then wss i ++ [w1] else wss i'). set (rs2 := fun i' => if Nat.eqb i' i then ri else rs i').
      destruct (IH2 Hr L wss2 rs2) as (wss' & rs' & K2 & E2 & W2).
      { assert (OC : forall i', chl (set_nth i (Some (TStack None (Position ri j1 (nv ri j1)) c')) ch0) i' = if Nat.eqb i' i then Some (TStack None (Position ri j1 (nv ri j1)) c') else chl ch i') by (intros i'; eapply opens_chl; eauto).
        split; [|split; [|split]].
        - intros i'. rewrite OC. unfold wss2. destruct (Nat.eqb i' i); [discriminate|apply A1].
        - intros i' y. rewrite OC. unfold rs2. destruct (Nat.eqb_spec i' i) as [->|]; [intros _; assumption|apply A2].
        - intros i' y. rewrite OC. unfold rs2, wss2. destruct (Nat.eqb_spec i' i) as [->|]; [intros E; injection E as <-; assumption|apply A3].
        - intros i'. rewrite (before_S _ _ _ _ _ H1), comps_of_app, comps_of_one. unfold wss2. rewrite (Nat.eqb_sym i i'). destruct (Nat.eqb_spec i' i) as [->|]; rewrite !app_length, <- A4; cbn; lia. }
      exists wss', rs'. split; [assumption|]. split.
      + apply (ext_trans _ wss2); [|assumption]. intros i'. unfold wss2. destruct (Nat.eqb_spec i' i) as [->|]; [eexists; reflexivity|exists []; now rewrite app_nil_r].
      + rewrite (rest_var _ _ _ _ _ _ H1), ev_app, ev_Tm. change (ev wss' (Var i j1 :: rest r j (S k))) with (nth j1 (wss' i) [] ++ ev wss' (rest r j (S k))).
        assert (NW : nth j1 (wss' i) [] = w1).
        { destruct (E2 i) as [e E]. rewrite E. unfold wss2. rewrite Nat.eqb_refl, <- app_assoc, app_nth2 by lia. rewrite LW, Nat.sub_diag. reflexivity. }
        rewrite NW, <- W2, <- W1.
        assert (WE : t_word (enter r j k b (prevc j1) i j1 ri) = b) by (destruct j1; reflexivity).
        unfold run_word. cbn [flat_map]. rewrite flat_map_app. cbn [flat_map]. rewrite WE. cbn [leave t_word]. rewrite <- !app_assoc. reflexivity.
  Qed.

  (* ---- trees in the storage ---- *)
  Inductive Tree : tstack pos -> dtree N T K -> Prop :=
    tree_node r j k ch ts : (forall i, chl ch i = None <-> nth_error ts i = None) ->
      (forall i y d, chl ch i = Some y -> nth_error ts i = Some d -> Tree y d) -> Tree (TStack None (Position r j k) ch) (DNode r ts).

  Fixpoint tyield (d : dtree N T K) : words :=
    match d with DNode r ts => map (fun j => ev (fun i => nth i (map tyield ts) []) (rest r j 0)) (seq 0 (length (pr_comp r))) end.
  Lemma tyield_length d : length (tyield d) = length (pr_comp (d_rule d)).
  Proof. destruct d. cbn. now rewrite map_length, seq_length. Qed.
  Lemma tyield_nth r ts j : j < length (pr_comp r) -> nth j (tyield (DNode r ts)) [] = ev (fun i => nth i (map tyield ts) []) (rest r j 0).
  Proof.
    intros L. cbn [tyield]. rewrite (nth_indep _ [] (ev (fun i => nth i (map tyield ts) []) (rest r 0 0))) by (now rewrite map_length, seq_length).
    rewrite (map_nth (fun j => ev (fun i => nth i (map tyield ts) []) (rest r j 0))), seq_nth by assumption. reflexivity.
  Qed.
  Notation R := (fun r => In r rules).
  Lemma rest_vars_exist r j i j' : In r rules -> In (Var i j') (rest r j 0) -> exists B, nth_error (pr_tail r) i = Some B /\ j' < f B.
  Proof.
    intros Hr H. destruct (Nat.ltb_spec j (length (pr_comp r))) as [L|L].
    - pose proof (rest_vars r j (length (pr_comp r)) i j' Hr L (le_n _) H) as H1. rewrite before_all in H1.
      destruct OG as (_ & OR & _). destruct (OR r Hr) as (LC & M & _). rewrite (monotone_seq f r LC M i), seq_length in H1. destruct (nth_error (pr_tail r) i) as [B|]; [exists B; auto|lia].
    - unfold rest in H. rewrite (proj2 (nth_error_None _ _) L) in H. destruct H.
  Qed.
  Lemma tyield_yield d : forall A, deriv R A d -> yield (read_tree d) = Some (tyield d) /\ length (tyield d) = f A.
  Proof.
    induction d as [r ts IH] using dtree_ind2. rewrite Forall_forall in IH. intros A HD. apply deriv_inv in HD. destruct HD as (-> & Hr & F2).
    split; [|rewrite tyield_length; apply (proj1 OG); assumption].
    cbn [read_tree]. rewrite yield_eq.
    assert (EC : forall j, j < length (pr_comp r) -> option_map (@concat T) (opt_all (sval (map read_tree ts)) (rest r j 0)) = Some (ev (fun i => nth i (map tyield ts) []) (rest r j 0))).
    { intros j L. assert (HV : forall i j', In (Var i j') (rest r j 0) -> exists B, nth_error (pr_tail r) i = Some B /\ j' < f B) by (intros i j'; now apply rest_vars_exist).
      induction (rest r j 0) as [|x c IHc]; [reflexivity|]. specialize (IHc (fun i j' H => HV i j' (or_intror H))).
      cbn [opt_all]. assert (SX : sval (map read_tree ts) x = Some (match x with Tm t => [t] | Var i j' => nth j' (nth i (map tyield ts) []) [] end)).
      { destruct x as [i j'|t]; [|reflexivity]. destruct (HV i j' (or_introl eq_refl)) as (B & HB & LB). pose proof (F2_nth _ _ _ F2 i) as G. rewrite HB in G.
        destruct (nth_error ts i) as [d|] eqn:Ed; [|destruct G]. destruct (IH d (nth_error_In _ _ Ed) B G) as (Y & LY).
        rewrite (sval_var _ i j' (read_tree d) (tyield d)); [|now rewrite nth_error_map, Ed|assumption].
        rewrite (nth_error_nth' _ [] (n := j')) by lia. f_equal. f_equal. symmetry. apply nth_error_nth. rewrite nth_error_map, Ed. reflexivity. }
      rewrite SX. destruct (opt_all (sval (map read_tree ts)) c) as [l|]; [|discriminate]. cbn [option_map concat] in *. injection IHc as IHc. rewrite IHc. reflexivity. }
    assert (G : forall cs n, (forall m, nth_error cs m = if Nat.ltb (n + m) (length (pr_comp r)) then Some (rest r (n + m) 0) else None) -> length cs = length (pr_comp r) - n ->
              opt_all (fun c => option_map (@concat T) (opt_all (sval (map read_tree ts)) c)) cs = Some (map (fun j => ev (fun i => nth i (map tyield ts) []) (rest r j 0)) (seq n (length cs)))).
    { induction cs as [|c cs IHcs]; intros n H LC; [reflexivity|]. pose proof (H 0) as H0. cbn [nth_error] in H0. rewrite Nat.add_0_r in H0.
      destruct (Nat.ltb_spec n (length (pr_comp r))) as [L|L]; [|discriminate]. injection H0 as ->. cbn [opt_all]. rewrite (EC n L).
      rewrite (IHcs (S n)); [reflexivity| |cbn in LC; lia]. intros m. specialize (H (S m)). cbn [nth_error] in H. rewrite H. now replace (n + S m) with (S n + m) by lia. }
    rewrite (G _ 0); [|intros m; rewrite rest_0; reflexivity|rewrite read_length; lia]. now rewrite read_length.
  Qed.

  Lemma Vis_deriv y r ws : Vis y r ws -> length ws = f (pr_head r) -> exists d, d_rule d = r /\ deriv R (pr_head r) d /\ tyield d = ws /\ Tree y d.
  Proof.
    induction 1 as [r j ch ws wss rs Hr L A1 A2 A3 IH A4 A5]. intros LW. pose proof OG as (FO & OR & DT & _). pose proof (FO r Hr) as FR.
    assert (J : S j = length (pr_comp r)) by (rewrite FR, <- LW, A5, map_length, seq_length; reflexivity).
    destruct (OR r Hr) as (LC & M & _).
    assert (LEN : forall i, length (wss i) = match nth_error (pr_tail r) i with Some B => f B | None => 0 end).
    { intros i. rewrite A4, J, before_all, (monotone_seq f r LC M i). apply seq_length. }
    assert (HC : forall i B, nth_error (pr_tail r) i = Some B -> exists d, deriv R B d /\ tyield d = wss i /\ exists y, chl ch i = Some y /\ Tree y d).
    { intros i B HB. destruct (chl ch i) as [y|] eqn:C.
      - pose proof (A2 i y C) as E. rewrite HB in E. injection E as E. destruct (IH i y C) as (d & _ & D1 & D2 & D3); [rewrite LEN, HB; congruence|].
        exists d. rewrite E. split; [assumption|]. split; [assumption|]. exists y. auto.
      - exfalso. pose proof (LEN i) as E. rewrite (A1 i C), HB in E. destruct (DT r B Hr (nth_error_In _ _ HB)) as (r' & H1 & H2). destruct (OR r' H1) as (_ & _ & NE).
        pose proof (FO r' H1) as E'. rewrite H2, <- E in E'. destruct (pr_comp r'); [congruence|discriminate]. }
    destruct (list_choice _ _ HC) as (ts & LT & HT). exists (DNode r ts). split; [reflexivity|].
    assert (F2 : Forall2 (deriv R) (pr_tail r) ts).
    { clear -LT HT. revert ts LT HT. generalize (chl ch) (pr_tail r) wss. intros c l w. revert c w. induction l as [|B l IHl]; intros c w [|t ts] LT HT; try discriminate; constructor.
      - destruct (HT 0 B eq_refl) as (d & E & D & _). injection E as <-. assumption.
      - apply (IHl (fun i => c (S i)) (fun i => w (S i))); [cbn in LT; lia|]. intros i x E. apply (HT (S i) x E). }
    split; [constructor; assumption|]. split.
    - cbn [tyield]. rewrite A5, J. apply map_ext_in. intros j' Hj. apply in_seq in Hj. unfold ev. rewrite !flat_map_concat_map. f_equal. apply map_ext_in.
      intros [i j2|t] Hx; [|reflexivity]. destruct (rest_vars_exist r j' i j2 Hr Hx) as (B & HB & _). destruct (HT i B HB) as (d & Ed & _ & EY & _).
      f_equal. rewrite <- EY. apply nth_error_nth. rewrite nth_error_map, Ed. reflexivity.
    - constructor.
      + intros i. split; intros H.
        * destruct (nth_error ts i) as [d|] eqn:E; [|reflexivity]. destruct (nth_error (pr_tail r) i) as [B|] eqn:EB.
          -- destruct (HT i B EB) as (_ & _ & _ & _ & y & Hy & _). congruence.
          -- apply nth_error_None in EB. assert (i < length ts) by (apply nth_error_Some; congruence). lia.
        * destruct (chl ch i) as [y|] eqn:C; [|reflexivity]. pose proof (A2 i y C) as E. destruct (HT i _ E) as (d & Ed & _). congruence.
      + intros i y d C Ed. pose proof (A2 i y C) as E. destruct (HT i _ E) as (d' & Ed' & _ & _ & y' & C' & TR). congruence.
  Qed.

  (* ---- completeness: the part of a derivation that has been visited ---- *)
  Inductive Enc : tstack pos -> dtree N T K -> nat -> Prop :=
    enc r ts m ch (ds : nat -> dtree N T K) (ms : nat -> nat) :
      (forall i, chl ch i = None -> comps_of i (before r (S m) 0) = []) ->
      (forall i y, chl ch i = Some y -> nth_error ts i = Some (ds i) /\ length (comps_of i (before r (S m) 0)) = S (ms i)) ->
      (forall i y, chl ch i = Some y -> Enc y (ds i) (ms i)) ->
      Enc (TStack None (Position r m (nv r m)) ch) (DNode r ts) m.
  Definition EK (ch : kids) (ts : list (dtree N T K)) (l : list (nat * nat)) : Prop :=
    forall i, match chl ch i with
              | None => comps_of i l = []
              | Some y => exists d m, nth_error ts i = Some d /\ length (comps_of i l) = S m /\ Enc y d m
              end.
  Lemma Enc_EK r ts m ch : EK ch ts (before r (S m) 0) -> Enc (TStack None (Position r m (nv r m)) ch) (DNode r ts) m.
  Proof.
    intros H. apply (enc r ts m ch (fun i => match nth_error ts i with Some d => d | None => DNode r ts end) (fun i => length (comps_of i (before r (S m) 0)) - 1)).
    - intros i C. specialize (H i). now rewrite C in H.
    - intros i y C. specialize (H i). rewrite C in H. destruct H as (d & m' & E1 & E2 & _). rewrite E1, E2. cbn. split; [reflexivity|]. f_equal. lia.
    - intros i y C. specialize (H i). rewrite C in H. destruct H as (d & m' & E1 & E2 & E3). rewrite E1, E2. cbn. now rewrite Nat.sub_0_r.
  Qed.
  (* ---- the rules that are entered ---- *)
  Definition entry (ts : list (dtree N T K)) (x : vart T) : list rule :=
    match x with Tm _ => [] | Var i k => match nth_error (map entered ts) i with Some e => e k | None => [] end end.
  Definition below (d : dtree N T K) (j : nat) : list rule := flat_map (entry (d_children d)) (nth j (pr_comp (d_rule d)) []).
  Definition pushed (t : trans) : list rule := match t_ins t with IPush _ _ (Position ri _ _) => [ri] | _ => [] end.
  Definition pushes (us : list trans) : list rule := flat_map pushed us.
  Lemma entered_eq d j : entered d j = (match j with 0 => [d_rule d] | S _ => [] end) ++ below d j.
  Proof. now destruct d. Qed.
  Lemma entry_Tm ts b : flat_map (entry ts) (map Tm b) = [].
  Proof. induction b as [|t b IH]; [reflexivity|exact IH]. Qed.
  Lemma entry_vars ts (c : list (vart T)) : flat_map (entry ts) c = flat_map (fun v => entry ts (Var (fst v) (snd v))) (vars c).
  Proof. induction c as [|[i j|t] c IH]; [reflexivity| |exact IH]. cbn [flat_map vars as_var app]. fold (vars c). now rewrite IH. Qed.
  Lemma unseg_vars (l : list (list T * (nat * nat))) : vars (flat_map unseg l) = map snd l.
  Proof.
    induction l as [|[b [i j]] l IH]; [reflexivity|]. unfold vars. cbn [flat_map]. unfold unseg at 1. cbn [fst snd map]. rewrite flat_map_app, flat_map_app.
    replace (flat_map as_var (map Tm b)) with (@nil (nat * nat)) by (induction b; [reflexivity|assumption]). cbn. f_equal. exact IH.
  Qed.
  Lemma below_rest r ts j : j < length (pr_comp r) -> below (DNode r ts) j = flat_map (entry ts) (rest r j 0).
  Proof.
    intros L. unfold below, rest. cbn [d_children d_rule]. destruct (nth_error (pr_comp r) j) as [c|] eqn:E; [|apply nth_error_None in E; lia].
    rewrite (nth_error_nth _ _ _ E). cbn [skipn]. rewrite flat_map_app, entry_Tm, app_nil_r, (entry_vars ts c), (entry_vars ts (flat_map unseg _)), unseg_vars, sg_vars. reflexivity.
  Qed.
  Lemma Go_complete d : forall A, deriv R A d -> forall j, j < length (pr_comp (d_rule d)) -> forall ch, EK ch (d_children d) (before (d_rule d) j 0) ->
    exists us ch', Go (d_rule d) j 0 ch us ch' /\ EK ch' (d_children d) (before (d_rule d) (S j) 0) /\ run_word us ++ dw (d_rule d) j = nth j (tyield d) [] /\ below d j = pushes us.
  Proof.
    induction d as [r ts IH] using dtree_ind2. rewrite Forall_forall in IH. intros A HD j L. cbn [d_rule d_children] in *. rewrite (tyield_nth r ts j L).
    apply deriv_inv in HD. destruct HD as (-> & Hr & F2). pose proof OG as (FO & _).
    assert (G : forall n k, k + n = nv r j -> forall ch, EK ch ts (before r j k) ->
       exists us ch', Go r j k ch us ch' /\ EK ch' ts (before r (S j) 0) /\ run_word us ++ dw r j = ev (fun i => nth i (map tyield ts) []) (rest r j k) /\ flat_map (entry ts) (rest r j k) = pushes us);
      [|intros ch; rewrite below_rest by exact L; apply (G (nv r j) 0 eq_refl)].
    induction n as [|n IHn]; intros k Hk ch HE.
    - rewrite Nat.add_0_r in Hk. subst k. exists [], ch. split; [constructor|]. rewrite (before_end r j L) in HE. split; [assumption|]. rewrite (rest_end r j L), ev_Tm. split; [reflexivity|]. apply entry_Tm.
    - destruct (at_var r j k) as [[b [i j1]]|] eqn:AT.
      2:{ exfalso. unfold at_var in AT. unfold nv in Hk. destruct (nth_error (pr_comp r) j) as [c|] eqn:E; [|apply nth_error_None in E; lia]. apply nth_error_None in AT. rewrite sg_length in AT. lia. }
      destruct (at_seq f g OG r j k b i j1 Hr AT) as (SQ & B & HB & LB). pose proof (F2_nth _ _ _ F2 i) as Di. rewrite HB in Di. destruct (nth_error ts i) as [di|] eqn:Ed; [|destruct Di].
      assert (HD : pr_head (d_rule di) = B /\ In (d_rule di) rules) by (inversion Di; subst; auto). destruct HD as [HH HR].
      assert (L1 : j1 < length (pr_comp (d_rule di))) by (rewrite (FO _ HR), HH; assumption).
      assert (CH : exists c ch0, opens (d_rule di) j1 ch i c ch0 /\ EK c (d_children di) (before (d_rule di) j1 0)).
      { specialize (HE i). rewrite SQ in HE. destruct (chl ch i) as [y|] eqn:C.
        - destruct HE as (d & m & E1 & E2 & E3). rewrite Ed in E1. injection E1 as <-. rewrite seq_length in E2. subst j1.
          inversion E3 as [r0 ts0 m0 c0 ds ms B1 B2 B3]; subst. exists c0, (set_nth i None ch). split; [exact (op_again _ _ _ _ _ C eq_refl)|].
          intros i'. cbn [d_rule d_children]. destruct (chl c0 i') as [y'|] eqn:C'; [|now apply B1]. destruct (B2 i' y' C') as [E4 E5]. exists (ds i'), (ms i'). auto.
        - destruct j1 as [|j0]; [|discriminate]. exists [], (fill ch i). split; [now constructor|]. intros i'. rewrite before_0. destruct i'; reflexivity. }
      destruct CH as (c & ch0 & O & EC).
      destruct (IH di (nth_error_In _ _ Ed) B Di j1 L1 c EC) as (us1 & c' & G1 & EC' & W1 & P1).
      destruct (IHn (S k) ltac:(lia) (set_nth i (Some (TStack None (Position (d_rule di) j1 (nv (d_rule di) j1)) c')) ch0)) as (us2 & ch' & G2 & E2 & W2 & P2).
      { intros i'. rewrite (opens_chl _ _ _ _ _ _ _ _ O), (before_S _ _ _ _ _ AT), comps_of_app, comps_of_one, (Nat.eqb_sym i i'). destruct (Nat.eqb_spec i' i) as [->|].
        - exists di, j1. split; [assumption|]. split; [rewrite SQ, app_length, seq_length; cbn; lia|]. destruct di as [rd td]. cbn [d_rule d_children] in *. now apply Enc_EK.
        - rewrite app_nil_r. apply HE. }
      exists (enter r j k b (prevc j1) i j1 (d_rule di) :: us1 ++ leave r j k j1 (d_rule di) :: us2), ch'.
      split; [econstructor; eauto; congruence|]. split; [assumption|]. split;
      [|rewrite (rest_var _ _ _ _ _ _ AT), flat_map_app, entry_Tm; cbn [app flat_map]; rewrite P2; unfold pushes; cbn [flat_map]; rewrite flat_map_app; cbn [flat_map leave t_ins app pushed];
       fold (pushes us1); fold (pushes us2); rewrite <- P1, app_assoc; f_equal; unfold entry at 1; rewrite nth_error_map, Ed; cbn [option_map]; rewrite entered_eq; destruct j1; reflexivity].
      rewrite (rest_var _ _ _ _ _ _ AT), ev_app, ev_Tm. change (ev (fun i => nth i (map tyield ts) []) (Var i j1 :: rest r j (S k))) with (nth j1 (nth i (map tyield ts) []) [] ++ ev (fun i => nth i (map tyield ts) []) (rest r j (S k))).
      rewrite <- W2. replace (nth i (map tyield ts) []) with (tyield di) by (symmetry; apply nth_error_nth; now rewrite nth_error_map, Ed). rewrite <- W1.
      assert (WE : t_word (enter r j k b (prevc j1) i j1 (d_rule di)) = b) by (destruct j1; reflexivity).
      unfold run_word. cbn [flat_map]. rewrite flat_map_app. cbn [flat_map]. rewrite WE. cbn [leave t_word]. rewrite <- !app_assoc. reflexivity.
  Qed.
  Lemma Enc_Tree y d m : Enc y d m -> forall A, deriv R A d -> S m = f A -> Tree y d.
  Proof.
    induction 1 as [r ts m ch ds ms B1 B2 B3 IH]. intros A HD HM. apply deriv_inv in HD. destruct HD as (-> & Hr & F2). pose proof OG as (FO & OR & DT & _).
    destruct (OR r Hr) as (LC & M & _). rewrite HM, <- (FO r Hr), before_all in B1, B2.
    assert (D : forall i d, nth_error ts i = Some d -> exists B, nth_error (pr_tail r) i = Some B /\ deriv R B d /\ f B <> 0).
    { intros i d E. pose proof (F2_nth _ _ _ F2 i) as Di. rewrite E in Di. destruct (nth_error (pr_tail r) i) as [B|] eqn:HB; [|destruct Di]. exists B. split; [reflexivity|]. split; [assumption|].
      destruct (DT r B Hr (nth_error_In _ _ HB)) as (r' & H1 & H2). destruct (OR r' H1) as (_ & _ & NE). rewrite <- H2, <- (FO r' H1). destruct (pr_comp r'); [congruence|discriminate]. }
    constructor.
    - intros i. split; intros H.
      + destruct (nth_error ts i) as [d|] eqn:E; [|reflexivity]. destruct (D i d E) as (B & HB & _ & NZ). specialize (B1 i H). rewrite (monotone_seq f r LC M i), HB in B1. destruct (f B); [congruence|discriminate].
      + destruct (chl ch i) as [y|] eqn:C; [|reflexivity]. destruct (B2 i y C). congruence.
    - intros i y d C E. destruct (B2 i y C) as [E1 E2]. rewrite E in E1. injection E1 as ->. destruct (D i _ E) as (B & HB & HD & _).
      apply (IH i y C B HD). rewrite (monotone_seq f r LC M i), HB, seq_length in E2. congruence.
  Qed.

  (* ---- weights ---- *)
  Fixpoint trules (t : tstack pos) : list rule :=
    match t with TStack _ v ch => (match v with Position r _ _ => [r] | _ => [] end) ++ flat_map (fun o => match o with Some c => trules c | None => [] end) ch end.
  Definition krules (ch : kids) : list rule := flat_map (fun o => match o with Some c => trules c | None => [] end) ch.
  Lemma trules_eq p r j k ch : trules (TStack p (Position r j k) ch) = r :: krules ch.
  Proof. reflexivity. Qed.
  Lemma krules_set i y ch : nth_error ch i = Some None -> Permutation (krules (set_nth i (Some y) ch)) (trules y ++ krules ch).
  Proof.
    revert i. induction ch as [|o ch IH]; intros [|i] E; cbn in E; try discriminate; [injection E as ->; reflexivity|].
    cbn [set_nth]. unfold krules in *. cbn [flat_map]. rewrite (IH i E). rewrite !app_assoc. apply Permutation_app_tail, Permutation_app_comm.
  Qed.
  Lemma krules_take i x ch : chl ch i = Some x -> Permutation (krules ch) (trules x ++ krules (set_nth i None ch)).
  Proof.
    intros C. assert (E : nth_error ch i = Some (Some x)) by (unfold chl in C; destruct (nth_error ch i) as [[?|]|]; congruence). clear C.
    revert i E. induction ch as [|o ch IH]; intros [|i] E; cbn in E; try discriminate; [injection E as ->; reflexivity|].
    cbn [set_nth]. unfold krules in *. cbn [flat_map]. rewrite (IH i E). rewrite !app_assoc. apply Permutation_app_tail, Permutation_app_comm.
  Qed.
  Lemma krules_fill ch i : krules (fill ch i) = krules ch.
  Proof.
    unfold fill. destruct (Nat.leb (length ch) i); [|reflexivity]. unfold krules. rewrite flat_map_app.
    replace (flat_map _ (repeat None _)) with (@nil rule); [apply app_nil_r|]. induction (i - length ch + 1); cbn; auto.
  Qed.
  Lemma pushes_step us1 us2 t r j k j1 ri : pushes (t :: us1 ++ leave r j k j1 ri :: us2) = pushed t ++ pushes us1 ++ pushes us2.
  Proof. unfold pushes. cbn [flat_map]. now rewrite flat_map_app. Qed.
  Lemma Go_pushes r j k ch us ch' : Go r j k ch us ch' -> Permutation (krules ch') (pushes us ++ krules ch).
  Proof.
    induction 1 as [r j ch|r j k b i j1 ri ch c ch0 us1 c' us2 ch' H1 H2 H3 H4 G1 IP1 G2 IP2]; [reflexivity|].
    inversion H4 as [? ? C|j0 ? ? x C V]; subst; rewrite pushes_step.
    - rewrite IP2, krules_set, trules_eq, IP1, krules_fill.
      + cbn [krules flat_map]. rewrite app_nil_r. cbn [app]. rewrite <- Permutation_middle. constructor. rewrite !app_assoc. apply Permutation_app_tail, Permutation_app_comm.
      + pose proof (chl_fill ch i i) as E. rewrite C in E. unfold chl in E. destruct (nth_error (fill ch i) i) as [[?|]|] eqn:E'; [discriminate|reflexivity|].
        apply nth_error_None in E'. pose proof (fill_length ch i). lia.
    - cbn [prevc enter pushed t_ins app]. rewrite IP2, krules_set, trules_eq, IP1.
      + rewrite (krules_take i x ch C). destruct x as [px v cx]. cbn [ts_value ts_children] in *. subst v. rewrite trules_eq. apply perm_aux.
      + pose proof (chl_length _ _ _ C) as L. rewrite nth_error_set_nth, Nat.eqb_refl. destruct (Nat.ltb_spec i (length ch)); [reflexivity|lia].
  Qed.
  Lemma Go_weight (KL : RoundLaws K) r j k ch us ch' : Go r j k ch us ch' -> forall x, fold_left wmul (map t_weight us) x = fold_left wmul (map pr_weight (pushes us)) x.
  Proof.
    induction 1 as [r j ch|r j k b i j1 ri ch c ch0 us1 c' us2 ch' H1 H2 H3 H4 G1 IW1 G2 IW2]; [reflexivity|].
    assert (W : forall t x, fold_left wmul (map t_weight (t :: us1 ++ leave r j k j1 ri :: us2)) x = fold_left wmul (map pr_weight (pushes us1 ++ pushes us2)) (wmul x (t_weight t))).
    { intros t x. cbn [map fold_left]. rewrite !map_app, !fold_left_app. cbn [map fold_left leave t_weight]. rewrite IW1, (wl_one_r KL). apply IW2. }
    intros z. rewrite pushes_step, W. destruct j1; cbn [prevc enter pushed t_ins t_weight app map fold_left]; [reflexivity|]. now rewrite (wl_one_r KL).
  Qed.
  Lemma Tree_rules d : forall y, Tree y d -> trules y = d_rules d.
  Proof.
    induction d as [r ts IH] using dtree_ind2. rewrite Forall_forall in IH. intros y HT. inversion HT as [r0 j k ch ts0 H1 H2]; subst. rewrite trules_eq. cbn [d_rules]. f_equal.
    clear HT. revert ts IH H1 H2. unfold krules. induction ch as [|o ch IHc]; intros ts IH H1 H2.
    - destruct ts as [|t ts]; [reflexivity|]. specialize (H1 0). cbn in H1. destruct H1 as [H1 _]. now specialize (H1 eq_refl).
    - assert (HS : forall i, chl (o :: ch) (S i) = chl ch i) by reflexivity. destruct ts as [|t ts].
      + specialize (H1 0) as H0. destruct o as [y|]; [destruct H0 as [_ H0]; now specialize (H0 eq_refl)|]. cbn [flat_map]. apply (IHc []); [easy| |].
        * intros i. destruct (H1 (S i)) as [P Q]. split; intros; [now destruct i|]. apply Q. reflexivity.
        * intros i y d _ E. now destruct i.
      + specialize (H1 0) as H0. destruct o as [y|]; [|destruct H0 as [H0 _]; now specialize (H0 eq_refl)].
        cbn [flat_map]. rewrite (IH t (or_introl eq_refl) y); [|now apply (H2 0)]. f_equal. apply IHc.
        * intros d Hd. apply IH. now right.
        * intros i. apply (H1 (S i)).
        * intros i y' d. apply (H2 (S i)).
  Qed.

  (* ---- each derivation has one run ---- *)
  Inductive Sub : tstack pos -> dtree N T K -> Prop :=
    sub_node p r j k ch ts (ds : nat -> dtree N T K) : (forall i y, chl ch i = Some y -> nth_error ts i = Some (ds i)) ->
      (forall i y, chl ch i = Some y -> Sub y (ds i)) -> Sub (TStack p (Position r j k) ch) (DNode r ts).
  Definition Compat (ch : kids) (ts : list (dtree N T K)) : Prop := forall i y, chl ch i = Some y -> exists d, nth_error ts i = Some d /\ Sub y d.
  Lemma Sub_Compat p r j k ch ts : Compat ch ts -> Sub (TStack p (Position r j k) ch) (DNode r ts).
  Proof.
    intros H. apply (sub_node p r j k ch ts (fun i => match nth_error ts i with Some d => d | None => DNode r ts end)); intros i y C; destruct (H i y C) as (d & E & D); now rewrite E.
  Qed.
  Lemma Compat_Sub p v ch d : Sub (TStack p v ch) d -> (exists j k, v = Position (d_rule d) j k) /\ Compat ch (d_children d).
  Proof. intros H. inversion H; subst. cbn. split; [eauto|]. intros i y C. eauto. Qed.
  Lemma Tree_Sub d : forall y, Tree y d -> Sub y d.
  Proof.
    induction d as [r ts IH] using dtree_ind2. rewrite Forall_forall in IH. intros y HT. inversion HT as [r0 j k ch ts0 H1 H2]; subst. apply Sub_Compat.
    intros i y C. destruct (nth_error ts i) as [d|] eqn:E; [|apply H1 in E; congruence]. exists d. split; [reflexivity|]. apply IH; [eapply nth_error_In; eauto|eauto].
  Qed.
  Lemma Go_Compat r j k ch us ch' : Go r j k ch us ch' -> forall ts, Compat ch' ts -> Compat ch ts.
  Proof.
    induction 1 as [r j ch|r j k b i j1 ri ch c ch0 us1 c' us2 ch' H1 H2 H3 H4 G1 IH1 G2 IH2]; intros ts HC; [assumption|].
    specialize (IH2 ts HC). intros i' y C'. pose proof (IH2 i') as Q. rewrite (opens_chl _ _ _ _ _ _ _ _ H4) in Q. destruct (Nat.eqb_spec i' i) as [->|]; [|now apply Q].
    destruct (Q _ eq_refl) as (d & Ed & S0). exists d. split; [assumption|]. apply Compat_Sub in S0. destruct S0 as [(a & e & E) S1]. injection E as -> _ _. specialize (IH1 _ S1).
    inversion H4 as [? ? C|j0 ? ? x C V]; subst; [congruence|]. rewrite C in C'. injection C' as <-. destruct x as [p v cx]. cbn in V, IH1. subst v. destruct d as [rd td]. now apply Sub_Compat.
  Qed.
  Lemma at_var_end (r : rule) j b v : at_var r j (nv r j) = Some (b, v) -> False.
  Proof.
    unfold at_var, nv. destruct (nth_error (pr_comp r) j) as [c|]; [|discriminate]. intros E. assert (length (vars c) < length (sg [] c)) by (apply nth_error_Some; congruence). rewrite sg_length in H. lia.
  Qed.
  Lemma opens_det (ri : rule) j1 ch i c ch0 c2 ch2 : opens ri j1 ch i c ch0 -> opens ri j1 ch i c2 ch2 -> c = c2 /\ ch0 = ch2.
  Proof. intros H1 H2. destruct H1 as [ch i C|j0 ch i x C V]; inversion H2 as [|? ? ? x0 C0 V0]; subst; [auto|]. rewrite C in C0. injection C0 as ->. auto. Qed.
  Lemma Go_det r j k ch us ch' : Go r j k ch us ch' -> forall us2 ch2 ts, Go r j k ch us2 ch2 -> Compat ch' ts -> Compat ch2 ts -> us = us2 /\ ch' = ch2.
  Proof.
    induction 1 as [r j ch|r j k b i j1 ri ch c ch0 us1 c' us2 ch' H1 H2 H3 H4 G1 IH1 G2 IH2]; intros vs ch2 ts GV C1 C2.
    - inversion GV; subst; [auto|]. exfalso. eapply at_var_end; eauto.
    - inversion GV as [|r' j' k' b' i' j1' ri' ? d dh0 vs1 d' vs2 ? I1 I2 I3 I4 J1 J2]; subst; [exfalso; eapply at_var_end; eauto|].
      rewrite H1 in I1. injection I1 as <- <- <-.
      pose proof (Go_Compat _ _ _ _ _ _ G2 _ C1 i) as Q1. pose proof (Go_Compat _ _ _ _ _ _ J2 _ C2 i) as Q2.
      rewrite (opens_chl _ _ _ _ _ _ _ _ H4), Nat.eqb_refl in Q1. rewrite (opens_chl _ _ _ _ _ _ _ _ I4), Nat.eqb_refl in Q2.
      destruct (Q1 _ eq_refl) as (d1 & E1 & S1), (Q2 _ eq_refl) as (d2 & E2 & S2). rewrite E1 in E2. injection E2 as <-.
      apply Compat_Sub in S1, S2. destruct S1 as [(x1 & x2 & X) S1], S2 as [(y1 & y2 & Y) S2]. injection X as -> _ _. injection Y as -> _ _.
      destruct (opens_det _ _ _ _ _ _ _ _ H4 I4) as [<- <-]. destruct (IH1 _ _ _ J1 S1 S2) as [<- <-]. destruct (IH2 _ _ _ J2 C1 C2) as [<- <-]. auto.
  Qed.

  (* ---- the abstract syntax tree ---- *)
  Lemma Tree_wf d : forall y, Tree y d -> wf_sub y.
  Proof.
    induction d as [r ts IH] using dtree_ind2. rewrite Forall_forall in IH. intros y HT. inversion HT as [r0 j k ch ts0 H1 H2]; subst. constructor. intros c Hc.
    apply In_nth_error in Hc. destruct Hc as [i Hi]. assert (C : chl ch i = Some c) by (unfold chl; now rewrite Hi).
    destruct (nth_error ts i) as [d|] eqn:E; [|apply H1 in E; congruence]. apply (IH d); [eapply nth_error_In; eauto|eauto].
  Qed.
  Lemma Tree_sub a : forall y d, Tree y d -> match sub y a with
    | Some (Position r _ _) => rule_at d a = Some r
    | Some _ => False
    | None => rule_at d a = None end.
  Proof.
    induction a as [|i a IH]; intros y d HT; inversion HT as [r0 j k ch ts0 H1 H2]; subst; [reflexivity|]. cbn [sub rule_at ts_children d_children].
    pose proof (H1 i) as HI. unfold chl in H1. specialize (H1 i). destruct (nth_error ch i) as [[c|]|] eqn:E.
    - assert (C : chl ch i = Some c) by (unfold chl; now rewrite E). destruct (nth_error ts0 i) as [d|] eqn:Ed; [|destruct H1 as [_ H1]; now specialize (H1 eq_refl)]. apply IH. eapply H2; eauto.
    - rewrite (proj1 H1 eq_refl). reflexivity.
    - rewrite (proj1 H1 eq_refl). reflexivity.
  Qed.
  Lemma ast_spec (l : gorn pos) : forall acc, gsorted l -> gsorted acc -> (forall a p, In (0 :: a, p) l -> exists r j k, p = Position r j k) ->
    exists m, ast_entries l acc = Some m /\ forall a, gt_get a m = match gt_get (0 :: a) l with Some (Position r _ _) => Some r | _ => gt_get a acc end.
  Proof.
    induction l as [|[key p] l IH]; intros acc GS GA H; [exists acc; split; [reflexivity|]; reflexivity|].
    assert (GL : gsorted l) by apply GS. assert (H' : forall a p0, In (0 :: a, p0) l -> exists r j k, p0 = Position r j k) by (intros a p0 Hin; apply (H a p0); now right).
    assert (GC : forall a, gt_get (0 :: a) ((key, p) :: l) = if list_eq_dec Nat.eq_dec (0 :: a) key then Some p else gt_get (0 :: a) l).
    { intros a. unfold gt_get. cbn [bm_get]. destruct (addr_cmp (0 :: a) key) eqn:C.
      - apply (ol_eq _ addr_ord) in C. destruct (list_eq_dec Nat.eq_dec (0 :: a) key); [reflexivity|contradiction].
      - destruct (list_eq_dec Nat.eq_dec (0 :: a) key) as [E|]; [rewrite E, (proj2 (ol_eq _ addr_ord key key) eq_refl) in C; discriminate|].
        symmetry. destruct GS as [G1 _]. destruct (bm_get addr_cmp (0 :: a) l) as [v|] eqn:Eg; [|reflexivity]. exfalso.
        apply (bm_get_In _ addr_ord _ _ _ GL) in Eg. apply (in_map fst) in Eg. specialize (G1 _ Eg). cbn in G1. pose proof (ol_trans _ addr_ord _ _ _ G1 C) as X. rewrite (proj2 (ol_eq _ addr_ord key key) eq_refl) in X. discriminate.
      - destruct (list_eq_dec Nat.eq_dec (0 :: a) key) as [E|]; [rewrite E, (proj2 (ol_eq _ addr_ord key key) eq_refl) in C; discriminate|]. reflexivity. }
    destruct key as [|first rest0]; cbn [ast_entries].
    - destruct (IH acc GL GA H') as (m & E & G). exists m. split; [assumption|]. intros a. rewrite G, GC. destruct (list_eq_dec Nat.eq_dec (0 :: a) []); [discriminate|reflexivity].
    - destruct (Nat.eqb_spec first 0) as [->|NZ].
      + destruct (H rest0 p (or_introl eq_refl)) as (r & j & k & ->).
        destruct (IH (gt_insert rest0 r acc) GL (gt_insert_sorted _ _ _ GA) H') as (m & E & G). exists m. split; [assumption|]. intros a. rewrite G, GC, (gt_get_insert _ _ _ _ GA).
        destruct (list_eq_dec Nat.eq_dec (0 :: a) (0 :: rest0)) as [E'|E'].
        * injection E' as ->. destruct (list_eq_dec Nat.eq_dec rest0 rest0); [|contradiction]. destruct (gt_get (0 :: rest0) l) eqn:Eg; [|reflexivity]. exfalso.
          apply (bm_get_In _ addr_ord _ _ _ GL) in Eg. apply (in_map fst) in Eg. destruct GS as [G1 _]. specialize (G1 _ Eg). cbn [fst] in G1. rewrite (proj2 (ol_eq _ addr_ord _ _) eq_refl) in G1. discriminate.
        * destruct (list_eq_dec Nat.eq_dec a rest0); [congruence|reflexivity].
      + destruct (IH acc GL GA H') as (m & E & G). exists m. split; [assumption|]. intros a. rewrite G, GC. destruct (list_eq_dec Nat.eq_dec (0 :: a) (first :: rest0)); [congruence|reflexivity].
  Qed.
  Lemma Tree_shows y d : Tree y d -> shows (TStack None Designated [Some y]) d.
  Proof.
    intros HT. set (s := TStack None Designated [Some y]).
    assert (W : wf s) by (constructor; intros c [E|[]]; injection E as <-; eapply Tree_wf; eauto).
    destruct (to_tree_spec s W) as (_ & GS & GG).
    assert (NN : forall a, node s (0 :: a) = sub y a) by reflexivity.
    destruct (ast_spec (fst (ts_to_tree s)) [] GS I) as (m & E & G).
    - intros a p Hin. assert (Q : gt_get (0 :: a) (fst (ts_to_tree s)) = Some p) by (apply (bm_get_In _ addr_ord _ _ _ GS); assumption).
      rewrite GG, NN in Q. pose proof (Tree_sub a y d HT) as TS. rewrite Q in TS. destruct p as [| |r j k]; [destruct TS|destruct TS|eauto].
    - exists m. split; [exact E|]. intros a. rewrite G, GG, NN. pose proof (Tree_sub a y d HT) as TS. destruct (sub y a) as [[| |r j k]|]; [destruct TS|destruct TS|now rewrite TS|now rewrite TS].
  Qed.
End Deriv.

(* ---- components with at most one terminal at the end are read as they are ---- *)
Section Short.
  Context {N T W : Type}.
  Lemma split_tail (c : list (vart T)) : c = drop_tail c ++ map Tm (tail_of c).
  Proof.
    assert (NV : forall c : list (vart T), vars c = [] -> drop_tail c = [] /\ map Tm (tail_of c) = c).
    { clear. intros c. induction c as [|[i j|t] c IH]; intros E; [auto|discriminate|]. cbn in E. fold (vars c) in E. destruct (IH E) as [H1 H2]. cbn [drop_tail tail_of]. rewrite variables_one, E. cbn. now rewrite H2. }
    induction c as [|[i j|t] c IH]; [reflexivity|cbn; now f_equal|]. cbn [drop_tail tail_of]. rewrite variables_one. destruct (vars c) eqn:E.
    - destruct (NV c E) as [_ H]. cbn. now rewrite H.
    - cbn. now f_equal.
  Qed.
  Lemma drop_tail_last (c : list (vart T)) : last_terminal (drop_tail c) = [].
  Proof.
    rewrite drop_tail_sg. destruct (sg [] c) as [|x l] using rev_ind; [reflexivity|]. rewrite flat_map_app. cbn [flat_map]. rewrite app_nil_r. unfold unseg. rewrite app_assoc. now rewrite last_terminal_snoc.
  Qed.
  Lemma last_terminal_app (a b : list (vart T)) : b <> [] -> last_terminal (a ++ b) = last_terminal b.
  Proof. destruct b as [|x b] using rev_ind; [congruence|]. intros _. now rewrite app_assoc, !last_terminal_snoc. Qed.
  Lemma last_terminal_nil (a : list (vart T)) : (forall pre t, a <> pre ++ [Tm t]) -> last_terminal a = [].
  Proof. destruct a as [|[i j|t] a] using rev_ind; intros H; [reflexivity|now rewrite last_terminal_snoc|]. now destruct (H a t). Qed.
  Lemma read_short (cs : composition T) : forall before, (forall c, In c cs -> length (tail_of c) <= 1) ->
    (forall b a pre t, cs = b ++ [] :: a -> before ++ concat b <> pre ++ [Tm t]) -> read_comps before cs = cs.
  Proof.
    induction cs as [|c cs IH]; intros before H1 H2; [reflexivity|]. cbn [read_comps]. f_equal.
    - pose proof (H1 c (or_introl eq_refl)) as L. pose proof (split_tail c) as S0. destruct c as [|x c].
      + cbn [drop_tail app]. rewrite app_nil_r, last_terminal_nil; [reflexivity|]. intros pre t. specialize (H2 [] cs pre t eq_refl). cbn in H2. now rewrite app_nil_r in H2.
      + rewrite last_terminal_app by discriminate. rewrite S0 at 3. f_equal. f_equal. destruct (tail_of (x :: c)) as [|t [|t' l]] eqn:ET; [| |cbn in L; lia].
        * cbn [map] in S0. rewrite app_nil_r in S0. rewrite S0. apply drop_tail_last.
        * rewrite S0. cbn [map]. now rewrite last_terminal_snoc.
    - apply IH; [intros c' Hc; apply H1; now right|]. intros b a pre t E. rewrite <- app_assoc. apply (H2 (c :: b) a pre t). now rewrite E.
  Qed.
  Lemma read_rule_short (r : prule N T W) : short_tails r -> read_rule r = r.
  Proof. intros [H1 H2]. destruct r as [h tl cs w]. unfold read_rule. cbn in *. f_equal. apply read_short; assumption. Qed.
  Lemma read_tree_short (R : prule N T W -> Prop) (HS : forall r, R r -> short_tails r) d : forall A, deriv R A d -> read_tree d = d.
  Proof.
    induction d as [r ts IH] using dtree_ind2. rewrite Forall_forall in IH. intros A HD. apply deriv_inv in HD. destruct HD as (-> & Hr & F2). cbn [read_tree]. rewrite (read_rule_short r (HS r Hr)). f_equal.
    rewrite <- (map_id ts) at 2. apply map_ext_in. intros d Hd. destruct (F2_in_r _ _ _ F2 d Hd) as (B & _ & HB). now apply (IH d Hd B).
  Qed.
End Short.
