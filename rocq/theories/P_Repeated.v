(* Proofs about grammars in which a rule is listed more than once: the pushdown automaton is that of the grammar with the rules
   joined. *)
From Verif Require Import M_Nom Base M_Util M_Recog M_Agenda M_Search M_Automata M_CFG M_TreeStack M_Grammar M_Chart M_Text
  S_Search S_Util S_Recog S_Automata S_CFG S_PdaText P_Agenda P_Search P_Util P_Recog P_Automata P_PDA P_CFG.

(* ---- adding to entries that are there ---- *)
Section Add.
  Context {K : Weight} (wadd : K -> K -> K) (wzero : K) (WZ : forall x, wadd wzero x = x).
  Notation add := (hm_add wadd wzero).
  Notation add2 := (hm_add2 wadd wzero).
  Definition has (a : nat) (k : wi_key) (m : list (nat * list (wi_key * K))) : Prop := In k (map fst (hm_get a m)).

  Lemma add_comm k k' w w' v : In k (map fst v) -> k <> k' -> add k w (add k' w' v) = add k' w' (add k w v).
  Proof.
    intros HI NE. induction v as [|[k2 x] v IH]; [contradiction|]. cbn [hm_add].
    destruct (wi_eqb k' k2) eqn:E1, (wi_eqb k k2) eqn:E2; cbn [hm_add]; rewrite ?E1, ?E2; try reflexivity.
    - apply wi_eqb_spec in E1, E2. congruence.
    - f_equal. apply IH. destruct HI as [HI|HI]; [cbn in HI; subst; rewrite wi_eqb_refl in E2; discriminate|exact HI].
  Qed.
  Lemma add_twice k w w' v : ~ In k (map fst v) -> add k w' (add k w v) = add k (wadd w w') v.
  Proof.
    intros HN. induction v as [|[k2 x] v IH]; cbn [hm_add].
    - now rewrite wi_eqb_refl, !WZ.
    - destruct (wi_eqb k k2) eqn:E; [apply wi_eqb_spec in E; exfalso; apply HN; now left|]. cbn [hm_add]. rewrite E. f_equal. apply IH. intros HI. apply HN. now right.
  Qed.
  Lemma add2_comm a a' k k' w w' m : has a k m -> k <> k' -> add2 a k w (add2 a' k' w' m) = add2 a' k' w' (add2 a k w m).
  Proof.
    unfold has. intros HI NE. induction m as [|[b v] m IH]; [contradiction|]. cbn [hm_get] in HI. cbn [hm_add2].
    destruct (Nat.eqb a' b) eqn:E1, (Nat.eqb a b) eqn:E2; cbn [hm_add2]; rewrite ?E1, ?E2; try reflexivity.
    - f_equal. f_equal. now apply add_comm.
    - f_equal. now apply IH.
  Qed.
  Lemma add2_twice a k w w' m : ~ has a k m -> add2 a k w' (add2 a k w m) = add2 a k (wadd w w') m.
  Proof.
    unfold has. intros HN. induction m as [|[b v] m IH]; cbn [hm_add2].
    - rewrite Nat.eqb_refl. f_equal. f_equal. now apply add_twice.
    - cbn [hm_get] in HN. destruct (Nat.eqb a b) eqn:E; cbn [hm_add2]; rewrite E; f_equal; [f_equal; now apply add_twice|now apply IH].
  Qed.
  Lemma has_add2 a a' k k' w m : has a k (add2 a' k' w m) <-> has a k m \/ (a = a' /\ k = k').
  Proof.
    unfold has. rewrite hm_get_add2. destruct (Nat.eqb_spec a a') as [->|NE]; [|intuition].
    destruct (hm_add_keys wadd wzero k' w (hm_get a' m)) as [[A ->]|[A ->]]; [|rewrite in_app_iff; cbn]; intuition; subst; auto.
  Qed.

  Notation tr := (transition (pd_instr nat) nat K).
  Definition key_of (t : tr) : wi_key := (t_word t, t_ins t).
  Definition heavier (w : K) (t : tr) : tr := Trans (t_word t) (wadd (t_weight t) w) (t_ins t).
  Lemma pda_map_app ts : forall us m, pda_map wadd wzero (ts ++ us) m = match pda_map wadd wzero ts m with Some m' => pda_map wadd wzero us m' | None => None end.
  Proof. induction ts as [|t ts IH]; intros us m; cbn [app pda_map]; [reflexivity|]. now destruct (pi_current (t_ins t)). Qed.
  Lemma pda_map_has ts : forall m m', pda_map wadd wzero ts m = Some m' -> forall a k, has a k m' <-> has a k m \/ exists t, In t ts /\ key_of t = k /\ hd_error (pi_current (t_ins t)) = Some a.
  Proof.
    induction ts as [|t ts IH]; intros m m' E a k; cbn [pda_map] in E.
    - injection E as <-. split; [auto|]. intros [H|(t & [] & _)]. exact H.
    - destruct (pi_current (t_ins t)) as [|c r] eqn:EC; [discriminate|]. rewrite (IH _ _ E a k), has_add2. split.
      + intros [[H|[-> ->]]|(u & Hu & H)]; [now left|right; exists t; split; [now left|split; [reflexivity|now rewrite EC]]|right; exists u; split; [now right|exact H]].
      + intros [H|(u & [<-|Hu] & H1 & H2)]; [auto|left; right; rewrite EC in H2; cbn in H2; injection H2 as <-; now rewrite <- H1|right; eauto].
  Qed.
  Lemma pda_map_add ts a k w : forall m, has a k m -> (forall t, In t ts -> key_of t <> k) ->
    pda_map wadd wzero ts (add2 a k w m) = option_map (add2 a k w) (pda_map wadd wzero ts m).
  Proof.
    induction ts as [|t ts IH]; intros m HA NK; cbn [pda_map]; [reflexivity|]. destruct (pi_current (t_ins t)) as [|c r] eqn:EC; [reflexivity|].
    rewrite <- (add2_comm a c k (t_word t, t_ins t) w (t_weight t) m HA); [|intros C; apply (NK t (or_introl eq_refl)); now rewrite C]. apply IH; [apply has_add2; now left|]. intros u Hu. apply NK. now right.
  Qed.
  (* adding to an entry at the end is adding to its weight at the beginning *)
  Lemma pda_map_heavier before t after w : (forall u, In u (before ++ after) -> key_of u <> key_of t) ->
    pda_map wadd wzero (before ++ heavier w t :: after) [] = pda_map wadd wzero ((before ++ t :: after) ++ [Trans (t_word t) w (t_ins t)]) [].
  Proof.
    intros NK. rewrite !pda_map_app. destruct (pda_map wadd wzero before []) as [m|] eqn:EB; [|reflexivity].
    cbn [pda_map heavier t_ins t_word t_weight]. destruct (pi_current (t_ins t)) as [|c r] eqn:EC; [reflexivity|].
    assert (HN : ~ has c (t_word t, t_ins t) m).
    { intros HH. apply (pda_map_has _ _ _ EB) in HH. destruct HH as [[]|(u & Hu & HK & _)]. apply (NK u); [apply in_or_app; now left|exact HK]. }
    rewrite <- (add2_twice c _ (t_weight t) w m HN). rewrite pda_map_add.
    - destruct (pda_map wadd wzero after _) as [m2|]; reflexivity.
    - apply has_add2. now right.
    - intros u Hu. apply NK. apply in_or_app. now right.
  Qed.
End Add.

(* ---- integerising transitions whose symbols are known ---- *)
Section Known.
  Context {A T : Type} {K : Weight} (aeqb : A -> A -> bool) (teqb : T -> T -> bool) (AE : EqbSpec aeqb) (TE : EqbSpec teqb).
  Notation tr := (transition (pd_instr A) T K).
  Notation ints := (trs_integerise (K := K) teqb (pdi_integerise aeqb)).
  Definition state_after (s : list T * list A) (ts : list tr) : list T * list A := fst (ints (fst s) (snd s) ts).

  Lemma int_list_known {B} (beqb : B -> B -> bool) (BE : EqbSpec beqb) xs : forall l, (forall x, In x xs -> In x l) -> fst (int_list beqb l xs) = l.
  Proof.
    induction xs as [|x xs IH]; intros l HK; [reflexivity|]. cbn [int_list]. unfold int_integerise.
    destruct (find_index beqb x l) as [k|] eqn:E.
    - specialize (IH l (fun y Hy => HK y (or_intror Hy))). destruct (int_list beqb l xs). exact IH.
    - exfalso. pose proof (find_key_enc beqb BE l x) as F. unfold int_find_key in F. rewrite E in F. rewrite (proj2 (memb_In beqb BE x l) (HK x (or_introl eq_refl))) in F. discriminate.
  Qed.
  Lemma state_app s ts us : state_after s (ts ++ us) = state_after (state_after s ts) us.
  Proof.
    unfold state_after. destruct s as [lt la]. cbn [fst snd]. revert lt la. induction ts as [|t ts IH]; intros lt la; cbn [app trs_integerise]; [reflexivity|].
    destruct (tr_integerise teqb (pdi_integerise aeqb) lt la t) as [[lt1 la1] t']. specialize (IH lt1 la1).
    destruct (ints lt1 la1 (ts ++ us)) as [s1 r1], (ints lt1 la1 ts) as [s2 r2]. cbn [fst] in *. exact IH.
  Qed.
  (* weights do not matter *)
  Lemma state_sig ts : forall us s, map (fun t : tr => (t_word t, t_ins t)) ts = map (fun t : tr => (t_word t, t_ins t)) us -> state_after s ts = state_after s us.
  Proof.
    induction ts as [|t ts IH]; intros [|u us] [lt la] E; try discriminate; [reflexivity|]. cbn [map] in E. injection E as E1 E2 E3.
    change (t :: ts) with ([t] ++ ts). change (u :: us) with ([u] ++ us). rewrite !state_app. rewrite (IH us _ E3). f_equal.
    unfold state_after. cbn [trs_integerise fst snd]. unfold tr_integerise. rewrite E1, E2. destruct (int_list teqb lt (t_word u)), (pdi_integerise aeqb la (t_ins u)). reflexivity.
  Qed.
  Lemma state_known s ts t : In t ts -> forall u : tr, t_word u = t_word t -> t_ins u = t_ins t -> state_after (state_after s ts) [u] = state_after s ts.
  Proof.
    intros HI u E1 E2. unfold state_after at 2 3. destruct s as [lt la]. cbn [fst snd].
    pose proof (trs_int_spec teqb TE (pdi_integerise aeqb) (pk (A := A)) (pe aeqb) (pdi_LI aeqb AE) (pdi_LE aeqb AE) ts lt la) as H.
    destruct (ints lt la ts) as [[lt' la'] ts']. destruct H as (_ & _ & HK & _). destruct (HK t HI) as [[K1 K2] K3]. cbn [fst snd].
    unfold state_after. cbn [trs_integerise fst snd]. unfold tr_integerise, pdi_integerise. rewrite E1, E2.
    pose proof (int_list_known teqb TE (t_word t) lt' K3) as W. destruct (int_list teqb lt' (t_word t)) as [l1 w]. cbn in W. subst l1.
    pose proof (int_list_known aeqb AE (pi_current (t_ins t)) la' K1) as W. destruct (int_list aeqb la' (pi_current (t_ins t))) as [l1 c]. cbn in W. subst l1.
    pose proof (int_list_known aeqb AE (pi_new (t_ins t)) la' K2) as W. destruct (int_list aeqb la' (pi_new (t_ins t))) as [l1 n]. cbn in W. subst l1. reflexivity.
  Qed.
End Known.

(* ---- joining rules ---- *)
Section Join.
  Context {K : ZWeight} (neqb teqb : bytes -> bytes -> bool) (NE : EqbSpec neqb) (TE : EqbSpec teqb) (wadd : K -> K -> K) (WZ : forall x, wadd wzero x = x).
  Notation rule := (cfg_rule bytes bytes K).
  Notation same := (same_rule (K := K) neqb teqb).
  Definition sig (r : rule) := (cr_head r, cr_rhs r).
  Fixpoint join_rule (r : rule) (acc : list rule) : list rule :=
    match acc with
    | [] => [r]
    | r0 :: acc => if same r r0 then CFGRule (cr_head r0) (cr_rhs r0) (wadd (cr_weight r0) (cr_weight r)) :: acc else r0 :: join_rule r acc
    end.
  Definition join (rules : list rule) : list rule := fold_left (fun acc r => join_rule r acc) rules [].

  Lemma letter_eqb_spec : EqbSpec (letter_eqb neqb teqb).
  Proof. intros [a|a] [b|b]; cbn; [rewrite (NE a b)| | |rewrite (TE a b)]; split; intros E; try congruence; discriminate. Qed.
  Lemma same_sig r r' : same r r' = true <-> sig r = sig r'.
  Proof.
    unfold same_rule, sig. rewrite andb_true_iff, (NE (cr_head r) (cr_head r')), (list_eqb_spec _ letter_eqb_spec (cr_rhs r) (cr_rhs r')).
    split; [intros [-> ->]; reflexivity|]. intros E. injection E. auto.
  Qed.
  Lemma join_snoc rules r : join (rules ++ [r]) = join_rule r (join rules).
  Proof. unfold join. now rewrite fold_left_app. Qed.
  Lemma join_rule_cases r acc : NoDup (map sig acc) ->
    (~ In (sig r) (map sig acc) /\ join_rule r acc = acc ++ [r]) \/
    exists b r0 a, acc = b ++ r0 :: a /\ sig r0 = sig r /\ (forall u, In u (b ++ a) -> sig u <> sig r) /\
      join_rule r acc = b ++ CFGRule (cr_head r0) (cr_rhs r0) (wadd (cr_weight r0) (cr_weight r)) :: a.
  Proof.
    induction acc as [|r0 acc IH]; intros ND; cbn [join_rule]; [left; split; [intros []|reflexivity]|]. cbn [map] in ND. apply NoDup_cons_iff in ND. destruct ND as [N1 N2].
    destruct (same r r0) eqn:E.
    - apply same_sig in E. right. exists [], r0, acc. split; [reflexivity|]. split; [now symmetry|]. split; [|reflexivity]. intros u Hu C. apply N1. rewrite <- E, <- C. now apply in_map.
    - assert (NS : sig r0 <> sig r) by (intros C; rewrite (proj2 (same_sig r r0) (eq_sym C)) in E; discriminate).
      destruct (IH N2) as [[A ->]|(b & r1 & a & -> & E1 & NK & ->)].
      + left. split; [|reflexivity]. intros [C|C]; [now apply NS|now apply A].
      + right. exists (r0 :: b), r1, a. split; [reflexivity|]. split; [exact E1|]. split; [|reflexivity]. intros u [<-|Hu]; [exact NS|now apply NK].
  Qed.
  Lemma join_sigs rules : NoDup (map sig (join rules)) /\ forall s, In s (map sig (join rules)) <-> In s (map sig rules).
  Proof.
    induction rules as [|r rules IH] using rev_ind; [split; [constructor|tauto]|]. destruct IH as [ND HS]. rewrite join_snoc.
    destruct (join_rule_cases r (join rules) ND) as [[A ->]|(b & r0 & a & E & E1 & NK & ->)].
    - split.
      + rewrite map_app. apply NoDup_app_intro; [exact ND|repeat constructor; intros []|]. intros x Hx [<-|[]]. contradiction.
      + intros s. rewrite !map_app, !in_app_iff, HS. tauto.
    - rewrite E in ND, HS. rewrite map_app in *. cbn [map] in *. change (sig (CFGRule (cr_head r0) (cr_rhs r0) (wadd (cr_weight r0) (cr_weight r)))) with (sig r0). split; [exact ND|].
      intros s. rewrite HS, map_app, in_app_iff. cbn [map]. assert (HR : In (sig r) (map sig rules)) by (apply HS; rewrite in_app_iff; right; now left).
      split; [tauto|]. intros [X|[<-|[]]]; [exact X|exact HR].
  Qed.
  Lemma sum_snoc ws w : wsum wadd wzero (ws ++ [w]) = wadd (wsum wadd wzero ws) w.
  Proof. unfold wsum. now rewrite fold_left_app. Qed.
  Lemma filter_same_none r rules : ~ In (sig r) (map sig rules) -> filter (same r) rules = [].
  Proof.
    intros HN. induction rules as [|u rules IH]; [reflexivity|]. cbn [filter]. destruct (same r u) eqn:E; [apply same_sig in E; exfalso; apply HN; now left|]. apply IH. intros C. apply HN. now right.
  Qed.
  Lemma filter_same_sig r r' rules : sig r = sig r' -> filter (same r) rules = filter (same r') rules.
  Proof. intros E. apply filter_ext. intros u. apply Bool.eq_iff_eq_true. rewrite !same_sig, E. tauto. Qed.
  Lemma join_weights rules : forall r, In r (join rules) -> cr_weight r = wsum wadd wzero (map cr_weight (filter (same r) rules)).
  Proof.
    induction rules as [|x rules IH] using rev_ind; [intros r []|]. intros r Hr. rewrite join_snoc in Hr. destruct (join_sigs rules) as [ND HS].
    rewrite filter_app, map_app. cbn [filter].
    destruct (join_rule_cases x (join rules) ND) as [[A E]|(b & r0 & a & E & E1 & NK & EJ)].
    - rewrite E in Hr. apply in_app_iff in Hr. destruct Hr as [Hr|[<-|[]]].
      + destruct (same r x) eqn:EX; [apply same_sig in EX; exfalso; apply A; rewrite <- EX; now apply in_map|]. cbn [map]. rewrite app_nil_r. now apply IH.
      + rewrite (proj2 (same_sig x x) eq_refl). rewrite (filter_same_none x rules) by (intros C; apply A; now apply HS). cbn. now rewrite WZ.
    - rewrite EJ in Hr. apply in_app_iff in Hr. cbn [In] in Hr.
      assert (OLD : In r (b ++ a) -> cr_weight r = wsum wadd wzero (map cr_weight (filter (same r) rules) ++ map cr_weight (if same r x then [x] else []))).
      { intros HI. destruct (same r x) eqn:EX; [apply same_sig in EX; now apply NK in HI|]. cbn [map]. rewrite app_nil_r. apply IH. rewrite E. apply in_app_iff in HI. apply in_app_iff. cbn [In]. tauto. }
      destruct Hr as [Hr|[<-|Hr]]; [apply OLD, in_app_iff; now left| |apply OLD, in_app_iff; now right].
      set (r1 := CFGRule _ _ _). assert (S1 : sig r1 = sig r0) by reflexivity. rewrite (proj2 (same_sig r1 x)) by congruence. cbn [map]. rewrite sum_snoc. rewrite (filter_same_sig r1 r0 rules S1). cbn [r1 cr_weight].
      f_equal. apply IH. rewrite E. apply in_app_iff. right. now left.
  Qed.
  Lemma join_joined rules r : In r (join rules) <-> joined neqb teqb wadd rules r.
  Proof.
    destruct (join_sigs rules) as [ND HS]. split.
    - intros Hr. split; [|now apply join_weights]. assert (X : In (sig r) (map sig rules)) by (apply HS; now apply in_map). apply in_map_iff in X. destruct X as (r0 & E & H0). injection E as E1 E2. eauto.
    - intros [(r0 & H0 & E1 & E2) EW]. assert (X : In (sig r) (map sig (join rules))) by (apply HS; apply in_map_iff; exists r0; split; [unfold sig; now rewrite E1, E2|exact H0]).
      apply in_map_iff in X. destruct X as (r1 & E & H1). pose proof (join_weights rules r1 H1) as W. rewrite (filter_same_sig r1 r rules E), <- EW in W.
      replace r with r1; [exact H1|]. destruct r, r1. unfold sig in E. cbn in *. congruence.
  Qed.

  (* the terminals *)
  Definition buffer (b : list bytes) (rules : list rule) : list bytes := fst (rule_transitions teqb rules b).
  Lemma buffer_app rules rules' : forall b, buffer b (rules ++ rules') = buffer (buffer b rules) rules'.
  Proof.
    unfold buffer. induction rules as [|r rules IH]; intros b; cbn [app rule_transitions]; [reflexivity|]. destruct (fold_left (st_step teqb) (cr_rhs r) (b, [])) as [b1 st]. specialize (IH b1).
    destruct (rule_transitions teqb (rules ++ rules') b1), (rule_transitions teqb rules b1). exact IH.
  Qed.
  Lemma st_known rhs : forall (b : list bytes) (st : list (push_state bytes bytes)), (forall x, In (Value x) rhs -> In x b) -> fst (fold_left (st_step teqb) rhs (b, st)) = b.
  Proof.
    induction rhs as [|[n|x] rhs IH]; intros b st HK; cbn [fold_left st_step]; [reflexivity|apply IH; intros y Hy; apply HK; now right|].
    rewrite (proj2 (memb_In teqb TE x b) (HK x (or_introl eq_refl))). apply IH. intros y Hy. apply HK. now right.
  Qed.
  Lemma buffer_rhs rules : forall rules' b, map cr_rhs rules = map cr_rhs rules' -> buffer b rules = buffer b rules'.
  Proof.
    unfold buffer. induction rules as [|r rules IH]; intros [|r' rules'] b E; try discriminate; [reflexivity|]. cbn [map] in E. injection E as E1 E2. cbn [rule_transitions]. rewrite E1.
    destruct (fold_left (st_step teqb) (cr_rhs r') (b, [])) as [b1 st]. specialize (IH rules' b1 E2). destruct (rule_transitions teqb rules b1), (rule_transitions teqb rules' b1). exact IH.
  Qed.
  Lemma buffer_join rules : buffer [] (join rules) = buffer [] rules.
  Proof.
    induction rules as [|r rules IH] using rev_ind; [reflexivity|]. destruct (join_sigs rules) as [ND HS]. rewrite join_snoc, buffer_app, <- IH.
    destruct (join_rule_cases r (join rules) ND) as [[A ->]|(b & r0 & a & E & E1 & NK & ->)]; [now rewrite buffer_app|].
    transitivity (buffer [] (join rules)); [apply buffer_rhs; rewrite E, !map_app; reflexivity|]. symmetry.
    pose proof (rule_transitions_spec teqb TE (join rules) [] (NoDup_nil _)) as SP. unfold buffer at 2 3. destruct (rule_transitions teqb (join rules) []) as [bb ts]. destruct SP as (_ & _ & SP). cbn [fst].
    unfold buffer. cbn [rule_transitions]. pose proof (st_known (cr_rhs r) bb []) as X. destruct (fold_left (st_step teqb) (cr_rhs r) (bb, [])) as [b1 st]. cbn [fst] in *. apply X.
    intros x Hx. apply SP. right. exists r0. split; [rewrite E; apply in_app_iff; right; now left|]. injection E1 as _ E2. now rewrite E2.
  Qed.

  (* the automaton *)
  Notation PE := (ps_eqb_spec neqb teqb NE TE).
  Notation state := (state_after (K := K) (ps_eqb neqb teqb) teqb).
  Lemma state_join rules s : state s (map rule_trans (join rules)) = state s (map rule_trans rules).
  Proof.
    induction rules as [|r rules IH] using rev_ind; [reflexivity|]. destruct (join_sigs rules) as [ND HS]. rewrite join_snoc, map_app, state_app, <- IH.
    destruct (join_rule_cases r (join rules) ND) as [[A ->]|(b & r0 & a & E & E1 & NK & ->)]; [now rewrite map_app, state_app|].
    transitivity (state s (map rule_trans (join rules))); [apply state_sig; rewrite E, !map_app; reflexivity|]. symmetry. cbn [map]. injection E1 as E1 E2.
    apply (state_known (ps_eqb neqb teqb) teqb PE TE s (map rule_trans (join rules)) (rule_trans r0)).
    - apply in_map. rewrite E. apply in_app_iff. right. now left.
    - reflexivity.
    - unfold rule_trans. cbn [t_ins]. now rewrite E1, E2.
  Qed.
  Notation e lt la := (eTrL (K := K) teqb (pe (ps_eqb neqb teqb)) lt la).
  Notation known lt la := (kTr (K := K) (T := bytes) (pk (A := push_state bytes bytes)) lt la).
  Lemma key_inj lt la r u : known lt la (rule_trans r) -> known lt la (rule_trans u) -> key_of (e lt la (rule_trans r)) = key_of (e lt la (rule_trans u)) -> sig r = sig u.
  Proof.
    intros K1 K2 E. set (u' := CFGRule (cr_head u) (cr_rhs u) (cr_weight r) : rule).
    assert (X : rule_trans r = rule_trans u').
    { apply (eTrL_inj teqb TE (pdi_un_integerise (A := push_state bytes bytes)) pk (pe (ps_eqb neqb teqb)) (pdi_LU _ PE) lt la); [exact K1|exact K2|].
      unfold key_of, eTrL in *. cbn [t_word t_ins t_weight rule_trans u' cr_head cr_rhs cr_weight] in *. injection E as E1 E2. unfold pe in *. cbn in *. congruence. }
    apply rule_trans_inj in X. rewrite X. reflexivity.
  Qed.
  Lemma map_join lt la rules : (forall r, In r rules -> known lt la (rule_trans r)) ->
    pda_map wadd wzero (map (e lt la) (map rule_trans (join rules))) [] = pda_map wadd wzero (map (e lt la) (map rule_trans rules)) [].
  Proof.
    induction rules as [|r rules IH] using rev_ind; [reflexivity|]. intros HK. destruct (join_sigs rules) as [ND HS].
    assert (HK' : forall u, In u (join rules) -> known lt la (rule_trans u)).
    { intros u Hu. assert (X : In (sig u) (map sig rules)) by (apply HS; now apply in_map). apply in_map_iff in X. destruct X as (v & E & Hv). injection E as E1 E2.
      destruct (HK v) as [X1 X2]; [apply in_app_iff; now left|]. unfold rule_trans in *. cbn [t_ins t_word] in *. rewrite E1, E2 in X1. split; assumption. }
    assert (EQ : pda_map wadd wzero (map (e lt la) (map rule_trans (join rules))) [] = pda_map wadd wzero (map (e lt la) (map rule_trans rules)) []) by (apply IH; intros u Hu; apply HK, in_app_iff; now left).
    rewrite join_snoc, !map_app, pda_map_app, <- EQ.
    destruct (join_rule_cases r (join rules) ND) as [[A ->]|(b & r0 & a & E & E1 & NK & ->)]; [now rewrite !map_app, pda_map_app|].
    rewrite <- pda_map_app. rewrite E, !map_app. cbn [map]. injection E1 as E1 E2.
    change (e lt la (rule_trans (CFGRule (cr_head r0) (cr_rhs r0) (wadd (cr_weight r0) (cr_weight r))))) with (heavier wadd (cr_weight r) (e lt la (rule_trans r0))).
    replace (e lt la (rule_trans r)) with (Trans (t_word (e lt la (rule_trans r0))) (cr_weight r) (t_ins (e lt la (rule_trans r0)))) by (unfold eTrL, rule_trans; cbn; now rewrite E1, E2).
    apply pda_map_heavier; [exact WZ|]. intros t Ht C. rewrite <- !map_app in Ht. apply in_map_iff in Ht. destruct Ht as (t' & <- & Ht). apply in_map_iff in Ht. destruct Ht as (u & <- & Hu).
    assert (IU : In u (join rules)) by (rewrite E; apply in_app_iff in Hu; apply in_app_iff; cbn [In]; tauto).
    assert (I0 : In r0 (join rules)) by (rewrite E; apply in_app_iff; right; now left).
    apply (key_inj lt la u r0 (HK' u IU) (HK' r0 I0)) in C. apply (NK u Hu). rewrite C. unfold sig. now rewrite E1, E2.
  Qed.
  Lemma pda_join order init rules : pda_from_cfg teqb wadd wzero neqb order (CFG init (join rules)) = pda_from_cfg teqb wadd wzero neqb order (CFG init rules).
  Proof.
    unfold pda_from_cfg, cfg_transitions. cbn [cg_rules cg_initial]. pose proof (buffer_join rules) as EB. unfold buffer in EB.
    pose proof (rule_transitions_spec teqb TE rules [] (NoDup_nil _)) as S1. pose proof (rule_transitions_spec teqb TE (join rules) [] (NoDup_nil _)) as S2.
    destruct (rule_transitions teqb rules []) as [b1 ts1], (rule_transitions teqb (join rules) []) as [b2 ts2]. cbn [fst] in EB. subst b2. destruct S1 as (-> & _), S2 as (-> & _).
    match goal with |- context [map rule_trans rules ++ ?R] => set (rest := R) end. unfold pda_new. destruct (int_list (ps_eqb neqb teqb) [] [Designated; Initial]) as [a1 i1].
    pose proof (trs_int_spec (K := K) teqb TE (pdi_integerise (ps_eqb neqb teqb)) pk (pe (ps_eqb neqb teqb)) (pdi_LI _ PE) (pdi_LE _ PE)) as SP.
    pose proof (SP (map rule_trans rules ++ rest) [] a1) as X1. pose proof (SP (map rule_trans (join rules) ++ rest) [] a1) as X2.
    assert (EQ : state ([], a1) (map rule_trans (join rules) ++ rest) = state ([], a1) (map rule_trans rules ++ rest)) by (rewrite !state_app, state_join; reflexivity).
    unfold state_after in EQ. cbn [fst snd] in EQ.
    destruct (trs_integerise teqb (pdi_integerise (ps_eqb neqb teqb)) [] a1 (map rule_trans rules ++ rest)) as [[lt la] ts1].
    destruct (trs_integerise teqb (pdi_integerise (ps_eqb neqb teqb)) [] a1 (map rule_trans (join rules) ++ rest)) as [[lt2 la2] ts2]. cbn [fst] in EQ. injection EQ as -> ->.
    destruct X1 as (_ & _ & HK & ->), X2 as (_ & _ & _ & ->). rewrite !map_app, !pda_map_app, map_join; [reflexivity|]. intros r Hr. apply HK. apply in_app_iff. left. now apply in_map.
  Qed.
End Join.
