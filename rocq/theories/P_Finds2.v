(* Proofs: runs of the tree stack automaton of a grammar push a rule every few steps. *)
From Verif Require Import Base BMap M_Agenda M_Search M_Util M_Recog M_Automata M_CFG M_TreeStack M_Grammar M_FromPmcfg
  S_Search S_Recog S_TreeStack S_Grammar S_FromPmcfg P_Agenda P_Search P_Recog P_Automata P_TreeStack P_TSA P_Grammar P_GrammarCFG P_Conversion P_FromPmcfg P_FromPmcfg2 P_FromPmcfg3 P_FromPmcfg5 S_Fading P_Finds.

Section Sum.
  Context {A : Type} (eqb : A -> A -> bool) (EE : EqbSpec eqb) (f : A -> nat).
  (* the sum over a node and what is above it, and over all nodes *)
  Fixpoint csum (t : tstack A) : nat :=
    match t with TStack _ v ch => f v + list_sum (map (fun o => match o with Some c => csum c | None => 0 end) ch) end.
  Notation chsum ch := (list_sum (map (fun o => match o with Some c => csum c | None => 0 end) ch)).
  Fixpoint tsum (t : tstack A) : nat :=
    match t with TStack p v ch => match p with Some (_, q) => tsum q | None => 0 end + f v + chsum ch end.
  Lemma tsum_eq t : tsum t = match ts_parent t with Some (_, q) => tsum q | None => 0 end + f (ts_value t) + chsum (ts_children t).
  Proof. now destruct t as [[[n p]|] v ch]. Qed.
  Lemma csum_eq t : csum t = f (ts_value t) + chsum (ts_children t).
  Proof. now destruct t. Qed.
  Lemma chsum_none n : chsum (repeat None n) = 0.
  Proof. induction n; [reflexivity|]. cbn in *. exact IHn. Qed.
  Lemma chsum_set n x : forall ch o, nth_error ch n = Some o ->
    chsum (set_nth n x ch) + match o with Some c => csum c | None => 0 end = chsum ch + match x with Some c => csum c | None => 0 end.
  Proof.
    induction n as [|n IH]; intros [|y ch] o E; try discriminate; cbn in E.
    - injection E as ->. unfold list_sum. cbn [map fold_right set_nth]. lia.
    - specialize (IH ch o E). unfold list_sum in *. cbn [map fold_right set_nth] in *. lia.
  Qed.
  Lemma fill_sum t n : tsum (ts_fill t n) = tsum t.
  Proof.
    unfold ts_fill. destruct (Nat.leb _ n); [|reflexivity]. rewrite !tsum_eq. cbn [ts_parent ts_value ts_children]. rewrite map_app, list_sum_app, chsum_none. lia.
  Qed.
  Lemma push_sum n a b s s1 : In s1 (tsi_apply eqb (IPush n a b) s) -> tsum s1 = tsum s + f b.
  Proof.
    cbn. destruct (eqb _ a); [|intros []]. unfold ts_push, ts_push_p. destruct (nth_error _ n) as [[c|]|]; [intros []| |intros []]. intros [<-|[]].
    rewrite tsum_eq. cbn [ts_parent ts_value ts_children map list_sum fold_right]. rewrite fill_sum. cbn. lia.
  Qed.
  Lemma up_sum n a o b s s1 : In s1 (tsi_apply eqb (IUp n a o b) s) -> tsum s1 + f o = tsum s + f b.
  Proof.
    cbn. destruct (eqb _ a); [|intros []]. unfold ts_up, swap_remove_none. destruct (Nat.ltb n _); [|intros []].
    destruct (nth_error (ts_children s) n) as [[tn|]|] eqn:EN; [|intros []|intros []]. unfold ts_current_symbol. cbn [ts_value]. destruct (eqb (ts_value tn) o) eqn:EO; [|intros []]. apply EE in EO. subst o.
    intros [<-|[]]. pose proof (chsum_set n None _ _ EN) as CS. cbn [ts_set] in *. rewrite (tsum_eq s). cbn [ts_set ts_parent ts_children ts_value tsum]. rewrite csum_eq in CS. lia.
  Qed.
  Lemma down_sum a o b s s1 : In s1 (tsi_apply eqb (IDown a o b) s) -> tsum s1 + f o <= tsum s + f b.
  Proof.
    cbn. destruct (eqb _ a); [|intros []]. unfold ts_down, ts_down_p. rewrite (tsum_eq s). destruct (ts_parent s) as [[n pn]|]; [|intros []].
    destruct (Nat.ltb_spec n (length (ts_children pn))) as [L|L]; [|intros []]. unfold ts_current_symbol. cbn [ts_value]. destruct (eqb (ts_value pn) o) eqn:EO; [|intros []]. apply EE in EO. subst o. intros [<-|[]].
    destruct (nth_error (ts_children pn) n) as [oc|] eqn:EN; [|apply nth_error_None in EN; lia].
    pose proof (chsum_set n (Some (TStack None (ts_value s) (ts_children s))) _ _ EN) as CS. rewrite (tsum_eq pn), tsum_eq. cbn [ts_set ts_parent ts_children ts_value csum] in *. lia.
  Qed.
End Sum.

Section Pushes.
  Context {N T : Type} {K : Weight} (KL : RoundLaws K) (neqb : N -> N -> bool) (reqb : prule N T K -> prule N T K -> bool) (NE : EqbSpec neqb) (RE : EqbSpec reqb).
  Context (f : N -> nat) (g : pmcfg N T K) (OG : ordered_grammar f g).
  Notation rules := (pg_rules g).
  Notation apply := (tsi_apply (posstate_eqb reqb)).
  Notation PE := (peqb_spec reqb RE).
  Definition most : nat := list_max (map (fun r => length (pr_comp r)) rules).
  Definition left_of (v : posstate (prule N T K)) : nat := match v with Position _ j _ => most - j | _ => 0 end.
  Definition potential (s : tstack (posstate (prule N T K))) : nat := 2 * tsum left_of s + depth s.
  Lemma most_max r : In r rules -> length (pr_comp r) <= most.
  Proof. intros Hr. unfold most. apply (proj1 (Forall_forall _ _) (proj1 (list_max_le _ _) (le_n _))). now apply (in_map (fun r => length (pr_comp r))). Qed.

  Lemma step_rules t s s1 : is_trans g t -> In s1 (apply (t_ins t) s) ->
    exists rs, (forall r, In r rs -> In r rules) /\ (forall x, wmul x (t_weight t) = fold_left wmul (map pr_weight rs) x) /\ 1 + potential s1 <= potential s + (2 * most + 2) * length rs.
  Proof.
    intros HT HS. unfold potential. destruct HT as [(r & Hr & _ & [->| ->])|(r & j & k & b & i & j1 & ri & Hr & HV & Hn & Hri & [->| ->])].
    - exists [r]. split; [intros q [<-|[]]; exact Hr|]. split; [reflexivity|]. cbn [ipush t_ins] in HS. rewrite (push_sum _ left_of _ _ _ _ _ HS).
      destruct (apply_push_depth _ PE _ _ _ _ _ HS) as (_ & _ & ->). cbn [left_of length]. lia.
    - exists []. split; [intros q []|]. split; [intros x; apply (wl_one_r KL)|]. cbn [idown t_ins] in HS. pose proof (down_sum _ PE left_of _ _ _ _ _ HS) as DS. destruct (apply_down_depth _ PE _ _ _ _ _ HS) as (_ & _ & ->). cbn [left_of length] in *. lia.
    - destruct j1 as [|j0]; cbn [prevc enter t_ins t_weight] in *.
      + exists [ri]. split; [intros q [<-|[]]; exact Hri|]. split; [reflexivity|]. rewrite (push_sum _ left_of _ _ _ _ _ HS).
        destruct (apply_push_depth _ PE _ _ _ _ _ HS) as (_ & _ & ->). cbn [left_of length]. lia.
      + exists []. split; [intros q []|]. split; [intros x; apply (wl_one_r KL)|]. pose proof (up_sum _ PE left_of _ _ _ _ _ _ HS) as US. destruct (apply_up_depth _ PE _ _ _ _ _ _ HS) as (_ & _ & ->). cbn [left_of length] in *.
        assert (LJ : S j0 < length (pr_comp ri)).
        { destruct (at_seq f g OG r j k b i (S j0) Hr HV) as (_ & B & EB & L). rewrite Hn in EB. injection EB as <-. destruct OG as (FO & _). now rewrite (FO ri Hri). }
        pose proof (most_max ri Hri). lia.
    - exists []. split; [intros q []|]. split; [intros x; apply (wl_one_r KL)|]. cbn [leave t_ins] in HS. pose proof (down_sum _ PE left_of _ _ _ _ _ HS) as DS. destruct (apply_down_depth _ PE _ _ _ _ _ HS) as (_ & _ & ->). cbn [left_of length] in *. lia.
  Qed.
  Lemma run_pushes us : forall s s', executes apply s us s' -> (forall t, In t us -> is_trans g t) ->
    exists rs, (forall r, In r rs -> In r rules) /\ (forall x, fold_left wmul (map t_weight us) x = fold_left wmul (map pr_weight rs) x) /\ length us + potential s' <= potential s + (2 * most + 2) * length rs.
  Proof.
    induction us as [|t us IH]; intros s s' HE HT; inversion HE as [|? ? ? s1 ? H1 H2]; subst.
    - exists []. split; [intros q []|]. split; [reflexivity|cbn; lia].
    - destruct (step_rules t s s1 (HT t (or_introl eq_refl)) H1) as (r1 & A1 & A2 & A3). destruct (IH _ _ H2 (fun t Ht => HT t (or_intror Ht))) as (r2 & B1 & B2 & B3).
      exists (r1 ++ r2). split; [intros q Hq; apply in_app_or in Hq; destruct Hq; auto|]. split.
      + intros x. cbn [map fold_left]. rewrite A2, B2, map_app, fold_left_app. reflexivity.
      + rewrite app_length. cbn [length]. lia.
  Qed.
End Pushes.

(* ---- the tokens of the automaton ---- *)
Lemma tsa_tokens {A T : Type} {K : Weight} (aeqb : A -> A -> bool) (teqb : T -> T -> bool) (ts : list (transition (ts_instr A) T K)) initial :
  forall y, In y (ta_t (tsa_new aeqb teqb ts initial)) -> exists t, In t ts /\ In y (t_word t).
Proof.
  unfold tsa_new. destruct (ts_map_st _ [] initial) as [a1 ini]. pose proof (trs_tokens teqb (tsi_integerise aeqb) ts [] a1) as G. destruct (trs_integerise teqb (tsi_integerise aeqb) [] a1 ts) as [[lt la] us].
  intros y Hy. destruct (G y Hy) as [[]|H]. exact H.
Qed.
Section Tokens.
  Context {N T : Type} {K : Weight} (f : N -> nat) (g : pmcfg N T K) (OG : ordered_grammar f g).
  Notation rules := (pg_rules g).
  Lemma sg_in (c : list (vart T)) : forall buf b v x, In (b, v) (sg buf c) -> In x b -> In x buf \/ In (Tm x) c.
  Proof.
    induction c as [|[i j|t] c IH]; intros buf b v x HI Hx; cbn [sg] in HI; [destruct HI| |].
    - destruct HI as [E|HI]; [injection E as <- <-; now left|]. destruct (IH _ _ _ _ HI Hx) as [[]|H]. right. now right.
    - destruct (IH _ _ _ _ HI Hx) as [H|H]; [|right; now right]. apply in_app_iff in H. destruct H as [H|[<-|[]]]; [now left|right; now left].
  Qed.
  Lemma dw_in (r : prule N T K) j x : In x (dw r j) -> In (Tm x) (concat (pr_comp r)).
  Proof.
    unfold dw. intros HI. assert (HC : In (Tm x) (concat (firstn (S j) (pr_comp r)))).
    { set (l := concat _) in *. destruct l as [|y l' _] using rev_ind; [destruct HI|]. rewrite last_terminal_snoc in HI. destruct y as [i k|t]; [destruct HI|]. destruct HI as [<-|[]]. apply in_or_app. right. now left. }
    rewrite <- (firstn_skipn (S j) (pr_comp r)), concat_app. apply in_or_app. now left.
  Qed.
  Lemma trans_tokens t x : is_trans g t -> In x (t_word t) -> exists r, In r rules /\ In (Tm x) (concat (pr_comp r)).
  Proof.
    intros HT Hx. destruct HT as [(r & Hr & Hi & [->| ->])|(r & j & k & b & i & j1 & ri & Hr & AV & TI & Hri & [->| ->])].
    - destruct Hx.
    - exists r. split; [exact Hr|exact (dw_in _ _ _ Hx)].
    - exists r. split; [exact Hr|]. assert (Hb : In x b) by (destruct j1; exact Hx). unfold at_var in AV. destruct (nth_error (pr_comp r) j) as [c|] eqn:E; [|discriminate].
      destruct (sg_in c [] b (i, j1) x (nth_error_In _ _ AV) Hb) as [[]|HI]. apply in_concat. exists c. split; [exact (nth_error_In _ _ E)|exact HI].
    - exists ri. split; [exact Hri|exact (dw_in _ _ _ Hx)].
  Qed.
  Lemma at_var_in (r : prule N T K) i j : In (i, j) (variables (pr_comp r)) -> exists j0 k b, at_var r j0 k = Some (b, (i, j)).
  Proof.
    intros HI. unfold variables in HI. apply in_flat_map in HI. destruct HI as (v & Hv & HI). apply in_concat in Hv. destruct Hv as (c & Hc & Hv). apply In_nth_error in Hc. destruct Hc as (j0 & E).
    assert (HV : In (i, j) (vars c)) by (apply in_flat_map; eauto). clear v Hv HI. rewrite <- (sg_vars c []) in HV. apply in_map_iff in HV. destruct HV as ([b v] & EV & HV). cbn in EV. subst v. apply In_nth_error in HV. destruct HV as (k & EK).
    exists j0, k, b. unfold at_var. now rewrite E.
  Qed.
  Lemma rule_tokens r x : In r rules -> short_tails r -> in_use (pg_initial g) rules r -> In (Tm x) (concat (pr_comp r)) -> exists t, is_trans g t /\ In x (t_word t).
  Proof.
    intros Hr ST HU HI. destruct OG as (FO & LR & DT & FI). apply in_concat in HI. destruct HI as (c & Hc & HI). apply In_nth_error in Hc. destruct Hc as (j & E).
    assert (HL : j < length (pr_comp r)) by (apply nth_error_Some; congruence).
    pose proof (read_comps_nth (pr_comp r) [] j) as RN. pose proof (f_equal pr_comp (read_rule_short r ST)) as RS. cbn [read_rule pr_comp] in RS. rewrite RS, E in RN. cbn [option_map app] in RN. injection RN as RN.
    rewrite RN in HI. apply in_app_iff in HI. destruct HI as [HI|HI].
    - apply in_flat_map in HI. destruct HI as ([b [i j1]] & HS & HI). unfold unseg in HI. cbn [fst snd] in HI. apply in_app_iff in HI. destruct HI as [HI|[HI|[]]]; [|discriminate].
      apply in_map_iff in HI. destruct HI as (y & EY & HI). injection EY as ->. apply In_nth_error in HS. destruct HS as (k & EK).
      assert (AV : at_var r j k = Some (b, (i, j1))) by (unfold at_var; rewrite E; exact EK).
      destruct (LR r Hr) as ((_ & VE & _) & _ & _). destruct (VE i j1) as (B & EB & _).
      { destruct (at_before r j k b i j1 AV) as (rest & ->). apply in_or_app. right. now left. }
      destruct (DT r B Hr (nth_error_In _ _ EB)) as (ri & Hri & <-).
      exists (enter r j k b (prevc j1) i j1 ri). split; [right; exists r, j, k, b, i, j1, ri; auto 10|]. destruct j1; exact HI.
    - apply in_map_iff in HI. destruct HI as (y & EY & HI). injection EY as ->.
      destruct HU as [HU|(r' & Hr' & HU)].
      + exists (idown r). split; [left; exists r; auto|]. assert (j = 0) as -> by (rewrite (FO r Hr), (FI _ HU) in HL; lia). exact HI.
      + apply In_nth_error in HU. destruct HU as (i & EI). destruct (LR r' Hr') as ((_ & _ & ND) & _ & _). rewrite (FO r Hr) in HL. destruct (at_var_in r' i j (ND i _ j EI HL)) as (j0 & k & b & AV).
        exists (leave r' j0 k j r). split; [right; exists r', j0, k, b, i, j, r; auto 10|exact HI].
  Qed.
End Tokens.
