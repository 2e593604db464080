(* C28: the parser.  C30: the fallback. *)
From Coq Require Import NArith Sorting.Sorted.
From Verif Require Import Base BMap M_Util M_Recog M_Automata M_Agenda M_TreeStack M_Grammar M_Chart S_Chart P_Chart M_CSAuto M_Estimates M_RuleMask M_ToDeriv M_KBest M_Cow M_CSParse
  S_Grammar S_CS S_RuleMask S_Cow S_CSParse P_TreeStack P_Grammar P_GrammarCFG P_Conversion P_CSAuto P_FillChart P_ToDeriv P_KBest P_KBestChart P_Cow P_CSParse P_Once
  Properties_Chart Properties_Estimates Properties_RuleMask.
Arguments Nat.ltb : simpl never. Arguments Nat.eqb : simpl never.

(* the grammars and settings for which the parser works *)
Record grammar_ok {N T} {K : ZWeight} (neqb : N -> N -> bool) (rules : list (prule N T K)) (init : N) : Prop := {
  go_new : lcfrs_new neqb rules init = Some (Some (MCFG rules init));
  go_nf : in_normal_form rules = true;
  go_comp : forall r, In r rules -> pr_comp r <> [];
  go_small : forall r, In r rules -> length (pr_tail r) <= 256 /\ length (pr_comp r) <= 256;
  go_weight : forall r, In r rules -> wleb (pr_weight r) wone = true /\ pr_weight r <> wzero
}.
Definition settings_ok {K : ZWeight} (states : nat) (st : @settings K) : Prop :=
  match s_beam st with Some b => b <> 0 /\ (N.of_nat b <= 65535)%N | None => (N.of_nat states <= 65535)%N end.
(* [count c] of n things are among the first c candidates *)
Definition counts (count : nat -> nat) (n : nat) : Prop :=
  count 0 = 0 /\ (forall c, count c <= count (S c) <= S (count c)) /\ exists c0, forall c, c0 <= c -> count c = n.
(* nothing is pruned *)
Definition no_pruning {K : ZWeight} (states : nat) (st : @settings K) : Prop :=
  match s_beam st with Some b => states <= b | None => True end /\ s_delta st = wzero.

Lemma list_eq_nil {X} (l : list X) : {l = []} + {l <> []}.
Proof. destruct l; [now left|now right]. Qed.

Section Parser.
  Context {N T : Type} {K : ZWeight} (KL : ZWeightLaws K) (neqb : N -> N -> bool) (teqb : T -> T -> bool) (NE : EqbSpec neqb) (TE : EqbSpec teqb).
  Context (factorize : K -> nat -> list K) (FL : FactorLaws factorize).
  Context (H : max_heap (K * nat) (@item_leb K)) (H2 : max_heap (K * bt K) (@kb_leb K)).
  Context (distinct : list nat -> list nat) (HD : forall l, NoDup (distinct l) /\ forall x, In x (distinct l) <-> In x l).
  Context (rules : list (prule N T K)) (init : N) (width : nat).
  Context (GO : grammar_ok neqb rules init) (HW : width <= 254) (CF : chain_free rules) (TA : tokens_apart rules).
  Notation R := (cs_rules factorize rules).

  (* the empty sentence: nothing is enabled, nothing is enumerated *)
  Lemma nothing_usable : (forall r, In r rules -> mask_nf r) -> forall d A, deriv (fun r => In r rules) A d -> exists r t, In r (d_rules d) /\ In (Tm t) (concat (pr_comp r)).
  Proof.
    intros NF. induction d as [r ts IH] using dtree_ind2. intros A D. inversion D as [r0 ts0 Hr HF E1 E2]; subst. destruct (NF r Hr) as (C0 & [(t & Et)|A0] & _).
    - exists r, t. split; [now left|]. rewrite Et. now left.
    - destruct (pr_comp r) as [|c cs] eqn:Ec; [contradiction|]. destruct (A0 c (or_introl eq_refl)) as (Cne & CV). destruct c as [|x c]; [contradiction|]. destruct (CV x (or_introl eq_refl)) as (i & j & Ei & Hi).
      destruct ts as [|d ts]; [inversion HF as [HF0|]; rewrite <- HF0 in Hi; cbn in Hi; lia|]. inversion HF as [|B ? tl ? D1 _]; subst. inversion IH as [|? ? IH1 _]; subst. destruct (IH1 B D1) as (r1 & t1 & H1 & H3). exists r1, t1. split; [|exact H3]. cbn. right. apply in_or_app. now left.
  Qed.
  Lemma fold_p_id {X St} (f : St -> X -> option St) l s : (forall x, In x l -> f s x = Some s) -> fold_p f l s = Some s.
  Proof. induction l as [|x l IH]; intros HX; [reflexivity|]. cbn. rewrite HX by now left. apply IH. intros y Hy. apply HX. now right. Qed.
  Lemma quiet (a : automaton T K) CR (PZ : presents teqb a CR (states a)) (c : chart K) mask fuel : ch_n c = 0 -> au_initial a < states a -> length mask = length CR ->
    (forall k, nth_error mask k <> Some true) -> forall s m, gives (words_next H2 (S fuel) (CSRep a s m rules) c mask) (kiter_new H2) [].
  Proof.
    intros C0 LI LM ALL s m. destruct (pz_len _ _ _ _ PZ) as (_ & _ & L1 & L2 & L3).
    assert (OFF : forall rid y, nth_error CR rid = Some y -> nth_error mask rid = Some false).
    { intros rid y Hy. assert (rid < length mask) by (rewrite LM; apply nth_error_Some; congruence). destruct (nth_error mask rid) as [[]|] eqn:E; [elim (ALL rid E)|reflexivity|]. apply nth_error_None in E. lia. }
    assert (BT : backtraces H2 a c mask 0 0 (au_initial a) = Some (uh_default H2)).
    { unfold backtraces. rewrite (nth_error_nth' (au_tdbin a) []), (nth_error_nth' (au_tdun a) []) by lia. rewrite fold_p_id.
      - rewrite fold_p_id; [reflexivity|]. intros [[rid q1] w] Hx. apply (pz_tdun _ _ _ _ PZ) in Hx. destruct Hx as (b & Hx). now rewrite (OFF _ _ Hx).
      - intros [[[rid q1] q2] w] Hx. apply (pz_tdbin _ _ _ _ PZ) in Hx. destruct Hx as (b & Hx). now rewrite (OFF _ _ Hx). }
    set (d1 := kd_set (0, 0, au_initial a) (@nil (bt K * K), uh_default (It := bt K) H2) []).
    apply (gives_coind _ (fun s l => l = [] /\ (ki_d _ s = [] \/ ki_d _ s = d1))); [|split; [reflexivity|now left]].
    intros s0 l (-> & HS). unfold words_next, kiter_next. cbn [rep_generator]. rewrite C0. change (u8 0) with 0. cbn [kth]. destruct HS as [->| ->].
    - cbn [kd_get find option_map]. rewrite BT. unfold uh_pop, uh_default at 1. cbn [uh_heap]. rewrite (proj2 (mh_pop_none H2 _) (mh_empty_c H2)). eexists. split; [reflexivity|]. split; [reflexivity|]. now right.
    - unfold kd_get, d1, kd_set. cbn [find fst]. unfold knode_eqb at 1. cbn [fst snd]. rewrite !Nat.eqb_refl. cbn [andb option_map snd last_opt]. eexists. split; [reflexivity|]. split; [reflexivity|]. now right.
  Qed.

  Lemma parser_words : exists rep, cs_new neqb teqb factorize H distinct rules init width = Some rep /\ rep_rules rep = rules /\
    forall word beam delta, length word <= 255 -> root_token rules init word -> settings_ok (states (rep_generator rep)) (Settings None beam delta) ->
    exists c mask ts F, (forall cand, generate teqb H rep (Settings cand beam delta) word = Some (c, mask)) /\
      (forall fuel, F <= fuel -> gives (words_next H2 fuel rep c mask) (kiter_new H2) (map (ct_word R) ts)) /\
      NoDup ts /\ (forall t, In t ts -> cderiv R (Non init 0) t word) /\
      StronglySorted (fun t t' => wleb (ct_weight R t') (ct_weight R t) = true) ts /\
      (no_pruning (states (rep_generator rep)) (Settings None beam delta) -> forall t, cderiv R (Non init 0) t word -> (forall rid, In rid (ct_rules t) -> nth_error mask rid = Some true) -> In t ts) /\
      exists m, rm_new neqb teqb distinct rules init = Some m /\ rm_build teqb m word = Some mask.
  Proof.
    destruct GO as [HN HF HC HS HWt]. destruct (C27_accepted_grammars N T K neqb rules init _ NE HN HF HC) as (IL & OC & NF). pose proof IL as (f & FO & FI & (ri & Hri & Hin0) & LR). pose proof HN as HN'. apply (lcfrs_new_ok neqb NE) in HN'. destruct HN' as (_ & _ & DT & _).
    destruct (from_grammar_presents neqb teqb NE TE factorize rules init) as (a & ints & E & ND & ST & PZ & II & EI & LI); [intros r Hr; apply NF; exact Hr|].
    assert (LIa : au_initial a < states a) by (apply LI; [|exact FL]; exists ri; split; [exact Hri|]; split; [exact Hin0|now apply HC]). clear LI.
    set (CR := map (code_rule neqb ints) R) in *.
    assert (W1 : forall x, In x CR -> wleb (cr_weight x) wone = true).
    { intros x Hx. apply in_map_iff in Hx. destruct Hx as (y & <- & Hy). cbn. revert y Hy. apply (cs_rules_weights factorize rules (fun w : K => wleb w wone = true)); [apply (w_refl KL)|]. intros r x Hr Hx. eapply (fl_one _ FL); [|exact Hx]. apply HWt. exact Hr. }
    assert (NZ : (wone : K) <> wzero).
    { intros E1. destruct (HWt ri Hri) as (_ & Hz). apply Hz. rewrite <- (wl_one_l _ (zl_weight _ KL) (pr_weight ri)), E1. apply (zl_zero_mul _ KL). }
    assert (W0 : forall x, In x CR -> cr_weight x <> wzero).
    { intros x Hx. apply in_map_iff in Hx. destruct Hx as (y & <- & Hy). cbn. revert y Hy. apply (cs_rules_weights factorize rules (fun w : K => w <> wzero)); [exact NZ|]. intros r x Hr Hx. eapply (fl_zero _ FL); [|exact Hx]. apply HWt. exact Hr. }
    destruct (outside_tables KL teqb H a CR PZ W1 W0 NZ LIa width HW) as (s & ES & OB).
    destruct (C27_mask_exact N T K neqb teqb distinct factorize rules init NE TE FL HD NF OC) as (m & EM & MB).
    exists (CSRep a s m rules). split; [|split; [reflexivity|]].
    { unfold cs_new. rewrite (proj2 (Nat.ltb_ge 255 width) ltac:(lia)), HF. cbn [negb]. unfold from_grammar. rewrite E. cbn [option_map fst]. now rewrite EM, ES. }
    cbn [rep_generator]. intros word beam delta Hn RTK SO. destruct (MB word) as (mask & EB & LM & ME).
    set (b := match beam with Some b => b | None => states a end). unfold settings_ok in SO. cbn [s_beam] in SO.
    assert (HB : b <> 0 /\ (N.of_nat b <= 65535)%N) by (unfold b; destruct beam; [exact SO|split; [lia|exact SO]]). destruct HB as [HB0 HB].
    destruct (list_eq_nil word) as [Ew|Hne].
    { subst word. assert (OFF : forall k, nth_error mask k <> Some true). { intros k Hk. apply ME in Hk. destruct Hk as (i & r & _ & _ & _ & (d & D & HT) & _). destruct (nothing_usable NF d _ D) as (r1 & t1 & X1 & X2). exact (HT r1 t1 X1 X2). }
      assert (EC : chart_new 0 (states a) b = Some (Chart (repeat 0 (chart_size 0)) (repeat (0, wzero : K) (chart_size 0 * b)) (repeat (wzero : K) (chart_size_with_states 0 (states a))) 0 (states a) b)) by (unfold chart_new; now rewrite (proj2 (N.leb_le _ _) HB)).
      eexists _, mask, [], 1. split; [|split; [|split; [constructor|split; [intros t []|split; [constructor|split]]]]].
      - intros cand. unfold generate. cbn [s_beam s_delta rep_generator rep_estimates rep_mask]. fold b. rewrite EB. unfold fill_chart. cbn [length seq fold_p]. match goal with |- context [chart_new ?x ?y ?z] => change (chart_new x y z) with (chart_new (K:=K) 0 (states a) b) end. rewrite EC. reflexivity.
      - intros [|fuel] HFu; [lia|]. apply (quiet a CR PZ); [reflexivity|exact LIa| |exact OFF]. unfold CR. now rewrite map_length.
      - intros _ t CD. exfalso. remember (@nil T) as u eqn:Eu. clear -CD Eu. induction CD as [ | | r q q1 q2 w b t1 t2 u1 u2 _ _ IH1 _ _]; [discriminate|auto|]. apply app_eq_nil in Eu. destruct Eu as [Eu _]. exact (IH1 Eu).
      - exists m. auto. }
    destruct CF as (rank & CFr).
    set (rk := fun q => match nth_error ints q with Some (Non A k) => rank A k | _ => 0 end).
    assert (CODE : forall x st, In x R -> In st (rstates x) -> nth_error ints (code neqb ints st) = Some st) by (intros x st Hx Hst; apply (code_nth neqb NE); [exact ND|now apply (ST x st Hx Hst)|reflexivity]).
    assert (CRI : forall rr y, nth_error CR rr = Some y -> exists x, nth_error R rr = Some x /\ y = code_rule neqb ints x) by (intros rr y Hy; apply nth_error_map_inv in Hy; exact Hy).
    assert (DEC : forall q st t u, In st ints -> code neqb ints st = q -> cderiv CR q t u -> cderiv R st t u) by (intros q st t u Hst Hq D; apply (cderiv_decode neqb NE R ints ND (fun x s Hx Hs => proj2 (ST x s Hx Hs)) q t u D st Hst Hq)).
    assert (TERM : forall rr x q t w br, nth_error R rr = Some x -> code_rule neqb ints x = CRule q (RT t) w br -> exists r, In r rules /\ pr_comp r = [[Tm t]] /\ q = code neqb ints (Non (pr_head r) 0) /\ In (Non (pr_head r) 0) ints).
    { intros rr x q t w br Ex Ec. destruct (cs_at factorize rules init f FI rr x Ex) as (i & r & k & c & w' & Ei & _ & Ek & Hx). destruct x as [lhs rhs xw xb]. unfold code_rule in Ec. cbn in Ec. injection Ec as Eq Erhs _ _. destruct rhs as [t'| |]; try discriminate. cbn in Erhs. injection Erhs as ->.
      destruct (comp_cases rules NF i r k c Ei Ek) as [(t0 & PC & -> & ->)|[C0 CV]].
      - cbn in Hx. destruct Hx as [Hx|[]]. injection Hx as <- -> <- <-. exists r. split; [eapply nth_error_In; exact Ei|]. split; [exact PC|]. split; [congruence|]. eapply (ST _ (Non (pr_head r) 0)); [eapply nth_error_In; exact Ex|now left].
      - exfalso. destruct c as [|x1 [|x2 c]]; [contradiction| |]; [destruct (CV x1 (or_introl eq_refl)) as (i1 & j1 & B & -> & _); cbn in Hx; destruct Hx as [Hx|[]]; discriminate|]. apply in_component2 in Hx. destruct Hx as [Hx|(a0 & y & b0 & _ & Hx)]; discriminate. }
    destruct (kbest_chart KL teqb H H2 a CR PZ word b delta (so_get s) mask) with (rank := rk) as (c & EC & ts & F & NDT & INT & SST & RUN & ALL); try assumption.
    { unfold CR. rewrite map_length. lia. }
    { intros q l r Hq HSp. destruct (OB (length word) q l r Hq HSp) as [(_ & X)|[(_ & w & X & _)|(_ & X & _)]]; rewrite X; discriminate. }
    { intros rr q q1 w br Er _. destruct (CRI _ _ Er) as (x & Ex & Ec). destruct (cs_at factorize rules init f FI rr x Ex) as (i & r & k & c & w' & Ei & _ & Ek & Hx). pose proof (nth_error_In _ _ Ex) as HxR. destruct x as [lhs rhs xw xb]. unfold code_rule in Ec. cbn in Ec. injection Ec as -> Erhs _ _. destruct rhs as [|q1'|]; try discriminate. cbn in Erhs. injection Erhs as ->.
      unfold rk. rewrite (CODE _ q1' HxR) by (cbn; tauto). rewrite (CODE _ lhs HxR) by (cbn; tauto).
      destruct (comp_cases rules NF i r k c Ei Ek) as [(t0 & PC & -> & ->)|[C0 CV]]; [cbn in Hx; destruct Hx as [Hx|[]]; discriminate|]. destruct c as [|x1 [|x2 c]]; [contradiction| |].
      - destruct (CV x1 (or_introl eq_refl)) as (i1 & j1 & B & -> & HBt). cbn [cs_component] in Hx. destruct Hx as [Hx|[]]. rewrite (var_state_eq r k i1 j1 B HBt) in Hx. injection Hx as <- <- _ _. eapply CFr; [eapply nth_error_In; exact Ei|exact Ek|exact HBt].
      - apply in_component2 in Hx. destruct Hx as [Hx|(a0 & y & b0 & _ & Hx)]; discriminate. }
    { intros rr q t w br tr t' Er _ D. destruct (CRI _ _ Er) as (x & Ex & Ec). destruct (TERM rr x q t w br Ex (eq_sym Ec)) as (r & Hr & PC & -> & Hint). apply (DEC _ (Non (pr_head r) 0)) in D; [|exact Hint|reflexivity].
      destruct (cderiv_k KL factorize rules NF _ _ _ _ D) as (kt & KD & _). destruct (single_token rules init f FO FI LR NF DT kt (pr_head r) [t'] t' KD) as (d & Dd & Yd); [rewrite <- (FO r Hr), PC; reflexivity|reflexivity|]. eapply TA; eassumption. }
    { intros rr t w br t' Er _ Ew. destruct (CRI _ _ Er) as (x & Ex & Ec). destruct (TERM rr x _ t w br Ex (eq_sym Ec)) as (r & Hr & PC & Eq & Hint). rewrite EI in Eq. apply (code_inj neqb NE ints) in Eq; [|exact ND|exact II|exact Hint]. injection Eq as Eq. eapply RTK; try eassumption. now symmetry. }
    { intros rr y Er. destruct (CRI _ _ Er) as (x & Ex & ->). destruct (cs_at factorize rules init f FI rr x Ex) as (i & r & k & c & w' & Ei & _ & Ek & Hx). pose proof (cs_bracket rules NF i r k c w' x Ei Ek Hx) as NB. pose proof (comp_cases rules NF i r k c Ei Ek) as CC. clear Ex Er. destruct x as [lhs rhs xw [[b1 b2] b3]]. cbn [code_rule cr_br cr_rhs] in *. destruct rhs as [t|q|q1 q2]; cbn [code_rhs]; [| |now apply (names_br _ i)].
      - split; [now apply (names_br _ i)|]. destruct CC as [(t0 & PC & -> & ->)|[C0 CV]].
        + cbn in Hx. destruct Hx as [Hx|[]]. injection Hx as _ _ _ _ <- _. reflexivity.
        + exfalso. destruct c as [|x1 [|x2 c]]; [contradiction| |]; [destruct (CV x1 (or_introl eq_refl)) as (i1 & j1 & B & -> & _); cbn in Hx; destruct Hx as [Hx|[]]; discriminate|]. apply in_component2 in Hx. destruct Hx as [Hx|(a0 & y & b0 & _ & Hx)]; discriminate.
      - split; [now apply (names_br _ i)|]. destruct CC as [(t0 & PC & -> & ->)|[C0 CV]].
        + cbn in Hx. destruct Hx as [Hx|[]]. discriminate.
        + destruct c as [|x1 [|x2 c]]; [contradiction| |]; [destruct (CV x1 (or_introl eq_refl)) as (i1 & j1 & B & -> & _); cbn in Hx; destruct Hx as [Hx|[]]; injection Hx as _ _ _ _ <- _; reflexivity|]. exfalso. apply in_component2 in Hx. destruct Hx as [Hx|(a0 & y & b0 & _ & Hx)]; discriminate. }
    assert (CDT : forall t, In t ts -> cderiv R (Non init 0) t word). { intros t Ht. apply INT in Ht. apply aderiv_cderiv in Ht. destruct Ht as [_ D]. rewrite sub_all in D. apply (DEC (au_initial a)); [exact II|now rewrite EI|exact D]. }
    exists c, mask, ts, F. split; [|split; [|split; [exact NDT|split; [exact CDT|split; [|split]]]]].
    - intros cand. unfold generate. cbn [s_beam s_delta rep_generator rep_estimates rep_mask]. fold b. now rewrite EB, EC.
    - intros fuel HFu m0. specialize (RUN fuel m0 HFu). assert (X : forall k s0, run (words_next H2 fuel (CSRep a s m rules) c mask) k s0 = kiter_run H2 a c mask fuel k s0). { induction k as [|k IHk]; intros s0; [reflexivity|]. cbn [run kiter_run]. unfold words_next at 1. cbn [rep_generator]. destruct (kiter_next H2 a c mask fuel s0) as [[r0 s1]|]; [|reflexivity]. now rewrite IHk. }
      rewrite X, RUN. f_equal. f_equal. f_equal. apply map_ext. intros t. apply ct_word_code.
    - clear -SST. induction SST as [|t l S1 IH S2]; constructor; [exact IH|]. rewrite Forall_forall in *. intros t' Ht'. specialize (S2 t' Ht'). unfold CR in S2. now rewrite !ct_weight_code in S2.
    - intros [NP1 NP2] t CD EN. cbn [s_beam s_delta] in NP1, NP2. apply ALL; [unfold b; destruct beam; [exact NP1|lia]|exact NP2|].
      pose proof (cderiv_code neqb R ints _ _ _ CD) as D'. fold CR in D'. rewrite <- EI in D'. assert (LW : 0 < length word) by (destruct word; [contradiction|cbn; lia]).
      assert (AD : aderiv CR (fun rid _ _ _ => nth_error mask rid = Some true) word (au_initial a) t 0 (length word)) by (eapply cderiv_aderiv; [exact D'| |lia|lia|now rewrite sub_all]; intros; now apply EN).
      apply (needed teqb a CR PZ LIa s width (length word) word (fun q l r => OB (length word) q l r) eq_refl) in AD; [|lia|exists wone; rewrite Nat.sub_diag; constructor]. eapply aderiv_imp; [exact AD|]. intros rid q' t' l' r' [X1 X2] _. split; assumption.
    - exists m. auto.
  Qed.
  Lemma tree_ext {X} (t1 : gorn X) : forall t2, sorted_keys addr_cmp (map fst t1) -> sorted_keys addr_cmp (map fst t2) -> (forall a, gt_get a t1 = gt_get a t2) -> t1 = t2.
  Proof.
    intros t2 S1 S2 E. assert (EK : map fst t1 = map fst t2).
    { apply (sorted_ext addr_cmp addr_ord); [exact S1|exact S2|]. intros x. assert (X1 : forall t : gorn X, sorted_keys addr_cmp (map fst t) -> In x (map fst t) <-> exists v, gt_get x t = Some v).
      { intros t St. rewrite in_map_iff. split; [intros ([x0 v] & <- & Hx); exists v; now apply (bm_get_In addr_cmp addr_ord)|intros (v & Hv); exists (x, v); split; [reflexivity|now apply (bm_get_In addr_cmp addr_ord)]]. }
      rewrite !X1 by assumption. split; intros (v & Hv); exists v; congruence. }
    assert (EP : forall p, In p t1 -> In p t2) by (intros [a v] Hp; apply (bm_get_In addr_cmp addr_ord); [exact S2|]; apply (bm_get_In addr_cmp addr_ord) in Hp; [|exact S1]; unfold gt_get in E; now rewrite <- E).
    pose proof (sorted_NoDup addr_cmp addr_ord _ S2) as ND2. clear S1 S2 E. revert t2 EK EP ND2. induction t1 as [|[a v] t1 IH]; intros [|[a2 v2] t2] EK EP ND2; try discriminate; [reflexivity|]. cbn in EK. injection EK as <- EK. cbn in ND2. inversion ND2 as [|? ? N1 N2]; subst.
    assert (v2 = v) as ->. { destruct (EP (a, v)) as [X1|X1]; [now left|congruence|]. elim N1. apply in_map_iff. now exists (a, v). }
    f_equal. apply IH; [exact EK| |exact N2]. intros p Hp. destruct (EP p (or_intror Hp)) as [<-|X1]; [|exact X1]. elim N1. rewrite <- EK. apply in_map_iff. now exists (a, v).
  Qed.

  (* what the parser does with the words: the trees read, in terms of the list of all words *)
  Lemma parser_trees : exists rep, cs_new neqb teqb factorize H distinct rules init width = Some rep /\
    forall word beam delta, length word <= 255 -> root_token rules init word -> settings_ok (states (rep_generator rep)) (Settings None beam delta) ->
    exists F fb (words : list (option (gorn (prule N T K) * K))),
      (forall cand fuel m, F <= fuel -> parse teqb H H2 fuel rep (Settings cand beam delta) word m = Some (map (nth_error (map fst (somes (fun x => x) (upto cand words)))) (seq 0 m), fb)) /\
      (forall cand fuel, F <= fuel -> exists fb', debug teqb H H2 fuel rep (Settings cand beam delta) word = Some (length rules, length word,
         match hd_error (somes (fun x => x) (upto cand words)), fb' with Some (t, _), _ => DParse t (inspected (fun x => x) (upto cand words)) | None, Some f => DFallback f (length (upto cand words)) | None, None => DNoparse end) /\
         fb' = match upto cand words with [] => None | _ => fb end) /\
      (forall tree w, In (Some (tree, w)) words -> is_parse rules init word tree w) /\
      StronglySorted (fun x y => wleb (snd y) (snd x) = true) (somes (fun x => x) words) /\
      (no_pruning (states (rep_generator rep)) (Settings None beam delta) -> forall tree w, is_parse rules init word tree w -> In (Some (tree, w)) words) /\
      (words = [] -> fb = None) /\ (words <> [] -> exists tree, fb = Some tree /\ is_fallback rules init word tree) /\
      (NoDup rules -> NoDup (map fst (somes (fun x => x) words))).
  Proof.
    destruct parser_words as (rep & ER & RR & PW). exists rep. split; [exact ER|]. intros word beam delta Hn RTK SO. destruct (PW word beam delta Hn RTK SO) as (c & mask & ts & F & EG & GV & ND & CD & SS & ALL & m & EM & EB). clear PW.
    destruct GO as [HN HF HC HS HWt]. destruct (C27_accepted_grammars N T K neqb rules init _ NE HN HF HC) as (IL & OC & NF). pose proof IL as (f & FO & FI & (ri & Hri & Hin0) & LR). pose proof HN as HN'. apply (lcfrs_new_ok neqb NE) in HN'. destruct HN' as (_ & _ & DT & _).
    assert (HS1 : forall r, In r rules -> length (pr_tail r) <= 256) by (intros r Hr; apply HS; exact Hr). assert (HS2 : forall r, In r rules -> length (pr_comp r) <= 256) by (intros r Hr; apply HS; exact Hr).
    set (g := fun u => match toderiv rules u with Some x => x | None => None end).
    set (h := fun t => match g (ct_word R t) with Some tree => Some (tree, ct_weight R t) | None => None end).
    assert (RD : forall t, In t ts -> toderiv rules (ct_word R t) = Some (g (ct_word R t))).
    { intros t Ht. destruct (reads KL factorize FL rules init f FO FI LR NF DT HS1 t word (CD t Ht)) as (X & _). unfold g. destruct (toderiv rules (ct_word R t)); [reflexivity|contradiction]. }
    assert (FB : forall t, In t ts -> exists tree, read_fallback rep (ct_word R t) = Some tree /\ is_fallback rules init word tree).
    { intros t Ht. destruct (reads_fallback KL factorize rules init f LR NF HS1 t word HS2 (CD t Ht)) as (cw & d & tree & E1 & E2 & E3 & E4 & E5 & E6). exists tree. unfold read_fallback. rewrite E1, RR. split; [exact E2|]. exists d. auto. }
    assert (FBX : exists fb, match hd_error (map (ct_word R) ts) with None => Some None | Some w => option_map Some (read_fallback rep w) end = Some fb /\ (ts = [] -> fb = None) /\ (ts <> [] -> exists tree, fb = Some tree /\ is_fallback rules init word tree)).
    { destruct ts as [|t ts0]; [exists None; repeat split; auto; now intros []|]. destruct (FB t (or_introl eq_refl)) as (tree & E1 & E2). exists (Some tree). cbn [map hd_error]. rewrite E1. repeat split; [discriminate|intros _; eauto]. }
    destruct FBX as (fb & EF & F1 & F2).
    assert (SM : forall l, incl l ts -> map fst (somes (fun x => x) (map h l)) = somes g (map (ct_word R) l)).
    { intros l _. rewrite !somes_map. unfold somes, h. induction l as [|t l IH]; [reflexivity|]. cbn. rewrite map_app, IH. now destruct (g (ct_word R t)). }
    exists (Nat.max F (S (length ts))), fb, (map h ts).
    assert (RDL : forall c x, In x (upto c (map (ct_word R) ts)) -> toderiv rules x = Some (g x)) by (intros c0 x Hx; apply upto_incl in Hx; apply in_map_iff in Hx; destruct Hx as (t & <- & Ht); now apply RD).
    assert (LU : forall X (c : option nat) (l : list X), length (upto c l) <= length l) by (intros X [k|] l; cbn; [rewrite firstn_length|]; lia).
    split; [|split; [|split; [|split; [|split; [|split; [|split]]]]]].
    - intros cand fuel k HFu. unfold parse, with_fallback. rewrite EG. destruct (gives_peek _ _ _ (GV fuel ltac:(lia))) as (ws & EP & GP). rewrite EP. rewrite EF. cbn [s_candidates].
      pose proof (gives_filter_map (toderiv rules) g _ _ fuel _ (RDL cand) (gives_take _ _ _ cand GP)) as GF. unfold trees_next. rewrite RR. rewrite GF by (eapply Nat.le_lt_trans; [apply LU|]; rewrite map_length; lia). rewrite upto_map, (upto_map h), SM by apply upto_incl. reflexivity.
    - intros cand fuel HFu. unfold debug. rewrite EG. destruct (gives_peek _ _ _ (gives_take _ _ _ cand (GV fuel ltac:(lia)))) as (ws & EP & GP). cbn [s_candidates]. rewrite EP, RR. cbn zeta. 
      destruct (search_gives (toderiv rules) g _ _ fuel _ (RDL cand) GP) as (s' & l' & ES & _); [eapply Nat.le_lt_trans; [apply LU|]; rewrite map_length; lia|]. rewrite ES.
      assert (HD1 : hd_error (somes g (upto cand (map (ct_word R) ts))) = option_map fst (hd_error (somes (fun x => x) (upto cand (map h ts))))).
      { rewrite upto_map, (upto_map h), <- SM by apply upto_incl. now destruct (somes (fun x : option (gorn (prule N T K) * K) => x) (map h (upto cand ts))). }
      assert (IN1 : inspected g (upto cand (map (ct_word R) ts)) = inspected (fun x => x) (upto cand (map h ts))).
      { rewrite upto_map, (upto_map h). generalize (upto cand ts). intros l. induction l as [|t l IH]; [reflexivity|]. cbn. unfold h at 1. destruct (g (ct_word R t)); [reflexivity|]. now rewrite IH. }
      assert (IN2 : forall l : list (option (gorn (prule N T K) * K)), hd_error (somes (fun x => x) l) = None -> inspected (fun x => x) l = length l).
      { induction l as [|[x|] l IH]; intros E0; [reflexivity|discriminate|]. cbn in *. now rewrite IH. }
      rewrite HD1, IN1.
      destruct (upto cand (map (ct_word R) ts)) as [|u us] eqn:EU.
      + assert (upto cand (map h ts) = []) as ->. { rewrite upto_map in EU. rewrite upto_map. destruct (upto cand ts); [reflexivity|discriminate]. } exists None. split; reflexivity.
      + destruct ts as [|t ts0]; [destruct cand as [[|]|]; discriminate|]. assert (EU2 : exists us', upto cand (map h (t :: ts0)) = h t :: us') by (destruct cand as [[|k]|]; [discriminate| |]; cbn; eauto). destruct EU2 as (us' & EU2). assert (u = ct_word R t) as -> by (destruct cand as [[|k]|]; cbn in EU; congruence).
        destruct F2 as (ft & -> & FT); [discriminate|]. cbn [map hd_error option_map] in EF. destruct (read_fallback rep (ct_word R t)) as [ft1|] eqn:ERF; [|discriminate]. injection EF as ->.
        exists (Some ft). rewrite EU2. split; [|reflexivity]. cbn [hd_error]. destruct (hd_error (somes (fun x => x) (h t :: us'))) as [[tr w]|] eqn:EH; cbn [option_map fst]; [reflexivity|]. rewrite (IN2 _ EH). rewrite ERF. reflexivity.
    - intros tree w Hw. apply in_map_iff in Hw. destruct Hw as (t & Eh & Ht). unfold h in Eh. destruct (g (ct_word R t)) as [tree'|] eqn:Eg; [|discriminate]. injection Eh as -> <-.
      destruct (reads KL factorize FL rules init f FO FI LR NF DT HS1 t word (CD t Ht)) as (_ & X). destruct (X tree) as (X1 & d & X2 & X3 & X4 & X5); [rewrite RD by exact Ht; now rewrite Eg|]. exists d. auto.
    - rewrite somes_map. apply (SS_somes (fun t t' => wleb (ct_weight R t') (ct_weight R t) = true)); [|exact SS]. intros t t' y y' _ _ HQ E1 E2. unfold h in E1, E2. destruct (g (ct_word R t)); [|discriminate]. destruct (g (ct_word R t')); [|discriminate]. injection E1 as <-. injection E2 as <-. exact HQ.
    - intros NP tree w (d & D1 & D2 & D3 & D4 & D5). destruct (covers KL factorize FL rules init f FO FI LR NF HS1 d word D1 D2) as (t & tree' & C1 & C2 & C3 & C4 & C5 & C6).
      assert (Ht : In t ts).
      { apply ALL; [exact NP|exact C1|]. intros rid Hr. destruct (C6 rid Hr) as (i & r & Ei & Ec & Ed). destruct (C27_needed_rules_are_enabled N T K neqb teqb distinct factorize rules init word d NE TE FL HD NF IL D1 D2) as (m' & mask' & EM' & EB' & X). rewrite EM in EM'. injection EM' as <-. rewrite EB in EB'. injection EB' as <-. eapply X; eassumption. }
      apply in_map_iff. exists t. split; [|exact Ht]. unfold h. unfold g. rewrite C3. rewrite C2, D3. f_equal. f_equal. apply tree_ext; [exact C4|exact D4|]. intros a0. now rewrite C5, D5.
    - intros E0. apply F1. destruct ts; [reflexivity|discriminate].
    - intros E0. apply F2. intros ->. now apply E0.
    - intros NR. rewrite SM by apply incl_refl. rewrite somes_map. clear -ND CD RD NR KL FO FI LR NF DT HS1. unfold somes. induction ts as [|t l IH]; [constructor|]. inversion ND as [|? ? N1 N2]; subst. cbn [flat_map].
      assert (IH' : NoDup (flat_map (fun x => match g (ct_word R x) with Some y => [y] | None => [] end) l)) by (apply IH; [exact N2|intros; apply CD; now right|intros; apply RD; now right]).
      destruct (g (ct_word R t)) as [tree|] eqn:Eg; [|exact IH']. constructor; [|exact IH']. intros Hin. apply in_flat_map in Hin. destruct Hin as (t' & Ht' & Hin). destruct (g (ct_word R t')) as [tree'|] eqn:Eg'; [|destruct Hin]. destruct Hin as [->|[]].
      apply N1. rewrite (once KL factorize rules init f FO FI LR NF DT HS1 t t' word word tree NR); [exact Ht'|apply CD; now left|apply CD; now right|rewrite RD by (now left); now rewrite Eg|rewrite RD by (now right); now rewrite Eg'].
  Qed.
End Parser.

(* Every tree the parser yields is a derivation of the grammar for the word, they come best first and each of them once (if no
   rule is listed twice, see C28_duplicates_refuted), setting a number of candidates only cuts the list off, and if nothing is
   pruned then every derivation is yielded.  Any fuel from F on gives the
   same results: the model's fuel is no restriction.  The hypotheses chain_free, tokens_apart and root_token cannot be left
   out: C28_tokens_refuted, C28_root_refuted, C28_chains_refuted. *)
Theorem C28_parser_partial :
  forall (N T : Type) (K : ZWeight) (neqb : N -> N -> bool) (teqb : T -> T -> bool) (factorize : K -> nat -> list K)
    (H : max_heap (K * nat) (@item_leb K)) (H2 : max_heap (K * bt K) (@kb_leb K)) (distinct : list nat -> list nat)
    (rules : list (prule N T K)) (init : N) (width : nat),
    ZWeightLaws K -> EqbSpec neqb -> EqbSpec teqb -> FactorLaws factorize -> (forall l, NoDup (distinct l) /\ forall x, In x (distinct l) <-> In x l) ->
    grammar_ok neqb rules init -> width <= 254 -> chain_free rules -> tokens_apart rules ->
    exists rep, cs_new neqb teqb factorize H distinct rules init width = Some rep /\
    forall word beam delta, length word <= 255 -> root_token rules init word -> settings_ok (states (rep_generator rep)) (Settings None beam delta) ->
    exists F fb (all : list (gorn (prule N T K) * K)),
      (forall tree w, In (tree, w) all -> is_parse rules init word tree w) /\
      StronglySorted (fun x y => wleb (snd y) (snd x) = true) all /\ (NoDup rules -> NoDup (map fst all)) /\
      (no_pruning (states (rep_generator rep)) (Settings None beam delta) -> forall tree w, is_parse rules init word tree w -> In (tree, w) all) /\
      (forall fuel m, F <= fuel -> parse teqb H H2 fuel rep (Settings None beam delta) word m = Some (map (nth_error (map fst all)) (seq 0 m), fb)) /\
      (exists count, counts count (length all) /\
         forall c fuel m, F <= fuel -> parse teqb H H2 fuel rep (Settings (Some c) beam delta) word m = Some (map (nth_error (map fst (firstn (count c) all))) (seq 0 m), fb)).
Proof.
  intros N T K neqb teqb factorize H H2 distinct rules init width KL NE TE FL HD GO HW CF TA.
  destruct (parser_trees KL neqb teqb NE TE factorize FL H H2 distinct HD rules init width GO HW CF TA) as (rep & ER & P). exists rep. split; [exact ER|].
  intros word beam delta Hn RTK SO. destruct (P word beam delta Hn RTK SO) as (F & fb & words & E & _ & SD & SS & CP & _ & _ & OC). exists F, fb, (somes (fun x => x) words).
  split; [|split; [exact SS|split; [exact OC|split; [|split]]]].
  - intros tree w Hw. apply SD. apply somes_in in Hw. destruct Hw as (x & Hx & ->). exact Hx.
  - intros NP tree w IP. apply somes_in. exists (Some (tree, w)). split; [|reflexivity]. now apply CP.
  - intros fuel m HF. apply (E None fuel m HF).
  - exists (fun c => length (somes (fun x => x) (firstn c words))). split.
    + split; [reflexivity|]. split.
      * assert (Y : forall (l : list (option (gorn (prule N T K) * K))) c, length (somes (fun x => x) (firstn c l)) <= length (somes (fun x => x) (firstn (S c) l)) <= S (length (somes (fun x => x) (firstn c l)))); [|apply Y].
        induction l as [|x l IH]; intros [|c]; try (cbn; lia); [destruct x; cbn; lia|]. specialize (IH c). rewrite !(firstn_cons _ x l). unfold somes in *. cbn [flat_map]. rewrite !app_length. lia.
      * exists (length words). intros c Hc. now rewrite firstn_all2.
    + intros c fuel m HF. rewrite (E (Some c) fuel m HF). cbn [upto]. assert (SA : somes (fun x => x) words = somes (fun x => x) (firstn c words) ++ somes (fun x => x) (skipn c words)) by (unfold somes; rewrite <- flat_map_app, firstn_skipn; reflexivity). rewrite SA, firstn_app, Nat.sub_diag, firstn_all, firstn_O, app_nil_r. reflexivity.
Qed.
Print Assumptions C28_parser_partial.

(* The default settings: with the generator as it is built every derivation is yielded; set_candidates, set_beam and
   set_delta change one setting each. *)
Theorem C28_default_settings_partial :
  forall (N T : Type) (K : ZWeight) (neqb : N -> N -> bool) (teqb : T -> T -> bool) (factorize : K -> nat -> list K)
    (H : max_heap (K * nat) (@item_leb K)) (H2 : max_heap (K * bt K) (@kb_leb K)) (distinct : list nat -> list nat)
    (rules : list (prule N T K)) (init : N) (width : nat),
    ZWeightLaws K -> EqbSpec neqb -> EqbSpec teqb -> FactorLaws factorize -> (forall l, NoDup (distinct l) /\ forall x, In x (distinct l) <-> In x l) ->
    grammar_ok neqb rules init -> width <= 254 -> chain_free rules -> tokens_apart rules ->
    exists rep, cs_new neqb teqb factorize H distinct rules init width = Some rep /\
    forall word, length word <= 255 -> root_token rules init word -> (N.of_nat (states (rep_generator rep)) <= 65535)%N ->
    exists F fb (all : list (gorn (prule N T K) * K)),
      (forall tree w, In (tree, w) all <-> is_parse rules init word tree w) /\ StronglySorted (fun x y => wleb (snd y) (snd x) = true) all /\ (NoDup rules -> NoDup (map fst all)) /\
      (forall fuel m, F <= fuel -> parse teqb H H2 fuel rep build_generator word m = Some (map (nth_error (map fst all)) (seq 0 m), fb)) /\
      (exists count, counts count (length all) /\ forall c fuel m, F <= fuel -> parse teqb H H2 fuel rep (set_candidates c build_generator) word m = Some (map (nth_error (map fst (firstn (count c) all))) (seq 0 m), fb)).
Proof.
  intros N T K neqb teqb factorize H H2 distinct rules init width KL NE TE FL HD GO HW CF TA.
  destruct (C28_parser_partial N T K neqb teqb factorize H H2 distinct rules init width KL NE TE FL HD GO HW CF TA) as (rep & ER & P). exists rep. split; [exact ER|].
  intros word Hn RTK HS. destruct (P word None wzero Hn RTK HS) as (F & fb & all & SD & SS & OC & CP & E1 & E2). exists F, fb, all. split; [|split; [exact SS|split; [exact OC|split; [exact E1|exact E2]]]].
  intros tree w. split; [apply SD|]. apply CP. split; [exact I|reflexivity].
Qed.
Print Assumptions C28_default_settings_partial.
Theorem C28_settings :
  forall (K : ZWeight) (c b : nat) (d : K) (s : @settings K),
    s_candidates (set_candidates c s) = Some c /\ s_beam (set_candidates c s) = s_beam s /\ s_delta (set_candidates c s) = s_delta s /\
    s_candidates (set_beam b s) = s_candidates s /\ s_beam (set_beam b s) = Some b /\ s_delta (set_beam b s) = s_delta s /\
    s_candidates (set_delta d s) = s_candidates s /\ s_beam (set_delta d s) = s_beam s /\ s_delta (set_delta d s) = d.
Proof. intros. repeat split. Qed.
Print Assumptions C28_settings.

(* What debug reports: the best tree if one is read within the candidates, otherwise the fallback if any word was enumerated
   within the candidates, otherwise no parse; and the tree it reports is the first one the parser yields. *)
Theorem C28_debug_partial :
  forall (N T : Type) (K : ZWeight) (neqb : N -> N -> bool) (teqb : T -> T -> bool) (factorize : K -> nat -> list K)
    (H : max_heap (K * nat) (@item_leb K)) (H2 : max_heap (K * bt K) (@kb_leb K)) (distinct : list nat -> list nat)
    (rules : list (prule N T K)) (init : N) (width : nat),
    ZWeightLaws K -> EqbSpec neqb -> EqbSpec teqb -> FactorLaws factorize -> (forall l, NoDup (distinct l) /\ forall x, In x (distinct l) <-> In x l) ->
    grammar_ok neqb rules init -> width <= 254 -> chain_free rules -> tokens_apart rules ->
    exists rep, cs_new neqb teqb factorize H distinct rules init width = Some rep /\
    forall word cand beam delta, length word <= 255 -> root_token rules init word -> settings_ok (states (rep_generator rep)) (Settings None beam delta) ->
    exists F, forall fuel, F <= fuel -> exists res, debug teqb H H2 fuel rep (Settings cand beam delta) word = Some (length rules, length word, res) /\
      exists first fb, parse teqb H H2 fuel rep (Settings cand beam delta) word 1 = Some ([first], fb) /\
      match res with
      | DParse tree n => first = Some tree /\ (exists w, is_parse rules init word tree w /\
          (cand = None -> no_pruning (states (rep_generator rep)) (Settings None beam delta) -> forall tree' w', is_parse rules init word tree' w' -> wleb w' w = true)) /\
          1 <= n /\ match cand with Some c => n <= c | None => True end
      | DFallback tree n => first = None /\ fb = Some tree /\ is_fallback rules init word tree /\ 1 <= n /\ match cand with Some c => n <= c | None => True end /\
          (cand = None -> no_pruning (states (rep_generator rep)) (Settings None beam delta) -> forall tree' w', ~ is_parse rules init word tree' w')
      | DNoparse => first = None /\ (cand <> Some 0 -> fb = None) /\
          (cand = None -> no_pruning (states (rep_generator rep)) (Settings None beam delta) -> forall tree' w', ~ is_parse rules init word tree' w')
      end.
Proof.
  intros N T K neqb teqb factorize H H2 distinct rules init width KL NE TE FL HD GO HW CF TA.
  destruct (parser_trees KL neqb teqb NE TE factorize FL H H2 distinct HD rules init width GO HW CF TA) as (rep & ER & P). exists rep. split; [exact ER|].
  intros word cand beam delta Hn RTK SO. destruct (P word beam delta Hn RTK SO) as (F & fb & words & E & ED & SD & SS & CP & F1 & F2 & _). exists F. intros fuel HF. destruct (ED cand fuel HF) as (fb' & E' & Efb'). eexists. split; [exact E'|].
  exists (nth_error (map fst (somes (fun x => x) (upto cand words))) 0), fb. split; [apply (E cand fuel 1 HF)|].
  assert (LU : match cand with Some c => length (upto cand words) <= c | None => True end) by (destruct cand; cbn; [rewrite firstn_length; lia|exact I]).
  assert (LI : forall l : list (option (gorn (prule N T K) * K)), inspected (fun x => x) l <= length l /\ (l <> [] -> 1 <= inspected (fun x => x) l)).
  { induction l as [|[x|] l IH]; cbn; [split; [lia|now intros []]|split; lia|]. split; [lia|intros _; lia]. }
  destruct (somes (fun x => x) (upto cand words)) as [|[tree w] rest] eqn:ES; cbn [hd_error map nth_error fst].
  - assert (NO : cand = None -> no_pruning (states (rep_generator rep)) (Settings None beam delta) -> forall tree' w', ~ is_parse rules init word tree' w').
    { intros -> NP tree' w' IP. apply (CP NP) in IP. cbn [upto] in ES. assert (X : In (tree', w') (somes (fun x => x) words)) by (apply somes_in; eauto). now rewrite ES in X. }
    subst fb'. destruct (upto cand words) as [|x l] eqn:EU.
    + split; [reflexivity|]. split; [|exact NO]. intros HC0. apply F1. destruct cand as [[|c]|]; [contradiction| |exact EU]. now destruct words.
    + destruct F2 as (tree & -> & IF). { intros ->. destruct cand as [[|c]|]; discriminate. } split; [reflexivity|]. split; [reflexivity|]. split; [exact IF|]. split; [cbn; lia|]. split; [|exact NO]. destruct cand; [exact LU|exact I].
  - assert (Hin : In (Some (tree, w)) (upto cand words)). { assert (X : In (tree, w) (somes (fun x => x) (upto cand words))) by (rewrite ES; now left). apply somes_in in X. destruct X as (x & Hx & ->). exact Hx. }
    split; [reflexivity|]. split; [|split].
    + exists w. split; [apply SD; now apply upto_incl in Hin|]. intros -> NP tree' w' IP. apply (CP NP) in IP. cbn [upto] in ES. assert (X : In (tree', w') (somes (fun x => x) words)) by (apply somes_in; eauto). rewrite ES in X, SS. destruct X as [X|X]; [injection X as <- <-; apply (w_refl KL)|]. inversion SS as [|? ? _ S2]. rewrite Forall_forall in S2. apply (S2 _ X).
    + apply LI. intros E0. now rewrite E0 in Hin.
    + destruct cand; [|exact I]. etransitivity; [apply LI|exact LU].
Qed.
Print Assumptions C28_debug_partial.

(* Every bracket word of the approximation is read back into the derivation of the approximation it stands for, and merging it
   gives one derivation of the same word, by merged rules. *)
Theorem C30_fallback :
  forall (N T : Type) (K : ZWeight) (neqb : N -> N -> bool) (factorize : K -> nat -> list K) (rules : list (prule N T K)) (init : N) (t : ctree) (word : list T),
    ZWeightLaws K -> EqbSpec neqb -> grammar_ok neqb rules init ->
    cderiv (cs_rules factorize rules) (Non init 0) t word ->
    exists c tree, cow_new (ct_word (cs_rules factorize rules) t) = Some c /\ cow_deriv rules c init 0 word /\ ct_word (cs_rules factorize rules) t = cow_word c 0 /\
      fallback rules c = Some tree /\ is_fallback rules init word tree.
Proof.
  intros N T K neqb factorize rules init t word KL NE [HN HF HC HS HWt] CD. destruct (C27_accepted_grammars N T K neqb rules init _ NE HN HF HC) as (IL & OC & NF). pose proof IL as (f & FO & FI & (ri & Hri & Hin0) & LR).
  assert (HS1 : forall r, In r rules -> length (pr_tail r) <= 256) by (intros r Hr; apply HS; exact Hr). assert (HS2 : forall r, In r rules -> length (pr_comp r) <= 256) by (intros r Hr; apply HS; exact Hr).
  destruct (cderiv_k KL factorize rules NF _ _ _ _ CD) as (kt & KD & CW & _). destruct (fallback_kword rules (fun r Hr => proj1 (LR r Hr)) kt init word KD) as (d & tree & E & GS & D & Y & AT).
  exists (cow_of rules kt), tree. split; [rewrite CW; eapply (cow_new_kword rules HS1 HS2); exact KD|]. split; [now apply cow_of_deriv|]. split; [rewrite CW; symmetry; eapply (cow_word_of rules HS1 HS2); [|exact KD]|split; [exact E|exists d; auto]].
  intros r c Hr Hc ->. apply In_nth_error in Hr. destruct Hr as (i & Ei). apply In_nth_error in Hc. destruct Hc as (k & Ek). destruct (comp_cases rules NF i r k [] Ei Ek) as [(t0 & _ & X & _)|[X _]]; [discriminate|contradiction].
Qed.
Print Assumptions C30_fallback.

(* The fallback: there is one exactly if some bracket word is enumerated, in particular if there is any parse, and it is one
   derivation of the word by merged rules. *)
Theorem C30_fallback_of_parser :
  forall (N T : Type) (K : ZWeight) (neqb : N -> N -> bool) (teqb : T -> T -> bool) (factorize : K -> nat -> list K)
    (H : max_heap (K * nat) (@item_leb K)) (H2 : max_heap (K * bt K) (@kb_leb K)) (distinct : list nat -> list nat)
    (rules : list (prule N T K)) (init : N) (width : nat),
    ZWeightLaws K -> EqbSpec neqb -> EqbSpec teqb -> FactorLaws factorize -> (forall l, NoDup (distinct l) /\ forall x, In x (distinct l) <-> In x l) ->
    grammar_ok neqb rules init -> width <= 254 -> chain_free rules -> tokens_apart rules ->
    exists rep, cs_new neqb teqb factorize H distinct rules init width = Some rep /\
    forall word cand beam delta, length word <= 255 -> root_token rules init word -> settings_ok (states (rep_generator rep)) (Settings None beam delta) ->
    exists F fb, (forall fuel m, F <= fuel -> exists trees, parse teqb H H2 fuel rep (Settings cand beam delta) word m = Some (trees, fb) /\ (fb = None -> forall x, In x trees -> x = None)) /\
      (forall tree, fb = Some tree -> is_fallback rules init word tree) /\
      (no_pruning (states (rep_generator rep)) (Settings None beam delta) -> fb = None -> forall tree' w', ~ is_parse rules init word tree' w').
Proof.
  intros N T K neqb teqb factorize H H2 distinct rules init width KL NE TE FL HD GO HW CF TA.
  destruct (parser_trees KL neqb teqb NE TE factorize FL H H2 distinct HD rules init width GO HW CF TA) as (rep & ER & P). exists rep. split; [exact ER|].
  intros word cand beam delta Hn RTK SO. destruct (P word beam delta Hn RTK SO) as (F & fb & words & E & ED & SD & SS & CP & F1 & F2 & _). exists F, fb.
  assert (FN : fb = None -> words = []). { intros ->. destruct words as [|x l]; [reflexivity|]. destruct F2 as (tree & F2 & _); discriminate. }
  split; [|split].
  - intros fuel m HF. eexists. split; [apply (E cand fuel m HF)|]. intros E0. rewrite (FN E0). intros x Hx. apply in_map_iff in Hx. destruct Hx as (k & <- & _). destruct cand as [[|c]|]; cbn; now destruct k.
  - intros tree E0. destruct F2 as (tree' & F2 & IF); [intros X; rewrite (F1 X) in E0; discriminate|]. rewrite E0 in F2. injection F2 as <-. exact IF.
  - intros NP E0 tree' w' IP. apply (CP NP) in IP. now rewrite (FN E0) in IP.
Qed.
Print Assumptions C30_fallback_of_parser.

(* ---- concrete cases ---- *)
Definition trop_kheap := P_Agenda.list_heap (@kb_leb TropWeight) (kb_leb_TO TropLaws).
Definition trop_rep (rules : list (prule nat nat TropWeight)) (width : nat) := cs_new Nat.eqb Nat.eqb trop_factorize trop_heap (nodup Nat.eq_dec) rules 0 width.
Definition trop_parse (fuel : nat) rules width (st : @settings TropWeight) word m :=
  match trop_rep rules width with Some rep => parse Nat.eqb trop_heap trop_kheap fuel rep st word m | None => None end.
Lemma nat_eqb_spec : EqbSpec Nat.eqb.
Proof. split; intros; apply Nat.eqb_eq; assumption. Qed.
Lemma nodup_distinct l : NoDup (nodup Nat.eq_dec l) /\ forall x, In x (nodup Nat.eq_dec l) <-> In x l.
Proof. split; [apply NoDup_nodup|intros; apply nodup_In]. Qed.
Ltac in_cases H := cbn [In] in H; repeat (destruct H as [<-|H]); [..|contradiction].

Lemma deriv_inv {N T W} (P : prule N T W -> Prop) A r ts : deriv P A (DNode r ts) -> P r /\ pr_head r = A /\ Forall2 (deriv P) (pr_tail r) ts.
Proof. intros D. inversion D; subst; auto. Qed.

(* S -> x00 x10 x01 (A, B) in two versions; A -> (x00, x10) (C, D); A -> (x00 x10, x01 x20) (A, C, D); C -> 7; D -> 8; B -> 9:
   the words 7^n 9 8^n, each with two derivations *)
Definition ex_p (w1 w2 : nat) : list (prule nat nat TropWeight) :=
  [ex_csr 0 [1; 4] [[Var 0 0; Var 1 0; Var 0 1]] w1; ex_csr 0 [4; 1] [[Var 1 0; Var 0 0; Var 1 1]] w2;
   ex_csr 1 [2; 3] [[Var 0 0]; [Var 1 0]] 1; ex_csr 1 [1; 2; 3] [[Var 0 0; Var 1 0]; [Var 0 1; Var 2 0]] 1;
   ex_csr 2 [] [[Tm 7]] 0; ex_csr 3 [] [[Tm 8]] 0; ex_csr 4 [] [[Tm 9]] 0].
Example ex_p_ok : grammar_ok Nat.eqb (ex_p 1 3) 0 /\ chain_free (ex_p 1 3) /\ tokens_apart (ex_p 1 3) /\ (forall word, length word <> 1 -> root_token (ex_p 1 3) 0 word) /\ NoDup (ex_p 1 3).
Proof.
  split; [|split; [|split; [|split]]].
  - constructor; try reflexivity; intros r Hr; unfold ex_p in Hr; in_cases Hr; try discriminate; try (cbn; lia); cbn; (split; [reflexivity|discriminate]).
  - exists (fun A _ => match A with 1 => 1 | _ => 0 end). intros r k i j B Hr Ek Et. unfold ex_p in Hr. in_cases Hr; destruct k as [|[|[|k]]]; cbn in Ek; try discriminate; try (destruct k; discriminate); injection Ek as <- <-; cbn in Et; injection Et as <-; cbn; lia.
  - intros r t [r' ts] t' Hr Hc D Y. apply deriv_inv in D. destruct D as (Hr' & EA & HF). unfold ex_p in Hr, Hr'. in_cases Hr; cbn in Hc; try discriminate; injection Hc as <-; in_cases Hr'; cbn in EA; try discriminate; cbn in Y; congruence.
  - intros word Hw r t t' Hr Hh Hc ->. cbn in Hw. lia.
  - unfold ex_p. repeat constructor; cbn [In]; intros C; repeat (destruct C as [C|C]; [discriminate|]); exact C.
Qed.
Definition unweighted (t : gorn (prule nat nat TropWeight)) := map (fun p => (fst p, PRule (pr_head (snd p)) (pr_tail (snd p)) (pr_comp (snd p)) (wzero : TropWeight))) t.
(* two parses, the better one first *)
Example ex_p_parse :
  let t1 := [([], ex_csr 0 [1; 4] [[Var 0 0; Var 1 0; Var 0 1]] 1); ([0], ex_csr 1 [1; 2; 3] [[Var 0 0; Var 1 0]; [Var 0 1; Var 2 0]] 1);
             ([0; 0], ex_csr 1 [2; 3] [[Var 0 0]; [Var 1 0]] 1); ([0; 0; 0], ex_csr 2 [] [[Tm 7]] 0); ([0; 0; 1], ex_csr 3 [] [[Tm 8]] 0);
             ([0; 1], ex_csr 2 [] [[Tm 7]] 0); ([0; 2], ex_csr 3 [] [[Tm 8]] 0); ([1], ex_csr 4 [] [[Tm 9]] 0)] in
  let t2 := [([], ex_csr 0 [4; 1] [[Var 1 0; Var 0 0; Var 1 1]] 3); ([0], ex_csr 4 [] [[Tm 9]] 0); ([1], ex_csr 1 [1; 2; 3] [[Var 0 0; Var 1 0]; [Var 0 1; Var 2 0]] 1);
             ([1; 0], ex_csr 1 [2; 3] [[Var 0 0]; [Var 1 0]] 1); ([1; 0; 0], ex_csr 2 [] [[Tm 7]] 0); ([1; 0; 1], ex_csr 3 [] [[Tm 8]] 0);
             ([1; 1], ex_csr 2 [] [[Tm 7]] 0); ([1; 2], ex_csr 3 [] [[Tm 8]] 0)] in
  trop_parse 50 (ex_p 1 3) 2 build_generator [7; 7; 9; 8; 8] 3 = Some ([Some t1; Some t2; None], Some (unweighted t1)).
Proof. vm_compute. reflexivity. Qed.
(* the empty sentence *)
Example ex_p_empty : trop_parse 50 (ex_p 1 3) 2 build_generator [] 1 = Some ([None], None).
Proof. vm_compute. reflexivity. Qed.
(* no parse, but a fallback: A is cut into a component of one rule and a component of the other *)
Example ex_p_fallback :
  trop_parse 50 (ex_p 1 3) 2 build_generator [7; 7; 9; 8] 1 =
    Some ([None], Some (unweighted [([], ex_csr 0 [1; 4] [[Var 0 0; Var 1 0; Var 0 1]] 1); ([0], ex_csr 1 [1; 2; 3] [[Var 0 0; Var 1 0]; [Var 2 0]] 1);
      ([0; 0], ex_csr 1 [2] [[Var 0 0]] 1); ([0; 0; 0], ex_csr 2 [] [[Tm 7]] 0);
      ([0; 1], ex_csr 2 [] [[Tm 7]] 0); ([0; 2], ex_csr 3 [] [[Tm 8]] 0); ([1], ex_csr 4 [] [[Tm 9]] 0)])).
Proof. vm_compute. reflexivity. Qed.

(* Without tokens_apart: with S -> x00 x10 (N, N); N -> 7; N -> 8 the best tree for the word 7 8 is a derivation of 7 7. *)
Definition ex_tok : list (prule nat nat TropWeight) := [ex_csr 0 [1; 1] [[Var 0 0; Var 1 0]] 1; ex_csr 1 [] [[Tm 7]] 1; ex_csr 1 [] [[Tm 8]] 2].
Theorem C28_tokens_refuted :
  grammar_ok Nat.eqb ex_tok 0 /\ chain_free ex_tok /\
  exists tree fb, trop_parse 50 ex_tok 0 build_generator [7; 8] 1 = Some ([Some tree], fb) /\ is_parse ex_tok 0 [7; 7] tree (Some 3 : TropWeight) /\ forall w, ~ is_parse ex_tok 0 [7; 8] tree w.
Proof.
  split; [|split].
  - constructor; try reflexivity; intros r Hr; unfold ex_tok in Hr; in_cases Hr; try discriminate; try (cbn; lia); cbn; (split; [reflexivity|discriminate]).
  - exists (fun _ _ => 0). intros r k i j B Hr Ek Et. unfold ex_tok in Hr. in_cases Hr; destruct k as [|k]; cbn in Ek; try discriminate; destruct k; discriminate.
  - set (tree := [([], ex_csr 0 [1; 1] [[Var 0 0; Var 1 0]] 1); ([0], ex_csr 1 [] [[Tm 7]] 1); ([1], ex_csr 1 [] [[Tm 7]] 1)]).
    exists tree. eexists. split; [vm_compute; reflexivity|]. split.
    + exists (DNode (ex_csr 0 [1; 1] [[Var 0 0; Var 1 0]] 1) [DNode (ex_csr 1 [] [[Tm 7]] 1) []; DNode (ex_csr 1 [] [[Tm 7]] 1) []]).
      split; [|split; [reflexivity|split; [reflexivity|split]]].
      * repeat match goal with |- deriv _ _ (DNode ?r ?ts) => refine (deriv_node _ r ts _ _); [cbn [In ex_tok]; unfold ex_csr; repeat (first [left; reflexivity|right])|unfold ex_csr; cbn [pr_tail]] | |- Forall2 _ _ _ => constructor end.
      * cbn; repeat split; intros x Hx; cbn in Hx; repeat (destruct Hx as [<-|Hx]; [reflexivity|]); contradiction.
      * intros [|[|[|i]] [|j a]]; try reflexivity; cbn; try (destruct j; reflexivity); destruct i; reflexivity.
    + intros w ([r ts] & D & Y & _ & _ & E). pose proof (E []) as E0. cbn in E0. injection E0 as <-. apply deriv_inv in D. destruct D as (_ & _ & HF). cbn in HF.
      destruct ts as [|[r1 t1] [|[r2 t2] [|x ts]]]; try (repeat match goal with H : Forall2 _ _ _ |- _ => inversion H; clear H; subst end; fail). pose proof (E [1]) as E2. cbn in E2. injection E2 as <-. cbn in Y. destruct (yield (DNode r1 t1)) as [y|] eqn:Y1; cbn in Y1, Y; rewrite Y1 in Y; [|discriminate]. destruct y as [|y0 y]; [discriminate|]. cbn in Y. injection Y as Y. destruct y0 as [|a [|b y0]]; cbn in Y; try discriminate. destruct y0; discriminate.
Qed.
Print Assumptions C28_tokens_refuted.

(* Without root_token: with S -> 7; S -> x00 x10 (B, C); B -> 8; C -> 8 the word 8 gets the derivation of 7. *)
Definition ex_root : list (prule nat nat TropWeight) := [ex_csr 0 [] [[Tm 7]] 1; ex_csr 0 [1; 2] [[Var 0 0; Var 1 0]] 1; ex_csr 1 [] [[Tm 8]] 2; ex_csr 2 [] [[Tm 8]] 2].
Theorem C28_root_refuted :
  grammar_ok Nat.eqb ex_root 0 /\ chain_free ex_root /\
  exists fb, trop_parse 50 ex_root 0 build_generator [8] 2 = Some ([Some [([], ex_csr 0 [] [[Tm 7]] 1)]; None], fb) /\ forall tree w, ~ is_parse ex_root 0 [8] tree w.
Proof.
  split; [|split].
  - constructor; try reflexivity; intros r Hr; unfold ex_root in Hr; in_cases Hr; try discriminate; try (cbn; lia); cbn; (split; [reflexivity|discriminate]).
  - exists (fun _ _ => 0). intros r k i j B Hr Ek Et. unfold ex_root in Hr. in_cases Hr; destruct k as [|k]; cbn in Ek; try discriminate; destruct k; discriminate.
  - eexists. split; [vm_compute; reflexivity|]. intros tree w ([r ts] & D & Y & _). apply deriv_inv in D. destruct D as (Hr & HA & HF). unfold ex_root in Hr. in_cases Hr; cbn in HA; try discriminate; cbn in Y; try discriminate. cbn [pr_tail ex_csr] in HF.
    inversion HF as [|? d1 ? ? D1 HF2]; subst. inversion HF2 as [|? d2 ? ? D2 HF3]; subst. inversion HF3; subst. clear HF HF2 HF3. destruct d1 as [r1 t1], d2 as [r2 t2]. apply deriv_inv in D1. apply deriv_inv in D2. destruct D1 as (H1 & A1 & _), D2 as (H2 & A2 & _). in_cases H1; cbn in A1; try discriminate; in_cases H2; cbn in A2; discriminate.
Qed.
Print Assumptions C28_root_refuted.

(* Without chain_free: with S -> x00 (A); A -> x00 (S); A -> x00 x10 (B, B); B -> 7, the first two of weight one, the parser
   does not come back from the first call for the word 7 7, which has infinitely many derivations. *)
Definition ex_chain : list (prule nat nat TropWeight) := [ex_csr 0 [1] [[Var 0 0]] 0; ex_csr 1 [0] [[Var 0 0]] 0; ex_csr 1 [2; 2] [[Var 0 0; Var 1 0]] 1; ex_csr 2 [] [[Tm 7]] 2].
Lemma chain_loop (a : automaton nat TropWeight) c mask (w0 w1 e0 e1 : TropWeight) h0 h1 r0 r1 d :
  kd_get (0, 2, 0) d = Some ([(BUn r0 1 w0 0, e0)], h0) -> kd_get (0, 2, 1) d = Some ([(BUn r1 0 w1 0, e1)], h1) ->
  forall fuel, read trop_kheap a c mask fuel d 0 2 (BUn r0 1 w0 0) = None /\ read trop_kheap a c mask fuel d 0 2 (BUn r1 0 w1 0) = None.
Proof.
  intros G0 G1. assert (K0 : forall f, kth trop_kheap a c mask (S f) d 0 2 0 0 = Some (Some (BUn r0 1 w0 0, e0), d)) by (intros f; cbn [kth]; rewrite G0; reflexivity).
  assert (K1 : forall f, kth trop_kheap a c mask (S f) d 0 2 1 0 = Some (Some (BUn r1 0 w1 0, e1), d)) by (intros f; cbn [kth]; rewrite G1; reflexivity).
  induction fuel as [|fuel [IH0 IH1]]; [split; reflexivity|]. cbn [read]. rewrite K0, K1. cbn [fst]. rewrite IH0, IH1. split; reflexivity.
Qed.
Theorem C28_chains_refuted :
  grammar_ok Nat.eqb ex_chain 0 /\ tokens_apart ex_chain /\ (exists tree w, is_parse ex_chain 0 [7; 7] tree w) /\
  exists rep, trop_rep ex_chain 0 = Some rep /\ forall fuel m, parse Nat.eqb trop_heap trop_kheap fuel rep build_generator [7; 7] m = None.
Proof.
  split; [|split; [|split]].
  - constructor; try reflexivity; intros r Hr; unfold ex_chain in Hr; in_cases Hr; try discriminate; try (cbn; lia); cbn; (split; [reflexivity|discriminate]).
  - intros r t [r' ts] t' Hr Hc D Y. apply deriv_inv in D. destruct D as (Hr' & EA & HF). unfold ex_chain in Hr, Hr'. in_cases Hr; cbn in Hc; try discriminate; injection Hc as <-; in_cases Hr'; cbn in EA; try discriminate; cbn in Y; congruence.
  - exists [([], ex_csr 0 [1] [[Var 0 0]] 0); ([0], ex_csr 1 [2; 2] [[Var 0 0; Var 1 0]] 1); ([0; 0], ex_csr 2 [] [[Tm 7]] 2); ([0; 1], ex_csr 2 [] [[Tm 7]] 2)], (Some 5 : TropWeight).
    exists (DNode (ex_csr 0 [1] [[Var 0 0]] 0) [DNode (ex_csr 1 [2; 2] [[Var 0 0; Var 1 0]] 1) [DNode (ex_csr 2 [] [[Tm 7]] 2) []; DNode (ex_csr 2 [] [[Tm 7]] 2) []]]).
    split; [|split; [reflexivity|split; [reflexivity|split]]].
    + repeat match goal with |- deriv _ _ (DNode ?r ?ts) => refine (deriv_node _ r ts _ _); [cbn [In ex_chain]; unfold ex_csr; repeat (first [left; reflexivity|right])|unfold ex_csr; cbn [pr_tail]] | |- Forall2 _ _ _ => constructor end.
    + cbn; repeat split; intros x Hx; cbn in Hx; repeat (destruct Hx as [<-|Hx]; [reflexivity|]); contradiction.
    + intros [|[|i] [|[|[|j]] [|k a]]]; try reflexivity; cbn; try (destruct k; reflexivity); try (destruct j; reflexivity); destruct i; reflexivity.
  - eexists. split; [vm_compute; reflexivity|]. intros fuel m. unfold parse, with_fallback.
    match goal with |- context [generate ?a ?b ?c ?d ?e] => let r := eval vm_compute in (generate a b c d e) in replace (generate a b c d e) with r by (vm_compute; reflexivity) end.
    unfold peek. cbn [fst snd]. unfold words_next at 1, kiter_next. cbn [rep_generator].
    destruct fuel as [|fuel]; [reflexivity|].
    match goal with |- context [kth ?H ?a ?c ?mask (S fuel) ?d 0 ?n ?q ?k] =>
      let r := eval vm_compute in (kth H a c mask (S fuel) d 0 n q k) in replace (kth H a c mask (S fuel) d 0 n q k) with r by (vm_compute; reflexivity) end.
    assert (X : forall (a : automaton nat TropWeight) c mask d d' h0 h1 e0 e1 w0 w1 r0 r1, kth trop_kheap a c mask (S fuel) d 0 2 1 0 = Some (Some (BUn r1 0 w1 0, e1), d') ->
      kd_get (0, 2, 0) d' = Some ([(BUn r0 1 w0 0, e0)], h0) -> kd_get (0, 2, 1) d' = Some ([(BUn r1 0 w1 0, e1)], h1) -> read trop_kheap a c mask (S fuel) d 0 2 (BUn r0 1 w0 0) = None).
    { intros a c mask d d' h0 h1 e0 e1 w0 w1 r0 r1 E G0 G1. cbn [read]. rewrite E. cbn [fst]. now rewrite (proj2 (chain_loop a c mask w0 w1 e0 e1 h0 h1 r0 r1 d' G0 G1 fuel)). }
    match goal with |- context [read ?H ?a ?c ?mask (S fuel) ?d 0 ?n ?b] => replace (read H a c mask (S fuel) d 0 n b) with (None : option (list (bracket bcontent) * list (knode * (list (bt TropWeight * TropWeight) * unique_heap (It := bt TropWeight) trop_kheap)))); [reflexivity|] end.
    symmetry. change (u8 _) with 2. cbn [fst]. eapply X; vm_compute; reflexivity.
Qed.
Print Assumptions C28_chains_refuted.

(* A rule that is listed twice: the same tree is yielded twice. *)
Definition ex_twice : list (prule nat nat TropWeight) := [ex_csr 0 [1; 1] [[Var 0 0; Var 1 0]] 1; ex_csr 0 [1; 1] [[Var 0 0; Var 1 0]] 1; ex_csr 1 [] [[Tm 7]] 1].
Theorem C28_duplicates_refuted :
  grammar_ok Nat.eqb ex_twice 0 /\ chain_free ex_twice /\ tokens_apart ex_twice /\ root_token ex_twice 0 [7; 7] /\
  exists tree fb, trop_parse 50 ex_twice 0 build_generator [7; 7] 3 = Some ([Some tree; Some tree; None], fb).
Proof.
  split; [|split; [|split; [|split]]].
  - constructor; try reflexivity; intros r Hr; unfold ex_twice in Hr; in_cases Hr; try discriminate; try (cbn; lia); cbn; (split; [reflexivity|discriminate]).
  - exists (fun _ _ => 0). intros r k i j B Hr Ek Et. unfold ex_twice in Hr. in_cases Hr; destruct k as [|k]; cbn in Ek; try discriminate; destruct k; discriminate.
  - intros r t [r' ts] t' Hr Hc D Y. apply deriv_inv in D. destruct D as (Hr' & EA & HF). unfold ex_twice in Hr, Hr'. in_cases Hr; cbn in Hc; try discriminate; injection Hc as <-; in_cases Hr'; cbn in EA; try discriminate; cbn in Y; congruence.
  - intros r t t' _ _ _ E. discriminate.
  - eexists _, _. vm_compute. reflexivity.
Qed.
Print Assumptions C28_duplicates_refuted.
