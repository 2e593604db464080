(* C14, C18 and C44, continued: what a search finds that may never end. *)
From Verif Require Import M_Nom Base BMap M_Util M_Agenda M_Search M_Recog M_Automata M_CFG M_TreeStack M_Grammar M_Chart M_FromPmcfg M_Negra M_Text M_Command M_Mcfg
  S_Search S_Util S_Recog S_Automata S_TreeStack S_Grammar S_FromPmcfg S_Negra S_Text S_AutText S_Command S_Mcfg S_CfgCommand S_Fading P_Agenda P_Search P_Util P_Recog P_Automata P_PDA P_TreeStack P_TSA P_Grammar P_GrammarCFG
  P_FromPmcfg P_FromPmcfg2 P_FromPmcfg3 P_FromPmcfg4 P_FromPmcfg5 P_Text P_AutText P_Command P_Mcfg M_AutText P_Finds P_Finds2 Properties_Automata Properties_TreeStack Properties_Negra Properties_RuleMask Properties_Text Properties_FromPmcfg Properties_Beam Properties_Chart Properties_CSParse Properties_Command Properties_Mcfg.

(* C14: if no weight exceeds one and all long runs on prefixes of the word are lighter than an accepting run, then the automaton
   returns the accepting run after finitely many calls, whether or not the search ends.  For each kind of automaton: *)
Theorem C14_fsa_finds :
  forall (Q T : Type) (K : Weight) (qeqb : Q -> Q -> bool) (teqb : T -> T -> bool), EqbSpec qeqb -> EqbSpec teqb -> RoundLaws K ->
  forall (ts : list (transition (fs_instr Q) T K)) (initial : Q) (finals : list Q) shuffle, (forall l, Permutation (shuffle l) l) ->
  (forall t, In t ts -> wleb (t_weight t) wone = true) ->
  forall H (word : list T) us q, accepting_run (fs_apply qeqb) initial (fun t => In t ts) (fun q => In q finals) word us q ->
  forall bound, (forall vs, partial_run (fs_apply qeqb) initial (fun t => In t ts) word vs -> bound <= length vs -> wleb (run_weight us) (run_weight vs) = false) ->
  exists n0, forall n, n0 <= n -> exists outs, fsa_recognise teqb shuffle (fsa_new qeqb teqb ts initial finals) H word n = Some outs /\
    In (Conf [] q (run_weight us), pd_from us) outs.
Proof.
  intros Q T K qeqb teqb QE TE KL ts initial finals shuffle SH LE H word us q AC bound HB.
  destruct (coded_finds _ _ _ _ _ _ _ _ _ _ _ _ _ (fsa_coded qeqb teqb QE TE ts initial finals shuffle SH) KL H word us q (S (Nat.max bound (length us))) LE AC) as (n0 & HN); [apply le_n_S, Nat.le_max_r|intros vs HP HL; apply HB; [exact HP|]; etransitivity; [apply Nat.le_max_l|]; etransitivity; [apply Nat.le_succ_diag_r|exact HL]|].
  exists n0. intros n Hn. destruct (C14_fsa_recognise Q T K qeqb teqb QE TE KL ts initial finals shuffle SH H word n) as (outs & E & _). exists outs. split; [exact E|]. exact (HN n outs Hn E).
Qed.
Print Assumptions C14_fsa_finds.
Theorem C14_pda_finds :
  forall (A T : Type) (K : Weight) (wadd : K -> K -> K) (wzero : K) (aeqb : A -> A -> bool) (teqb : T -> T -> bool), EqbSpec aeqb -> EqbSpec teqb -> RoundLaws K ->
  forall (ts : list (transition (pd_instr A) T K)) (initial : list A) shuffle, (forall l, Permutation (shuffle l) l) ->
  forall M, pda_new wadd wzero aeqb teqb ts initial = Some M ->
  let tr := merged wadd wzero aeqb teqb ts in
  (forall t, tr t -> wleb (t_weight t) wone = true) ->
  forall H (word : list T) us s, accepting_run (pdi_apply aeqb) initial tr (fun s => length s = 1) word us s ->
  forall bound, (forall vs, partial_run (pdi_apply aeqb) initial tr word vs -> bound <= length vs -> wleb (run_weight us) (run_weight vs) = false) ->
  exists n0, forall n outs, n0 <= n -> pda_recognise teqb shuffle M H word n = Some outs -> In (Conf [] s (run_weight us), pd_from us) outs.
Proof.
  intros A T K wadd wzero aeqb teqb AE TE KL ts initial shuffle SH M HM tr LE H word us s AC bound HB.
  apply (coded_finds _ _ _ _ _ _ _ _ _ _ _ _ _ (pda_coded wadd wzero aeqb teqb AE TE ts initial shuffle SH M HM) KL H word us s (S (Nat.max bound (length us))) LE AC); [apply le_n_S, Nat.le_max_r|intros vs HP HL; apply HB; [exact HP|]; etransitivity; [apply Nat.le_max_l|]; etransitivity; [apply Nat.le_succ_diag_r|exact HL]].
Qed.
Print Assumptions C14_pda_finds.
Theorem C14_tsa_finds :
  forall (A T : Type) (K : Weight) (aeqb : A -> A -> bool) (teqb : T -> T -> bool), EqbSpec aeqb -> EqbSpec teqb -> RoundLaws K ->
  forall (ts : list (transition (ts_instr A) T K)) (initial : tstack A) shuffle, (forall l, Permutation (shuffle l) l) ->
  (forall t, In t ts -> wleb (t_weight t) wone = true) ->
  forall H (word : list T) us s, accepting_run (tsi_apply aeqb) initial (fun t => In t ts) (fun s => ts_is_at_bottom s = true) word us s ->
  forall bound, (forall vs, partial_run (tsi_apply aeqb) initial (fun t => In t ts) word vs -> bound <= length vs -> wleb (run_weight us) (run_weight vs) = false) ->
  exists n0, forall n, n0 <= n -> exists outs, tsa_recognise teqb shuffle (tsa_new aeqb teqb ts initial) H word n = Some outs /\
    In (Conf [] s (run_weight us), pd_from us) outs.
Proof.
  intros A T K aeqb teqb AE TE KL ts initial shuffle SH LE H word us s AC bound HB.
  destruct (coded_finds _ _ _ _ _ _ _ _ _ _ _ _ _ (tsa_coded aeqb teqb AE TE ts initial shuffle SH) KL H word us s (S (Nat.max bound (length us))) LE AC) as (n0 & HN); [apply le_n_S, Nat.le_max_r|intros vs HP HL; apply HB; [exact HP|]; etransitivity; [apply Nat.le_max_l|]; etransitivity; [apply Nat.le_succ_diag_r|exact HL]|].
  exists n0. intros n Hn. destruct (C14_tsa_recognise A T K aeqb teqb AE TE KL ts initial shuffle SH H word n) as (outs & E & _). exists outs. split; [exact E|]. exact (HN n outs Hn E).
Qed.
Print Assumptions C14_tsa_finds.

(* C18 with left recursion: if no weight exceeds one and products of many weights fall below the weight of a derivation, then the
   search returns this derivation after finitely many calls. *)
Theorem C18_left_recursion_finds :
  forall (N T : Type) (K : Weight) (neqb : N -> N -> bool) (reqb : prule N T K -> prule N T K -> bool) (teqb : T -> T -> bool),
  EqbSpec neqb -> EqbSpec reqb -> EqbSpec teqb -> RoundLaws K ->
  forall (f : N -> nat) (g : pmcfg N T K), ordered_grammar f g -> (forall r, In r (pg_rules g) -> short_tails r) ->
  (forall r, In r (pg_rules g) -> wleb (pr_weight r) wone = true) ->
  forall shuffle, (forall l, Permutation (shuffle l) l) ->
  forall (H : max_heap (item (tstack nat) (ts_instr nat) nat K * K) (wi_leb wleb)) (word : list T),
  exists M, tsa_from_pmcfg neqb reqb teqb g = Some M /\
  forall A d, In A (pg_initial g) -> deriv (fun r => In r (pg_rules g)) A d -> yield d = Some [word] -> pmcfg_fades (pg_rules g) (read_weight d) ->
  exists n0, forall n, n0 <= n -> exists outs x, tsa_recognise teqb shuffle M H word n = Some outs /\
    In x outs /\ S_FromPmcfg.shows (c_storage (fst x)) d /\ item_weight x = read_weight d.
Proof.
  intros N T K neqb reqb teqb NE RE TE KL f g OG ST LE shuffle SH H word.
  destruct (C55_runs N T K neqb reqb NE RE KL f g OG) as (ts & ET & H1 & H2).
  exists (tsa_new (posstate_eqb reqb) teqb ts (ts_new Initial)). split; [unfold tsa_from_pmcfg; now rewrite ET|]. intros A d I1 D Y (m & HF).
  destruct (pmcfg_transitions_spec neqb NE f g OG) as (ts' & ET' & HT). rewrite ET in ET'. injection ET' as <-.
  assert (HY : read_tree d = d) by (revert D; now apply read_tree_short). rewrite <- HY in Y. destruct (H2 A d word I1 D Y) as (us & s & HA & W & SW & _).
  destruct (C14_tsa_finds _ T K (posstate_eqb reqb) teqb (peqb_spec reqb RE) TE KL ts (ts_new Initial) shuffle SH) with (H := H) (word := word) (us := us) (s := s) (bound := (2 * most g + 2) * m + 1) as (n0 & HN).
  - intros t Ht. apply HT in Ht. assert (W1 : wleb (wone : K) wone = true) by (destruct (to_total _ (rl_order _ KL) wone wone); assumption).
    destruct Ht as [(r & Hr & _ & [->| ->])|(r & j & k & b & i & j1 & ri & Hr & _ & _ & Hri & [->| ->])]; cbn; auto. destruct j1; cbn; auto.
  - exact HA.
  - intros vs (s' & rest & P1 & P2 & P3) HL. destruct (run_pushes KL reqb RE f g OG vs _ _ P1 (fun t Ht => proj1 (HT t) (P2 t Ht))) as (rs & R1 & R2 & R3). rewrite W. etransitivity; [exact (f_equal (wleb (read_weight d)) (R2 wone))|]. apply HF; [exact R1|].
    unfold potential in R3 at 2. cbn [tsum ts_new left_of map list_sum fold_right depth] in R3. destruct (Nat.le_gt_cases m (length rs)) as [L|L]; [exact L|]. exfalso.
    assert ((2 * most g + 2) * length rs <= (2 * most g + 2) * m) by (apply Nat.mul_le_mono_l; lia). lia.
  - exists n0. intros n Hn. destruct (HN n Hn) as (outs & E & HI). exists outs. eexists. split; [exact E|]. split; [exact HI|]. split; [exact SW|exact W].
Qed.
Print Assumptions C18_left_recursion_finds.

(* C44 with left recursion, without a beam: with weights that fade, the command ends if every sentence has at least n derivations or
   a token that no rule mentions.  If the first component of a rule for an initial nonterminal begins with this nonterminal, the
   rules are different from each other and each of them is in use, it ends only then. *)
Theorem C44_left_recursion_ends :
  forall (K : ZWeight) (neqb teqb : bytes -> bytes -> bool) (reqb : prule bytes bytes K -> prule bytes bytes K -> bool),
  RoundLaws K -> EqbSpec neqb -> EqbSpec teqb -> EqbSpec reqb ->
  forall (H : max_heap (item (tstack nat) (ts_instr nat) nat K * K) (wi_leb wleb)) (Hb : minmax_heap (item (tstack nat) (ts_instr nat) nat K * K) (wi_leb wleb))
    (shuffle : list (transition (ts_instr nat) nat K) -> list (transition (ts_instr nat) nat K)), (forall l, Permutation (shuffle l) l) ->
  forall (iow : text_io K) (display : configuration (tstack (posstate (prule bytes bytes K))) bytes K -> bytes)
    (grammar : bytes) (init : list bytes) (rules : list (prule bytes bytes K)), text_means string_io (pmcfg_rule_syntax string_io string_io iow) grammar init rules ->
  forall (f : bytes -> nat), ordered_grammar f (PMCFG init rules : pmcfg bytes bytes K) -> (forall r, In r rules -> short_tails r) ->
  forall (negra : bool), (negra = true -> forall r, In r rules -> negra_normal (pr_comp r) /\ (In (pr_head r) init -> forall t, ~ In (Tm t) (List.concat (pr_comp r)))) ->
  forall (text : bytes) (sents : list (list bytes)), sentences text sents -> (forall s, In s sents -> s <> []) ->
  forall (n : nat),
  let run calls fuel := mcfg_parse neqb teqb reqb H Hb shuffle iow display grammar n None negra calls fuel text in
  ((forall r, In r rules -> wleb (pr_weight r) wone = true) -> (forall sent d, In sent sents -> parse_from init rules sent d -> pmcfg_fades rules (read_weight d)) ->
     (forall sent, In sent sents -> enough_parses init rules n sent \/ foreign_token rules sent) ->
     exists calls0, forall calls, calls0 <= calls -> exists F out, forall fuel, F <= fuel -> run calls fuel = Done out) /\
  (forall r i rest, In r rules -> In (pr_head r) init -> pr_comp r = [Var i 0 :: rest] -> nth_error (pr_tail r) i = Some (pr_head r) ->
     NoDup rules -> (forall r, In r rules -> in_use init rules r) ->
     forall calls fuel out, run calls fuel = Done out -> forall sent, In sent sents -> enough_parses init rules n sent \/ foreign_token rules sent).
Proof.
  intros K neqb teqb reqb KL NE TE RE H Hb shuffle SH iow display grammar init rules TM f OG ST negra HN text sents (ls & TL & HW) NZ n run.
  destruct (C39_grammar_syntax bytes bytes K string_io string_io iow grammar init) as (_ & HG). destruct (HG rules TM) as (EG & _).
  set (g := PMCFG init rules : pmcfg bytes bytes K) in *.
  destruct (pmcfg_transitions_spec neqb NE f g OG) as (ts & ET & HT).
  set (M := tsa_new (posstate_eqb reqb) teqb ts (ts_new Initial)).
  assert (EM : tsa_from_pmcfg neqb reqb teqb g = Some M) by (unfold tsa_from_pmcfg; now rewrite ET).
  assert (ER : forall calls fuel, run calls fuel = mcfg_lines teqb H Hb shuffle display M n None negra calls fuel 0 ls).
  { intros calls fuel. unfold run, mcfg_parse. rewrite EG. fold g. rewrite EM. cbn [or_panic and_then]. now rewrite (text_lines_app text ls TL). }
  split.
  - intros LE FA EN.
    assert (ONE : forall line sent, words line sent -> In sent sents -> exists c0, forall calls, c0 <= calls -> forall i, exists F out, forall fuel, F <= fuel -> mcfg_line teqb H Hb shuffle display M n None negra calls fuel i line = Done out).
    { intros line sent WS HS.
      assert (CNT : exists c0, forall calls, c0 <= calls -> exists outs ended ds, found teqb H Hb shuffle M None sent calls = (Some outs, ended) /\ Forall2 (good init rules sent) outs ds /\ (n <= length outs \/ ended = true)).
      { destruct (EN sent HS) as [(dss & ND & LN & HD)|(x & Hx & FX)].
        - assert (ALL : exists c0, forall calls, c0 <= calls -> forall d, In d dss -> exists outs x, tsa_recognise teqb shuffle M H sent calls = Some outs /\ In x outs /\ S_FromPmcfg.shows (c_storage (fst x)) d).
          { clear LN ND. induction dss as [|d dss IH]; [exists 0; intros ? _ ? []|]. destruct IH as (c1 & IH); [intros; apply HD; now right|].
            pose proof (HD d (or_introl eq_refl)) as PF. pose proof (FA sent d HS PF) as FD. destruct PF as (A & HA & DD & YD).
            destruct (C18_left_recursion_finds bytes bytes K neqb reqb teqb NE RE TE KL f g OG ST LE shuffle SH H sent) as (M' & EM' & HF). rewrite EM in EM'. injection EM' as <-.
            destruct (HF A d HA DD YD FD) as (c0 & HC). exists (Nat.max c0 c1). intros calls Hc d' [<-|Hd]; [|apply IH; [lia|exact Hd]]. destruct (HC calls ltac:(lia)) as (outs & x & E & HI & SX & _). exists outs, x. auto. }
          destruct ALL as (c0 & HC). exists c0. intros calls Hc.
          destruct (found_gives KL neqb teqb reqb NE TE RE H Hb shuffle SH f init rules OG ST M None sent calls EM (NZ _ HS)) as (outs & ended & ds & EF & F2 & _).
          exists outs, ended, ds. split; [exact EF|]. split; [exact F2|]. left. rewrite (forall2_length _ _ _ F2). transitivity (length dss); [exact LN|]. apply NoDup_incl_length; [exact ND|].
          intros d Hd. destruct (HC calls Hc d Hd) as (outs' & x & E & HI & SX). unfold found in EF. assert (outs' = outs) as -> by congruence.
          destruct (forall2_in_l _ _ _ x F2 HI) as (d' & Hd' & _ & _ & SX' & _). now rewrite (shows_inj _ d d' SX SX').
        - exists 1. intros calls Hc. destruct (found_gives KL neqb teqb reqb NE TE RE H Hb shuffle SH f init rules OG ST M None sent calls EM (NZ _ HS)) as (outs & ended & ds & EF & F2 & EE & _).
          exists outs, ended, ds. split; [exact EF|]. split; [exact F2|]. right. apply EE. cbn [over].
          assert (opt_all (int_find_key teqb (ta_t M)) sent = None) as ->; [|destruct calls; [lia|apply ends_none]].
          apply opt_all_None. exists x. split; [exact Hx|]. destruct (tti_enc teqb TE (ta_t M) x) as [[HI _]|[_ E0]]; [|exact E0]. exfalso.
          destruct (tsa_tokens _ _ _ _ x HI) as (t & Ht & Hxt). destruct (trans_tokens g t x (proj1 (HT t) Ht) Hxt) as (r & Hr & HV). exact (FX r Hr HV). }
      destruct CNT as (c0 & HC). exists c0. intros calls Hc i. destruct (HC calls Hc) as (outs & ended & ds & EF & F2 & LN).
      destruct (parses_print display init rules negra (fun E r Hr => proj1 (HN E r Hr)) (fun E r t Hr Hi => proj2 (HN E r Hr) Hi t) i sent _ _ (forall2_firstn _ n _ _ F2)) as (F & texts & EP & _).
      exists F. eexists. intros fuel HF. unfold mcfg_line. rewrite (words_split line sent WS), EF. cbn [or_panic and_then]. rewrite (EP fuel HF). cbn [and_then].
      assert (EB : Nat.leb n (length outs) || ended = true) by (destruct LN as [LN| ->]; [apply Nat.leb_le in LN; now rewrite LN|apply orb_true_r]).
      match goal with |- (if Nat.leb n ?l || _ then _ else _) = _ => change l with (length outs) end. rewrite EB. reflexivity. }
    assert (G : exists c0, forall calls, c0 <= calls -> forall i, exists F out, forall fuel, F <= fuel -> mcfg_lines teqb H Hb shuffle display M n None negra calls fuel i ls = Done out).
    { clear -HW ONE. assert (ON : forall line sent, words line sent -> In sent sents -> exists c0, forall calls, c0 <= calls -> forall i, exists F out, forall fuel, F <= fuel -> mcfg_line teqb H Hb shuffle display M n None negra calls fuel i line = Done out) by exact ONE. clear ONE.
      induction HW as [|line sent ls sents WS HW IH]; [exists 0; intros; exists 0; eexists; reflexivity|]. destruct IH as (c1 & IH); [intros l s Hl Hs; apply (ON l s Hl); now right|].
      destruct (ON line sent WS (or_introl eq_refl)) as (c0 & HC). exists (Nat.max c0 c1). intros calls Hc i. destruct (HC calls ltac:(lia) i) as (F1 & o & EO), (IH calls ltac:(lia) (S i)) as (F2 & os & EOS).
      exists (Nat.max F1 F2). eexists. intros fuel HF. cbn [mcfg_lines]. rewrite (EO fuel) by lia. cbn [and_then]. rewrite (EOS fuel) by lia. reflexivity. }
    destruct G as (c0 & HC). exists c0. intros calls Hc. destruct (HC calls Hc 0) as (F & out & E). exists F, out. intros fuel HF. rewrite ER. now apply E.
  - intros r i rest Hr Hh Hcomp Ht ND US calls fuel out ED sent HS. rewrite ER in ED.
    assert (ONE : exists line k o, words line sent /\ mcfg_line teqb H Hb shuffle display M n None negra calls fuel k line = Done o).
    { clear -HW HS ED. revert out ED. generalize 0. induction HW as [|line s0 ls sents WS HW IH]; intros k out ED; [destruct HS|]. cbn [mcfg_lines] in ED.
      destruct (mcfg_line _ _ _ _ _ _ _ _ _ _ _ _ line) as [o| |] eqn:EL; [|discriminate|discriminate]. cbn [and_then] in ED. destruct HS as [->|HS]; [exists line, k, o; auto|].
      destruct (mcfg_lines _ _ _ _ _ _ _ _ _ _ _ _ ls) as [o2| |] eqn:EL2; [|discriminate|discriminate]. eapply IH; [exact HS|exact EL2]. }
    destruct ONE as (line & k & o & WS & EL). unfold mcfg_line in EL. rewrite (words_split line sent WS) in EL.
    destruct (found_gives KL neqb teqb reqb NE TE RE H Hb shuffle SH f init rules OG ST M None sent calls EM (NZ _ HS)) as (outs & ended & ds & EF & F2 & EE & IO & _). rewrite EF in EL. cbn [or_panic and_then] in EL.
    assert (DEC : foreign_token rules sent \/ forall x, In x sent -> exists t, In t ts /\ In x (t_word t)).
    { clear -TE HT OG ST US. induction sent as [|x sent [(y & Hy & F)|IH]]; [right; intros ? []|left; exists y; split; [now right|exact F]|].
      assert (KN : (exists t, In t ts /\ In x (t_word t)) \/ forall t, In t ts -> ~ In x (t_word t)).
      { destruct (existsb (fun t => existsb (teqb x) (t_word t)) ts) eqn:EX; [left|right].
        - apply existsb_exists in EX. destruct EX as (t & Ht & EX). apply existsb_exists in EX. destruct EX as (y & Hy & E). apply TE in E. subst y. eauto.
        - intros t Ht Hx. apply not_true_iff_false in EX. apply EX, existsb_exists. exists t. split; [exact Ht|]. apply existsb_exists. exists x. split; [exact Hx|now apply TE]. }
      destruct KN as [KN|KN].
      - right. intros y [<-|Hy]; [exact KN|auto].
      - left. exists x. split; [now left|]. intros r Hr HV. destruct (rule_tokens f g OG r x Hr (ST r Hr) (US r Hr) HV) as (t & Ht & Hx). exact (KN t (proj2 (HT t) Ht) Hx). }
    destruct DEC as [F|KW]; [now right|left].
    destruct (C18_left_recursion_never_ends bytes bytes K neqb reqb teqb NE RE TE KL f g OG r i rest [] Hr Hh Hcomp Ht) as (ts' & M' & ET' & EM' & HE). rewrite ET in ET'. injection ET' as <-. rewrite EM in EM'. injection EM' as <-.
    destruct ended; [exfalso; exact (HE sent KW shuffle SH H calls (proj1 EE eq_refl))|]. rewrite orb_false_r in EL.
    destruct (print_parses _ _ _ _ _) as [txt| |] in EL; [|discriminate|discriminate]. cbn [and_then] in EL.
    destruct (Nat.leb n (length outs)) eqn:LE; [|discriminate]. apply Nat.leb_le in LE. exists (firstn n ds).
    assert (LD : length outs = length ds) by exact (forall2_length _ _ _ F2).
    split; [exact (proj1 (IO n) ND)|]. split; [rewrite firstn_length; assert (X : forall a b c, a <= b -> b = c -> a <= Nat.min a c) by (intros; lia); exact (X _ _ _ LE LD)|].
    intros d Hd. destruct (forall2_in_r _ _ _ d (forall2_firstn _ n _ _ F2) Hd) as (x & _ & G). apply G.
Qed.
Print Assumptions C44_left_recursion_ends.

(* S -> S B | A with cost 1 each, A -> a and B -> b with cost 1: left-recursive, and the weights fade *)
Definition ex_lc : list (prule bytes bytes TropWeight) :=
  [ex_cr «"S"» [«"S"»; «"B"»] [[Var 0 0; Var 1 0]] 1; ex_cr «"S"» [«"A"»] [[Var 0 0]] 1; ex_cr «"A"» [] [[Tm «"a"»]] 1; ex_cr «"B"» [] [[Tm «"b"»]] 1].
Lemma ex_lc_fades rs : (forall r, In r rs -> In r ex_lc) -> lprod (map pr_weight rs) = (Some (length rs) : TropWeight).
Proof.
  rewrite (lprod_wprod (zl_weight _ TropLaws)).
  induction rs as [|r rs IH]; intros HR; [reflexivity|]. unfold wprod in *. cbn [map fold_right length]. rewrite IH by (intros; apply HR; now right).
  pose proof (HR r (or_introl eq_refl)) as Hr. unfold ex_lc in Hr. in_cases Hr; reflexivity.
Qed.
Definition ex_lc_ab : dtree bytes bytes TropWeight :=
  DNode (ex_cr «"S"» [«"S"»; «"B"»] [[Var 0 0; Var 1 0]] 1) [DNode (ex_cr «"S"» [«"A"»] [[Var 0 0]] 1) [DNode (ex_cr «"A"» [] [[Tm «"a"»]] 1) []]; DNode (ex_cr «"B"» [] [[Tm «"b"»]] 1) []].
Lemma ex_lc_weight (d : dtree bytes bytes TropWeight) : forall A, deriv (fun r => In r ex_lc) A d -> d_weight d = Some (length (d_rules d)).
Proof.
  intros A D. unfold d_weight. rewrite <- (lprod_wprod (zl_weight _ TropLaws)). apply ex_lc_fades. exact (deriv_rules _ d A D).
Qed.
Lemma ex_lc_OG : ordered_grammar (fun _ => 1) (PMCFG [«"S"»] ex_lc : pmcfg bytes bytes TropWeight).
Proof.
  unfold ex_lc. ordered_by ltac:(idtac).
  intros r B Hr HB. in_cases Hr; cbn in HB; solve_vars; try contradiction; subst;
    first [exists (ex_cr «"S"» [«"A"»] [[Var 0 0]] 1); cbn; auto 10; fail|exists (ex_cr «"A"» [] [[Tm «"a"»]] 1); cbn; auto 10; fail|exists (ex_cr «"B"» [] [[Tm «"b"»]] 1); cbn; auto 10; fail].
Qed.
Example C44_left_recursion_example :
  text_means string_io (pmcfg_rule_syntax string_io string_io trop_io) (grammar_text ex_lc) [«"S"»] ex_lc /\
  ordered_grammar (fun _ => 1) (PMCFG [«"S"»] ex_lc : pmcfg bytes bytes TropWeight) /\ (forall r, In r ex_lc -> short_tails r) /\
  (forall r, In r ex_lc -> negra_normal (pr_comp r) /\ (In (pr_head r) [«"S"»] -> forall t, ~ In (Tm t) (List.concat (pr_comp r)))) /\
  sentences (lines_of [«"a b"»; «"c"»]) [[«"a"»; «"b"»]; [«"c"»]] /\
  (forall r, In r ex_lc -> wleb (pr_weight r) wone = true) /\ NoDup ex_lc /\ (forall r, In r ex_lc -> in_use [«"S"»] ex_lc r) /\
  (forall k, pmcfg_fades ex_lc (Some k)) /\ (forall sent d, parse_from [«"S"»] ex_lc sent d -> pmcfg_fades ex_lc (read_weight d)) /\
  enough_parses [«"S"»] ex_lc 1 [«"a"»; «"b"»] /\ foreign_token ex_lc [«"c"»] /\
  trop_mcfg 1 None true (grammar_text ex_lc) 30 50 (lines_of [«"a b"»; «"c"»]) = Done (
    block 1 [[«"a"»; «"A"»; «"--"»; «"--"»; «"500"»]; [«"b"»; «"B"»; «"--"»; «"--"»; «"0"»]; [«"#500"»; «"S"»; «"--"»; «"--"»; «"0"»]] ++ newline ++ newline) /\
  trop_mcfg 2 None true (grammar_text ex_lc) 30 50 (lines_of [«"a b"»; «"c"»]) = Running.
Proof.
  assert (FD : forall k, pmcfg_fades ex_lc (Some k)).
  { intros k. exists (S k). intros rs HR HL. rewrite (ex_lc_fades rs HR). cbn. apply Nat.leb_gt. exact HL. }
  repeat match goal with |- _ /\ _ => split end.
  - apply (lcfrs_shown string_io string_io trop_io (MCFG ex_lc «"S"»)); [reflexivity| |not_in|].
    + split; [discriminate|]. intros a [<-|[]]. split; [not_in|discriminate].
    + cbn [mg_rules]. intros r Hr. unfold ex_lc in Hr. in_cases Hr; show_rule.
  - exact ex_lc_OG.
  - unfold ex_lc. short_by.
  - intros r Hr. unfold ex_lc in Hr. in_cases Hr; (split; [first [right; eexists; reflexivity|left; intros x Hx; cbn in Hx; solve_vars; subst; eauto]|]); cbn; intros [E|[]] t HI; try discriminate; solve_vars; try discriminate; try contradiction.
  - exists [«"a b"»; «"c"»]. split.
    + apply (tl_cons «"a b"» [] (lines_of [«"c"»]) [«"c"»]); [not_in|intros [|? [|? [|? [|? ?]]]]; discriminate|now left|]. apply (tl_cons «"c"» [] [] []); [not_in|intros [|? [|? ?]]; discriminate|now left|constructor].
    + constructor; [cbn; read_words|constructor; [cbn; read_words|constructor]].
  - intros r Hr. unfold ex_lc in Hr. in_cases Hr; reflexivity.
  - unfold ex_lc. repeat constructor; cbn; intuition discriminate.
  - intros r Hr. unfold ex_lc in Hr. in_cases Hr; [left; now left|left; now left|right; exists (ex_cr «"S"» [«"A"»] [[Var 0 0]] 1); cbn; auto|right; exists (ex_cr «"S"» [«"S"»; «"B"»] [[Var 0 0; Var 1 0]] 1); cbn; auto].
  - exact FD.
  - intros sent d (A & HA & D & _). rewrite (proj2 (C55_read_weight _ _ TropWeight _ _ ex_lc_OG A d HA D) (zl_weight _ TropLaws)), (ex_lc_weight d A D). apply FD.
  - exists [ex_lc_ab]. split; [constructor; [intros []|constructor]|]. split; [cbn; lia|]. intros d [<-|[]]. exists «"S"». split; [now left|]. split; [|reflexivity].
    repeat (first [apply (deriv_node _ (ex_cr «"S"» [«"S"»; «"B"»] [[Var 0 0; Var 1 0]] 1))|apply (deriv_node _ (ex_cr «"S"» [«"A"»] [[Var 0 0]] 1))|apply (deriv_node _ (ex_cr «"A"» [] [[Tm «"a"»]] 1))|apply (deriv_node _ (ex_cr «"B"» [] [[Tm «"b"»]] 1))|apply Forall2_cons|apply Forall2_nil|cbn; auto 10; fail]).
  - exists «"c"». split; [now left|]. intros r Hr. unfold ex_lc in Hr. in_cases Hr; cbn; intuition discriminate.
  - vm_compute. reflexivity.
  - vm_compute. reflexivity.
Qed.

(* the left-recursive grammar above, by C18 and C44 *)
Example C18_left_recursion_finds_example :
  forall shuffle, (forall l, Permutation (shuffle l) l) -> forall (H : max_heap (item (tstack nat) (ts_instr nat) nat TropWeight * TropWeight) (wi_leb wleb)), exists M, tsa_from_pmcfg word_eqb trop_reqb word_eqb (PMCFG [«"S"»] ex_lc : pmcfg bytes bytes TropWeight) = Some M /\
  exists n0, forall n, n0 <= n -> exists outs x, tsa_recognise word_eqb shuffle M H [«"a"»; «"b"»] n = Some outs /\
    In x outs /\ S_FromPmcfg.shows (c_storage (fst x)) ex_lc_ab /\ item_weight x = Some 4.
Proof.
  intros shuffle SH H. destruct C44_left_recursion_example as (_ & OG & ST & _ & _ & LE & _ & _ & FD & _).
  destruct (C18_left_recursion_finds bytes bytes TropWeight word_eqb trop_reqb word_eqb word_eqb_spec trop_reqb_spec word_eqb_spec (zl_weight _ TropLaws) _ _ OG ST LE shuffle SH H [«"a"»; «"b"»]) as (M & EM & HF).
  exists M. split; [exact EM|]. apply (HF «"S"» ex_lc_ab); [now left| |reflexivity|apply FD].
  repeat (first [apply (deriv_node _ (ex_cr «"S"» [«"S"»; «"B"»] [[Var 0 0; Var 1 0]] 1))|apply (deriv_node _ (ex_cr «"S"» [«"A"»] [[Var 0 0]] 1))|apply (deriv_node _ (ex_cr «"A"» [] [[Tm «"a"»]] 1))|apply (deriv_node _ (ex_cr «"B"» [] [[Tm «"b"»]] 1))|apply Forall2_cons|apply Forall2_nil|cbn; auto 10; fail]).
Qed.


(* automata that can go on for ever without reading: a loop of cost 1 beside the accepting run, each transition costs at least 1 *)
Lemma each_costs {I T : Type} (us : list (transition I T CostWeight)) : (forall t, In t us -> 1 <= (t_weight t : nat)) -> length us <= (run_weight us : nat).
Proof.
  unfold run_weight. rewrite (lprod_wprod cost_laws). induction us as [|t us IH]; intros HT; [apply le_n|]. specialize (IH (fun x Hx => HT x (or_intror Hx))). specialize (HT t (or_introl eq_refl)). cbn [map fold_right length].
  assert (X : forall a b c : nat, 1 <= b -> a <= c -> S a <= b + c) by (intros; lia). exact (X _ _ _ HT IH).
Qed.
Example C14_fsa_finds_example :
  forall shuffle, (forall l, Permutation (shuffle l) l) -> forall H : max_heap (item nat (fs_instr nat) nat CostWeight * CostWeight) (wi_leb wleb),
  exists n0, forall n, n0 <= n -> exists outs x,
    fsa_recognise Nat.eqb shuffle (fsa_new Nat.eqb Nat.eqb [Trans (K:=CostWeight) [] 1 (FSI 0 0); Trans (K:=CostWeight) [7] 2 (FSI 0 1)] 0 [1]) H [7] n = Some outs /\
    In x outs /\ pd_to_vec (snd x) = [Trans (K:=CostWeight) [7] 2 (FSI 0 1)] /\ item_weight x = (2 : CostWeight).
Proof.
  intros shuffle SH H. edestruct (C14_fsa_finds nat nat CostWeight Nat.eqb Nat.eqb nat_eqb_spec nat_eqb_spec cost_laws [Trans (K:=CostWeight) [] 1 (FSI 0 0); Trans (K:=CostWeight) [7] 2 (FSI 0 1)] 0 [1] shuffle SH) with (H := H) (us := [Trans (K:=CostWeight) [7] 2 (FSI 0 1)]) (bound := 3) as (n0 & HN).
  - intros t [<-|[<-|[]]]; reflexivity.
  - split; [|split; [|split]].
    + apply (ex_cons _ _ _ _ 1); [now left|constructor].
    + intros t [<-|[]]. right. now left.
    + reflexivity.
    + now left.
  - intros vs (s & rest & _ & HI & _) HL. pose proof (each_costs vs) as G. cbn. apply Nat.leb_gt. eapply Nat.lt_le_trans; [|apply G]; [exact HL|]. intros t Ht. destruct (HI t Ht) as [<-|[<-|[]]]; cbn; lia.
  - exists n0. intros n Hn. destruct (HN n Hn) as (outs & E & HI). exists outs. eexists. split; [exact E|]. split; [exact HI|]. split; reflexivity.
Qed.
Example C14_pda_finds_example :
  forall shuffle, (forall l, Permutation (shuffle l) l) -> exists M,
  pda_new (K:=CostWeight) Nat.add 0 Nat.eqb Nat.eqb [Trans (K:=CostWeight) [] 1 (Replace [0] [0; 1]); Trans (K:=CostWeight) [7] 2 (Replace [0] [2])] [0] = Some M /\
  forall H : max_heap (item (list nat) (pd_instr nat) nat CostWeight * CostWeight) (wi_leb wleb), exists n0, forall n outs, n0 <= n -> pda_recognise Nat.eqb shuffle M H [7] n = Some outs ->
    exists x, In x outs /\ pd_to_vec (snd x) = [Trans (K:=CostWeight) [7] 2 (Replace [0] [2])] /\ item_weight x = (2 : CostWeight).
Proof.
  intros shuffle SH. eexists. split; [vm_compute; reflexivity|]. intros H.
  assert (MG : forall t, merged (K:=CostWeight) Nat.add 0 Nat.eqb Nat.eqb [Trans (K:=CostWeight) [] 1 (Replace [0] [0; 1]); Trans (K:=CostWeight) [7] 2 (Replace [0] [2])] t ->
    t = Trans (K:=CostWeight) [] 1 (Replace [0] [0; 1]) \/ t = Trans (K:=CostWeight) [7] 2 (Replace [0] [2])).
  { intros [w k i] ((t0 & [<-|[<-|[]]] & E1 & E2) & EW); cbn in E1, E2; subst w i; vm_compute in EW; subst k; [left|right]; reflexivity. }
  edestruct (C14_pda_finds nat nat CostWeight Nat.add 0 Nat.eqb Nat.eqb nat_eqb_spec nat_eqb_spec cost_laws [Trans (K:=CostWeight) [] 1 (Replace [0] [0; 1]); Trans (K:=CostWeight) [7] 2 (Replace [0] [2])] [0] shuffle SH) with (H := H) (us := [Trans (K:=CostWeight) [7] 2 (Replace [0] [2])]) (bound := 3) as (n0 & HN).
  - reflexivity.
  - intros t Ht. destruct (MG t Ht) as [->| ->]; reflexivity.
  - split; [|split; [|split]].
    + apply (ex_cons _ _ _ _ [2]); [now left|constructor].
    + intros t [<-|[]]. split; [|reflexivity]. eexists. split; [right; now left|split; reflexivity].
    + reflexivity.
    + reflexivity.
  - intros vs (s & rest & _ & HI & _) HL. pose proof (each_costs vs) as G. cbn. apply Nat.leb_gt. eapply Nat.lt_le_trans; [|apply G]; [exact HL|]. intros t Ht. destruct (MG t (HI t Ht)) as [->| ->]; cbn; lia.
  - exists n0. intros n outs Hn E. eexists. split; [exact (HN n outs Hn E)|]. split; reflexivity.
Qed.
Example C14_tsa_finds_example :
  forall shuffle, (forall l, Permutation (shuffle l) l) -> forall H : max_heap (item (tstack nat) (ts_instr nat) nat CostWeight * CostWeight) (wi_leb wleb),
  exists n0, forall n, n0 <= n -> exists outs x,
    tsa_recognise Nat.eqb shuffle (tsa_new Nat.eqb Nat.eqb [Trans (K:=CostWeight) [] 1 (IPush 0 0 0); Trans (K:=CostWeight) [7] 2 (IPush 0 0 1); Trans (K:=CostWeight) [8] 1 (IDown 1 0 2)] (ts_new 0)) H [7; 8] n = Some outs /\
    In x outs /\ pd_to_vec (snd x) = [Trans (K:=CostWeight) [7] 2 (IPush 0 0 1); Trans (K:=CostWeight) [8] 1 (IDown 1 0 2)] /\ item_weight x = (3 : CostWeight).
Proof.
  intros shuffle SH H. edestruct (C14_tsa_finds nat nat CostWeight Nat.eqb Nat.eqb nat_eqb_spec nat_eqb_spec cost_laws [Trans (K:=CostWeight) [] 1 (IPush 0 0 0); Trans (K:=CostWeight) [7] 2 (IPush 0 0 1); Trans (K:=CostWeight) [8] 1 (IDown 1 0 2)] (ts_new 0) shuffle SH) with (H := H) (us := [Trans (K:=CostWeight) [7] 2 (IPush 0 0 1); Trans (K:=CostWeight) [8] 1 (IDown 1 0 2)]) (bound := 4) as (n0 & HN).
  - intros t [<-|[<-|[<-|[]]]]; reflexivity.
  - split; [|split; [|split]].
    + eapply ex_cons; [now left|]. eapply ex_cons; [cbn; now left|constructor].
    + intros t [<-|[<-|[]]]; cbn; auto.
    + reflexivity.
    + reflexivity.
  - intros vs (s & rest & _ & HI & _) HL. pose proof (each_costs vs) as G. cbn. apply Nat.leb_gt. eapply Nat.lt_le_trans; [|apply G]; [exact HL|]. intros t Ht. destruct (HI t Ht) as [<-|[<-|[<-|[]]]]; cbn; lia.
  - exists n0. intros n Hn. destruct (HN n Hn) as (outs & E & HI). exists outs. eexists. split; [exact E|]. split; [exact HI|]. split; reflexivity.
Qed.
