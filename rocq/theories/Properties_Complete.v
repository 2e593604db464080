(* C49: what mcfg automaton prints, and which grammar files make the commands that convert a multiple context-free grammar panic. *)
From Verif Require Import M_Nom Base M_Util M_Recog M_Agenda M_Search M_Automata M_CFG M_TreeStack M_Grammar M_Chart M_FromPmcfg M_CSAuto M_Approx M_Text M_AutText M_Negra M_Command M_Mcfg M_CfgCommand M_TsaCommand M_ApproxCommand M_PdaText
  S_Search S_Util S_Recog S_Automata S_CFG S_TreeStack S_Grammar S_FromPmcfg S_Approx S_Text S_AutText S_Command S_Mcfg S_CfgCommand S_TsaCommand S_ApproxCommand S_PdaText
  P_Agenda P_Search P_Util P_Recog P_Automata P_PDA P_CFG P_TreeStack P_FromPmcfg P_FromPmcfg2 P_FromPmcfg5 P_Approx P_Text P_AutText P_Command P_Beam P_CfgEnds P_Mcfg P_TsaCommand P_ApproxCommand P_PdaText
  Properties_Text Properties_TreeStack Properties_Automata Properties_CFG Properties_Beam Properties_CfgEnds Properties_FromPmcfg Properties_Approx Properties_Chart Properties_CSParse Properties_Command Properties_Mcfg Properties_CfgCommand Properties_TsaCommand Properties_ApproxCommand Properties_PdaText Properties_Panic.

(* ---- the text of a tree stack automaton ---- *)
Section Shown.
  Context {A T : Type} {K : Weight} (shown : A -> bytes) (shown_terminal : T -> bytes) (shown_weight : K -> bytes).
  Definition tree_instruction (i : ts_instr A) : bytes :=
    match i with
    | IUp n current old new => «"(Up "» ++ usize_text n ++ «" "» ++ shown current ++ «" "» ++ shown old ++ «" "» ++ shown new ++ «")"»
    | IPush n current new => «"(Push "» ++ usize_text n ++ «" "» ++ shown current ++ «" "» ++ shown new ++ «")"»
    | IDown current old new => «"(Down "» ++ shown current ++ «" "» ++ shown old ++ «" "» ++ shown new ++ «")"»
    end.
  Definition tree_line (t : transition (ts_instr A) T K) : bytes :=
    «"Transition "» ++ list_text shown_terminal (t_word t) ++ «" "» ++ tree_instruction (t_ins t) ++ «"  # "» ++ shown_weight (t_weight t) ++ newline.
  (* the initial symbol, as a number, and in some order one line for each transition *)
  Definition tree_automaton_printed (ts : list (transition (ts_instr A) T K)) (out : bytes) : Prop :=
    exists ls, Permutation ls (map tree_line ts) /\ out = «"initial: 0"» ++ newline ++ newline ++ List.concat ls ++ newline.
End Shown.

Lemma initial_number {A T : Type} {K : Weight} (aeqb : A -> A -> bool) (teqb : T -> T -> bool) (ts : list (transition (ts_instr A) T K)) x :
  ts_current_symbol (ta_init (tsa_new aeqb teqb ts (ts_new x))) = 0.
Proof. unfold tsa_new. cbn. destruct (trs_integerise _ _ _ _ _) as [[? ?] ?]. reflexivity. Qed.

(* C49, mcfg automaton: for every grammar file the command panics if and only if the grammar is not complete.  Otherwise it prints
   an automaton; for ordered grammars whose components end with at most one terminal, the words this automaton accepts are the
   empty word and those that the grammar derives. *)
Theorem C49_mcfg_automaton :
  forall (K : ZWeight) (neqb teqb : bytes -> bytes -> bool) (reqb : prule bytes bytes K -> prule bytes bytes K -> bool), RoundLaws K -> EqbSpec neqb -> EqbSpec teqb -> EqbSpec reqb ->
  forall order, (forall l, Permutation (order l) l) ->
  forall (iow : text_io K) (debug_string : bytes -> bytes)
    (grammar : bytes) (init : list bytes) (rules : list (prule bytes bytes K)), text_means string_io (pmcfg_rule_syntax string_io string_io iow) grammar init rules ->
  let g := PMCFG init rules : pmcfg bytes bytes K in
  let run := mcfg_automaton neqb teqb reqb iow debug_string order grammar in
  (~ complete_grammar g -> run = None) /\
  (complete_grammar g -> exists ts out, run = Some out /\
     tree_automaton_printed (posstate_text (pmcfg_rule_text string_io string_io iow)) debug_string (to_text iow) ts out /\
     forall f, ordered_grammar f g -> (forall r, In r rules -> short_tails r) ->
     forall w, (exists us s, tsa_run reqb ts w us s) <-> w = [] \/ exists k, pmcfg_derives g w k).
Proof.
  intros K neqb teqb reqb KL NE TE RE order OR iow debug_string grammar init rules TM g run.
  destruct (C39_grammar_syntax bytes bytes K string_io string_io iow grammar init) as (_ & HG). destruct (HG rules TM) as (EG & _). fold g in EG.
  pose proof (C18_conversion_defined bytes bytes K neqb reqb teqb NE g) as CD. split.
  - intros NC. unfold run, mcfg_automaton. rewrite EG. destruct (tsa_from_pmcfg neqb reqb teqb g) as [M|]; [|reflexivity]. elim NC. apply CD. now exists M.
  - intros C. destruct (proj2 CD C) as (M & EM). unfold run, mcfg_automaton. rewrite EG, EM. unfold tsa_from_pmcfg in EM. destruct (pmcfg_transitions neqb g) as [ts|] eqn:ET; [|discriminate]. cbn [option_map] in EM.
    assert (inj : forall x y : tsa (posstate (prule bytes bytes K)) bytes K, Some x = Some y -> x = y) by congruence. apply inj in EM. subst M.
    destruct (C14_tsa_reads_back _ bytes K (posstate_eqb reqb) teqb (peqb_spec reqb RE) TE ts (ts_new M_FromPmcfg.Initial)) as (_ & all & EA & PA). rewrite EA.
    exists ts. eexists. split; [reflexivity|]. split.
    + exists (map (tree_line (posstate_text (pmcfg_rule_text string_io string_io iow)) debug_string (to_text iow)) (order all)). split; [apply Permutation_map; now rewrite (OR all)|].
      unfold tsa_text. rewrite (initial_number (posstate_eqb reqb) teqb ts M_FromPmcfg.Initial). change (usize_text 0) with «"0"».
      rewrite (map_ext _ (tree_line (posstate_text (pmcfg_rule_text string_io string_io iow)) debug_string (to_text iow))).
      * rewrite <- !app_assoc. reflexivity.
      * intros [w k i]. unfold transition_text, tree_line, list_text. rewrite commas_eq, <- !app_assoc. destruct i; cbn [t_ins t_word t_weight tsi_text tree_instruction posstate_io to_text]; rewrite <- ?app_assoc; reflexivity.
    + intros f OG ST w. destruct (C18_language_partial bytes bytes K neqb reqb NE RE KL f g OG ST) as (ts' & ET' & _ & _ & HL). rewrite ET in ET'. injection ET' as <-. apply HL.
Qed.
Print Assumptions C49_mcfg_automaton.

(* C49: with an incomplete grammar mcfg parse, approximation tts parse and approximation tts automaton panic, whatever the options
   and the corpus; with a complete one approximation tts automaton never panics.  Ordered grammars are complete. *)
Theorem C49_incomplete_grammars :
  forall (K : ZWeight) (neqb teqb : bytes -> bytes -> bool) (reqb : prule bytes bytes K -> prule bytes bytes K -> bool), EqbSpec neqb -> EqbSpec teqb -> EqbSpec reqb ->
  forall (wadd : K -> K -> K) (H : max_heap (item (tstack nat) (ts_instr nat) nat K * K) (wi_leb wleb)) (Hb : minmax_heap (item (tstack nat) (ts_instr nat) nat K * K) (wi_leb wleb))
    (Hp : max_heap (item (list nat) (pd_instr nat) nat K * K) (wi_leb wleb)) shuffle pd_shuffle display
    tr_order, (forall l, Permutation (tr_order l) l) -> forall show_order, (forall l, Permutation (show_order l) l) ->
  forall (iow : text_io K) (debug_string : bytes -> bytes) (debug_weight : K -> bytes) (debug_rule : prule bytes bytes K -> bytes)
    (grammar : bytes) (init : list bytes) (rules : list (prule bytes bytes K)), text_means string_io (pmcfg_rule_syntax string_io string_io iow) grammar init rules ->
  let g := PMCFG init rules : pmcfg bytes bytes K in
  (~ complete_grammar g ->
     (forall n beam negra calls fuel corpus, mcfg_parse neqb teqb reqb H Hb shuffle iow display grammar n beam negra calls fuel corpus = Panics) /\
     (forall calls corpus, tts_parse neqb teqb wadd Hp pd_shuffle iow debug_string debug_weight reqb debug_rule tr_order grammar calls corpus = Panics) /\
     tts_automaton neqb teqb wadd iow debug_string reqb tr_order show_order grammar = None) /\
  (complete_grammar g -> exists out, tts_automaton neqb teqb wadd iow debug_string reqb tr_order show_order grammar = Some out) /\
  (forall f, ordered_grammar f g -> complete_grammar g).
Proof.
  intros K neqb teqb reqb NE TE RE wadd H Hb Hp shuffle pd_shuffle display tr_order TO show_order SHO iow debug_string debug_weight debug_rule grammar init rules TM g.
  destruct (C39_grammar_syntax bytes bytes K string_io string_io iow grammar init) as (_ & HG). destruct (HG rules TM) as (EG & _). fold g in EG.
  pose proof (C18_conversion_defined bytes bytes K neqb reqb teqb NE g) as CD. split; [|split].
  - intros NC. assert (EN : tsa_from_pmcfg neqb reqb teqb g = None) by (destruct (tsa_from_pmcfg neqb reqb teqb g) as [M|]; [elim NC; apply CD; now exists M|reflexivity]).
    split; [|split].
    + intros n beam negra calls fuel corpus. unfold mcfg_parse. now rewrite EG, EN.
    + intros calls corpus. unfold tts_parse. now rewrite EG, EN.
    + unfold tts_automaton. now rewrite EG, EN.
  - intros C. destruct (proj2 CD C) as (M & EM). unfold tts_automaton. rewrite EG, EM. unfold tsa_from_pmcfg in EM. destruct (pmcfg_transitions neqb g) as [ts|]; [|discriminate]. cbn [option_map] in EM.
    assert (inj : forall x y : tsa (posstate (prule bytes bytes K)) bytes K, Some x = Some y -> x = y) by congruence. apply inj in EM. subst M.
    pose proof (peqb_spec reqb RE) as PE. assert (W0 : wf (ts_new (A := posstate (prule bytes bytes K)) M_FromPmcfg.Initial)) by (apply built_wf; constructor).
    destruct (tts_defined wadd wzero (posstate_eqb reqb) teqb PE TE tr_order ts (ts_new M_FromPmcfg.Initial) TO W0) as (M2 & m & l & E2 & PL & HM2 & _).
    change (spine (ts_new M_FromPmcfg.Initial)) with ([M_FromPmcfg.Initial] : list (posstate (prule bytes bytes K))) in HM2.
    destruct (pda_text_app wadd wzero (posstate_eqb reqb) teqb PE TE (to_text (posstate_io iow)) iow debug_string show_order SHO _ _ _ M2 HM2) as (l2 & _ & _ & EO).
    rewrite E2. cbn [fst]. rewrite EO. eexists. reflexivity.
  - intros f OG. destruct (pmcfg_transitions_spec neqb NE f g OG) as (ts & ET & _). apply CD. unfold tsa_from_pmcfg. rewrite ET. eexists. reflexivity.
Qed.
Print Assumptions C49_incomplete_grammars.

(* crossing dependencies as in C44_example; and the same grammar without rules for B *)
Definition ex_m_without : list (prule bytes bytes TropWeight) := filter (fun r => negb (word_eqb (pr_head r) «"B"»)) ex_m.
Example C49_mcfg_example :
  complete_grammar (PMCFG [«"S"»] ex_m : pmcfg bytes bytes TropWeight) /\
  text_means string_io (pmcfg_rule_syntax string_io string_io trop_io) (grammar_text ex_m_without) [«"S"»] ex_m_without /\
  ~ complete_grammar (PMCFG [«"S"»] ex_m_without : pmcfg bytes bytes TropWeight) /\
  (exists rest, ex_printed = Some («"initial: 0"» ++ newline ++ newline ++ rest)) /\
  trop_mcfg 3 None true (grammar_text ex_m_without) 200 50 ex_corpus = Panics.
Proof.
  pose proof (C18_conversion_defined bytes bytes TropWeight word_eqb trop_reqb word_eqb word_eqb_spec) as CD.
  split; [apply CD; eexists; vm_compute; reflexivity|]. split; [|split; [|split]].
  - apply (lcfrs_shown string_io string_io trop_io (MCFG ex_m_without «"S"»)); [reflexivity| |not_in|].
    + split; [discriminate|]. intros a [<-|[]]. split; [not_in|discriminate].
    + cbn [mg_rules]. intros r Hr. unfold ex_m_without in Hr. apply filter_In in Hr. destruct Hr as [Hr _]. unfold ex_m in Hr. in_cases Hr; show_rule.
  - rewrite <- CD. intros (M & E). vm_compute in E. discriminate.
  - eexists. vm_compute. reflexivity.
  - vm_compute. reflexivity.
Qed.
