(* C49: what the commands print that show pushdown automata. *)
From Verif Require Import M_Nom Base M_Util M_Recog M_Agenda M_Search M_Automata M_CFG M_TreeStack M_Grammar M_Chart M_FromPmcfg M_CSAuto M_Approx M_Text M_AutText M_Negra M_Command M_Mcfg M_CfgCommand M_TsaCommand M_ApproxCommand M_PdaText
  S_Search S_Util S_Recog S_Automata S_CFG S_TreeStack S_Grammar S_FromPmcfg S_Approx S_Text S_AutText S_Command S_Mcfg S_CfgCommand S_TsaCommand S_ApproxCommand S_PdaText
  P_Agenda P_Search P_Util P_Recog P_Automata P_PDA P_CFG P_TreeStack P_FromPmcfg P_FromPmcfg2 P_FromPmcfg5 P_Approx P_Text P_AutText P_Command P_Beam P_CfgEnds P_Mcfg P_TsaCommand P_ApproxCommand P_PdaText
  Properties_Text Properties_Automata Properties_CFG Properties_Beam Properties_CfgEnds Properties_FromPmcfg Properties_Approx Properties_Chart Properties_CSParse Properties_Command Properties_Mcfg Properties_CfgCommand Properties_ApproxCommand.

(* what is printed for an automaton that was built from transitions *)
Lemma pda_text_app {A T : Type} {K : Weight} (wadd : K -> K -> K) (wzero : K) (aeqb : A -> A -> bool) (teqb : T -> T -> bool) (AE : EqbSpec aeqb) (TE : EqbSpec teqb)
  (show : A -> bytes) (iow : text_io K) (debug : T -> bytes) order (OR : forall l, Permutation (order l) l) (ts : list (transition (pd_instr A) T K)) bottom rest M :
  pda_new wadd wzero aeqb teqb ts (bottom :: rest) = Some M ->
  exists l, NoDup (map (fun t => (t_word t, t_ins t)) l) /\ (forall t, In t l <-> merged wadd wzero aeqb teqb ts t) /\
    pda_text show iow debug order M = Some («"initial: "» ++ («"stack: ["» ++ spaced show (bottom :: rest) ++ «"], empty:"» ++ show bottom) ++ newline ++ newline ++
      List.concat (map (fun t => transition_text iow debug (pdi_text show) t ++ newline) l)).
Proof.
  intros HM. destruct (C41_pda_merges A T K wadd wzero aeqb teqb AE TE ts (bottom :: rest) M HM) as (HI & l & EL & ND & UN & _).
  destruct (pda_has_iff wadd wzero aeqb teqb AE TE ts (bottom :: rest) M HM) as (l' & EL' & _ & HL). rewrite EL in EL'. injection EL' as <-.
  assert (IO : forall t, In t (order l) <-> In t l) by (intros t; split; apply Permutation_in; [apply OR|symmetry; apply OR]).
  exists (order l). split; [|split].
  - apply nodup_map_on; [exact (Permutation_NoDup (Permutation_sym (OR l)) ND)|]. intros x y Hx Hy E. injection E as E1 E2. apply UN; auto; now apply IO.
  - intros t. rewrite IO. apply HL.
  - unfold pda_text. rewrite EL, HI. cbn [pushdown_text]. reflexivity.
Qed.

(* C49, cfg automaton: for every grammar file the command does not panic.  It prints the initial stack and in some order one line
   for each rule, with the sum of the weights if it is given several times, one for each terminal that occurs in a rule and one
   for each initial nonterminal. *)
Theorem C49_cfg_automaton :
  forall (K : ZWeight) (neqb teqb : bytes -> bytes -> bool), EqbSpec neqb -> EqbSpec teqb ->
  forall (wadd : K -> K -> K), (forall x, wadd wzero x = x) ->
  forall order, (forall l, Permutation (order l) l) -> forall show_order, (forall l, Permutation (show_order l) l) ->
  forall (iow : text_io K) (debug_string : bytes -> bytes)
    (grammar : bytes) (init : list bytes) (rules : list (cfg_rule bytes bytes K)), text_means string_io (cfg_rule_syntax string_io string_io iow) grammar init rules ->
  exists out, cfg_automaton neqb teqb wadd iow debug_string order show_order grammar = Some out /\
    cfg_automaton_printed neqb teqb wadd debug_string (to_text iow) init rules out.
Proof.
  intros K neqb teqb NE TE wadd WZ order OR show_order SO iow debug_string grammar init rules TM.
  destruct (C39_grammar_syntax bytes bytes K string_io string_io iow grammar init) as (HG & _). pose proof (HG rules TM) as EG. set (g := CFG init rules : cfg bytes bytes K) in *.
  pose proof (ps_eqb_spec neqb teqb NE TE) as PE.
  destruct (proj2 (pda_new_defined wadd wzero (ps_eqb neqb teqb) teqb PE TE (cfg_transitions teqb order g) [M_CFG.Designated; M_CFG.Initial])) as [M EM].
  { intros t Ht. exact (Ts_current teqb TE order OR g t Ht). }
  destruct (pda_text_app wadd wzero (ps_eqb neqb teqb) teqb PE TE (push_state_text (fun x => x) (fun x => x)) iow debug_string show_order SO _ _ _ M EM) as (l & N1 & N2 & ET).
  unfold cfg_automaton. rewrite EG. unfold pda_from_cfg. rewrite EM, ET. eexists. split; [reflexivity|].
  destruct (cfg_transitions_eq teqb TE order OR g) as (terms & T1 & T2 & T3). rewrite T3 in N2. cbn [g cg_rules cg_initial] in N2.
  pose proof (cfg_printed neqb teqb NE TE wadd WZ iow debug_string init rules terms T1 T2 l (nodup_of_map _ _ N1) N2) as P. rewrite <- !app_assoc. exact P.
Qed.
Print Assumptions C49_cfg_automaton.

(* C49, relabel automaton: for every grammar file and every file that describes a partition of the nonterminals the command does
   not panic.  It prints what cfg automaton prints for the grammar in which every nonterminal is replaced by its label. *)
Theorem C49_relabel_automaton :
  forall (K : ZWeight) (neqb teqb : bytes -> bytes -> bool), EqbSpec neqb -> EqbSpec teqb ->
  forall (wadd : K -> K -> K), sum_laws wadd wzero ->
  forall order, (forall l, Permutation (order l) l) -> forall tr_order, (forall l, Permutation (tr_order l) l) -> forall show_order, (forall l, Permutation (show_order l) l) ->
  forall set_order, (forall l, Permutation (set_order l) l) -> forall cl_order, (forall l, Permutation (cl_order l) l) ->
  forall (iow : text_io K) (debug_string : bytes -> bytes)
    (grammar : bytes) (init : list bytes) (rules : list (cfg_rule bytes bytes K)), text_means string_io (cfg_rule_syntax string_io string_io iow) grammar init rules ->
  forall (classes : bytes) (cs : list (bytes * option (list bytes))) (default : bytes), classes_text string_io string_io classes cs -> partition_of cs default ->
  forall (f : bytes -> bytes), classifies cs default f ->
  exists out, relabel_automaton neqb teqb wadd iow debug_string order tr_order show_order set_order cl_order grammar classes = Some out /\
    cfg_automaton_printed neqb teqb wadd debug_string (to_text iow) (map f init) (map (coarse_rule f) rules) out.
Proof.
  intros K neqb teqb NE TE wadd SL order OR tr_order TO show_order SHO set_order SO cl_order CO iow debug_string grammar init rules TM classes cs default CT PO f CF.
  destruct (C39_grammar_syntax bytes bytes K string_io string_io iow grammar init) as (HG & _). pose proof (HG rules TM) as EG. set (g := CFG init rules : cfg bytes bytes K) in *.
  destruct (classes_text_app neqb neqb NE NE string_io string_io set_order SO cl_order CO classes cs default CT PO) as (e & EE & CE).
  assert (FE : forall x, er_project neqb e x = f x) by (destruct PO as (_ & _ & _ & DJ); exact (classifies_ext neqb NE cs default _ f DJ CE CF)).
  pose proof (ps_eqb_spec neqb teqb NE TE) as PE. set (p := er_project neqb e) in *.
  destruct (proj2 (pda_new_defined wadd wzero (ps_eqb neqb teqb) teqb PE TE (cfg_transitions teqb order g) [M_CFG.Designated; M_CFG.Initial])) as [M EM].
  { intros t Ht. exact (Ts_current teqb TE order OR g t Ht). }
  destruct (rlb_defined wadd wzero (ps_eqb neqb teqb) (ps_eqb neqb teqb) teqb PE PE TE (ps_map p) tr_order _ _ M TO EM) as (M2 & m & l & E2 & NL & HL & HM2 & _).
  change (map (ps_map p) [M_CFG.Designated; M_CFG.Initial]) with ([M_CFG.Designated; M_CFG.Initial] : list (push_state bytes bytes)) in HM2.
  destruct (pda_text_app wadd wzero (ps_eqb neqb teqb) teqb PE TE (push_state_text (fun x => x) (fun x => x)) iow debug_string show_order SHO _ _ _ M2 HM2) as (l2 & N1 & N2 & ET).
  unfold relabel_automaton. rewrite EG. unfold pda_from_cfg. rewrite EM, EE. fold p. rewrite E2. cbn [fst]. rewrite ET. eexists. split; [reflexivity|].
  assert (N3 : forall t, In t l2 <-> merged wadd wzero (ps_eqb neqb teqb) teqb (cfg_transitions teqb order (coarse p g)) t).
  { intros t. rewrite N2, (merged_image wadd wzero SL (ps_eqb neqb teqb) (ps_eqb neqb teqb) teqb PE TE (rlb_ins (ps_map p)) _ l NL HL).
    apply (merged_perm wadd wzero SL). apply (coarse_transitions teqb TE p order OR g). }
  rewrite (coarse_ext p f g FE) in N3.
  destruct (cfg_transitions_eq teqb TE order OR (coarse f g)) as (terms & T1 & T2 & T3). rewrite T3 in N3. cbn [g coarse cg_rules cg_initial] in N3.
  pose proof (cfg_printed neqb teqb NE TE wadd (proj2 (proj2 SL)) iow debug_string (map f init) (map (coarse_rule f) rules) terms T1 T2 l2 (nodup_of_map _ _ N1) N3) as P. rewrite <- !app_assoc. exact P.
Qed.
Print Assumptions C49_relabel_automaton.

(* C49, tts automaton: for every grammar file with ordered rules the command does not panic.  It prints the transitions of the
   tree-stack automaton of the grammar, restricted to the path from the root to the stack pointer; those that agree in word and
   instruction make up one line, with the sum of their weights. *)
Theorem C49_tts_automaton :
  forall (K : ZWeight) (neqb teqb : bytes -> bytes -> bool) (reqb : prule bytes bytes K -> prule bytes bytes K -> bool), RoundLaws K -> EqbSpec neqb -> EqbSpec teqb -> EqbSpec reqb ->
  forall (wadd : K -> K -> K), sum_laws wadd wzero ->
  forall tr_order, (forall l, Permutation (tr_order l) l) -> forall show_order, (forall l, Permutation (show_order l) l) ->
  forall (iow : text_io K) (debug_string : bytes -> bytes)
    (grammar : bytes) (init : list bytes) (rules : list (prule bytes bytes K)), text_means string_io (pmcfg_rule_syntax string_io string_io iow) grammar init rules ->
  forall (f : bytes -> nat), ordered_grammar f (PMCFG init rules : pmcfg bytes bytes K) ->
  exists ts out, tts_automaton neqb teqb wadd iow debug_string reqb tr_order show_order grammar = Some out /\
    path_automaton_printed (posstate_eqb reqb) teqb wadd wzero (posstate_text (pmcfg_rule_text string_io string_io iow)) debug_string (to_text iow) «"I"» ts out /\
    ((forall r, In r rules -> short_tails r) ->
     forall w, (exists us s, tsa_run reqb ts w us s) <-> w = [] \/ exists k, pmcfg_derives (PMCFG init rules : pmcfg bytes bytes K) w k).
Proof.
  intros K neqb teqb reqb KL NE TE RE wadd SL tr_order TO show_order SHO iow debug_string grammar init rules TM f OG.
  destruct (C39_grammar_syntax bytes bytes K string_io string_io iow grammar init) as (_ & HG). destruct (HG rules TM) as (EG & _). set (g := PMCFG init rules : pmcfg bytes bytes K) in *.
  pose proof (peqb_spec reqb RE) as PE. destruct (pmcfg_transitions_spec neqb NE f g OG) as (ts & ET & _).
  assert (W0 : wf (ts_new (A := posstate (prule bytes bytes K)) M_FromPmcfg.Initial)) by (apply built_wf; constructor).
  destruct (tts_defined wadd wzero (posstate_eqb reqb) teqb PE TE tr_order ts (ts_new M_FromPmcfg.Initial) TO W0) as (M2 & m & l & E2 & PL & HM2 & _).
  change (spine (ts_new M_FromPmcfg.Initial)) with ([M_FromPmcfg.Initial] : list (posstate (prule bytes bytes K))) in HM2.
  destruct (pda_text_app wadd wzero (posstate_eqb reqb) teqb PE TE (to_text (posstate_io iow)) iow debug_string show_order SHO _ _ _ M2 HM2) as (l2 & N1 & N2 & EO).
  exists ts. unfold tts_automaton. rewrite EG. unfold tsa_from_pmcfg. rewrite ET. cbn [option_map]. rewrite E2. cbn [fst]. rewrite EO. eexists. split; [reflexivity|]. split.
  - exists l2, (map (step_line (posstate_text (pmcfg_rule_text string_io string_io iow)) debug_string (to_text iow)) l2). split; [exact N1|]. split; [|split; [reflexivity|]].
    + intros u. rewrite N2. apply (merged_perm wadd wzero SL). apply Permutation_sym. erewrite map_ext; [apply Permutation_map, Permutation_sym, PL|]. intros [w k i]. unfold path_step, image. now destruct i.
    + rewrite (map_ext _ (step_line (posstate_text (pmcfg_rule_text string_io string_io iow)) debug_string (to_text iow))).
      * rewrite <- !app_assoc. reflexivity.
      * intros t. unfold transition_text, pdi_text, step_line, list_text, in_quotes. rewrite !commas_eq, <- !app_assoc. reflexivity.
  - intros ST w. destruct (C18_language_partial bytes bytes K neqb reqb NE RE KL f g OG ST) as (ts' & ET' & _ & _ & HL). rewrite ET in ET'. injection ET' as <-. apply HL.
Qed.
Print Assumptions C49_tts_automaton.

(* ---- examples ---- *)
Lemma trop_sum_laws : sum_laws (K := TropWeight) trop_sum wzero.
Proof.
  split; [|split].
  - intros [x|] [y|]; cbn; try reflexivity. f_equal. lia.
  - intros [x|] [y|] [z|]; cbn; try reflexivity. f_equal. lia.
  - now intros [x|].
Qed.
Definition trop_automaton (grammar : bytes) : option bytes :=
  cfg_automaton word_eqb word_eqb trop_sum trop_io (fun x => quote ++ x ++ quote) (fun l => l) (fun l => l) grammar.
Definition trop_relabelled (grammar classes : bytes) : option bytes :=
  relabel_automaton word_eqb word_eqb trop_sum trop_io (fun x => quote ++ x ++ quote) (fun l => l) (fun l => l) (fun l => l) (fun l => l) (fun l => l) grammar classes.
(* S -> A b with cost 0, A -> a b with cost 1, A -> a b with cost 3, B -> a b with cost 2; then A and B have one label *)
Definition ex_twice : list (cfg_rule bytes bytes TropWeight) :=
  [ex_r «"S"» [Label «"A"»; Value «"b"»] 0; ex_r «"A"» [Value «"a"»; Value «"b"»] 1; ex_r «"A"» [Value «"a"»; Value «"b"»] 3; ex_r «"B"» [Value «"a"»; Value «"b"»] 2].
Definition ex_shown (name : bytes) (weight : bytes) (more : list bytes) : bytes := lines_of
  ([«"initial: stack: [@ I], empty:@"»; []; «"Transition [] (Replace ""(S)"" // ""(b)"", ""("» ++ name ++ «")"")  # 0"»; «"Transition [] (Replace ""("» ++ name ++ «")"" // ""(b)"", ""(a)"")  # "» ++ weight] ++ more ++
   [«"Transition [""b""] (Replace ""(b)"" // )  # 0"»; «"Transition [""a""] (Replace ""(a)"" // )  # 0"»; «"Transition [] (Replace ""I"" // ""(S)"")  # 0"»; []]).
Example C49_example :
  text_means string_io (cfg_rule_syntax string_io string_io trop_io) (cfg_file ex_twice) [«"S"»] ex_twice /\
  classes_text string_io string_io ex_classes ex_cs /\ partition_of ex_cs «"R"» /\ classifies ex_cs «"R"» ex_f /\ sum_laws (K := TropWeight) trop_sum wzero /\
  trop_automaton (cfg_file ex_twice) = Some (ex_shown «"A"» «"4"» [«"Transition [] (Replace ""(B)"" // ""(b)"", ""(a)"")  # 2"»]) /\
  trop_relabelled (cfg_file ex_twice) ex_classes = Some (ex_shown «"R"» «"6"» []).
Proof.
  split; [|split; [apply ex_classes_text|split; [apply ex_cs_partition|split; [apply ex_cs_partition|split; [apply trop_sum_laws|split; vm_compute; reflexivity]]]]].
  apply cfg_file_means. intros r Hr. unfold ex_twice in Hr. in_cases Hr; show_cfg_rule.
Qed.

(* crossing dependencies again; the hypotheses hold by C44_example *)
Definition trop_tts_automaton (grammar : bytes) : option bytes :=
  tts_automaton word_eqb word_eqb trop_sum trop_io (fun x => quote ++ x ++ quote) trop_reqb (fun l => l) (fun l => l) grammar.
Example C49_tts_example : exists ls, trop_tts_automaton (grammar_text ex_m) = Some (lines_of ls) /\ length ls = 31 /\
  firstn 2 ls = [«"initial: stack: [I], empty:I"»; []] /\
  In («"Transition [""b""] (Replace ""(""B"" → [[T ""b""]] ()  # 0, 0, 0)"", ""(""S"" → [[Var 0 0, Var 1 0, Var 0 1]] (""A"", ""B"")  # 1, 0, 1)"" // ""(""S"" → [[Var 0 0, Var 1 0, Var 0 1]] (""A"", ""B"")  # 1, 0, 2)"")  # 0"») ls.
Proof.
  assert (E : match trop_tts_automaton (grammar_text ex_m) with Some out => let ls := lines [] out in out = lines_of ls /\ length ls = 31 /\ firstn 2 ls = [«"initial: stack: [I], empty:I"»; []] /\
    existsb (word_eqb («"Transition [""b""] (Replace ""(""B"" → [[T ""b""]] ()  # 0, 0, 0)"", ""(""S"" → [[Var 0 0, Var 1 0, Var 0 1]] (""A"", ""B"")  # 1, 0, 1)"" // ""(""S"" → [[Var 0 0, Var 1 0, Var 0 1]] (""A"", ""B"")  # 1, 0, 2)"")  # 0"»)) ls = true | None => False end)
    by (vm_compute; repeat split).
  destruct (trop_tts_automaton (grammar_text ex_m)) as [out|]; [|destruct E]. destruct E as (E1 & E2 & E3 & E4). exists (lines [] out). split; [now rewrite <- E1|]. split; [exact E2|]. split; [exact E3|].
  apply existsb_exists in E4. destruct E4 as (x & HX & E). apply word_eqb_spec in E. now subst x.
Qed.

(* The text of an automaton does not determine its language: nonterminals and terminals of the same name are shown alike.  With
   S -> N "x", Z -> T "x", x -> T "y" the word y is accepted, with S -> T "x", Z -> N "x", x -> T "y" the word x, and what is
   printed is the same. *)
Definition ex_nt : list (cfg_rule bytes bytes TropWeight) := [ex_r «"S"» [Label «"x"»] 0; ex_r «"Z"» [Value «"x"»] 0; ex_r «"x"» [Value «"y"»] 0].
Definition ex_term : list (cfg_rule bytes bytes TropWeight) := [ex_r «"S"» [Value «"x"»] 0; ex_r «"Z"» [Label «"x"»] 0; ex_r «"x"» [Value «"y"»] 0].
Theorem C49_same_text_refuted :
  exists grammar1 rules1 grammar2 rules2 word,
    text_means string_io (cfg_rule_syntax string_io string_io trop_io) grammar1 [«"S"»] rules1 /\
    text_means string_io (cfg_rule_syntax string_io string_io trop_io) grammar2 [«"S"»] rules2 /\
    cfg_language (CFG [«"S"»] rules1 : cfg bytes bytes TropWeight) word /\ ~ cfg_language (CFG [«"S"»] rules2 : cfg bytes bytes TropWeight) word /\
    exists out, trop_automaton grammar1 = Some out /\ trop_automaton grammar2 = Some out.
Proof.
  exists (cfg_file ex_nt), ex_nt, (cfg_file ex_term), ex_term, [«"y"»]. split; [|split; [|split; [|split]]].
  - apply cfg_file_means. intros r Hr. unfold ex_nt in Hr. in_cases Hr; show_cfg_rule.
  - apply cfg_file_means. intros r Hr. unfold ex_term in Hr. in_cases Hr; show_cfg_rule.
  - exists «"S"». split; [now left|]. apply (der_step _ _ [Label «"x"»]).
    + exists [], [], (ex_r «"S"» [Label «"x"»] 0). split; [now left|]. split; reflexivity.
    + apply (der_step _ _ [Value «"y"»]); [|constructor]. exists [], [], (ex_r «"x"» [Value «"y"»] 0). split; [right; right; now left|]. split; reflexivity.
  - assert (NX : forall u v, derives (fun r => In r ex_term) u v -> u = [Value «"x"»] -> v = [Value «"x"»]).
    { intros u v D. induction D as [u|u v w (l & r & rule & HR & E & Ev) D IH]; intros ->; [reflexivity|]. destruct l as [|a [|? ?]]; discriminate. }
    intros (s & [<-|[]] & D). cbn [map cg_rules] in D. inversion D as [|u v w (l & r & rule & HR & E & Ev) D' E1 E2]. subst.
    destruct l as [|a l]; [|destruct l; discriminate]. cbn [app] in E. injection E as EH <-. unfold ex_term in HR. in_cases HR; cbn in EH; try discriminate.
    specialize (NX _ _ D' eq_refl). discriminate.
  - eexists. split; vm_compute; reflexivity.
Qed.
Print Assumptions C49_same_text_refuted.
