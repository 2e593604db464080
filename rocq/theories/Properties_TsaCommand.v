(* C46: what the command tsa recognise prints, and what it makes of the automata that mcfg automaton prints. *)
From Coq Require Import Sorted.
From Verif Require Import M_Nom Base M_Util M_Recog M_Agenda M_Search M_Automata M_CFG M_TreeStack M_Grammar M_Chart M_FromPmcfg M_Text M_AutText M_Negra M_Command M_Mcfg M_CfgCommand M_TsaCommand
  S_Search S_Util S_Recog S_Automata S_CFG S_Text S_AutText S_Command S_Mcfg S_TsaCommand P_Agenda P_Search P_Util P_Recog P_Automata P_TSA P_FromPmcfg P_FromPmcfg2 P_Text P_AutText P_Command P_Beam P_Mcfg P_TsaCommand
  Properties_Text Properties_AutText Properties_Automata Properties_TreeStack Properties_Beam Properties_Chart Properties_CSParse Properties_Command Properties_Mcfg.

(* C46: for every file of the documented syntax that declares an initial symbol, every text and every number of runs and beam width
   that are numbers: the command does not panic.  If it ends, then it prints, for each sentence in turn, the sentence, a line for each
   of at most n different accepting runs of the declared automaton on it (the transitions nested, the last one outermost), the
   better ones first, and an empty line; without a beam these are the best n runs, or all of them.  If the runs on prefixes of the
   sentences have bounded length then it ends. *)
Theorem C46_tsa_recognise_partial :
  forall (K : ZWeight) (aeqb teqb : bytes -> bytes -> bool), RoundLaws K -> EqbSpec aeqb -> EqbSpec teqb ->
  forall (H : max_heap (item (tstack nat) (ts_instr nat) nat K * K) (wi_leb wleb)) (Hb : minmax_heap (item (tstack nat) (ts_instr nat) nat K * K) (wi_leb wleb))
    (shuffle : list (transition (ts_instr nat) nat K) -> list (transition (ts_instr nat) nat K)), (forall l, Permutation (shuffle l) l) ->
  forall (iow : text_io K) (debug_string : bytes -> bytes) (debug_weight : K -> bytes) with_tts
    (file : bytes) (is : list bytes) (ts : list (transition (ts_instr bytes) bytes K)) (initial : bytes),
    automaton_text False string_io (transition_syntax (ts_syntax string_io) string_io iow) file is [] ts -> last_of is = Some initial ->
  forall (text : bytes) (sents : list (list bytes)), sentences text sents ->
  forall (matches : list (bytes * bytes)) (n : nat) (beam : option nat),
    (forall name value, In (name, value) matches -> In name tsa_arguments) ->
    (exists v, value_of matches «"number-of-runs"» = Some v /\ usize_of_text v = Some n) ->
    match beam with Some b => exists v, value_of matches «"beam-width"» = Some v /\ usize_of_text v = Some b | None => value_of matches «"beam-width"» = None end ->
  let run calls := tsa_command aeqb teqb H Hb shuffle iow debug_string debug_weight with_tts matches file calls text in
  let shown := step_text (ts_instr_text debug_string) debug_string debug_weight in
  (forall calls, run calls = Running \/ exists outs, run calls = Done (List.concat outs) /\
     Forall2 (runs_printed (tsi_apply aeqb) (ts_new initial) (fun t => In t ts) (fun s => ts_is_at_bottom s = true) (beam = None) (NoDup ts) n
                (fun word => list_text debug_string word ++ «":"» ++ newline) (fun r => «"  "» ++ nested shown r ++ newline)) sents outs) /\
  (forall bound, (forall word us, In word sents -> partial_run (tsi_apply aeqb) (ts_new initial) (fun t => In t ts) word us -> length us < bound) ->
     exists calls0, forall calls, calls0 <= calls -> exists out, run calls = Done out).
Proof.
  intros K aeqb teqb KL AE TE H Hb shuffle SH iow debug_string debug_weight with_tts file is ts initial TX LI text sents (ls & TL & HW) matches n beam HM (vn & EV & EN) HBW run shown.
  assert (ES : map (split_whitespace []) ls = sents) by (clear TL; induction HW as [|l w ls ws Hl _ IH]; [reflexivity|]; cbn [map]; now rewrite (words_split l w Hl), IH).
  assert (NS : value_of matches «"strategies"» = None).
  { unfold value_of. destruct (find _ matches) as [[name v]|] eqn:EF; [|reflexivity]. apply find_some in EF. destruct EF as [HI E]. cbn [fst] in E. apply word_eqb_spec in E. subst name. apply HM in HI. cbn in HI. repeat (destruct HI as [HI|HI]; [discriminate HI|]). destruct HI. }
  assert (ER : forall calls, run calls = recognise_corpus teqb H Hb shuffle debug_string debug_weight (tsa_new aeqb teqb ts (ts_new initial)) n beam calls sents).
  { intros calls. unfold run, tsa_command. rewrite (C42_tsa_syntax bytes bytes K aeqb teqb string_io string_io iow file is [] ts TX), LI, EV, EN, NS. cbn [or_panic and_then]. rewrite (text_lines_app text ls TL), ES.
    destruct beam as [b|]; [destruct HBW as (vb & EB & EU); rewrite EB, EU|rewrite HBW]; reflexivity. }
  split.
  - intros calls. rewrite ER. destruct (recognise_corpus_gives KL aeqb teqb AE TE H Hb shuffle SH debug_string debug_weight ts (ts_new initial) n beam calls sents) as [(E & _)|(outs & E & HF)]; [now left|right; exists outs; split; [exact E|]].
    eapply forall2_impl; [|exact HF]. cbn beta. intros word out (runs & HB & ->). exists runs. split; [exact HB|]. rewrite (vec_text debug_string debug_string word (fun x => eq_refl)). do 2 f_equal. f_equal. apply map_ext. intros r. do 2 f_equal.
    apply nested_ext. intros t. apply step_text_eq. apply ts_instruction_text.
  - intros bound HB.
    assert (HC : exists c0, forall calls word, c0 <= calls -> In word sents -> tsa_over aeqb teqb H Hb shuffle ts (ts_new initial) beam word calls).
    { clear -KL AE TE SH HB. induction sents as [|word sents IH]; [exists 0; intros ? ? _ []|]. destruct IH as (c0 & IH); [intros w us Hw; apply HB; now right|].
      destruct (tsa_over_bounded KL aeqb teqb AE TE H Hb shuffle SH ts (ts_new initial) beam word bound) as (c1 & HW); [intros us; apply HB; now left|].
      exists (Nat.max c0 c1). intros calls w HC [<-|Hw]; [apply HW; lia|apply IH; [lia|exact Hw]]. }
    destruct HC as (c0 & HC). exists c0. intros calls HCC. rewrite ER.
    destruct (recognise_corpus_gives KL aeqb teqb AE TE H Hb shuffle SH debug_string debug_weight ts (ts_new initial) n beam calls sents) as [(_ & word & Hw & C)|(outs & E & _)]; [exfalso; apply C; now apply HC|eauto].
Qed.
Print Assumptions C46_tsa_recognise_partial.

(* ---- an automaton with two runs on "a b" ---- *)
Definition ex_tst (word : list bytes) (w : nat) (i : ts_instr bytes) : transition (ts_instr bytes) bytes TropWeight := Trans (K := TropWeight) word (Some w) i.
Definition ex_ts : list (transition (ts_instr bytes) bytes TropWeight) :=
  [ex_tst [«"a"»] 2 (IPush 1 «"0"» «"A"»); ex_tst [«"a"»] 1 (IPush 1 «"0"» «"B"»); ex_tst [«"b"»] 0 (IDown «"A"» «"0"» «"D"»); ex_tst [«"b"»] 0 (IDown «"B"» «"0"» «"D"»)].
Definition ex_ts_file : bytes := tsa_text string_io trop_io in_quotes ex_ts (tsa_new word_eqb word_eqb ex_ts (ts_new «"0"»)).
Lemma ex_ts_reads : automaton_text False string_io (transition_syntax (ts_syntax string_io) string_io trop_io) ex_ts_file [«"0"»] [] ex_ts.
Proof.
  apply shown_automaton; [|reflexivity].
  assert (HL : forall a, is_white a = false -> a <> ")"%char -> showable_label string_io [a]) by (intros a HA NA; split; [reflexivity|split; [discriminate|]]; intros b [<-|[]]; auto).
  assert (HT : forall a, a <> """"%char -> a <> "\"%char -> a <> "010"%char -> showable_terminal string_io in_quotes [a]).
  { intros a H1 H2 H3. split; [cbn; intuition discriminate|]. intros rest _. exists [a]. split; [reflexivity|]. left. split; [reflexivity|]. constructor; [assumption|assumption|constructor]. }
  assert (HW : forall n, (N.of_nat n < usize_bound)%N -> showable_weight trop_io (Some n)).
  { intros n L. destruct (usize_label n) as (U1 & U2 & _). split; [|split; [exact U1|exact U2]]. unfold readable, trop_io. cbn [to_text of_text]. now rewrite (usize_text_back n L). }
  intros t Ht. cbn [ex_ts In] in Ht. destruct Ht as [<-|[<-|[<-|[<-|[]]]]]; (split; [|split; [|split]]); unfold ex_tst; cbn [t_ins t_word t_weight labels child];
    first [apply HW; reflexivity|intros m E; discriminate E|intros m E; injection E as <-; reflexivity
          |intros x Hx; cbn [In] in Hx; repeat (destruct Hx as [<-|Hx]; [first [apply HL; [reflexivity|discriminate]|apply HT; discriminate]|]); destruct Hx].
Qed.
Definition ex_tsa_command := tsa_command (K := TropWeight) word_eqb word_eqb (P_Agenda.list_heap _ trop_wi_TO) (P_Agenda.list_minmax _ trop_wi_TO) (fun l => l) trop_io in_quotes (to_text trop_io) (fun _ _ _ _ => Panics).
Definition ex_matches : list (bytes * bytes) := [(«"automaton"», «"file"»); («"number-of-runs"», «"2"»); («"coarse-to-fine"», «"tts"»)].
Example C46_example :
  automaton_text False string_io (transition_syntax (ts_syntax string_io) string_io trop_io) ex_ts_file [«"0"»] [] ex_ts /\ NoDup ex_ts /\
  (forall name value, In (name, value) ex_matches -> In name tsa_arguments) /\
  (forall word us, In word [[«"a"»; «"b"»]; [«"b"»]] -> partial_run (tsi_apply word_eqb) (ts_new «"0"») (fun t => In t ex_ts) word us -> length us < 3) /\
  ex_tsa_command ex_matches ex_ts_file 20 (lines_of [«"a b"»; «"b"»]) =
    Done (lines_of [« "[""a"", ""b""]:" »;
      « "  Cons { value: Transition { word: [""b""], weight: 0, instruction: Down { current_val: ""B"", old_val: ""0"", new_val: ""D"" } }, below: Cons { value: Transition { word: [""a""], weight: 1, instruction: Push { n: 1, current_val: ""0"", new_val: ""B"" } }, below: Empty } }" »;
      « "  Cons { value: Transition { word: [""b""], weight: 0, instruction: Down { current_val: ""A"", old_val: ""0"", new_val: ""D"" } }, below: Cons { value: Transition { word: [""a""], weight: 2, instruction: Push { n: 1, current_val: ""0"", new_val: ""A"" } }, below: Empty } }" »;
      []; « "[""b""]:" »; []]).
Proof.
  split; [exact ex_ts_reads|]. split; [unfold ex_ts; repeat (constructor; [intros Hx; cbn [In] in Hx; repeat (destruct Hx as [Hx|Hx]; [discriminate Hx|]); exact Hx|]); constructor|].
  split; [intros name value Hx; cbn [ex_matches In] in Hx; repeat (destruct Hx as [Hx|Hx]; [injection Hx as <- _; cbn; auto|]); destruct Hx|]. split; [|vm_compute; reflexivity].
  intros word us Hw (s & rest & X & HT & E).
  assert (NE : forall t, In t ex_ts -> length (t_word t) = 1) by (intros t Ht; in_cases Ht; reflexivity).
  assert (L : length (run_word us) = length us).
  { clear -NE HT. induction us as [|t us IH]; [reflexivity|]. unfold run_word in *. cbn [flat_map length]. rewrite app_length, NE, IH; [reflexivity|intros u Hu; apply HT; now right|apply HT; now left]. }
  apply (f_equal (@length _)) in E. rewrite app_length, L in E. destruct Hw as [Hw|[Hw|[]]]; rewrite <- Hw in E; cbn [length] in E; lia.
Qed.

(* ---- the rest of the claim is false ---- *)
(* The option coarse-to-fine has no effect: its value is looked up under another name, so whatever it asks for the command does
   the same, and never what it should do for that option. *)
Theorem C46_coarse_to_fine_refuted :
  forall (K : ZWeight) (aeqb teqb : bytes -> bytes -> bool)
    (H : max_heap (item (tstack nat) (ts_instr nat) nat K * K) (wi_leb wleb)) (Hb : minmax_heap (item (tstack nat) (ts_instr nat) nat K * K) (wi_leb wleb))
    (shuffle : list (transition (ts_instr nat) nat K) -> list (transition (ts_instr nat) nat K)) (iow : text_io K) (debug_string : bytes -> bytes) (debug_weight : K -> bytes)
    (matches : list (bytes * bytes)) (v v' : bytes) with_tts with_tts' file calls text,
  (forall name value, In (name, value) matches -> In name tsa_arguments) ->
  tsa_command aeqb teqb H Hb shuffle iow debug_string debug_weight with_tts ((«"coarse-to-fine"», v) :: matches) file calls text =
  tsa_command aeqb teqb H Hb shuffle iow debug_string debug_weight with_tts' ((«"coarse-to-fine"», v') :: matches) file calls text.
Proof.
  intros K aeqb teqb H Hb shuffle iow debug_string debug_weight matches v v' with_tts with_tts' file calls text HM.
  assert (NS : value_of matches «"strategies"» = None).
  { unfold value_of. destruct (find _ matches) as [[name x]|] eqn:EF; [|reflexivity]. apply find_some in EF. destruct EF as [HI E]. cbn [fst] in E. apply word_eqb_spec in E. subst name. apply HM in HI. cbn in HI. repeat (destruct HI as [HI|HI]; [discriminate HI|]). destruct HI. }
  assert (EV : forall x name, word_eqb «"coarse-to-fine"» name = false -> value_of ((«"coarse-to-fine"», x) :: matches) name = value_of matches name) by (intros x name E; unfold value_of; cbn [find fst]; now rewrite E).
  unfold tsa_command. rewrite !(EV v «"number-of-runs"»), !(EV v' «"number-of-runs"»), !(EV v «"beam-width"»), !(EV v' «"beam-width"»), !(EV v «"strategies"»), !(EV v' «"strategies"»), NS by reflexivity. reflexivity.
Qed.
Print Assumptions C46_coarse_to_fine_refuted.

(* The automaton that mcfg automaton prints cannot be used: whatever the grammar, if it has a rule for an initial nonterminal
   (without closing parentheses and line breaks in its name), tsa recognise panics when it reads the printed automaton. *)
Theorem C46_printed_automaton_refuted :
  forall (K : ZWeight) (neqb teqb : bytes -> bytes -> bool) (reqb : prule bytes bytes K -> prule bytes bytes K -> bool), EqbSpec neqb -> EqbSpec teqb -> EqbSpec reqb ->
  forall (iow : text_io K) (debug_string : bytes -> bytes) order, (forall l, Permutation (order l) l) ->
  forall (grammar : bytes) (init : list bytes) (rules : list (prule bytes bytes K)), text_means string_io (pmcfg_rule_syntax string_io string_io iow) grammar init rules ->
  forall r, In r rules -> In (pr_head r) init -> ~ In ")"%char (pr_head r) -> ~ In "010"%char (pr_head r) ->
  forall printed, mcfg_automaton neqb teqb reqb iow debug_string order grammar = Some printed ->
  forall aeqb teqb' H Hb shuffle debug_string' debug_weight with_tts matches calls text,
  tsa_command (K := K) aeqb teqb' H Hb shuffle iow debug_string' debug_weight with_tts matches printed calls text = Panics.
Proof.
  intros K neqb teqb reqb NE TE RE iow debug_string order OR grammar init rules TM r HR HI N1 N2 printed EP aeqb teqb' H Hb shuffle debug_string' debug_weight with_tts matches calls text.
  destruct (C39_grammar_syntax bytes bytes K string_io string_io iow grammar init) as (_ & HG). destruct (HG rules TM) as (EG & _).
  unfold mcfg_automaton in EP. rewrite EG in EP. unfold tsa_from_pmcfg in EP. destruct (pmcfg_transitions neqb (PMCFG init rules)) as [ts|] eqn:ET; [|discriminate]. cbn [option_map] in EP.
  destruct (C14_tsa_reads_back _ bytes K (posstate_eqb reqb) teqb (peqb_spec reqb RE) TE ts (ts_new M_FromPmcfg.Initial)) as (_ & all & EA & PA). rewrite EA in EP. assert (inj : forall x y : bytes, Some x = Some y -> x = y) by congruence. apply inj in EP. subst printed.
  assert (HT : In (Trans [] (pr_weight r) (IPush 0 M_FromPmcfg.Initial (Position r 0 0))) (order all)).
  { apply (Permutation_in _ (Permutation_sym (OR all))), (Permutation_in _ (Permutation_sym PA)). unfold pmcfg_transitions in ET. cbn [pg_rules pg_initial] in ET.
    destruct (opt_all initial_transitions _) as [l1|] eqn:E1; [|discriminate]. destruct (opt_all _ rules) as [l2|]; [|discriminate]. injection ET as <-. apply in_or_app. left.
    assert (HF : In r (filter (fun r => memb neqb (pr_head r) init) rules)) by (apply filter_In; split; [exact HR|now apply (P_Agenda.memb_In neqb NE)]).
    clear -E1 HF. revert l1 E1 HF. generalize (filter (fun r => memb neqb (pr_head r) init) rules). induction l as [|r0 l IH]; intros l1 E1 HF; [destruct HF|]. cbn [opt_all] in E1.
    destruct (initial_transitions r0) as [t0|] eqn:E0; [|discriminate]. destruct (opt_all initial_transitions l) as [l1'|] eqn:E1'; [|discriminate]. injection E1 as <-. cbn [List.concat]. apply in_or_app.
    destruct HF as [->|HF]; [left|right; now apply (IH l1')]. unfold initial_transitions in E0. destruct (nth_error (down_info r) 0) as [[j w]|]; [|discriminate]. injection E0 as <-. now left. }
  apply in_split in HT. destruct HT as (before & after & ->). unfold tsa_command.
  set (tt := fun t => transition_text iow debug_string (tsi_text (posstate_io iow)) t ++ newline).
  set (tpush := Trans [] (pr_weight r) (IPush 0 M_FromPmcfg.Initial (Position r 0 0))).
  set (M := tsa_new (posstate_eqb reqb) teqb ts (ts_new M_FromPmcfg.Initial)).
  assert (EX : exists x z, tsa_text (posstate_io iow) iow debug_string (before ++ tpush :: after) M ++ newline = x ++ newline ++ push_prefix (pr_head r) ++ z).
  { assert (HX : exists x, «"initial: "» ++ usize_text (ts_current_symbol (ta_init M)) ++ newline ++ newline ++ List.concat (map tt before) = x ++ newline).
    { destruct before as [|t before _] using rev_ind; [cbn [map List.concat]; rewrite app_nil_r; eexists; rewrite !app_assoc; reflexivity|]. rewrite map_app, concat_app. cbn [map List.concat]. unfold tt at 2. rewrite app_nil_r. eexists. rewrite !app_assoc. reflexivity. }
    assert (HZ : exists z, tt tpush = push_prefix (pr_head r) ++ z).
    { unfold tt, tpush, transition_text, push_prefix. cbn [t_word t_ins t_weight tsi_text map posstate_io to_text posstate_text]. unfold pmcfg_rule_text. cbn [to_text string_io]. unfold in_quotes at 1.
      eexists. rewrite <- !app_assoc. reflexivity. }
    destruct HX as (x & HX). destruct HZ as (z & HZ). exists x, (z ++ List.concat (map tt after) ++ newline). unfold tsa_text. fold tt. rewrite map_app, concat_app. cbn [map List.concat]. rewrite HZ.
    rewrite <- !app_assoc. rewrite (app_assoc x newline), <- HX, <- !app_assoc. reflexivity. }
  destruct EX as (x & z & ->). destruct (tsa_of_text aeqb teqb' string_io string_io iow (x ++ newline ++ push_prefix (pr_head r) ++ z)) eqn:ER; [|reflexivity..].
  exfalso. exact (spoilt_text string_io string_io iow aeqb teqb' x (pr_head r) z _ N1 N2 ER).
Qed.
Print Assumptions C46_printed_automaton_refuted.
Definition ex_printed : option bytes := mcfg_automaton (K := TropWeight) word_eqb word_eqb trop_reqb trop_io in_quotes (fun l => l) (grammar_text ex_m).
Example C46_printed_automaton_example :
  text_means string_io (pmcfg_rule_syntax string_io string_io trop_io) (grammar_text ex_m) [«"S"»] ex_m /\ (exists r, In r ex_m /\ pr_head r = «"S"») /\
  (exists printed, ex_printed = Some printed /\ firstn 14 printed = «"initial: 0"» ++ newline ++ newline ++ «"Tr"» /\ ex_tsa_command ex_matches printed 20 (lines_of [«"a"»]) = Panics).
Proof.
  split; [apply C44_example|]. split; [eexists; split; [now left|reflexivity]|].
  exists (match ex_printed with Some printed => printed | None => [] end). split; [|split]; vm_compute; reflexivity.
Qed.
