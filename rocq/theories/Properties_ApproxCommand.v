(* C47: what the commands approximation relabel parse and approximation tts parse print. *)
From Verif Require Import M_Nom Base M_Util M_Recog M_Agenda M_Search M_Automata M_CFG M_TreeStack M_Grammar M_Chart M_FromPmcfg M_Approx M_Text M_AutText M_Negra M_Command M_Mcfg M_CfgCommand M_TsaCommand M_ApproxCommand
  S_Search S_Util S_Recog S_Automata S_CFG S_TreeStack S_Grammar S_FromPmcfg S_Approx S_Text S_AutText S_Command S_Mcfg S_CfgCommand S_TsaCommand S_ApproxCommand
  P_Agenda P_Search P_Util P_Recog P_Automata P_PDA P_CFG P_TreeStack P_FromPmcfg P_FromPmcfg2 P_FromPmcfg5 P_Approx P_Text P_AutText P_Command P_Beam P_CfgEnds P_Mcfg P_TsaCommand P_ApproxCommand
  Properties_Text Properties_Automata Properties_CFG Properties_Beam Properties_CfgEnds Properties_FromPmcfg Properties_Approx Properties_Chart Properties_CSParse Properties_Command Properties_Mcfg Properties_CfgCommand.

(* C47, the automaton: relabelling the stack symbols of the pushdown automaton of a grammar gives an automaton that accepts what
   the grammar derives in which every nonterminal is replaced by its label.  Its recogniser does not panic, and it ends if that
   grammar has no left recursion. *)
Theorem C47_relabelled_language :
  forall (A B : Type) (K : Weight) (aeqb : A -> A -> bool) (beqb : B -> B -> bool) (teqb : bytes -> bytes -> bool), EqbSpec aeqb -> EqbSpec beqb -> EqbSpec teqb -> RoundLaws K ->
  forall (wadd : K -> K -> K) (wzero : K) (order : list bytes -> list bytes), (forall l, Permutation (order l) l) -> forall tr_order, (forall l, Permutation (tr_order l) l) ->
  forall (f : A -> B) (g : cfg A bytes K),
  exists M M2 m, pda_from_cfg teqb wadd wzero aeqb order g = Some M /\ rlb_approximate wadd wzero (ps_eqb beqb teqb) teqb tr_order (ps_map f) M = Some (M2, m) /\
    (forall word, cfg_language g word -> cfg_language (coarse f g) word) /\
    forall shuffle, (forall l, Permutation (shuffle l) l) -> forall H word,
      (forall calls, first_run teqb H shuffle M2 word calls = Running \/
         (first_run teqb H shuffle M2 word calls = Done None /\ ~ cfg_language (coarse f g) word) \/
         (exists x, first_run teqb H shuffle M2 word calls = Done (Some x)) /\ cfg_language (coarse f g) word) /\
      (forall rank, cfg_no_left_recursion (cg_rules (coarse f g)) rank -> exists calls0, forall calls, calls0 <= calls -> first_run teqb H shuffle M2 word calls <> Running).
Proof.
  intros A B K aeqb beqb teqb AE BE TE KL wadd wzero order OR tr_order TO f g. pose proof (ps_eqb_spec aeqb teqb AE TE) as PE. pose proof (ps_eqb_spec beqb teqb BE TE) as QE.
  destruct (C16_cfg_pda_language A bytes K aeqb teqb AE TE KL wadd wzero order OR g) as (M & EM & _). pose proof EM as EM'. unfold pda_from_cfg in EM'.
  destruct (rlb_defined wadd wzero (ps_eqb aeqb teqb) (ps_eqb beqb teqb) teqb PE QE TE (ps_map f) tr_order _ _ M TO EM') as (M2 & m & l & E2 & NL & HL & HM2 & _).
  exists M, M2, m. split; [exact EM|]. split; [exact E2|]. split; [intros word; apply coarse_covers|]. intros shuffle SH H word.
  change (map (ps_map f) [M_CFG.Designated; M_CFG.Initial]) with ([M_CFG.Designated; M_CFG.Initial] : list (push_state B bytes)) in HM2.
  assert (NZ : forall us s, executes (pdi_apply (ps_eqb beqb teqb)) [M_CFG.Designated; M_CFG.Initial] us s -> (forall t, In t us -> merged wadd wzero (ps_eqb beqb teqb) teqb (map (image (rlb_ins (ps_map f))) l) t) -> s <> []).
  { intros us s X1 X2. destruct (coarse_stack wadd wzero aeqb beqb teqb BE TE f order OR g l HL us s X1 X2) as [r ->]. discriminate. }
  pose proof (coarse_language wadd wzero aeqb beqb teqb BE TE f order OR g l HL word) as CL. split.
  - intros calls. destruct (first_run_gives KL wadd wzero (ps_eqb beqb teqb) teqb QE TE _ _ M2 HM2 H shuffle SH NZ word calls) as [E|[(E & NA)|(run & s & E & HA & _)]]; [now left| |].
    + right. left. split; [exact E|]. rewrite <- CL. intros (us & s & HA). exact (NA us s HA).
    + right. right. split; [eauto|]. apply CL. eauto.
  - intros rank NR. destruct (coarse_bounded wadd wzero aeqb beqb teqb BE TE f order OR g l HL rank word NR) as (b & HB).
    exact (first_run_ends KL wadd wzero (ps_eqb beqb teqb) teqb QE TE _ _ M2 HM2 H shuffle SH NZ word b HB).
Qed.
Print Assumptions C47_relabelled_language.

(* C47, relabel parse: for every grammar file, every file that describes a partition of the nonterminals and every text the
   command does not panic.  If it ends, it prints an answer for each line in turn: "None" if the grammar with the nonterminals
   replaced by their labels does not derive the words of the line - so they are not in the language of the grammar - and
   otherwise a run of the automaton for a leftmost derivation in that grammar.  It ends if that grammar has no left recursion. *)
Theorem C47_relabel_parse_partial :
  forall (K : ZWeight) (neqb teqb : bytes -> bytes -> bool), RoundLaws K -> EqbSpec neqb -> EqbSpec teqb ->
  forall (wadd : K -> K -> K), (forall x, wadd wzero x = x) ->
  forall (H : max_heap (item (list nat) (pd_instr nat) nat K * K) (wi_leb wleb)) shuffle, (forall l, Permutation (shuffle l) l) ->
  forall order, (forall l, Permutation (order l) l) -> forall tr_order, (forall l, Permutation (tr_order l) l) ->
  forall set_order, (forall l, Permutation (set_order l) l) -> forall cl_order, (forall l, Permutation (cl_order l) l) ->
  forall (iow : text_io K) (debug_string : bytes -> bytes) (debug_weight : K -> bytes)
    (grammar : bytes) (init : list bytes) (rules : list (cfg_rule bytes bytes K)), text_means string_io (cfg_rule_syntax string_io string_io iow) grammar init rules ->
  forall (classes : bytes) (cs : list (bytes * option (list bytes))) (default : bytes), classes_text string_io string_io classes cs -> partition_of cs default ->
  forall (f : bytes -> bytes), classifies cs default f ->
  forall (text : bytes) (ls : list bytes) (sents : list (list bytes)), text_lines text ls -> Forall2 words ls sents ->
  let run calls := relabel_parse neqb teqb wadd H shuffle iow debug_string debug_weight order tr_order set_order cl_order grammar classes calls text in
  let g := CFG init rules : cfg bytes bytes K in
  let shown := step_text (replace_text (symbol_text debug_string)) debug_string debug_weight in
  (forall word, cfg_language g word -> cfg_language (coarse f g) word) /\
  (forall calls, run calls = Running \/
     exists outs, run calls = Done (List.concat outs) /\ Forall2 (fun lw out => relabel_printed (coarse f g) debug_weight shown (fst lw) (snd lw) out) (combine ls sents) outs) /\
  (forall rank, cfg_no_left_recursion (cg_rules (coarse f g)) rank -> exists calls0, forall calls, calls0 <= calls -> exists out, run calls = Done out).
Proof.
  intros K neqb teqb KL NE TE wadd WZ H shuffle SH order OR tr_order TO set_order SO cl_order CO iow debug_string debug_weight grammar init rules TM classes cs default CT PO f CF text ls sents TL HW run g shown.
  destruct (C39_grammar_syntax bytes bytes K string_io string_io iow grammar init) as (HG & _). pose proof (HG rules TM) as EG. fold g in EG.
  destruct (classes_text_app neqb neqb NE NE string_io string_io set_order SO cl_order CO classes cs default CT PO) as (e & EE & CE).
  assert (FE : forall x, er_project neqb e x = f x) by (destruct PO as (_ & _ & _ & DJ); exact (classifies_ext neqb NE cs default _ f DJ CE CF)).
  rewrite <- (coarse_ext _ f g FE). set (p := er_project neqb e) in *.
  pose proof (ps_eqb_spec neqb teqb NE TE) as PE.
  destruct (C16_cfg_pda_language bytes bytes K neqb teqb NE TE KL wadd wzero order OR g) as (M & EM & _). pose proof EM as EM'. unfold pda_from_cfg in EM'.
  destruct (rlb_defined wadd wzero (ps_eqb neqb teqb) (ps_eqb neqb teqb) teqb PE PE TE (ps_map p) tr_order _ _ M TO EM') as (M2 & m & l & E2 & NL & HL & HM2 & _).
  change (map (ps_map p) [M_CFG.Designated; M_CFG.Initial]) with ([M_CFG.Designated; M_CFG.Initial] : list (push_state bytes bytes)) in HM2.
  assert (ER : forall calls, run calls = approx_lines teqb H shuffle (debug_push_state debug_string) debug_string debug_weight M2 calls ls).
  { intros calls. unfold run, relabel_parse. rewrite EG, EM. cbn [or_panic and_then]. rewrite EE. fold p. rewrite E2. cbn [or_panic and_then fst]. now rewrite (text_lines_app text ls TL). }
  assert (NZ : forall us s, executes (pdi_apply (ps_eqb neqb teqb)) [M_CFG.Designated; M_CFG.Initial] us s -> (forall t, In t us -> merged wadd wzero (ps_eqb neqb teqb) teqb (map (image (rlb_ins (ps_map p))) l) t) -> s <> []).
  { intros us s X1 X2. destruct (coarse_stack wadd wzero neqb neqb teqb NE TE p order OR g l HL us s X1 X2) as [r ->]. discriminate. }
  split; [intros word; apply coarse_covers|]. split.
  - intros calls. rewrite ER. apply (approx_lines_give KL wadd wzero (ps_eqb neqb teqb) teqb PE TE _ _ M2 HM2 H shuffle SH NZ (debug_push_state debug_string) debug_string debug_weight); [| |exact HW].
    + intros line word _ NA. left. split; [|reflexivity]. rewrite <- (coarse_language wadd wzero neqb neqb teqb NE TE p order OR g l HL word). intros (us & s & HA). exact (NA us s HA).
    + intros line word r s _ HA HB. destruct (coarse_run wadd wzero neqb neqb teqb NE TE p order OR g l HL word _ s HA) as (-> & n & ds & Hn & L & F).
      right. exists n, ds, (pd_to_vec r). split; [auto|]. split; [exact F|]. split.
      * intros D. pose proof (fun t => distinct_steps wadd wzero WZ neqb neqb teqb NE NE TE p order OR g l NL HL t D) as DS.
        assert (DR : forall n0 ds0, In n0 (cg_initial (coarse p g)) -> leftmost (fun r0 => In r0 (cg_rules (coarse p g))) [Label n0] ds0 word ->
                  accepting_run (pdi_apply (ps_eqb neqb teqb)) [M_CFG.Designated; M_CFG.Initial] (fun t => In t (cfg_transitions teqb order (coarse p g))) (fun s => length s = 1) word (init_trans n0 :: derivation_run ds0 [Label n0]) [M_CFG.Designated]).
        { intros n0 ds0 Hn0 L0. apply (cfg_runs neqb teqb NE TE order OR (coarse p g)). eauto 10. }
        assert (EU : pd_to_vec r = init_trans n :: derivation_run ds [Label n]).
        { apply (distinct_eq teqb TE p order OR g _ _ D); [|apply (DR n ds Hn L)|exact F]. intros t Ht. apply DS. now apply HA. }
        assert (WT : forall n0 ds0, leftmost (fun r0 => In r0 (cg_rules (coarse p g))) [Label n0] ds0 word -> run_weight (init_trans n0 :: derivation_run ds0 [Label n0]) = derivation_weight ds0).
        { intros n0 ds0 L0. exact (init_run_weight KL _ _ _ _ n0 L0). }
        split; [exact EU|]. split; [rewrite EU; now apply WT|]. intros BW s' ds' (Hs' & L').
        rewrite <- (WT s' ds' L'), <- (WT n ds L), <- EU. apply (HB) with (s' := [M_CFG.Designated]).
        -- intros t Ht. apply DS in Ht. apply (Ts_In teqb TE order OR) in Ht. destruct Ht as [(r0 & Hr0 & ->)|[(x & _ & ->)|(n0 & _ & ->)]]; cbn [t_weight rule_trans read_trans init_trans].
           ++ now apply BW.
           ++ destruct (to_total _ (rl_order _ KL) wone wone); assumption.
           ++ destruct (to_total _ (rl_order _ KL) wone wone); assumption.
        -- destruct (DR s' ds' Hs' L') as (X1 & X2 & X3 & X4). split; [exact X1|]. split; [intros t Ht; apply DS; now apply X2|]. auto.
      * cbn [debug_option debug_pda_item fst snd c_word c_storage c_weight debug_vec]. unfold debug_pda_item. cbn [fst snd c_word c_storage c_weight]. rewrite nested_pushdown, (nested_ext _ shown) by (intros t; apply step_text_eq; intros i; apply instruction_text, symbol_text_eq). cbn. repeat (progress (rewrite <- ?app_assoc; cbn [app])). reflexivity.
  - intros rank NR. destruct (approx_lines_end KL wadd wzero (ps_eqb neqb teqb) teqb PE TE _ _ M2 HM2 H shuffle SH NZ (debug_push_state debug_string) debug_string debug_weight
      (fun word => coarse_bounded wadd wzero neqb neqb teqb NE TE p order OR g l HL rank word NR) ls) as (c0 & HC). exists c0. intros calls L. rewrite ER. now apply HC.
Qed.
Print Assumptions C47_relabel_parse_partial.

(* C47, tts parse: for every grammar file as in C18 and every text the command does not panic.  If it ends, it prints an answer
   for each line in turn: "None" only if the grammar does not derive the words of the line, and otherwise an accepting run of a
   pushdown automaton whose transitions are those of the tree stack automaton with the tree stacks replaced by the paths to their
   pointers.  It ends if the grammar has no left recursion. *)
Theorem C47_tts_parse_partial :
  forall (K : ZWeight) (neqb teqb : bytes -> bytes -> bool) (reqb : prule bytes bytes K -> prule bytes bytes K -> bool), RoundLaws K -> EqbSpec neqb -> EqbSpec teqb -> EqbSpec reqb ->
  forall (wadd : K -> K -> K) (H : max_heap (item (list nat) (pd_instr nat) nat K * K) (wi_leb wleb)) shuffle, (forall l, Permutation (shuffle l) l) ->
  forall tr_order, (forall l, Permutation (tr_order l) l) ->
  forall (iow : text_io K) (debug_string : bytes -> bytes) (debug_weight : K -> bytes) (debug_rule : prule bytes bytes K -> bytes)
    (grammar : bytes) (init : list bytes) (rules : list (prule bytes bytes K)), text_means string_io (pmcfg_rule_syntax string_io string_io iow) grammar init rules ->
  forall (f : bytes -> nat), ordered_grammar f (PMCFG init rules : pmcfg bytes bytes K) -> (forall r, In r rules -> short_tails r) ->
  forall (text : bytes) (ls : list bytes) (sents : list (list bytes)), text_lines text ls -> Forall2 words ls sents ->
  let run calls := tts_parse neqb teqb wadd H shuffle iow debug_string debug_weight reqb debug_rule tr_order grammar calls text in
  let g := PMCFG init rules : pmcfg bytes bytes K in
  let shown := step_text (replace_text (position_text debug_rule)) debug_string debug_weight in
  exists ts, pmcfg_transitions neqb g = Some ts /\
  (forall calls, run calls = Running \/
     exists outs, run calls = Done (List.concat outs) /\
       Forall2 (fun lw out => path_printed (posstate_eqb reqb) [M_FromPmcfg.Initial] ts (fun word => exists k, pmcfg_derives g word k) debug_weight (list_text (position_text debug_rule)) shown (fst lw) (snd lw) out) (combine ls sents) outs) /\
  (forall rank, no_left_recursion rules rank -> exists calls0, forall calls, calls0 <= calls -> exists out, run calls = Done out).
Proof.
  intros K neqb teqb reqb KL NE TE RE wadd H shuffle SH tr_order TO iow debug_string debug_weight debug_rule grammar init rules TM f OG ST text ls sents TL HW run g shown.
  destruct (C39_grammar_syntax bytes bytes K string_io string_io iow grammar init) as (_ & HG). destruct (HG rules TM) as (EG & _). fold g in EG, OG.
  pose proof (peqb_spec reqb RE) as PE.
  destruct (C18_language_partial bytes bytes K neqb reqb NE RE KL f g OG ST) as (ts & ET & _ & _ & HL). exists ts. split; [exact ET|].
  destruct (pmcfg_transitions_spec neqb NE f g OG) as (ts' & ET' & HT). rewrite ET in ET'. injection ET' as <-.
  assert (W0 : wf (ts_new (A := posstate (prule bytes bytes K)) M_FromPmcfg.Initial)) by (apply built_wf; constructor).
  destruct (tts_defined wadd wzero (posstate_eqb reqb) teqb PE TE tr_order ts (ts_new M_FromPmcfg.Initial) TO W0) as (M2 & m & l & E2 & PL & HM2 & _).
  change (spine (ts_new M_FromPmcfg.Initial)) with ([M_FromPmcfg.Initial] : list (posstate (prule bytes bytes K))) in HM2.
  assert (ER : forall calls, run calls = approx_lines teqb H shuffle (debug_posstate debug_rule) debug_string debug_weight M2 calls ls).
  { intros calls. unfold run, tts_parse. rewrite EG. unfold tsa_from_pmcfg. rewrite ET. cbn [option_map or_panic and_then]. rewrite E2. cbn [or_panic and_then fst]. now rewrite (text_lines_app text ls TL). }
  assert (IM : forall u, merged wadd wzero (posstate_eqb reqb) teqb (map (image tts_ins) l) u -> exists t, In t ts /\ t_word u = t_word t /\ t_ins u = tts_ins (t_ins t)).
  { intros u [(t0 & H0 & E1 & E3) _]. apply in_map_iff in H0. destruct H0 as (t1 & <- & H1). exists t1. split; [eapply Permutation_in; [exact PL|exact H1]|]. cbn [image t_word t_ins] in *. split; congruence. }
  assert (NZ : forall us s, executes (pdi_apply (posstate_eqb reqb)) [M_FromPmcfg.Initial] us s -> (forall t, In t us -> merged wadd wzero (posstate_eqb reqb) teqb (map (image tts_ins) l) t) -> s <> []).
  { intros us s X1 X2. assert (G : forall us s0, executes (pdi_apply (posstate_eqb reqb)) s0 us s -> (forall t, In t us -> merged wadd wzero (posstate_eqb reqb) teqb (map (image tts_ins) l) t) -> s0 <> [] -> s <> []).
    { clear -IM PE. induction us as [|u us IH]; intros s0 X HU HN; inversion X as [|? ? ? s1 ? X1 X2]; subst; [exact HN|]. apply (IH s1); [exact X2|intros; apply HU; now right|].
      destruct (IM u (HU u (or_introl eq_refl))) as (t & _ & _ & EI). apply (pdi_apply_spec _ PE) in X1. destruct X1 as (rest & _ & ->). rewrite EI. intros C. apply app_eq_nil in C. destruct C as [_ C]. destruct (t_ins t); discriminate. }
    apply (G us [M_FromPmcfg.Initial] X1 X2). discriminate. }
  split.
  - intros calls. rewrite ER. apply (approx_lines_give KL wadd wzero (posstate_eqb reqb) teqb PE TE _ _ M2 HM2 H shuffle SH NZ (debug_posstate debug_rule) debug_string debug_weight); [| |exact HW].
    + intros line word _ NA. left. split; [|reflexivity]. intros HD. destruct (proj2 (HL _) (or_intror HD)) as (us & s & (X1 & X2 & X3 & X4)).
      destruct (gen_image wadd wzero (posstate_eqb reqb) teqb PE TE (tsi_apply (posstate_eqb reqb)) (ts_new M_FromPmcfg.Initial) tts_ins (fun s s2 => wf s /\ s2 = spine s)
                (tts_hom (posstate_eqb reqb) PE) l [M_FromPmcfg.Initial] (conj W0 eq_refl) M2 HM2 us s X1) as (us2 & s2 & J1 & J2 & J3 & (J4 & ->) & J5).
      { intros t Ht. eapply Permutation_in; [symmetry; exact PL|]. auto. }
      apply (NA us2 (spine s)). split; [exact J3|]. split; [intros t Ht; apply (pda_has_merged wadd wzero (posstate_eqb reqb) teqb PE TE _ _ _ t HM2); auto|]. split; [congruence|]. now apply spine_bottom.
    + intros line word r s _ (X1 & X2 & X3 & X4) _. right. exists (pd_to_vec r), s. split; [exact X1|]. split; [exact X4|]. split; [exact X3|]. split; [intros u Hu; apply IM; now apply X2|].
      cbn [debug_option]. unfold debug_pda_item. cbn [fst snd c_word c_storage c_weight]. rewrite nested_pushdown, (nested_ext _ shown) by (intros t; apply step_text_eq; intros i; apply instruction_text, position_text_eq). rewrite (vec_text _ (position_text debug_rule) s) by apply position_text_eq. cbn. repeat (progress (rewrite <- ?app_assoc; cbn [app])). reflexivity.
  - intros rank NR. destruct (approx_lines_end KL wadd wzero (posstate_eqb reqb) teqb PE TE _ _ M2 HM2 H shuffle SH NZ (debug_posstate debug_rule) debug_string debug_weight) with (ls := ls) as (c0 & HC).
    { intros word. exists (S (2 * (length word + (length word + 1) * top g rank) + 2)). intros us (s & rest & X1 & X2 & X3). apply le_n_S.
      apply (path_bound reqb RE f g OG rank NR us s); [exact X1| |rewrite <- X3, app_length; apply Nat.le_add_r]. intros u Hu. destruct (IM u (X2 u Hu)) as (t & Ht & E). exists t. split; [now apply HT|exact E]. }
    exists c0. intros calls L. rewrite ER. now apply HC.
Qed.
Print Assumptions C47_tts_parse_partial.

(* If the grammar with the nonterminals replaced by their labels is left-recursive then the search for a word it does not derive
   never ends, whether or not the grammar itself is. *)
Theorem C47_coarse_left_recursion_refuted :
  forall (A B : Type) (K : Weight) (aeqb : A -> A -> bool) (beqb : B -> B -> bool) (teqb : bytes -> bytes -> bool), EqbSpec aeqb -> EqbSpec beqb -> EqbSpec teqb -> RoundLaws K ->
  forall (wadd : K -> K -> K) (wzero : K) (order : list bytes -> list bytes), (forall l, Permutation (order l) l) -> forall tr_order, (forall l, Permutation (tr_order l) l) ->
  forall (f : A -> B) (g : cfg A bytes K) s k N j, In s (cg_initial (coarse f g)) -> leads (cg_rules (coarse f g)) s k N -> leads (cg_rules (coarse f g)) N (S j) N ->
  forall M M2 m, pda_from_cfg teqb wadd wzero aeqb order g = Some M -> rlb_approximate wadd wzero (ps_eqb beqb teqb) teqb tr_order (ps_map f) M = Some (M2, m) ->
  forall shuffle, (forall l, Permutation (shuffle l) l) -> forall H word,
    (forall x, In x word -> exists r, In r (cg_rules g) /\ In (Value x) (cr_rhs r)) -> ~ cfg_language (coarse f g) word ->
    forall calls, first_run teqb H shuffle M2 word calls = Running.
Proof.
  intros A B K aeqb beqb teqb AE BE TE KL wadd wzero order OR tr_order TO f g s k N j Hs L1 L2 M M2 m EM E2 shuffle SH H word KW NLg calls.
  pose proof (ps_eqb_spec aeqb teqb AE TE) as PE. pose proof (ps_eqb_spec beqb teqb BE TE) as QE. pose proof EM as EM'. unfold pda_from_cfg in EM'.
  destruct (rlb_defined wadd wzero (ps_eqb aeqb teqb) (ps_eqb beqb teqb) teqb PE QE TE (ps_map f) tr_order _ _ M TO EM') as (M2' & m' & l & E2' & NL & HL & HM2 & _).
  rewrite E2 in E2'. injection E2' as <- <-.
  change (map (ps_map f) [M_CFG.Designated; M_CFG.Initial]) with ([M_CFG.Designated; M_CFG.Initial] : list (push_state B bytes)) in HM2.
  assert (NZ : forall us s, executes (pdi_apply (ps_eqb beqb teqb)) [M_CFG.Designated; M_CFG.Initial] us s -> (forall t, In t us -> merged wadd wzero (ps_eqb beqb teqb) teqb (map (image (rlb_ins (ps_map f))) l) t) -> s <> []).
  { intros us s0 X1 X2. destruct (coarse_stack wadd wzero aeqb beqb teqb BE TE f order OR g l HL us s0 X1 X2) as [r ->]. discriminate. }
  assert (NE : ~ recognise_ended (pda_automaton shuffle M2) H (opt_all (int_find_key teqb (pa_t M2)) word) calls).
  { apply (coded_never_ends _ _ _ _ _ _ _ _ _ _ _ _ _ (pda_coded wadd wzero _ teqb QE TE _ _ shuffle SH M2 HM2) KL).
    - intros x Hx. destruct (KW x Hx) as (r & Hr & Hv). destruct (pda_new_spec wadd wzero (ps_eqb beqb teqb) teqb QE TE _ _ M2 HM2) as (_ & _ & HT & _).
      destruct (steps_up wadd wzero aeqb beqb teqb TE f order OR g l HL (read_trans x)) as (t' & [(t0 & H0 & E1 & _) _] & E3 & _).
      { apply (Ts_In teqb TE order OR). right. left. exists x. split; [apply occurs_coarse; exists r; auto|reflexivity]. }
      destruct (HT t0 H0) as [_ W]. apply W. rewrite E1, <- E3. now left.
    - intros d. destruct (long_runs beqb teqb BE TE order OR (coarse f g) wadd wzero word s k N j Hs L1 L2 d) as (us & st & rest & X1 & X2 & X3 & X4).
      destruct (merged_rep beqb teqb order (coarse f g) wadd wzero us X2) as (vs & HV & F).
      destruct (same_steps_exist _ _ vs (steps_up wadd wzero aeqb beqb teqb TE f order OR g l HL) HV) as (ws & FW & HWs). pose proof (same_steps_trans _ _ _ F FW) as FF.
      exists ws, st, rest. split; [now apply (same_steps_run _ us ws FF)|]. split; [exact HWs|]. split; [exact (eq_trans (f_equal (fun v => v ++ rest) (eq_sym (same_steps_word _ _ FF))) X3)|exact (eq_trans (eq_sym (same_steps_length _ _ FF)) X4)]. }
  unfold first_run. destruct (C14_pda_recognise _ _ K wadd wzero _ teqb QE TE KL _ _ shuffle SH M2 HM2 H word calls) as [C D].
  destruct (D ltac:(intros us s0 rest X1 X2 _; exact (NZ us s0 X1 X2))) as (outs & E). destruct (C outs E) as (C1 & _). rewrite E. destruct outs as [|[c run] outs].
  - match goal with |- (if ?b then _ else _) = _ => destruct b eqn:EE end; [|reflexivity]. apply ended_calls_iff in EE. contradiction.
  - exfalso. destruct (C1 c run (or_introl eq_refl)) as (HA & _). apply NLg. apply (coarse_language wadd wzero aeqb beqb teqb BE TE f order OR g l HL word). eauto.
Qed.
Print Assumptions C47_coarse_left_recursion_refuted.

(* The subcommand decides what is done.  The help text lists the command approximation topk as well; it prints nothing, whatever
   the files say. *)
Theorem C47_subcommands : forall relabel tts : outcome bytes,
  handle «"relabel"» relabel tts = relabel /\ handle «"tts"» relabel tts = tts /\
  forall other, other <> «"relabel"» -> other <> «"tts"» -> handle other relabel tts = Done [].
Proof.
  intros relabel tts. split; [reflexivity|]. split; [reflexivity|]. intros o N1 N2. unfold handle.
  destruct (word_eqb o «"relabel"») eqn:E1; [apply word_eqb_spec in E1; contradiction|]. destruct (word_eqb o «"tts"») eqn:E2; [apply word_eqb_spec in E2; contradiction|]. reflexivity.
Qed.
Print Assumptions C47_subcommands.
Theorem C47_topk_refuted : forall relabel tts : outcome bytes, handle «"topk"» relabel tts = Done [].
Proof. reflexivity. Qed.
Print Assumptions C47_topk_refuted.

(* ---- examples ---- *)
(* S -> A b, A -> a b with cost 1, A -> a with cost 2; the classes are {S} and the others *)
Definition ex_fine : list (cfg_rule bytes bytes TropWeight) :=
  [ex_r «"S"» [Label «"A"»; Value «"b"»] 0; ex_r «"A"» [Value «"a"»; Value «"b"»] 1; ex_r «"B"» [Value «"a"»] 2].
Definition ex_classes : bytes := lines_of [«"S [S    ]"»; []; «"R *"»].
Definition ex_cs : list (bytes * option (list bytes)) := [(«"S"», Some [«"S"»]); («"R"», None)].
Definition ex_f (n : bytes) : bytes := if word_eqb n «"S"» then «"S"» else «"R"».
Definition trop_relabel (grammar classes : bytes) (calls : nat) (text : bytes) : outcome bytes :=
  relabel_parse word_eqb word_eqb trop_sum (P_Agenda.list_heap _ trop_pda_TO) (fun l => l) trop_io (fun x => x) (to_text trop_io) (fun l => l) (fun l => l) (fun l => l) (fun l => l) grammar classes calls text.
Lemma bare_token (s rest : bytes) : s <> [] -> forallb (fun a => negb (existsb (beqb a) stops) && negb (beqb a "009"%char)) s = true -> at_stop rest -> token string_io rest s s.
Proof.
  intros N HF HR. exists s. split; [reflexivity|]. right. split; [reflexivity|]. split; [|exact HR]. split; [exact N|]. rewrite forallb_forall in HF. intros a Ha. specialize (HF a Ha). apply andb_true_iff in HF. destruct HF as [F1 F2].
  split; [|intros ->; discriminate]. intros HI. apply negb_true_iff in F1. assert (X : existsb (beqb a) stops = true); [|congruence]. apply existsb_exists. exists a. split; [exact HI|apply beqb_refl].
Qed.
Lemma ex_classes_text : classes_text string_io string_io ex_classes ex_cs.
Proof.
  exists [«"S [S    ]"»; []; «"R *"»], [[(«"S"», Some [«"S"»])]; []; [(«"R"», None)]]. split; [|split; [|reflexivity]].
  - apply (tl_cons «"S [S    ]"» [] (lines_of [[]; «"R *"»]) [[]; «"R *"»]); [not_in|intros l' E; apply (f_equal (@rev _)) in E; rewrite rev_app_distr in E; discriminate|now left|].
    apply (tl_cons [] [] (lines_of [«"R *"»]) [«"R *"»]); [intros []|intros [|? ?]; discriminate|now left|]. apply (tl_cons «"R *"» [] [] []); [not_in|intros [|? [|? [|? [|? ?]]]]; discriminate|now left|constructor].
  - constructor; [|constructor; [constructor|constructor; [|constructor]]].
    + apply (cl_class string_io string_io [] «"S [S    ]"» [] («"S"», Some [«"S"»])); [intros ? []|intros ? []| |intros a t' E; injection E as <- _; reflexivity].
      exists «"S"», «" "», «"[S    ]"». split; [intros a [<-|[]]; now left|]. split; [reflexivity|]. split; [apply bare_token; [discriminate|reflexivity|right; eexists _, _; split; [reflexivity|cbn; tauto]]|].
      exists [], «"S    "». split; [intros a []|]. split; [|reflexivity]. apply (it_cons (token string_io) «","» _ «"S"» «"    "» [] «"S"» []); [intros a Ha; cbn in Ha; intuition (subst; auto)| |constructor].
      apply bare_token; [discriminate|reflexivity|right; eexists _, _; split; [reflexivity|cbn; tauto]].
    + apply (cl_class string_io string_io [] «"R *"» [] («"R"», None)); [intros ? []|intros ? []| |intros a t' E; injection E as <- _; reflexivity].
      exists «"R"», «" "», «"*"». split; [intros a [<-|[]]; now left|]. split; [reflexivity|]. split; [apply bare_token; [discriminate|reflexivity|right; eexists _, _; split; [reflexivity|cbn; tauto]]|reflexivity].
Qed.
Lemma ex_cs_partition : partition_of ex_cs «"R"» /\ classifies ex_cs «"R"» ex_f.
Proof.
  split; [split; [exists [(«"S"», Some [«"S"»])], []; split; [reflexivity|intros ? []]|split; [repeat constructor; intros []|split]]|split].
  - intros [E|[]]. discriminate.
  - intros x l l' (ms & [E|[]] & HX) (ms' & [E'|[]] & HX'). injection E as <- <-. injection E' as <- <-. reflexivity.
  - intros x label (ms & [E|[]] & HX). injection E as <- <-. destruct HX as [<-|[]]. reflexivity.
  - intros x HN. unfold ex_f. destruct (word_eqb x «"S"») eqn:E; [|reflexivity]. exfalso. apply (HN «"S"»). exists [«"S"»]. split; [now left|]. left. symmetry. now apply word_eqb_spec.
Qed.
Definition some_line (w run line : bytes) : bytes :=
  «"Some(Item(Configuration { word: [], storage: PushDown { elements: [Designated] }, weight: "» ++ w ++ «" }, "» ++ run ++ «")): "» ++ line ++ newline.
Definition trop_shown : transition (pd_instr (push_state bytes bytes)) bytes TropWeight -> bytes :=
  step_text (replace_text (symbol_text (fun x => x))) (fun x => x) (to_text trop_io).
(* a b is derived only by the coarse grammar, a b b by both, b by neither *)
Example C47_relabel_example :
  text_means string_io (cfg_rule_syntax string_io string_io trop_io) (cfg_file ex_fine) [«"S"»] ex_fine /\
  classes_text string_io string_io ex_classes ex_cs /\ partition_of ex_cs «"R"» /\ classifies ex_cs «"R"» ex_f /\
  cfg_distinct (coarse ex_f (CFG [«"S"»] ex_fine : cfg bytes bytes TropWeight)) /\
  cfg_no_left_recursion (cg_rules (coarse ex_f (CFG [«"S"»] ex_fine : cfg bytes bytes TropWeight))) (fun A => if word_eqb A «"S"» then 1 else 0) /\
  Forall2 words [«"a b"»; «"a b b"»; «"b"»] [[«"a"»; «"b"»]; [«"a"»; «"b"»; «"b"»]; [«"b"»]] /\
  trop_relabel (cfg_file ex_fine) ex_classes 100 (lines_of [«"a b"»; «"a b b"»; «"b"»]) =
    Done (some_line «"2"» (nested trop_shown (init_trans «"S"» :: derivation_run (map (coarse_rule ex_f) [nth 0 ex_fine (ex_r [] [] 0); nth 2 ex_fine (ex_r [] [] 0)]) [Label «"S"»])) «"a b"» ++
          some_line «"1"» (nested trop_shown (init_trans «"S"» :: derivation_run (map (coarse_rule ex_f) [nth 0 ex_fine (ex_r [] [] 0); nth 1 ex_fine (ex_r [] [] 0)]) [Label «"S"»])) «"a b b"» ++
          «"None: b"» ++ newline) /\
  trop_relabel (cfg_file ex_fine) ex_classes 2 (lines_of [«"a b"»]) = Running.
Proof.
  split; [|split; [apply ex_classes_text|split; [apply ex_cs_partition|split; [apply ex_cs_partition|split; [|split; [|split; [|split; [vm_compute; reflexivity|vm_compute; reflexivity]]]]]]]].
  - apply cfg_file_means. intros r Hr. unfold ex_fine in Hr. in_cases Hr; show_cfg_rule.
  - split; cbn; repeat first [apply NoDup_nil | apply NoDup_cons; [cbn; intuition discriminate|]].
  - intros r before B after Hr E _. cbn [coarse cg_rules map ex_fine] in Hr. in_cases Hr; cbn in E; try (destruct before as [|? [|? [|? ?]]]; discriminate).
    destruct before as [|x [|y [|? ?]]]; cbn in E; try discriminate; injection E; intros; subst. vm_compute. lia.
  - repeat constructor; cbn; read_words.
Qed.

(* with a single class the coarse grammar of S -> A b, A -> a is left-recursive, although the grammar is not; the fine grammar and the
   coarse one do not derive b, and the command never gets to the end of this line *)
Definition ex_lr : list (cfg_rule bytes bytes TropWeight) := [ex_r «"S"» [Label «"A"»; Value «"b"»] 0; ex_r «"A"» [Value «"a"»] 1].
Example C47_coarse_left_recursion_case :
  text_means string_io (cfg_rule_syntax string_io string_io trop_io) (cfg_file ex_lr) [«"S"»] ex_lr /\
  cfg_no_left_recursion ex_lr (fun A => if word_eqb A «"S"» then 1 else 0) /\
  trop_cfg (cfg_file ex_lr) 1 None 10 (lines_of [«"b"»]) = Done newline /\
  forall calls, trop_relabel (cfg_file ex_lr) (lines_of [«"N *"»]) calls (lines_of [«"b"»]) = Running.
Proof.
  assert (TM : text_means string_io (cfg_rule_syntax string_io string_io trop_io) (cfg_file ex_lr) [«"S"»] ex_lr) by (apply cfg_file_means; intros r Hr; unfold ex_lr in Hr; in_cases Hr; show_cfg_rule).
  split; [exact TM|split; [|split; [vm_compute; reflexivity|]]].
  - intros r before B after Hr E _. unfold ex_lr in Hr. in_cases Hr; cbn in E; try (destruct before as [|? [|? [|? ?]]]; discriminate).
    destruct before as [|x [|y [|? ?]]]; cbn in E; try discriminate; injection E; intros; subst. vm_compute. lia.
  - intros calls. destruct (C39_grammar_syntax bytes bytes TropWeight string_io string_io trop_io (cfg_file ex_lr) [«"S"»]) as (HG & _). pose proof (HG ex_lr TM) as EG.
    set (g := CFG [«"S"»] ex_lr : cfg bytes bytes TropWeight) in *. unfold trop_relabel, relabel_parse. rewrite EG. fold g.
    destruct (C47_relabelled_language bytes bytes TropWeight word_eqb word_eqb word_eqb word_eqb_spec word_eqb_spec word_eqb_spec (zl_weight _ TropLaws) trop_sum wzero (fun l => l) (fun l => Permutation_refl l) (fun l => l) (fun l => Permutation_refl l) (fun _ => «"N"») g) as (M & M2 & m & EM & E2 & _).
    rewrite EM. cbn [or_panic and_then].
    assert (EE : eqrel_of_text word_eqb word_eqb string_io string_io (fun l => l) (fun l => l) (lines_of [«"N *"»]) = FOk {| er_map := []; er_default := «"N"» |}) by (vm_compute; reflexivity).
    rewrite EE. change (ps_map (er_project word_eqb {| er_map := []; er_default := «"N"» |})) with (ps_map (Y := bytes) (fun _ : bytes => «"N"»)). rewrite E2. cbn [or_panic and_then fst].
    change (lines [] (lines_of [«"b"»])) with [«"b"»]. cbn [approx_lines]. change (split_whitespace [] «"b"») with [«"b"»].
    assert (L : leads (cg_rules (coarse (fun _ : bytes => «"N"») g)) «"N"» 1 «"N"»).
    { apply (leads_rule _ (coarse_rule (fun _ : bytes => «"N"») (ex_r «"S"» [Label «"A"»; Value «"b"»] 0)) [] «"N"» [Value «"b"»] 0); [now left|reflexivity|exists []; constructor|constructor]. }
    rewrite (C47_coarse_left_recursion_refuted bytes bytes TropWeight word_eqb word_eqb word_eqb word_eqb_spec word_eqb_spec word_eqb_spec (zl_weight _ TropLaws) trop_sum wzero (fun l => l) (fun l => Permutation_refl l) (fun l => l) (fun l => Permutation_refl l)
      (fun _ => «"N"») g «"N"» 0 «"N"» 0 (or_introl eq_refl) (leads_none _ _) L M M2 m EM E2 (fun l => l) (fun l => Permutation_refl l)); [reflexivity| |].
    + intros x [<-|[]]. exists (ex_r «"S"» [Label «"A"»; Value «"b"»] 0). split; [now left|cbn; auto].
    + intros (s & _ & D). apply derives_lm in D. destruct D as [ds D].
      assert (G : forall al ds w, leftmost (fun r => In r (cg_rules (coarse (fun _ : bytes => «"N"») g))) al ds w -> forall s rest, al = Label s :: rest -> exists w', w = «"a"» :: w').
      { clear. induction 1 as [|x al ds w L IH|r al ds w Hr L IH]; intros s rest E; try discriminate. cbn in Hr. destruct Hr as [<-|[<-|[]]]; cbn in *.
        - eapply IH. reflexivity.
        - inversion L; subst. eauto. }
      destruct (G _ _ _ D s [] eq_refl) as (w' & E). discriminate.
Qed.

(* crossing dependencies again: a b c c is not derived, but it is accepted once only the path to the stack pointer is kept; a b is
   not accepted; the hypotheses hold by C44_example *)
Definition trop_tts (grammar : bytes) (calls : nat) (text : bytes) : outcome bytes :=
  tts_parse word_eqb word_eqb trop_sum (P_Agenda.list_heap _ trop_pda_TO) (fun l => l) trop_io (fun x => x) (to_text trop_io) trop_reqb (fun r => pr_head r) (fun l => l) grammar calls text.
Example C47_tts_example : exists steps,
  trop_tts (grammar_text ex_m) 300 (lines_of [«"a b c c"»; «"a b"»]) = Done (some_line «"4"» steps «"a b c c"» ++ «"None: a b"» ++ newline) /\
  trop_tts (grammar_text ex_m) 2 (lines_of [«"a b"»]) = Running /\
  trop_mcfg 1 None false (grammar_text ex_m) 300 50 (lines_of [«"a b c c"»]) = Done newline.
Proof.
  assert (E : exists t, trop_tts (grammar_text ex_m) 300 (lines_of [«"a b c c"»; «"a b"»]) = Done t /\
    let n := length («"Some(Item(Configuration { word: [], storage: PushDown { elements: [Designated] }, weight: 4 }, "») in
    let k := length («")): a b c c"» ++ newline ++ «"None: a b"» ++ newline) in
    t = some_line «"4"» (firstn (length t - n - k) (skipn n t)) «"a b c c"» ++ «"None: a b"» ++ newline) by (eexists; split; [vm_compute; reflexivity|vm_compute; reflexivity]).
  destruct E as (t & E & E2). eexists. split; [rewrite E; f_equal; exact E2|]. split; vm_compute; reflexivity.
Qed.
