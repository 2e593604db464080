(* C44: what the command mcfg parse prints. *)
From Verif Require Import M_Nom Base BMap M_Util M_Agenda M_Search M_Recog M_Automata M_CFG M_TreeStack M_Grammar M_Chart M_FromPmcfg M_Negra M_Text M_Command M_Mcfg
  S_Recog S_TreeStack S_Grammar S_FromPmcfg S_Negra S_Text S_AutText S_Command S_Mcfg P_Agenda P_Search P_Util P_Recog P_Automata P_PDA P_TreeStack P_TSA P_Grammar P_GrammarCFG
  P_FromPmcfg P_FromPmcfg2 P_FromPmcfg3 P_FromPmcfg4 P_FromPmcfg5 P_Text P_AutText P_Command S_ConfText P_ConfText P_Mcfg M_AutText Properties_Negra Properties_RuleMask Properties_Text Properties_FromPmcfg Properties_Beam Properties_Chart Properties_CSParse Properties_Command.

(* C44: for a grammar in which each variable occurs once and in increasing order, whose rules consist of variables or of one
   terminal (only needed for the export format) and whose initial rules have no terminal, and for nonempty sentences: the
   command does not panic.  If it ends, then it prints, for each sentence in turn, at most n of its derivations, in order, each
   of them either in the export format with the number of the line (counted from 1) or as a configuration, and an empty line; without
   a beam these are the best n derivations, or all of them.  Without left recursion it ends, with or without a beam. *)
Theorem C44_mcfg_parse_partial :
  forall (K : ZWeight) (neqb teqb : bytes -> bytes -> bool) (reqb : prule bytes bytes K -> prule bytes bytes K -> bool),
  RoundLaws K -> EqbSpec neqb -> EqbSpec teqb -> EqbSpec reqb ->
  forall (H : max_heap (item (tstack nat) (ts_instr nat) nat K * K) (wi_leb wleb)) (Hb : minmax_heap (item (tstack nat) (ts_instr nat) nat K * K) (wi_leb wleb))
    (shuffle : list (transition (ts_instr nat) nat K) -> list (transition (ts_instr nat) nat K)), (forall l, Permutation (shuffle l) l) ->
  forall (iow : text_io K) (display : configuration (tstack (posstate (prule bytes bytes K))) bytes K -> bytes)
    (grammar : bytes) (init : list bytes) (rules : list (prule bytes bytes K)), text_means string_io (pmcfg_rule_syntax string_io string_io iow) grammar init rules ->
  forall (f : bytes -> nat), ordered_grammar f (PMCFG init rules : pmcfg bytes bytes K) -> (forall r, In r rules -> short_tails r) ->
  forall (negra : bool), (negra = true -> forall r, In r rules -> negra_normal (pr_comp r) /\ (In (pr_head r) init -> forall t, ~ In (Tm t) (List.concat (pr_comp r)))) ->
  forall (text : bytes) (sents : list (list bytes)), sentences text sents -> (forall s, In s sents -> s <> []) ->
  forall (n : nat) (beam : option nat),
  let run calls fuel := mcfg_parse neqb teqb reqb H Hb shuffle iow display grammar n beam negra calls fuel text in
  let text_for id tokens d out :=
    if negra then S_Command.shows id tokens d out
    else exists conf, c_word conf = [] /\ c_weight conf = read_weight d /\ S_FromPmcfg.shows (c_storage conf) d /\ holds_tree (c_storage conf) d /\ out = display conf ++ newline in
  (forall calls, exists F, (forall fuel, F <= fuel -> run calls fuel = Running) \/
     exists outs, (forall fuel, F <= fuel -> run calls fuel = Done (List.concat outs)) /\
       Forall2 (fun s out => printed init rules (beam = None) n (text_for (fst s) (snd s)) (snd s) out) (combine (seq 1 (length sents)) sents) outs) /\
  (forall rank, no_left_recursion rules rank ->
     exists calls0, forall calls, calls0 <= calls -> exists F outs, forall fuel, F <= fuel -> run calls fuel = Done outs).
Proof.
  intros K neqb teqb reqb KL NE TE RE H Hb shuffle SH iow display grammar init rules TM f OG ST negra HN text sents (ls & TL & HW) NZ n beam run text_for.
  destruct (C39_grammar_syntax bytes bytes K string_io string_io iow grammar init) as (_ & HG). destruct (HG rules TM) as (EG & _).
  assert (EM : exists M, tsa_from_pmcfg neqb reqb teqb (PMCFG init rules : pmcfg bytes bytes K) = Some M).
  { destruct (C55_runs bytes bytes K neqb reqb NE RE KL f _ OG) as (ts & ET & _). unfold tsa_from_pmcfg. rewrite ET. cbn. eauto. }
  destruct EM as (M & EM).
  assert (ER : forall calls fuel, run calls fuel = mcfg_lines teqb H Hb shuffle display M n beam negra calls fuel 0 ls).
  { intros calls fuel. unfold run, mcfg_parse. rewrite EG, EM. cbn [or_panic and_then]. now rewrite (text_lines_app text ls TL). }
  pose proof (fun calls => lines_give KL neqb teqb reqb NE TE RE H Hb shuffle SH display f init rules OG ST negra (fun E r Hr => proj1 (HN E r Hr)) (fun E r t Hr Hi => proj2 (HN E r Hr) Hi t) n beam M calls ls sents EM HW NZ 0) as HL.
  split.
  - intros calls. destruct (HL calls) as (F & [(_ & E)|(outs & HO & E)]); exists F; [left; intros fuel HF; now rewrite ER, E|right].
    exists outs. split; [intros fuel HF; now rewrite ER, E|]. clear -HO.
    assert (G : forall l i os, Forall2 (fun (s : nat * list bytes) out => printed init rules (beam = None) n (text_of display negra (fst s) (snd s)) (snd s) out) (combine (seq i (length l)) l) os ->
       Forall2 (fun (s : nat * list bytes) out => printed init rules (beam = None) n (text_for (fst s) (snd s)) (snd s) out) (combine (seq (S i) (length l)) l) os).
    { induction l as [|s l IH]; intros i os F; cbn [length seq combine] in *; inversion F as [|x out y os' HP HF]; subst; constructor; [|now apply IH]. cbn [fst snd] in *.
      unfold text_of in HP. replace (i + 1) with (S i) in HP by lia. exact HP. }
    exact (G sents 0 outs HO).
  - intros rank NL.
    assert (HC : exists calls0, forall calls word, calls0 <= calls -> In word sents -> over teqb H Hb shuffle M beam word calls).
    { clear -KL NE TE RE SH OG NL EM ST. induction sents as [|word sents (c0 & IH)]; [exists 0; intros ? ? _ []|].
      assert (HW : exists c1, forall calls, c1 <= calls -> over teqb H Hb shuffle M beam word calls).
      { destruct beam as [b|]; cbn [over].
        - destruct (C18_recognise_beam_partial bytes bytes K neqb reqb teqb NE RE TE KL f _ OG ST shuffle SH Hb b word) as (ts & M' & _ & EM' & _ & HE). rewrite EM in EM'. injection EM' as <-. exact (HE rank NL).
        - destruct (C18_recognise_ends_partial bytes bytes K neqb reqb teqb NE RE TE KL f _ OG rank NL shuffle SH H word) as (_ & M' & c1 & EM' & HE). rewrite EM in EM'. injection EM' as <-.
          exists c1. intros calls HC. apply ended_calls_iff. apply (ended_mono _ _ c1 calls); [lia| |now apply ended_calls_iff].
          destruct (C18_recognise_partial bytes bytes K neqb reqb teqb NE RE TE KL f _ OG ST shuffle SH H word calls) as (M' & outs & EM' & O1 & _). rewrite EM in EM'. injection EM' as <-.
          unfold tsa_recognise, recognise_with, recognise_int in O1. intros C. match type of O1 with context [search_calls_p ?A ?s ?c ?h] => assert (C' : search_calls_p A s c h = None) by exact C end. rewrite C' in O1. discriminate. }
      destruct HW as (c1 & HW). exists (Nat.max c0 c1). intros calls w HC [<-|Hw]; [apply HW; lia|apply IH; [lia|exact Hw]]. }
    destruct HC as (c0 & HC). exists c0. intros calls HCC. destruct (HL calls) as (F & [((word & Hw & NE') & _)|(outs & _ & E)]); [exfalso; apply NE'; now apply HC|].
    exists F, (List.concat outs). intros fuel HF. now rewrite ER, E.
Qed.
Print Assumptions C44_mcfg_parse_partial.

(* ---- examples ---- *)
Definition trop_rule_dec (x y : prule bytes bytes TropWeight) : {x = y} + {x <> y}.
Proof.
  assert (B : forall a b : bytes, {a = b} + {a <> b}) by (apply list_eq_dec, Ascii.ascii_dec).
  assert (V : forall a b : vart bytes, {a = b} + {a <> b}) by (decide equality; apply Nat.eq_dec).
  assert (W : forall a b : option nat, {a = b} + {a <> b}) by (decide equality; apply Nat.eq_dec).
  destruct x as [h t c w], y as [h' t' c' w']. destruct (B h h'); [|right; congruence]. destruct (list_eq_dec B t t'); [|right; congruence].
  destruct (list_eq_dec (list_eq_dec V) c c'); [|right; congruence]. destruct (W w w'); [left|right]; congruence.
Defined.
Definition trop_reqb (x y : prule bytes bytes TropWeight) : bool := if trop_rule_dec x y then true else false.
Lemma trop_reqb_spec : EqbSpec trop_reqb.
Proof. intros x y. unfold trop_reqb. destruct (trop_rule_dec x y); split; congruence. Qed.
Lemma trop_wi_TO : TotalOrder (wi_leb (I := item (tstack nat) (ts_instr nat) nat TropWeight) (wleb (w := TropWeight))).
Proof. apply wi_TO. exact (wl_order _ (zl_weight _ TropLaws)). Qed.
Definition trop_mcfg (n : nat) (beam : option nat) (negra : bool) (grammar : bytes) (calls fuel : nat) (text : bytes) : outcome bytes :=
  mcfg_parse word_eqb word_eqb trop_reqb (P_Agenda.list_heap _ trop_wi_TO) (P_Agenda.list_minmax _ trop_wi_TO) (fun l => l) trop_io (fun _ => «"(configuration)"») grammar n beam negra calls fuel text.
(* crossing dependencies: a a b c c *)
Definition ex_m : list (prule bytes bytes TropWeight) :=
  [ex_cr «"S"» [«"A"»; «"B"»] [[Var 0 0; Var 1 0; Var 0 1]] 1; ex_cr «"A"» [«"X"»; «"Y"»] [[Var 0 0]; [Var 1 0]] 1;
   ex_cr «"A"» [«"A"»; «"X"»; «"Y"»] [[Var 1 0; Var 0 0]; [Var 2 0; Var 0 1]] 1; ex_cr «"X"» [] [[Tm «"a"»]] 2; ex_cr «"Y"» [] [[Tm «"c"»]] 0; ex_cr «"B"» [] [[Tm «"b"»]] 0].
Definition ex_corpus : bytes := lines_of [«"a a b c c"»; «"a b"»].
Ltac ordered_by w := split; [|split; [|split]];
  [let r := fresh in let Hr := fresh in intros r Hr; in_cases Hr; reflexivity
  |let r := fresh in let Hr := fresh in intros r Hr; split; [|split; [apply (mono_check r true)|]; in_cases Hr; (reflexivity || discriminate)];
   in_cases Hr; (split; [cbn; repeat constructor; cbn; intuition congruence|split;
     [let i := fresh in let j := fresh in let H := fresh in intros i j H; cbn in H; solve_vars; eexists; cbn; (split; [reflexivity|cbn; lia])
     |let i := fresh in let B := fresh in let j := fresh in let H := fresh in let L := fresh in intros i B j H L; do 4 (try (destruct i as [|i])); cbn in H; try discriminate; injection H as <-; cbn in L; do 3 (try (destruct j as [|j])); cbn; auto 10; lia]])
  |w
  |let A := fresh in let HA := fresh in intros A HA; destruct HA as [<-|[]]; reflexivity].
Ltac short_by := let r := fresh in let Hr := fresh in intros r Hr; in_cases Hr;
  (split; [let c := fresh in let Hc := fresh in intros c Hc; cbn in Hc; solve_vars; subst; cbn; lia
          |let b := fresh in let a := fresh in let pre := fresh in let t := fresh in let E := fresh in intros b a pre t E; cbn in E; destruct b as [|? [|? [|? b]]]; discriminate]).
Definition ex_fan (A : bytes) : nat := if word_eqb A «"A"» then 2 else 1.
Definition ex_rank (A : bytes) (_ : nat) : nat := if word_eqb A «"S"» then 2 else if word_eqb A «"A"» then 1 else 0.
Example C44_example :
  text_means string_io (pmcfg_rule_syntax string_io string_io trop_io) (grammar_text ex_m) [«"S"»] ex_m /\
  ordered_grammar ex_fan (PMCFG [«"S"»] ex_m : pmcfg bytes bytes TropWeight) /\ (forall r, In r ex_m -> short_tails r) /\
  (forall r, In r ex_m -> negra_normal (pr_comp r) /\ (In (pr_head r) [«"S"»] -> forall t, ~ In (Tm t) (List.concat (pr_comp r)))) /\
  no_left_recursion ex_m ex_rank /\ NoDup ex_m /\
  sentences ex_corpus [[«"a"»; «"a"»; «"b"»; «"c"»; «"c"»]; [«"a"»; «"b"»]] /\
  trop_mcfg 3 None true (grammar_text ex_m) 200 50 ex_corpus = Done (
      block 1 [[«"a"»; «"X"»; «"--"»; «"--"»; «"500"»]; [«"a"»; «"X"»; «"--"»; «"--"»; «"501"»]; [«"b"»; «"B"»; «"--"»; «"--"»; «"0"»];
               [«"c"»; «"Y"»; «"--"»; «"--"»; «"500"»]; [«"c"»; «"Y"»; «"--"»; «"--"»; «"501"»]; [«"#500"»; «"A"»; «"--"»; «"--"»; «"0"»]; [«"#501"»; «"A"»; «"--"»; «"--"»; «"500"»]] ++
      newline ++ newline) /\
  trop_mcfg 3 None true (grammar_text ex_m) 2 50 ex_corpus = Running /\
  trop_mcfg 3 (Some 4) false (grammar_text ex_m) 200 50 ex_corpus = Done («"(configuration)"» ++ newline ++ newline ++ newline).
Proof.
  split; [|split; [|split; [|split; [|split; [|split; [|split; [|split; [|split]]]]]]]].
  - apply (lcfrs_shown string_io string_io trop_io (MCFG ex_m «"S"»)); [reflexivity| |not_in|].
    + split; [discriminate|]. intros a [<-|[]]. split; [not_in|discriminate].
    + cbn [mg_rules]. intros r Hr. unfold ex_m in Hr. in_cases Hr; show_rule.
  - unfold ex_m. ordered_by ltac:(idtac).
    intros r B Hr HB. in_cases Hr; cbn in HB; solve_vars; try contradiction; subst;
      first [exists (ex_cr «"A"» [«"X"»; «"Y"»] [[Var 0 0]; [Var 1 0]] 1); cbn; auto 10; fail|exists (ex_cr «"B"» [] [[Tm «"b"»]] 0); cbn; auto 10; fail|exists (ex_cr «"X"» [] [[Tm «"a"»]] 2); cbn; auto 10; fail|exists (ex_cr «"Y"» [] [[Tm «"c"»]] 0); cbn; auto 10; fail].
  - unfold ex_m. short_by.
  - intros r Hr. unfold ex_m in Hr. in_cases Hr; (split; [first [right; eexists; reflexivity|left; intros x Hx; cbn in Hx; solve_vars; subst; eauto]|]); cbn; intros [E|[]] t HI; try discriminate; solve_vars; try discriminate; try contradiction.
  - intros r j c Hr E. unfold ex_m in Hr. in_cases Hr; destruct j as [|[|[|j]]]; cbn in E; try discriminate; (injection E as <-; split; [discriminate|]); intros i k rest B E HB; try discriminate; injection E as <- <- <-; cbn in HB; injection HB as <-; cbn; lia.
  - unfold ex_m. repeat constructor; cbn; intuition discriminate.
  - exists [«"a a b c c"»; «"a b"»]. split.
    + assert (L : forall l, In (last l "x"%char) «"cb"» -> forall l', l <> l' ++ ["013"%char]) by (intros l HI l' ->; rewrite last_last in HI; destruct HI as [HI|[HI|[]]]; discriminate).
      apply (tl_cons «"a a b c c"» [] (lines_of [«"a b"»]) [«"a b"»]); [not_in|apply L; cbn; tauto|now left|]. apply (tl_cons «"a b"» [] [] []); [not_in|apply L; cbn; tauto|now left|constructor].
    + constructor; [cbn; read_words|constructor; [cbn; read_words|constructor]].
  - vm_compute. reflexivity.
  - vm_compute. reflexivity.
  - vm_compute. reflexivity.
Qed.

(* An empty line: the automaton accepts the empty word whatever the grammar (see C18_empty_word_accepted), there is no
   derivation to show, and the command panics if the export format was asked for; it does so whatever the grammar is. *)
Theorem C44_empty_line_refuted :
  forall (K : ZWeight) (neqb teqb : bytes -> bytes -> bool) (reqb : prule bytes bytes K -> prule bytes bytes K -> bool), EqbSpec teqb -> EqbSpec reqb ->
  forall (H : max_heap (item (tstack nat) (ts_instr nat) nat K * K) (wi_leb wleb)) (Hb : minmax_heap (item (tstack nat) (ts_instr nat) nat K * K) (wi_leb wleb))
    (shuffle : list (transition (ts_instr nat) nat K) -> list (transition (ts_instr nat) nat K)), (forall l, Permutation (shuffle l) l) ->
  forall (iow : text_io K) display (grammar text : bytes) (sents : list (list bytes)), sentences text sents -> In [] sents ->
  forall n calls fuel, 1 <= n ->
  let run := mcfg_parse neqb teqb reqb H Hb shuffle iow display grammar n None true calls fuel text in
  (forall out, run <> Done out) /\ (1 <= calls -> hd_error sents = Some [] -> run = Panics).
Proof.
  intros K neqb teqb reqb TE RE H Hb shuffle SH iow display grammar text sents (ls & TL & HW) HI n calls fuel HN run. unfold run, mcfg_parse.
  destruct (pmcfg_of_text _ _ _ grammar) as [g| |]; try (split; [discriminate|reflexivity]). unfold tsa_from_pmcfg. destruct (pmcfg_transitions neqb g) as [ts|]; cbn [option_map or_panic and_then]; [|split; [discriminate|reflexivity]].
  rewrite (text_lines_app text ls TL). set (M := tsa_new (posstate_eqb reqb) teqb ts (ts_new Initial)). clear run TL.
  assert (BAD : forall i line, words line [] -> mcfg_line teqb H Hb shuffle display M n None true calls fuel i line = if Nat.eqb calls 0 then Running else Panics).
  { intros i line HL. unfold mcfg_line. rewrite (words_split line [] HL). unfold found. destruct calls as [|calls].
    - cbn. rewrite firstn_nil. cbn. destruct n; [lia|reflexivity].
    - cbn [Nat.eqb]. destruct (tsa_recognise teqb shuffle M H [] (S calls)) as [outs|] eqn:ER; [|reflexivity]. cbn [or_panic and_then].
      destruct (coded_first _ _ _ _ _ _ _ _ _ _ _ _ _ (tsa_coded (posstate_eqb reqb) teqb (peqb_spec reqb RE) TE ts (ts_new Initial) shuffle SH) H calls outs eq_refl ER) as (rest & ->).
      destruct n as [|n]; [lia|]. reflexivity. }
  assert (G : forall sents ls i, Forall2 words ls sents -> In [] sents -> (forall out, mcfg_lines teqb H Hb shuffle display M n None true calls fuel i ls <> Done out) /\
     (1 <= calls -> hd_error sents = Some [] -> mcfg_lines teqb H Hb shuffle display M n None true calls fuel i ls = Panics)).
  { clear -BAD. induction sents as [|s sents IH]; intros ls i HW HI; [destruct HI|]. inversion HW as [|line ? ls' ? W1 W2]; subst. cbn [mcfg_lines hd_error]. split.
    - intros out. destruct HI as [->|HI].
      + rewrite (BAD i line W1). destruct (Nat.eqb calls 0); discriminate.
      + destruct (mcfg_line _ _ _ _ _ _ _ _ _ _ _ i line); try discriminate. cbn [and_then]. destruct (mcfg_lines _ _ _ _ _ _ _ _ _ _ _ (S i) ls') eqn:E; try discriminate. exfalso. eapply (proj1 (IH ls' (S i) W2 HI)). exact E.
    - intros HC E. injection E as ->. rewrite (BAD i line W1). destruct calls; [lia|reflexivity]. }
  apply G; assumption.
Qed.
Print Assumptions C44_empty_line_refuted.
Example C44_empty_line_case : sentences (lines_of [«"a b"»; []]) [[«"a"»; «"b"»]; []] /\ trop_mcfg 1 None true (grammar_text ex_m) 50 50 (lines_of [«"a b"»; []]) = Panics.
Proof.
  split; [|vm_compute; reflexivity]. exists [«"a b"»; []]. split.
  - apply (tl_cons «"a b"» [] (lines_of [[]]) [[]]); [not_in|intros [|? [|? [|? [|? ?]]]]; discriminate|now left|]. apply (tl_cons [] [] [] []); [intros []|intros [|? ?]; discriminate|now left|constructor].
  - constructor; [cbn; read_words|constructor; [apply wd_nil; intros ? []|constructor]].
Qed.

(* A left-recursive grammar: the sentence b has no derivation and the command never gets to its end. *)
Definition ex_l : list (prule bytes bytes TropWeight) :=
  [ex_cr «"S"» [«"S"»; «"B"»] [[Var 0 0; Var 1 0]] 1; ex_cr «"S"» [«"A"»] [[Var 0 0]] 1; ex_cr «"A"» [] [[Tm «"a"»]] 0; ex_cr «"B"» [] [[Tm «"b"»]] 0].
Theorem C44_left_recursion_refuted :
  text_means string_io (pmcfg_rule_syntax string_io string_io trop_io) (grammar_text ex_l) [«"S"»] ex_l /\
  ordered_grammar (fun _ => 1) (PMCFG [«"S"»] ex_l : pmcfg bytes bytes TropWeight) /\ (forall r, In r ex_l -> short_tails r) /\
  (forall r, In r ex_l -> negra_normal (pr_comp r) /\ (In (pr_head r) [«"S"»] -> forall t, ~ In (Tm t) (List.concat (pr_comp r)))) /\
  sentences (lines_of [«"b"»]) [[«"b"»]] /\ (forall d, ~ parse_from [«"S"»] ex_l [«"b"»] d) /\
  forall negra calls fuel, trop_mcfg 1 None negra (grammar_text ex_l) calls fuel (lines_of [«"b"»]) = Running.
Proof.
  assert (TM : text_means string_io (pmcfg_rule_syntax string_io string_io trop_io) (grammar_text ex_l) [«"S"»] ex_l).
  { apply (lcfrs_shown string_io string_io trop_io (MCFG ex_l «"S"»)); [reflexivity| |not_in|].
    - split; [discriminate|]. intros a [<-|[]]. split; [not_in|discriminate].
    - cbn [mg_rules]. intros r Hr. unfold ex_l in Hr. in_cases Hr; show_rule. }
  assert (OG : ordered_grammar (fun _ => 1) (PMCFG [«"S"»] ex_l : pmcfg bytes bytes TropWeight)).
  { unfold ex_l. ordered_by ltac:(idtac).
    intros r B Hr HB. in_cases Hr; cbn in HB; solve_vars; try contradiction; subst;
      first [exists (ex_cr «"S"» [«"A"»] [[Var 0 0]] 1); cbn; auto 10; fail|exists (ex_cr «"A"» [] [[Tm «"a"»]] 0); cbn; auto 10; fail|exists (ex_cr «"B"» [] [[Tm «"b"»]] 0); cbn; auto 10; fail]. }
  assert (ST : forall r, In r ex_l -> short_tails r) by (unfold ex_l; short_by).
  assert (WB : words «"b"» [«"b"»]) by (cbn; read_words).
  assert (TL : text_lines (lines_of [«"b"»]) [«"b"»]) by (apply (tl_cons «"b"» [] [] []); [not_in|intros [|x [|y l]] E; discriminate|now left|constructor]).
  assert (NP : forall d, ~ parse_from [«"S"»] ex_l [«"b"»] d).
  { assert (G : forall d A ws, deriv (fun r => In r ex_l) A d -> A = «"S"» \/ A = «"A"» -> yield d = Some ws -> exists w, ws = [«"a"» :: w]).
    { induction d as [r ds IH] using dtree_ind2. intros A ws HD HA HY. apply deriv_inv in HD. destruct HD as (HR & E & HF). rewrite yield_eq in HY. rewrite Forall_forall in IH. unfold ex_l in HR.
      in_cases HR; cbn [pr_tail pr_head pr_comp ex_cr] in *.
      - inversion HF as [|B d1 ? l1 D1 F1]; subst. cbn [opt_all sval nth_error map] in HY. destruct (yield d1) as [w1|] eqn:Y1; [|cbn in HY; discriminate]. destruct (IH d1 (or_introl eq_refl) _ w1 D1 (or_introl eq_refl) Y1) as (w & ->).
        inversion F1 as [|B2 d2 ? l2 D2 F2]; subst. clear D2 F2 D1 F1 HF IH Y1. revert HY. cbn. match goal with |- context [@yield ?a ?b ?c d2] => destruct (@yield a b c d2) as [[|w2 ?]|] end; cbn; try discriminate. intros HY. injection HY as <-. eexists. reflexivity.
      - inversion HF as [|B d1 ? l1 D1 F1]; subst. cbn [opt_all sval nth_error map] in HY. destruct (yield d1) as [w1|] eqn:Y1; [|cbn in HY; discriminate]. destruct (IH d1 (or_introl eq_refl) _ w1 D1 (or_intror eq_refl) Y1) as (w & ->).
        cbn in HY. injection HY as <-. eexists. reflexivity.
      - cbn in HY. injection HY as <-. exists []. reflexivity.
      - subst A. destruct HA; discriminate. }
    intros d (A & [<-|[]] & HD & HY). destruct (G d _ _ HD (or_introl eq_refl) HY) as (w & E). discriminate. }
  split; [exact TM|]. split; [exact OG|]. split; [exact ST|]. split; [|split; [|split; [exact NP|]]].
  - intros r Hr. unfold ex_l in Hr. in_cases Hr; (split; [first [right; eexists; reflexivity|left; intros x Hx; cbn in Hx; solve_vars; subst; eauto]|]); cbn; intros [E|[]] t HI; try discriminate; solve_vars; try discriminate; try contradiction.
  - exists [«"b"»]. split; [exact TL|constructor; [exact WB|constructor]].
  - intros negra calls fuel. unfold trop_mcfg, mcfg_parse.
    destruct (C39_grammar_syntax bytes bytes TropWeight string_io string_io trop_io (grammar_text ex_l) [«"S"»]) as (_ & HG). rewrite (proj1 (HG _ TM)).
    set (H := P_Agenda.list_heap _ trop_wi_TO). set (Hb := P_Agenda.list_minmax _ trop_wi_TO).
    destruct (C18_left_recursion_never_ends bytes bytes TropWeight word_eqb trop_reqb word_eqb word_eqb_spec trop_reqb_spec word_eqb_spec (zl_weight _ TropLaws) _ _ OG (ex_cr «"S"» [«"S"»; «"B"»] [[Var 0 0; Var 1 0]] 1) 0 [Var 1 0] [] (or_introl eq_refl) (or_introl eq_refl) eq_refl eq_refl) as (ts & M & ET & EM & HE).
    rewrite EM. cbn [or_panic and_then]. rewrite (text_lines_app _ _ TL). cbn [mcfg_lines].
    assert (EL : mcfg_line word_eqb H Hb (fun l => l) (fun _ => «"(configuration)"») M 1 None negra calls fuel 0 «"b"» = Running); [|now rewrite EL].
    destruct (found_gives (zl_weight _ TropLaws) word_eqb word_eqb trop_reqb word_eqb_spec word_eqb_spec trop_reqb_spec H Hb (fun l => l) (fun l => Permutation_refl l) (fun _ => 1) [«"S"»] ex_l OG ST M None [«"b"»] calls EM ltac:(discriminate)) as (outs & ended & ds & EF & F2 & EE & _).
    unfold mcfg_line. rewrite (words_split _ _ WB), EF. cbn [or_panic and_then]. inversion F2 as [|x d ? ? G1 _]; subst; [|exfalso; apply (NP d); apply G1]. cbn [firstn print_parses and_then length Nat.leb orb].
    destruct ended; [|reflexivity]. exfalso. refine (HE [«"b"»] _ (fun l => l) (fun l => Permutation_refl l) H calls (proj1 EE eq_refl)).
    intros x [<-|[]]. assert (EX : existsb (fun t => existsb (word_eqb «"b"») (t_word t)) ts = true) by (vm_compute in ET; injection ET as <-; vm_compute; reflexivity).
    apply existsb_exists in EX. destruct EX as (t & Ht & Hx). apply existsb_exists in Hx. destruct Hx as (y & Hy & E). apply word_eqb_spec in E. subst y. eauto.
Qed.
Print Assumptions C44_left_recursion_refuted.
