(* C45: what the command cfg parse prints. *)
From Coq Require Import Sorted.
From Verif Require Import M_Nom Base M_Util M_Recog M_Agenda M_Search M_Automata M_CFG M_Grammar M_Chart M_Text M_AutText M_Negra M_Command M_Mcfg M_CfgCommand
  S_Search S_Util S_Recog S_Automata S_CFG S_Text S_AutText S_Command S_Mcfg S_CfgCommand P_Agenda P_Search P_Util P_Recog P_Automata P_PDA P_CFG P_Text P_AutText P_Command P_Beam P_CfgEnds P_Mcfg P_CfgCommand
  Properties_Text Properties_Automata Properties_CFG Properties_Beam Properties_CfgEnds Properties_Chart Properties_CSParse Properties_Command.

(* C45: for every grammar file and every text the command does not panic.  If no two rules coincide up to weight and the command
   ends, then it prints, for each sentence in turn, a line for each of at most n of its derivations, with the weight of the
   derivation, in order, and an empty line; without a beam these are the best n derivations, or all of them.  Without left
   recursion it ends, with or without a beam. *)
Theorem C45_cfg_parse_partial :
  forall (K : ZWeight) (neqb teqb : bytes -> bytes -> bool), RoundLaws K -> EqbSpec neqb -> EqbSpec teqb ->
  forall (wadd : K -> K -> K), (forall x, wadd wzero x = x) ->
  forall (H : max_heap (item (list nat) (pd_instr nat) nat K * K) (wi_leb wleb)) (Hb : minmax_heap (item (list nat) (pd_instr nat) nat K * K) (wi_leb wleb))
    (shuffle : list (transition (pd_instr nat) nat K) -> list (transition (pd_instr nat) nat K)), (forall l, Permutation (shuffle l) l) ->
  forall (order : list bytes -> list bytes), (forall l, Permutation (order l) l) ->
  forall (iow : text_io K) (debug_string : bytes -> bytes) (debug_weight : K -> bytes)
    (grammar : bytes) (init : list bytes) (rules : list (cfg_rule bytes bytes K)), text_means string_io (cfg_rule_syntax string_io string_io iow) grammar init rules ->
  forall (text : bytes) (sents : list (list bytes)), sentences text sents ->
  forall (n : nat) (beam : option nat),
  let run calls := cfg_parse neqb teqb wadd H Hb shuffle order iow debug_string debug_weight grammar n beam calls text in
  let line_of k := «"Configuration { word: [], storage: PushDown { elements: [Designated] }, weight: "» ++ debug_weight k ++ «" }"» ++ newline in
  (forall calls, run calls <> Panics) /\
  (cfg_distinct (CFG init rules : cfg bytes bytes K) -> forall calls, run calls = Running \/
     exists outs, run calls = Done (List.concat outs) /\ Forall2 (cfg_printed init rules (beam = None) n line_of) sents outs) /\
  (forall rank, cfg_no_left_recursion rules rank -> exists calls0, forall calls, calls0 <= calls -> exists out, run calls = Done out).
Proof.
  intros K neqb teqb KL NE TE wadd WZ H Hb shuffle SH order OR iow debug_string debug_weight grammar init rules TM text sents (ls & TL & HW) n beam run line_of.
  destruct (C39_grammar_syntax bytes bytes K string_io string_io iow grammar init) as (HG & _). pose proof (HG rules TM) as EG.
  set (g := CFG init rules : cfg bytes bytes K) in *. pose proof (ps_eqb_spec neqb teqb NE TE) as PE.
  destruct (C16_cfg_pda_language bytes bytes K neqb teqb NE TE KL wadd wzero order OR g) as (M & EM & HL). pose proof EM as EM'. unfold pda_from_cfg in EM'.
  assert (ER : forall calls, run calls = cfg_lines teqb H Hb shuffle debug_string debug_weight M n beam calls ls).
  { intros calls. unfold run, cfg_parse. rewrite EG. fold g. rewrite EM. cbn [or_panic and_then]. now rewrite (text_lines_app text ls TL). }
  assert (NZ : forall word us s rest, executes (pdi_apply (ps_eqb neqb teqb)) [Designated; Initial] us s -> (forall t, In t us -> merged wadd wzero (ps_eqb neqb teqb) teqb (cfg_transitions teqb order g) t) -> run_word us ++ rest = word -> s <> []).
  { intros word us s rest X1 X2 _. destruct (cfg_stack_bottom neqb teqb NE TE order OR g wadd wzero us _ _ X1 X2) as [r ->]; [eauto|discriminate]. }
  assert (DEF : forall word calls, exists outs ended, cfg_found teqb H Hb shuffle M beam word calls = (Some outs, ended) /\ (ended = true <-> cfg_over teqb H Hb shuffle M beam word calls)).
  { intros word calls. destruct beam as [b|].
    - destruct (C14_pda_beam_search _ _ K wadd wzero _ teqb PE TE KL _ _ shuffle SH M EM' Hb b word) as [_ D]. destruct (proj1 (D (NZ word)) calls) as (outs & E). exists outs. eexists. split; [unfold cfg_found; rewrite E; reflexivity|apply ended_calls_iff].
    - destruct (proj1 (HL shuffle SH H word) calls) as (outs & E & _). exists outs. eexists. split; [unfold cfg_found; rewrite E; reflexivity|apply ended_calls_iff]. }
  assert (LN : forall l calls, cfg_lines teqb H Hb shuffle debug_string debug_weight M n beam calls l <> Panics).
  { induction l as [|line l IH]; intros calls; [discriminate|]. cbn [cfg_lines]. unfold cfg_line. destruct (DEF (split_whitespace [] line) calls) as (outs & ended & E & _). rewrite E. cbn [or_panic and_then].
    destruct (Nat.leb n (length outs) || ended); [|discriminate]. cbn [and_then]. specialize (IH calls). destruct (cfg_lines _ _ _ _ _ _ _ _ _ _ l); [discriminate|discriminate|congruence]. }
  split; [intros calls; rewrite ER; apply LN|]. split.
  - intros DI calls. rewrite ER. destruct (cfg_lines_give KL neqb teqb NE TE wadd WZ H Hb shuffle SH order OR debug_string debug_weight init rules DI n beam M calls ls sents EM HW) as [(_ & E)|(outs & HO & E)]; [now left|right].
    exists outs. split; [exact E|exact HO].
  - intros rank NL.
    assert (OV : forall word, exists c0, forall calls, c0 <= calls -> cfg_over teqb H Hb shuffle M beam word calls).
    { intros word. destruct (all_bounded neqb teqb NE TE order OR g rank NL wadd wzero word) as (bound & HB). destruct beam as [b|]; cbn [cfg_over].
      - destruct (C14_pda_beam_search _ _ K wadd wzero _ teqb PE TE KL _ _ shuffle SH M EM' Hb b word) as [_ D]. exact (proj2 (D (NZ word)) bound HB).
      - destruct (C16_cfg_ends bytes bytes K neqb teqb NE TE KL wadd wzero order OR g rank NL) as (M' & EM2 & HE). rewrite EM in EM2. injection EM2 as <-. destruct (HE shuffle SH H Hb 0 word) as ((c0 & _ & EN & _) & _).
        exists c0. intros calls HC. apply ended_calls_iff. apply (ended_mono _ _ c0 calls); [exact HC| |now apply ended_calls_iff].
        destruct (proj1 (HL shuffle SH H word) calls) as (outs & E & _). unfold pda_recognise, recognise_with, recognise_int in E. intros C.
        match type of E with context [search_calls_p ?A ?s ?c ?h] => assert (C' : search_calls_p A s c h = None) by exact C end. rewrite C' in E. discriminate. }
    assert (G : forall l, exists c0, forall calls, c0 <= calls -> exists out, cfg_lines teqb H Hb shuffle debug_string debug_weight M n beam calls l = Done out).
    { induction l as [|line l (c1 & IH)]; [exists 0; intros; eexists; reflexivity|]. destruct (OV (split_whitespace [] line)) as (c0 & HO). exists (Nat.max c0 c1). intros calls HC. cbn [cfg_lines]. unfold cfg_line.
      destruct (DEF (split_whitespace [] line) calls) as (outs & ended & E & EE). rewrite E. cbn [or_panic and_then]. rewrite (proj2 EE (HO calls ltac:(lia))), orb_true_r. cbn [and_then].
      destruct (IH calls ltac:(lia)) as (out & EO). rewrite EO. eexists. reflexivity. }
    destruct (G ls) as (c0 & HC). exists c0. intros calls HCC. rewrite ER. now apply HC.
Qed.
Print Assumptions C45_cfg_parse_partial.

(* ---- examples ---- *)
Definition ex_r (h : bytes) (rhs : list (lettert bytes bytes)) (w : nat) : cfg_rule bytes bytes TropWeight := CFGRule (K := TropWeight) h rhs (Some w).
Definition cfg_file (rules : list (cfg_rule bytes bytes TropWeight)) : bytes :=
  lines_of («"initial: [S]"» :: map (cfg_rule_text string_io string_io trop_io) rules).
Definition plain_line (l : bytes) : bool := match l with [] => false | a :: _ => negb (is_white a) && negb (beqb a "%"%char) && negb (beqb a "i"%char) end &&
  negb (is_white (last l " "%char)) && forallb (fun a => negb (beqb a "010"%char)) l.
Lemma cfg_file_means rules : (forall r, In r rules -> showable_cfg_rule string_io string_io trop_io r /\ plain_line (cfg_rule_text string_io string_io trop_io r) = true) ->
  text_means string_io (cfg_rule_syntax string_io string_io trop_io) (cfg_file rules) [«"S"»] rules.
Proof.
  intros HR. unfold cfg_file, lines_of. cbn [map List.concat]. rewrite <- app_assoc. apply (tm_line string_io (cfg_rule_syntax string_io string_io trop_io) «"initial: [S]"» [«"S"»] [] _ [] rules).
  - not_in.
  - intros l' E. apply (f_equal (@rev _)) in E. rewrite rev_app_distr in E. discriminate.
  - apply (lm_initial string_io _ [" "%char] «"[S]"» [] [«"S"»]); [intros a [<-|[]]; now left|].
    exists [], «"S"». split; [intros a []|]. split; [|reflexivity]. rewrite <- (app_nil_r «"S"»). apply (it_cons (token string_io) «","» _ «"S"» [] [] «"S"» []); [intros a []| |constructor].
    exists «"S"». split; [reflexivity|]. right. split; [reflexivity|]. split; [|right; eexists _, _; split; [reflexivity|cbn; tauto]]. split; [discriminate|]. intros a [<-|[]]. split; [not_in|discriminate].
  - induction rules as [|r rules IH]; [constructor|]. cbn [map List.concat]. rewrite <- app_assoc. destruct (HR r (or_introl eq_refl)) as [SR PL].
    unfold plain_line in PL. apply andb_true_iff in PL. destruct PL as [PL P3]. apply andb_true_iff in PL. destruct PL as [P1 P2]. rewrite forallb_forall in P3.
    assert (LA : forall t' a, cfg_rule_text string_io string_io trop_io r = t' ++ [a] -> is_white a = false) by (intros t' a E; rewrite E, last_last in P2; now apply negb_true_iff).
    apply (tm_line string_io (cfg_rule_syntax string_io string_io trop_io) (cfg_rule_text string_io string_io trop_io r) [] [r] _ [] rules).
    + intros HI. apply P3 in HI. discriminate.
    + intros l' E. apply LA in E. discriminate.
    + rewrite <- (app_nil_l (cfg_rule_text string_io string_io trop_io r)), <- (app_nil_r (cfg_rule_text string_io string_io trop_io r)).
      apply lm_rule; [intros c []|intros c []|now apply cfg_rule_shown|..].
      * intros a t' E. rewrite E in P1. apply andb_true_iff in P1. destruct P1 as [P1 _]. apply andb_true_iff in P1. destruct P1 as [P1 _]. now apply negb_true_iff.
      * intros a t' E. now apply LA in E.
      * intros z E. rewrite E in P1. discriminate.
      * intros z E. rewrite E in P1. discriminate.
    + apply IH. intros r' Hr'. apply HR. now right.
Qed.
Ltac show_cfg_rule := split; [split; [split; [reflexivity|plain]|split; [split; [reflexivity|split; [discriminate|cbn; intros; repeat match goal with H : _ \/ _ |- _ => destruct H as [<-|H] end; [reflexivity|contradiction]]]
  |cbn; intros; repeat match goal with H : _ \/ _ |- _ => destruct H as [<-|H] end; try contradiction; (split; [reflexivity|plain])]]|vm_compute; reflexivity].
Lemma trop_pda_TO : TotalOrder (wi_leb (I := item (list nat) (pd_instr nat) nat TropWeight) (wleb (w := TropWeight))).
Proof. apply wi_TO. exact (rl_order _ (zl_weight _ TropLaws)). Qed.
(* weights are added as costs *)
Definition trop_sum (x y : TropWeight) : TropWeight := match x, y with Some a, Some b => Some (a + b) | Some a, None => Some a | None, y => y end.
Definition trop_cfg (grammar : bytes) (n : nat) (beam : option nat) (calls : nat) (text : bytes) : outcome bytes :=
  cfg_parse word_eqb word_eqb trop_sum (P_Agenda.list_heap _ trop_pda_TO) (P_Agenda.list_minmax _ trop_pda_TO) (fun l => l) (fun l => l) trop_io (fun x => x) (to_text trop_io) grammar n beam calls text.
Definition conf_line (w : bytes) : bytes := «"Configuration { word: [], storage: PushDown { elements: [Designated] }, weight: "» ++ w ++ «" }"» ++ newline.
(* S -> A S | (empty), A -> a with cost 1, A -> a a with cost 3 *)
Definition ex_c : list (cfg_rule bytes bytes TropWeight) :=
  [ex_r «"S"» [Label «"A"»; Label «"S"»] 0; ex_r «"S"» [] 0; ex_r «"A"» [Value «"a"»] 1; ex_r «"A"» [Value «"a"»; Value «"a"»] 3].
Example C45_example :
  text_means string_io (cfg_rule_syntax string_io string_io trop_io) (cfg_file ex_c) [«"S"»] ex_c /\
  (forall x, trop_sum wzero x = x) /\ cfg_distinct (CFG [«"S"»] ex_c : cfg bytes bytes TropWeight) /\
  cfg_no_left_recursion ex_c (fun A => if word_eqb A «"S"» then 1 else 0) /\
  sentences (lines_of [«"a a"»; []; «"b"»]) [[«"a"»; «"a"»]; []; [«"b"»]] /\
  trop_cfg (cfg_file ex_c) 5 None 100 (lines_of [«"a a"»; []; «"b"»]) = Done (conf_line «"2"» ++ conf_line «"3"» ++ newline ++ conf_line «"0"» ++ newline ++ newline) /\
  trop_cfg (cfg_file ex_c) 1 (Some 3) 100 (lines_of [«"a a"»; []; «"b"»]) = Done (conf_line «"2"» ++ newline ++ conf_line «"0"» ++ newline ++ newline) /\
  trop_cfg (cfg_file ex_c) 5 None 2 (lines_of [«"a a"»]) = Running.
Proof.
  split; [|split; [|split; [|split; [|split; [|split; [|split]]]]]]; [| | | | |vm_compute; reflexivity|vm_compute; reflexivity|vm_compute; reflexivity].
  - apply cfg_file_means. intros r Hr. unfold ex_c in Hr. in_cases Hr; show_cfg_rule.
  - intros [x|]; reflexivity.
  - split; unfold ex_c; cbn; repeat first [apply NoDup_nil | apply NoDup_cons; [cbn; intuition discriminate|]].
  - intros r before B after Hr E (ds & V). unfold ex_c in Hr.
    assert (NV : forall bs ds x w, leftmost (fun r => In r ex_c) (x :: bs) ds w -> x = Label «"A"» -> w <> []).
    { intros bs ds' x w L EX EW. subst. inversion L as [| |r0 alpha ds0 w0 Hr0 L0 EE]; subst. unfold ex_c in Hr0. in_cases Hr0; cbn in EE; try discriminate; cbn in L0; inversion L0; discriminate. }
    in_cases Hr; cbn in E; try (destruct before as [|? [|? [|? ?]]]; discriminate).
    destruct before as [|x [|y [|? ?]]]; cbn in E; try discriminate; injection E; intros; subst; try (cbn; lia). exfalso. eapply NV; [exact V|reflexivity|reflexivity].
  - exists [«"a a"»; []; «"b"»]. split.
    + apply (tl_cons «"a a"» [] (lines_of [[]; «"b"»]) [[]; «"b"»]); [not_in|intros [|? [|? [|? [|? ?]]]]; discriminate|now left|]. apply (tl_cons [] [] (lines_of [«"b"»]) [«"b"»]); [intros []|intros [|? ?]; discriminate|now left|].
      apply (tl_cons «"b"» [] [] []); [not_in|intros [|? [|? ?]]; discriminate|now left|constructor].
    + constructor; [cbn; read_words|constructor; [apply wd_nil; intros ? []|constructor; [cbn; read_words|constructor]]].
Qed.

(* A grammar with a repeated rule: S -> a with cost 1 and with cost 2.  There are two derivations; one line is printed, and its
   weight, the sum, is the weight of neither. *)
Definition ex_rep : list (cfg_rule bytes bytes TropWeight) := [ex_r «"S"» [Value «"a"»] 1; ex_r «"S"» [Value «"a"»] 2].
Theorem C45_repeated_rule_refuted :
  text_means string_io (cfg_rule_syntax string_io string_io trop_io) (cfg_file ex_rep) [«"S"»] ex_rep /\
  sentences (lines_of [«"a"»]) [[«"a"»]] /\
  (forall ds, cfg_derivation [«"S"»] ex_rep [«"a"»] ds <-> exists r, In r ex_rep /\ ds = [r]) /\
  trop_cfg (cfg_file ex_rep) 2 None 10 (lines_of [«"a"»]) = Done (conf_line «"3"» ++ newline).
Proof.
  split; [|split; [|split]].
  - apply cfg_file_means. intros r Hr. unfold ex_rep in Hr. in_cases Hr; show_cfg_rule.
  - exists [«"a"»]. split; [apply (tl_cons «"a"» [] [] []); [not_in|intros [|? [|? ?]]; discriminate|now left|constructor]|]. constructor; [cbn; read_words|constructor].
  - intros ds. split.
    + intros (s & [<-|[]] & L). inversion L as [| |r alpha ds' w Hr L' E]; subst. exists r. split; [exact Hr|]. f_equal. unfold ex_rep in Hr. in_cases Hr; cbn in L'; inversion L' as [|? ? ? ? L2|]; subst; inversion L2; reflexivity.
    + intros (r & Hr & ->). exists «"S"». split; [now left|]. pose proof Hr as Hr'. unfold ex_rep in Hr'. in_cases Hr'; [apply (lm_label _ (ex_r «"S"» [Value «"a"»] 1) [])|apply (lm_label _ (ex_r «"S"» [Value «"a"»] 2) [])]; try exact Hr; cbn; apply lm_value; constructor.
  - vm_compute. reflexivity.
Qed.
Print Assumptions C45_repeated_rule_refuted.

(* A left-recursive grammar: S -> S b | a.  The sentence b has no derivation and the command never gets to its end. *)
Definition ex_left : list (cfg_rule bytes bytes TropWeight) := [ex_r «"S"» [Label «"S"»; Value «"b"»] 1; ex_r «"S"» [Value «"a"»] 1].
Theorem C45_left_recursion_refuted :
  text_means string_io (cfg_rule_syntax string_io string_io trop_io) (cfg_file ex_left) [«"S"»] ex_left /\
  cfg_distinct (CFG [«"S"»] ex_left : cfg bytes bytes TropWeight) /\
  sentences (lines_of [«"b"»]) [[«"b"»]] /\ (forall ds, ~ cfg_derivation [«"S"»] ex_left [«"b"»] ds) /\
  forall calls, trop_cfg (cfg_file ex_left) 1 None calls (lines_of [«"b"»]) = Running.
Proof.
  assert (TM : text_means string_io (cfg_rule_syntax string_io string_io trop_io) (cfg_file ex_left) [«"S"»] ex_left).
  { apply cfg_file_means. intros r Hr. unfold ex_left in Hr. in_cases Hr; show_cfg_rule. }
  assert (DI : cfg_distinct (CFG [«"S"»] ex_left : cfg bytes bytes TropWeight)) by (split; unfold ex_left; cbn; repeat first [apply NoDup_nil | apply NoDup_cons; [cbn; intuition discriminate|]]).
  assert (WB : words «"b"» [«"b"»]) by (cbn; read_words).
  assert (TL : text_lines (lines_of [«"b"»]) [«"b"»]) by (apply (tl_cons «"b"» [] [] []); [not_in|intros [|x [|y l]] E; discriminate|now left|constructor]).
  assert (ND : forall ds, ~ cfg_derivation [«"S"»] ex_left [«"b"»] ds).
  { assert (G : forall alpha ds w, leftmost (fun r => In r ex_left) alpha ds w -> forall beta, alpha = Label «"S"» :: beta -> exists w', w = «"a"» :: w').
    { induction 1 as [|x alpha ds w _ _|r alpha ds w Hr L IH]; intros beta E; try discriminate. unfold ex_left in Hr. in_cases Hr; cbn in *.
      - eapply IH. reflexivity.
      - inversion L; subst. eauto. }
    intros ds (s & [<-|[]] & L). destruct (G _ _ _ L [] eq_refl) as (w' & E). discriminate. }
  split; [exact TM|]. split; [exact DI|]. split; [exists [«"b"»]; split; [exact TL|constructor; [exact WB|constructor]]|]. split; [exact ND|]. intros calls.
  unfold trop_cfg, cfg_parse. destruct (C39_grammar_syntax bytes bytes TropWeight string_io string_io trop_io (cfg_file ex_left) [«"S"»]) as (HG & _). rewrite (HG _ TM).
  set (H := P_Agenda.list_heap _ trop_pda_TO). set (Hb := P_Agenda.list_minmax _ trop_pda_TO).
  assert (LD : leads ex_left «"S"» 1 «"S"») by (apply (leads_rule ex_left (ex_r «"S"» [Label «"S"»; Value «"b"»] 1) [] «"S"» [Value «"b"»] 0); [now left|reflexivity|exists []; constructor|constructor]).
  destruct (C16_left_recursion_never_ends bytes bytes TropWeight word_eqb word_eqb word_eqb_spec word_eqb_spec (zl_weight _ TropLaws) trop_sum wzero (fun l => l) (fun l => Permutation_refl l) (CFG [«"S"»] ex_left) «"S"» 0 «"S"» 0 (or_introl eq_refl) (leads_none _ _) LD) as (M & EM & HE).
  rewrite EM. cbn [or_panic and_then]. rewrite (text_lines_app _ _ TL). cbn [cfg_lines].
  assert (WZ : forall x, trop_sum wzero x = x) by (intros [x|]; reflexivity).
  destruct (cfg_found_gives (zl_weight _ TropLaws) word_eqb word_eqb word_eqb_spec word_eqb_spec trop_sum WZ H Hb (fun l => l) (fun l => Permutation_refl l) (fun l => l) (fun l => Permutation_refl l) [«"S"»] ex_left DI M None [«"b"»] calls EM) as (outs & ended & ds & EF & F2 & EE & _).
  unfold cfg_line. rewrite (words_split _ _ WB), EF. cbn [or_panic and_then]. inversion F2 as [|x d ? ? (s & I1 & L & _) _]; subst; [|exfalso; apply (ND d); exists s; auto]. cbn [length Nat.leb orb].
  destruct ended; [|reflexivity]. exfalso. refine (HE (fun l => l) (fun l => Permutation_refl l) H [«"b"»] _ calls (proj1 EE eq_refl)).
  intros x [<-|[]]. exists (ex_r «"S"» [Label «"S"»; Value «"b"»] 1). split; [now left|]. cbn. auto.
Qed.
Print Assumptions C45_left_recursion_refuted.
