(* C55: cfg parse with doubles. *)
From Coq Require Import ZArith Reals Lra Sorted.
From Flocq Require Import Core BinarySingleNaN.
From Verif Require Import M_Nom Base BMap M_Agenda M_Search M_Util M_Recog M_Automata M_CFG M_Grammar M_Float M_Chart M_Negra M_Text M_Command M_Mcfg M_CfgCommand
  S_Recog S_CFG S_Automata S_Text S_AutText S_Command S_Mcfg S_CfgCommand P_Agenda P_Recog P_Approx P_Text P_AutText P_Command P_Float Properties_Text M_AutText M_AutText Properties_CSParse Properties_CfgEnds Properties_Float Properties_CfgCommand Properties_Command.

(* the exact logarithm of the weight of a derivation, and not being better than a derivation: not by the computed weights, and by the
   exact ones only within the rounding error *)
Definition derivation_logs (ds : list (cfg_rule bytes bytes LogZ)) : list LogProb := map (fun r : cfg_rule bytes bytes LogZ => cr_weight r : LogProb) ds.
Definition cfg_not_better (ds ds' : list (cfg_rule bytes bytes LogZ)) : Prop :=
  wleb (derivation_weight ds' : LogProb) (derivation_weight ds : LogProb) = true /\
  ((forall x, In x (derivation_logs ds ++ derivation_logs ds') -> finite x) -> finite (derivation_weight ds : LogProb) ->
    (exact (derivation_logs ds') * (1 + eps) ^ length ds' <= exact (derivation_logs ds) * (1 - eps) ^ length ds)%R).

(* C55, cfg parse with doubles: as C45.  The derivations printed come best first by their computed weights, and so by their exact
   weights up to the rounding error; no better one is left out.  Of the sum of weights only 0 + x = x is used. *)
Theorem C55_cfg_parse :
  forall (neqb teqb : bytes -> bytes -> bool), EqbSpec neqb -> EqbSpec teqb ->
  forall (wadd : LogZ -> LogZ -> LogZ), (forall x, wadd wzero x = x) ->
  forall (H : max_heap (item (list nat) (pd_instr nat) nat LogZ * LogZ) (wi_leb wleb)) (Hb : minmax_heap (item (list nat) (pd_instr nat) nat LogZ * LogZ) (wi_leb wleb))
    (shuffle : list (transition (pd_instr nat) nat LogZ) -> list (transition (pd_instr nat) nat LogZ)), (forall l, Permutation (shuffle l) l) ->
  forall (order : list bytes -> list bytes), (forall l, Permutation (order l) l) ->
  forall (iow : text_io LogZ) (debug_string : bytes -> bytes) (debug_weight : LogZ -> bytes)
    (grammar : bytes) (init : list bytes) (rules : list (cfg_rule bytes bytes LogZ)), text_means string_io (cfg_rule_syntax string_io string_io iow) grammar init rules ->
  cfg_distinct (CFG init rules : cfg bytes bytes LogZ) ->
  forall (text : bytes) (sents : list (list bytes)), sentences text sents ->
  forall (n : nat) (beam : option nat),
  let run calls := cfg_parse neqb teqb wadd H Hb shuffle order iow debug_string debug_weight grammar n beam calls text in
  let line_of k := «"Configuration { word: [], storage: PushDown { elements: [Designated] }, weight: "» ++ debug_weight k ++ «" }"» ++ newline in
  let answer tokens out := exists dss, length dss <= n /\ (forall ds, In ds dss -> cfg_derivation init rules tokens ds) /\ NoDup dss /\
    StronglySorted cfg_not_better dss /\
    (beam = None -> (length dss < n -> forall ds, cfg_derivation init rules tokens ds -> In ds dss) /\
                    (forall ds ds', cfg_derivation init rules tokens ds' -> ~ In ds' dss -> In ds dss -> cfg_not_better ds ds')) /\
    out = List.concat (map (fun ds => line_of (derivation_weight ds)) dss) ++ newline in
  (forall calls, run calls = Running \/ exists outs, run calls = Done (List.concat outs) /\ Forall2 answer sents outs) /\
  (forall rank, cfg_no_left_recursion rules rank -> exists calls0, forall calls, calls0 <= calls -> exists out, run calls = Done out).
Proof.
  intros neqb teqb NE TE wadd WZ H Hb shuffle SH order OR iow debug_string debug_weight grammar init rules TM DI text sents TS n beam run line_of answer.
  destruct (C45_cfg_parse_partial LogZ neqb teqb log_laws NE TE wadd WZ H Hb shuffle SH order OR iow debug_string debug_weight grammar init rules TM text sents TS n beam) as (_ & H1 & H2).
  split; [|exact H2]. intros calls. destruct (H1 DI calls) as [R|(outs & R & FO)]; [now left|right]. exists outs. split; [exact R|].
  assert (NB : forall ds ds' : list (cfg_rule bytes bytes LogZ), wleb (derivation_weight ds' : LogProb) (derivation_weight ds : LogProb) = true -> cfg_not_better ds ds').
  { intros ds ds' W. split; [exact W|]. intros FI FR.
    assert (L1 : length ds = length (derivation_logs ds)) by (unfold derivation_logs; now rewrite map_length).
    assert (L2 : length ds' = length (derivation_logs ds')) by (unfold derivation_logs; now rewrite map_length).
    rewrite L1, L2. apply lprod_order; [| |exact FR|exact W]; intros x Hx; apply FI, in_or_app; auto. }
  assert (BW : bounded_weights rules) by (exact (fun r _ => log_le_one (cr_weight r))).
  eapply P_Approx.Forall2_impl_P; [|exact FO]. intros tokens out (dss & L & DV & ND & SO & BO & ->). exists dss. split; [exact L|]. split; [exact DV|]. split; [exact ND|]. split; [|split].
  - specialize (SO BW). clear -SO NB. induction SO as [|d ds S1 IH S2]; [constructor|]. constructor; [exact IH|]. eapply Forall_impl; [|exact S2]. intros d' W. now apply NB.
  - intros HB. destruct (BO HB) as [B1 B2]. split; [exact B1|]. intros ds ds' D' NI ID. apply NB. now apply B2.
  - reflexivity.
Qed.
Print Assumptions C55_cfg_parse.

(* ---- example ---- *)
(* S -> A, A -> B, B -> a with the logarithms -2^-53, -2^-53, -1, and S -> C, C -> D, D -> a with -1, -2^-53, -2^-53: the exact
   weights are the same, the computed ones differ *)
Definition ex_lr (h : bytes) (rhs : list (lettert bytes bytes)) (w : LogProb) : cfg_rule bytes bytes LogZ := CFGRule (K := LogZ) h rhs w.
Definition ex_lc : list (cfg_rule bytes bytes LogZ) :=
  [ex_lr «"S"» [Label «"A"»] ex_small; ex_lr «"A"» [Label «"B"»] ex_small; ex_lr «"B"» [Value «"a"»] ex_big;
   ex_lr «"S"» [Label «"C"»] ex_big; ex_lr «"C"» [Label «"D"»] ex_small; ex_lr «"D"» [Value «"a"»] ex_small].
Definition log_file (rules : list (cfg_rule bytes bytes LogZ)) : bytes := lines_of («"initial: [S]"» :: map (cfg_rule_text string_io string_io log_io) rules).
Lemma log_file_means rules : (forall r, In r rules -> showable_cfg_rule string_io string_io log_io r /\ plain_line (cfg_rule_text string_io string_io log_io r) = true) ->
  text_means string_io (cfg_rule_syntax string_io string_io log_io) (log_file rules) [«"S"»] rules.
Proof.
  intros HR. unfold log_file, lines_of. cbn [map List.concat]. rewrite <- app_assoc. apply (tm_line string_io (cfg_rule_syntax string_io string_io log_io) «"initial: [S]"» [«"S"»] [] _ [] rules).
  - not_in.
  - intros l' E. apply (f_equal (@rev _)) in E. rewrite rev_app_distr in E. discriminate.
  - apply (lm_initial string_io _ [" "%char] «"[S]"» [] [«"S"»]); [intros a [<-|[]]; now left|].
    exists [], «"S"». split; [intros a []|]. split; [|reflexivity]. rewrite <- (app_nil_r «"S"»). apply (it_cons (token string_io) «","» _ «"S"» [] [] «"S"» []); [intros a []| |constructor].
    exists «"S"». split; [reflexivity|]. right. split; [reflexivity|]. split; [|right; eexists _, _; split; [reflexivity|cbn; tauto]]. split; [discriminate|]. intros a [<-|[]]. split; [not_in|discriminate].
  - induction rules as [|r rules IH]; [constructor|]. cbn [map List.concat]. rewrite <- app_assoc. destruct (HR r (or_introl eq_refl)) as [SR PL].
    unfold plain_line in PL. apply andb_true_iff in PL. destruct PL as [PL P3]. apply andb_true_iff in PL. destruct PL as [P1 P2]. rewrite forallb_forall in P3.
    assert (LA : forall t' a, cfg_rule_text string_io string_io log_io r = t' ++ [a] -> is_white a = false) by (intros t' a E; rewrite E, last_last in P2; now apply negb_true_iff).
    apply (tm_line string_io (cfg_rule_syntax string_io string_io log_io) (cfg_rule_text string_io string_io log_io r) [] [r] _ [] rules).
    + intros HI. apply P3 in HI. discriminate.
    + intros l' E. apply LA in E. discriminate.
    + rewrite <- (app_nil_l (cfg_rule_text string_io string_io log_io r)), <- (app_nil_r (cfg_rule_text string_io string_io log_io r)).
      apply lm_rule; [intros c []|intros c []|now apply cfg_rule_shown|..].
      * intros a t' E. rewrite E in P1. apply andb_true_iff in P1. destruct P1 as [P1 _]. apply andb_true_iff in P1. destruct P1 as [P1 _]. now apply negb_true_iff.
      * intros a t' E. now apply LA in E.
      * intros z E. rewrite E in P1. discriminate.
      * intros z E. rewrite E in P1. discriminate.
    + apply IH. intros r' Hr'. apply HR. now right.
Qed.
Definition ex_lTO : TotalOrder (wi_leb (I := item (list nat) (pd_instr nat) nat LogZ) (wleb (w := LogZ))) := wi_TO _ (rl_order _ log_laws).
(* a sum that is only used on distinct rules *)
Definition ex_lsum (x y : LogZ) : LogZ := if weqb x wzero then y else x.
Definition ex_lshow (w : LogZ) : bytes := if Beqb (proj1_sig (w : LogProb)) (proj1_sig ex_big) then «"-1"» else «"less"».
Example C55_cfg_example :
  text_means string_io (cfg_rule_syntax string_io string_io log_io) (log_file ex_lc) [«"S"»] ex_lc /\ cfg_distinct (CFG [«"S"»] ex_lc : cfg bytes bytes LogZ) /\
  (forall x, ex_lsum wzero x = x) /\ (forall r, In r ex_lc -> finite (cr_weight r : LogProb)) /\ sentences (lines_of [«"a"»]) [[«"a"»]] /\
  cfg_parse word_eqb word_eqb ex_lsum (P_Agenda.list_heap _ ex_lTO) (P_Agenda.list_minmax _ ex_lTO) (fun l => l) (fun l => l) log_io (fun x => x) ex_lshow (log_file ex_lc) 3 None 100 (lines_of [«"a"»]) =
    Done (conf_line «"-1"» ++ conf_line «"less"» ++ newline).
Proof.
  split; [|split; [|split; [|split; [|split]]]].
  - apply log_file_means. intros r Hr. unfold ex_lc in Hr. in_cases Hr; show_cfg_rule.
  - split; unfold ex_lc; cbn; repeat first [apply NoDup_nil | apply NoDup_cons; [cbn; intuition discriminate|]].
  - reflexivity.
  - intros r Hr. unfold ex_lc in Hr. in_cases Hr; reflexivity.
  - exists [«"a"»]. split; [apply (tl_cons «"a"» [] [] []); [not_in|intros [|? [|? ?]]; discriminate|now left|constructor]|]. constructor; [cbn; read_words|constructor].
  - vm_compute. reflexivity.
Qed.
