(* C16 and C45 for grammars in which a rule is listed more than once, possibly with different weights. *)
From Coq Require Import Sorted.
From Verif Require Import M_Nom Base M_Util M_Recog M_Agenda M_Search M_Automata M_CFG M_Grammar M_Chart M_Text M_AutText M_Negra M_Command M_Mcfg M_CfgCommand
  S_Search S_Util S_Recog S_Automata S_CFG S_Text S_AutText S_Command S_Mcfg S_CfgCommand S_PdaText P_Agenda P_Search P_Util P_Recog P_Automata P_PDA P_CFG P_Text P_AutText P_Command P_Beam P_CfgEnds P_Mcfg P_CfgCommand P_Repeated
  Properties_Text Properties_Automata Properties_CFG Properties_Beam Properties_CfgEnds Properties_Chart Properties_CSParse Properties_Command Properties_CfgCommand.

(* C16: the pushdown automaton of a grammar is that of the grammar in which rules that differ at most in their weights are one
   rule, with the sum of their weights.  To this grammar C16_cfg_pda_derivations applies. *)
Theorem C16_repeated_rules :
  forall (K : ZWeight) (neqb teqb : bytes -> bytes -> bool), EqbSpec neqb -> EqbSpec teqb ->
  forall (wadd : K -> K -> K), (forall x, wadd wzero x = x) ->
  forall (init : list bytes) (rules : list (cfg_rule bytes bytes K)), NoDup init ->
  exists rs, cfg_distinct (CFG init rs : cfg bytes bytes K) /\ (forall r, In r rs <-> joined neqb teqb wadd rules r) /\
    forall (order : list bytes -> list bytes),
      pda_from_cfg teqb wadd wzero neqb order (CFG init rules) = pda_from_cfg teqb wadd wzero neqb order (CFG init rs).
Proof.
  intros K neqb teqb NE TE wadd WZ init rules ND. exists (join neqb teqb wadd rules). split; [|split].
  - split; [exact (proj1 (join_sigs neqb teqb NE TE wadd rules))|exact ND].
  - intros r. now apply join_joined.
  - intros order. symmetry. now apply pda_join.
Qed.
Print Assumptions C16_repeated_rules.

(* C45 with repeated rules: what is printed for a sentence are the derivations of the grammar with the rules joined, as in
   C45_cfg_parse_partial. *)
Theorem C45_repeated_rules :
  forall (K : ZWeight) (neqb teqb : bytes -> bytes -> bool), RoundLaws K -> EqbSpec neqb -> EqbSpec teqb ->
  forall (wadd : K -> K -> K), (forall x, wadd wzero x = x) ->
  forall (H : max_heap (item (list nat) (pd_instr nat) nat K * K) (wi_leb wleb)) (Hb : minmax_heap (item (list nat) (pd_instr nat) nat K * K) (wi_leb wleb))
    (shuffle : list (transition (pd_instr nat) nat K) -> list (transition (pd_instr nat) nat K)), (forall l, Permutation (shuffle l) l) ->
  forall (order : list bytes -> list bytes), (forall l, Permutation (order l) l) ->
  forall (iow : text_io K) (debug_string : bytes -> bytes) (debug_weight : K -> bytes)
    (grammar : bytes) (init : list bytes) (rules : list (cfg_rule bytes bytes K)), text_means string_io (cfg_rule_syntax string_io string_io iow) grammar init rules ->
  NoDup init ->
  forall (text : bytes) (sents : list (list bytes)), sentences text sents ->
  forall (n : nat) (beam : option nat),
  let run calls := cfg_parse neqb teqb wadd H Hb shuffle order iow debug_string debug_weight grammar n beam calls text in
  let line_of k := «"Configuration { word: [], storage: PushDown { elements: [Designated] }, weight: "» ++ debug_weight k ++ «" }"» ++ newline in
  exists rs, cfg_distinct (CFG init rs : cfg bytes bytes K) /\ (forall r, In r rs <-> joined neqb teqb wadd rules r) /\
    forall calls, run calls = Running \/
      exists outs, run calls = Done (List.concat outs) /\ Forall2 (cfg_printed init rs (beam = None) n line_of) sents outs.
Proof.
  intros K neqb teqb KL NE TE wadd WZ H Hb shuffle SH order OR iow debug_string debug_weight grammar init rules TM ND text sents (ls & TL & HW) n beam run line_of.
  destruct (C16_repeated_rules K neqb teqb NE TE wadd WZ init rules ND) as (rs & DI & HJ & EP). exists rs. split; [exact DI|]. split; [exact HJ|]. intros calls.
  destruct (C39_grammar_syntax bytes bytes K string_io string_io iow grammar init) as (HG & _). pose proof (HG rules TM) as EG.
  destruct (C16_cfg_pda_language bytes bytes K neqb teqb NE TE KL wadd wzero order OR (CFG init rules)) as (M & EM & _).
  assert (ER : run calls = cfg_lines teqb H Hb shuffle debug_string debug_weight M n beam calls ls).
  { unfold run, cfg_parse. rewrite EG, EM. cbn [or_panic and_then]. now rewrite (text_lines_app text ls TL). }
  rewrite EP in EM. rewrite ER.
  destruct (cfg_lines_give KL neqb teqb NE TE wadd WZ H Hb shuffle SH order OR debug_string debug_weight init rs DI n beam M calls ls sents EM HW) as [(_ & E)|(outs & HO & E)]; [now left|right].
  exists outs. split; [exact E|exact HO].
Qed.
Print Assumptions C45_repeated_rules.

(* S -> a with cost 1 and with cost 2, and S -> a S with cost 1, twice *)
Definition ex_twice : list (cfg_rule bytes bytes TropWeight) :=
  [ex_r «"S"» [Value «"a"»] 1; ex_r «"S"» [Value «"a"»; Label «"S"»] 1; ex_r «"S"» [Value «"a"»] 2; ex_r «"S"» [Value «"a"»; Label «"S"»] 1].
Definition ex_once : list (cfg_rule bytes bytes TropWeight) := [ex_r «"S"» [Value «"a"»] 3; ex_r «"S"» [Value «"a"»; Label «"S"»] 2].
Example C45_repeated_rules_example :
  text_means string_io (cfg_rule_syntax string_io string_io trop_io) (cfg_file ex_twice) [«"S"»] ex_twice /\
  NoDup [«"S"»] /\ ~ cfg_distinct (CFG [«"S"»] ex_twice : cfg bytes bytes TropWeight) /\
  cfg_distinct (CFG [«"S"»] ex_once : cfg bytes bytes TropWeight) /\
  (forall r, In r ex_once <-> joined word_eqb word_eqb trop_sum ex_twice r) /\
  sentences (lines_of [«"a a"»]) [[«"a"»; «"a"»]] /\
  trop_cfg (cfg_file ex_twice) 5 None 100 (lines_of [«"a a"»]) = Done (conf_line «"5"» ++ newline) /\
  (let d : list (cfg_rule bytes bytes TropWeight) := [ex_r «"S"» [Value «"a"»; Label «"S"»] 2; ex_r «"S"» [Value «"a"»] 3] in
   cfg_derivation [«"S"»] ex_once [«"a"»; «"a"»] d /\ derivation_weight d = Some 5).
Proof.
  split; [apply cfg_file_means; intros r Hr; unfold ex_twice in Hr; in_cases Hr; show_cfg_rule|]. split; [repeat constructor; intros []|].
  split; [|split; [|split; [|split; [|split; [|split]]]]].
  - intros [D _]. unfold ex_twice in D. cbn in D. apply NoDup_cons_iff in D. apply (proj1 D). cbn. auto.
  - split; [unfold ex_once; cbn; repeat first [apply NoDup_nil | apply NoDup_cons; [cbn; intuition discriminate|]]|repeat constructor; intros []].
  - intros r. rewrite <- (join_joined word_eqb word_eqb word_eqb_spec word_eqb_spec trop_sum (fun x => match x with Some _ => eq_refl | None => eq_refl end) ex_twice r).
    replace (join word_eqb word_eqb trop_sum ex_twice) with ex_once by (vm_compute; reflexivity). tauto.
  - exists [«"a a"»]. split; [apply (tl_cons «"a a"» [] [] []); [not_in|intros [|? [|? [|? [|? ?]]]]; discriminate|now left|constructor]|]. constructor; [cbn; read_words|constructor].
  - vm_compute. reflexivity.
  - exists «"S"». split; [now left|]. apply (lm_label _ (ex_r «"S"» [Value «"a"»; Label «"S"»] 2) []); [right; now left|]. cbn. apply lm_value. apply (lm_label _ (ex_r «"S"» [Value «"a"»] 3) []); [now left|]. cbn. apply lm_value. constructor.
  - reflexivity.
Qed.
