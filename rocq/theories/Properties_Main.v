(* C56: the command line.  Options, files and inputs reach the commands as the help says; what is unreadable. *)
From Verif Require Import M_Nom Base BMap M_Util M_Recog M_Agenda M_Automata M_CFG M_TreeStack M_Grammar M_Chart M_CSAuto M_ToDeriv M_KBest M_Cow M_CSParse M_FromPmcfg M_Negra M_Text M_AutText M_Command M_Mcfg M_CfgCommand M_TsaCommand M_Approx M_ApproxCommand M_PdaText M_Import M_Disco M_Main.
From Verif Require Import S_Text S_Main S_Chars P_Text P_AutText P_Main P_Chars.

(* ---- the command line: values (each name at most once, defaults included) and flags ---- *)
Definition well_formed (m : arg_matches) : Prop := NoDup (map fst (am_values m)).
Definition has (m : arg_matches) (name value : bytes) : Prop := In (name, value) (am_values m).
Definition lacks (m : arg_matches) (name : bytes) : Prop := ~ In name (map fst (am_values m)).
(* the flag is there *)
Definition flag (m : arg_matches) (name : bytes) (b : bool) : Prop := lacks m name /\ (b = true <-> In name (am_flags m)).
(* a number that fits into 64 bits *)
Definition usize (s : bytes) (n : nat) : Prop := number s (N.of_nat n) /\ (N.of_nat n < 2 ^ 64)%N.
Definition no_usize (s : bytes) : Prop := forall n, ~ usize s n.
Definition has_number (m : arg_matches) (name : bytes) (n : nat) : Prop := exists s, has m name s /\ usize s n.
(* an option that may be missing *)
Definition may_have {X : Type} (reads : bytes -> X -> Prop) (m : arg_matches) (name : bytes) (o : option X) : Prop :=
  match o with Some x => exists s, has m name s /\ reads s x | None => lacks m name end.

(* UTF-8 is recognised *)
Theorem C56_text : forall s, (read_to_string s = Some s <-> is_text s) /\ (read_to_string s = None <-> ~ is_text s).
Proof.
  intros s. unfold read_to_string. rewrite <- utf8_text. destruct (utf8 s); intuition (try discriminate; try congruence).
Qed.
Print Assumptions C56_text.
(* the arrow, an e with an accent, and a musical symbol; a lone continuation, an overlong slash, a surrogate, a truncated arrow *)
Example C56_text_example :
  is_text (concat (map encode [8594; 233; 119070]%N)) /\ map N_of_ascii (concat (map encode [8594; 233; 119070]%N)) = [226; 134; 146; 195; 169; 240; 157; 132; 158]%N /\
  ~ is_text (map ascii_of_N [128]%N) /\ ~ is_text (map ascii_of_N [192; 175]%N) /\ ~ is_text (map ascii_of_N [237; 160; 128]%N) /\ ~ is_text (map ascii_of_N [226; 134]%N).
Proof.
  split; [exists [8594; 233; 119070]%N; split; [repeat constructor; unfold scalar; lia|reflexivity]|]. split; [reflexivity|].
  repeat split; intros X; apply utf8_text in X; discriminate.
Qed.

Section Lookup.
  Context (m : arg_matches) (WF : well_formed m).
  Lemma find_value name value : has m name value -> arg_value m name = Some value.
  Proof.
    unfold has, arg_value, value_of, well_formed in *. revert WF. induction (am_values m) as [|[k v] l IH]; intros ND HI; [destruct HI|]. cbn in ND. inversion_clear ND as [|? ? NI ND']. cbn [find fst].
    destruct HI as [E|HI].
    - injection E as -> ->. assert (X : word_eqb name name = true) by (now apply same_word). now rewrite X.
    - destruct (word_eqb k name) eqn:E; [|now apply IH]. apply same_word in E. subst. exfalso. apply NI. apply in_map_iff. now exists (name, value).
  Qed.
  Lemma find_none name : lacks m name -> arg_value m name = None.
  Proof.
    unfold lacks, arg_value, value_of. clear WF. induction (am_values m) as [|[k v] l IH]; intros HN; [reflexivity|]. cbn [find fst map In] in *.
    destruct (word_eqb k name) eqn:E; [apply same_word in E; subst; tauto|]. apply IH. tauto.
  Qed.
  Lemma find_flag name b : flag m name b -> is_present m name = b.
  Proof.
    intros [HL HF]. unfold is_present. rewrite (find_none _ HL), orb_false_r. apply eq_iff_eq_true. rewrite HF, existsb_exists. split.
    - intros (x & HI & E). apply same_word in E. now subst.
    - intros HI. exists name. split; [exact HI|now apply same_word].
  Qed.
  Lemma usize_read s n : usize s n -> usize_of_text s = Some n.
  Proof. apply usize_iff. Qed.
  Lemma usize_bad s : no_usize s -> usize_of_text s = None.
  Proof. intros HN. destruct (usize_of_text s) as [n|] eqn:E; [|reflexivity]. apply usize_iff in E. now apply HN in E. Qed.
  Lemma find_optional {X : Type} (parse : bytes -> option X) name o : may_have (fun s x => parse s = Some x) m name o -> optional_argument parse m name = Some o.
  Proof. unfold optional_argument. destruct o as [x|]; cbn; [intros (s & HI & E); now rewrite (find_value _ _ HI), E|intros HL; now rewrite (find_none _ HL)]. Qed.
  Lemma find_optional_number name o : may_have usize m name o -> optional_argument usize_of_text m name = Some o.
  Proof. intros HM. apply find_optional. destruct o; [|exact HM]. destruct HM as (s & HI & HU). exists s. split; [exact HI|now apply usize_read]. Qed.
End Lookup.

Section CommandLine.
  Context {K : ZWeight} (neqb teqb : bytes -> bytes -> bool) (reqb : prule bytes bytes K -> prule bytes bytes K -> bool) (wadd : K -> K -> K).
  Notation rule := (prule bytes bytes K).
  Notation ts_code := (item (tstack nat) (ts_instr nat) nat K).
  Notation pd_code := (item (list nat) (pd_instr nat) nat K).
  Context (H_ts : max_heap (ts_code * K) (wi_leb wleb)) (Hb_ts : minmax_heap (ts_code * K) (wi_leb wleb))
          (H_pd : max_heap (pd_code * K) (wi_leb wleb)) (Hb_pd : minmax_heap (pd_code * K) (wi_leb wleb))
          (H_cs : max_heap (K * nat) (@item_leb K)) (H_kb : max_heap (K * bt K) (@kb_leb K))
          (shuffle_ts : list (transition (ts_instr nat) nat K) -> list (transition (ts_instr nat) nat K))
          (shuffle_pd : list (transition (pd_instr nat) nat K) -> list (transition (pd_instr nat) nat K))
          (order set_order : list bytes -> list bytes) (cl_order : list (bytes * list bytes) -> list (bytes * list bytes))
          (ts_order : list (transition (ts_instr (posstate rule)) bytes K) -> list (transition (ts_instr (posstate rule)) bytes K))
          (pd_order : list (transition (pd_instr (push_state bytes bytes)) bytes K) -> list (transition (pd_instr (push_state bytes bytes)) bytes K))
          (pp_order : list (transition (pd_instr (posstate rule)) bytes K) -> list (transition (pd_instr (posstate rule)) bytes K))
          (distinct : list nat -> list nat) (iterate : list (bytes * bool) -> list (bytes * bool)).
  Context (iow : text_io K) (factorize : K -> nat -> list K) (ops : num_ops K) (checked : bool)
          (debug_string : bytes -> bytes) (debug_weight : K -> bytes) (debug_rule : rule -> bytes)
          (display : configuration (tstack (posstate rule)) bytes K -> bytes)
          (with_tts : tsa bytes bytes K -> nat -> option nat -> list (list bytes) -> outcome bytes).
  Context (gzip : bytes -> bytes) (gunzip : bytes -> option bytes)
          (serialize : @cs_rep bytes bytes K -> bytes) (deserialize : bytes -> option (@cs_rep bytes bytes K)).
  Context (files : bytes -> option bytes) (stdin : bytes) (calls fuel : nat) (m : arg_matches) (WF : well_formed m).

  Definition rustomata (files : bytes -> option bytes) (stdin : bytes) (commands : list bytes) (m : arg_matches) : outcome bytes :=
    main neqb teqb reqb wadd H_ts Hb_ts H_pd Hb_pd H_cs H_kb shuffle_ts shuffle_pd order set_order cl_order ts_order pd_order pp_order distinct iterate
      iow factorize ops checked debug_string debug_weight debug_rule display with_tts gzip gunzip serialize deserialize files stdin calls fuel commands m.
  Notation run := (rustomata files stdin).

  (* the file that an argument names, as far as it is read *)
  Definition file_of (name text : bytes) : Prop := exists path content, has m name path /\ files path = Some content /\ seen content text.
  (* there is no such file, or it cannot be opened *)
  Definition no_file (name : bytes) : Prop := lacks m name \/ exists path, has m name path /\ files path = None.

  Lemma file_ok name text : file_of name text -> file_argument files m name = Done text.
  Proof. intros (path & content & HI & HF & HS). unfold file_argument. rewrite (find_value m WF _ _ HI). cbn. rewrite HF. cbn. now rewrite (read_text _ _ HS). Qed.
  Lemma file_bad name : no_file name -> file_argument files m name = Panics.
  Proof. unfold file_argument. intros [HL|(path & HI & HF)]; [now rewrite (find_none m _ HL)|]. rewrite (find_value m WF _ _ HI). cbn. now rewrite HF. Qed.
  Lemma number_ok name n : has_number m name n -> number_argument m name = Done n.
  Proof. intros (s & HI & HU). unfold number_argument. rewrite (find_value m WF _ _ HI). cbn. now rewrite (usize_read _ _ HU). Qed.
  Lemma number_bad name s : has m name s -> no_usize s -> number_argument m name = Panics.
  Proof. intros HI HU. unfold number_argument. rewrite (find_value m WF _ _ HI). cbn. now rewrite (usize_bad _ HU). Qed.
  Lemma beam_ok beam : may_have usize m «"beam-width"» beam -> beam_argument m = Done beam.
  Proof. unfold beam_argument. destruct beam as [b|]; cbn; [intros (s & HI & HU); now rewrite (find_value m WF _ _ HI), (usize_read _ _ HU)|intros HL; now rewrite (find_none m _ HL)]. Qed.
  Lemma beam_bad s : has m «"beam-width"» s -> no_usize s -> beam_argument m = Panics.
  Proof. intros HI HU. unfold beam_argument. now rewrite (find_value m WF _ _ HI), (usize_bad _ HU). Qed.

  Lemma mcfg_main_lines_ok M n beam negra i ls : beam_argument m = Done beam -> is_present m «"negra"» = negra ->
    mcfg_main_lines teqb H_ts Hb_ts shuffle_ts display calls fuel m M n i ls = mcfg_lines teqb H_ts Hb_ts shuffle_ts display M n beam negra calls fuel i ls.
  Proof. intros HB HN. revert i. induction ls as [|l ls IH]; intros i; [reflexivity|]. cbn [mcfg_main_lines mcfg_lines]. now rewrite HB, HN, IH. Qed.
  Lemma cfg_main_lines_ok M n beam ls : beam_argument m = Done beam ->
    cfg_main_lines teqb H_pd Hb_pd shuffle_pd debug_string debug_weight calls m M n ls = cfg_lines teqb H_pd Hb_pd shuffle_pd debug_string debug_weight M n beam calls ls.
  Proof. intros HB. induction ls as [|l ls IH]; [reflexivity|]. cbn [cfg_main_lines cfg_lines]. now rewrite HB, IH. Qed.

  (* mcfg parse: -n is the number of parses, -b the beam width, --negra the format; the grammar is the file, the sentences are
     the standard input.  What mcfg_parse prints is the subject of C44. *)
  Theorem C56_mcfg_parse : forall grammar n beam negra text,
    file_of «"grammar"» grammar -> has_number m «"number-of-parses"» n -> may_have usize m «"beam-width"» beam -> flag m «"negra"» negra -> heard stdin text ->
    run [«"mcfg"»; «"parse"»] m = mcfg_parse neqb teqb reqb H_ts Hb_ts shuffle_ts iow display grammar n beam negra calls fuel text.
  Proof.
    intros grammar n beam negra text HG HN HB HF HS. unfold rustomata, main, mcfg_main. cbn [word_eqb list_eqb]. simpl word_eqb. cbv iota.
    rewrite (file_ok _ _ HG). cbn [and_then]. rewrite (number_ok _ _ HN). cbn [and_then]. rewrite (heard_text _ _ HS). unfold mcfg_parse.
    destruct (pmcfg_of_text string_io string_io iow grammar) as [g| |]; [|reflexivity..]. destruct (or_panic (tsa_from_pmcfg neqb reqb teqb g)) as [M| |]; [|reflexivity..].
    cbn [and_then]. apply mcfg_main_lines_ok; [now apply beam_ok|now apply find_flag].
  Qed.
  (* cfg parse, likewise: see C45 *)
  Theorem C56_cfg_parse : forall grammar n beam text,
    file_of «"grammar"» grammar -> has_number m «"number-of-parses"» n -> may_have usize m «"beam-width"» beam -> heard stdin text ->
    run [«"cfg"»; «"parse"»] m = cfg_parse neqb teqb wadd H_pd Hb_pd shuffle_pd order iow debug_string debug_weight grammar n beam calls text.
  Proof.
    intros grammar n beam text HG HN HB HS. unfold rustomata, main, cfg_main. simpl word_eqb. cbv iota.
    rewrite (file_ok _ _ HG). cbn [and_then]. rewrite (number_ok _ _ HN). cbn [and_then]. rewrite (heard_text _ _ HS). unfold cfg_parse.
    destruct (cfg_of_text string_io string_io iow grammar) as [g| |]; [|reflexivity..]. destruct (or_panic (pda_from_cfg teqb wadd wzero neqb order g)) as [M| |]; [|reflexivity..].
    cbn [and_then]. apply cfg_main_lines_ok; now apply beam_ok.
  Qed.
  (* the other commands that read with File::open and an ignored error: see C46, C47, C49 *)
  Theorem C56_other_commands : forall grammar classes automaton text words, seen stdin text -> heard stdin words ->
    (file_of «"automaton"» automaton ->
     run [«"tsa"»; «"recognise"»] m = tsa_command neqb teqb H_ts Hb_ts shuffle_ts iow debug_string debug_weight with_tts (am_values m) automaton calls words) /\
    (file_of «"grammar"» grammar ->
     run [«"mcfg"»; «"automaton"»] m = or_panic (mcfg_automaton neqb teqb reqb iow debug_string ts_order grammar) /\
     run [«"cfg"»; «"automaton"»] m = or_panic (cfg_automaton neqb teqb wadd iow debug_string order pd_order grammar) /\
     run [«"approximation"»; «"tts"»; «"parse"»] m = tts_parse neqb teqb wadd H_pd shuffle_pd iow debug_string debug_weight reqb debug_rule ts_order grammar calls text /\
     run [«"approximation"»; «"tts"»; «"automaton"»] m = or_panic (tts_automaton neqb teqb wadd iow debug_string reqb ts_order pp_order grammar) /\
     (file_of «"classes"» classes ->
      run [«"approximation"»; «"relabel"»; «"parse"»] m = relabel_parse neqb teqb wadd H_pd shuffle_pd iow debug_string debug_weight order pd_order set_order cl_order grammar classes calls text /\
      run [«"approximation"»; «"relabel"»; «"automaton"»] m = or_panic (relabel_automaton neqb teqb wadd iow debug_string order pd_order pd_order set_order cl_order grammar classes))).
  Proof.
    intros grammar classes automaton text words HS HW. split; [|intros HG; split; [|split; [|split; [|split; [|intros HC; split]]]]];
      unfold rustomata, main, tsa_main, mcfg_main, cfg_main, approximation_main, handle; simpl word_eqb; cbv iota.
    - intros HA. rewrite (file_ok _ _ HA). cbn [and_then]. now rewrite (heard_text _ _ HW).
    - now rewrite (file_ok _ _ HG).
    - now rewrite (file_ok _ _ HG).
    - rewrite (file_ok _ _ HG). cbn [and_then]. now rewrite (read_text _ _ HS).
    - now rewrite (file_ok _ _ HG).
    - rewrite (file_ok _ _ HG), (file_ok _ _ HC). cbn [and_then]. now rewrite (read_text _ _ HS).
    - now rewrite (file_ok _ _ HG), (file_ok _ _ HC).
  Qed.

  (* what is reported: files that cannot be opened, and numbers that are none.  A beam width that is no number is noticed by tsa
     recognise, but by mcfg parse and cfg parse only if there is something to parse. *)
  Theorem C56_panics_partial :
    (no_file «"grammar"» ->
     forall c, In c [[«"mcfg"»; «"parse"»]; [«"mcfg"»; «"automaton"»]; [«"cfg"»; «"parse"»]; [«"cfg"»; «"automaton"»]; [«"approximation"»; «"relabel"»; «"parse"»];
                     [«"approximation"»; «"relabel"»; «"automaton"»]; [«"approximation"»; «"tts"»; «"parse"»]; [«"approximation"»; «"tts"»; «"automaton"»]] -> run c m = Panics) /\
    (no_file «"automaton"» -> run [«"tsa"»; «"recognise"»] m = Panics) /\
    (forall grammar s, file_of «"grammar"» grammar -> has m «"number-of-parses"» s -> no_usize s -> run [«"mcfg"»; «"parse"»] m = Panics /\ run [«"cfg"»; «"parse"»] m = Panics) /\
    (forall automaton s, file_of «"automaton"» automaton -> has m «"number-of-runs"» s -> no_usize s -> run [«"tsa"»; «"recognise"»] m = Panics) /\
    (forall automaton s n, file_of «"automaton"» automaton -> has_number m «"number-of-runs"» n -> has m «"beam-width"» s -> no_usize s -> run [«"tsa"»; «"recognise"»] m = Panics) /\
    (forall grammar n s text, file_of «"grammar"» grammar -> has_number m «"number-of-parses"» n -> has m «"beam-width"» s -> no_usize s -> heard stdin text -> text <> [] ->
     run [«"mcfg"»; «"parse"»] m = Panics /\ run [«"cfg"»; «"parse"»] m = Panics).
  Proof.
    split; [|split; [|split; [|split; [|split]]]].
    - intros HN c HC. cbn [In] in HC. decompose [or] HC; subst; try contradiction; unfold rustomata, main, mcfg_main, cfg_main, approximation_main, handle; simpl word_eqb; cbv iota; now rewrite (file_bad _ HN).
    - intros HN. unfold rustomata, main, tsa_main. simpl word_eqb. cbv iota. now rewrite (file_bad _ HN).
    - intros grammar s HG HI HU. split; unfold rustomata, main, mcfg_main, cfg_main; simpl word_eqb; cbv iota; rewrite (file_ok _ _ HG); cbn [and_then]; now rewrite (number_bad _ _ HI HU).
    - intros automaton s HA HI HU. unfold rustomata, main, tsa_main. simpl word_eqb. cbv iota. rewrite (file_ok _ _ HA). cbn [and_then]. unfold tsa_command. destruct (tsa_of_text _ _ _ _ _ _); [|reflexivity..].
      change (value_of (am_values m) «"number-of-runs"») with (arg_value m «"number-of-runs"»). rewrite (find_value m WF _ _ HI), (usize_bad _ HU). reflexivity.
    - intros automaton s n HA (sn & HIn & HUn) HI HU. unfold rustomata, main, tsa_main. simpl word_eqb. cbv iota. rewrite (file_ok _ _ HA). cbn [and_then]. unfold tsa_command. destruct (tsa_of_text _ _ _ _ _ _); [|reflexivity..].
      change (value_of (am_values m)) with (arg_value m). rewrite (find_value m WF _ _ HIn), (usize_read _ _ HUn), (find_value m WF _ _ HI), (usize_bad _ HU). reflexivity.
    - intros grammar n s text HG HN HI HU HS HT. assert (HL : exists l ls, lines [] text = l :: ls). { destruct (lines [] text) as [|l ls] eqn:E; [apply lines_nil in E; tauto|eauto]. } destruct HL as (l & ls & HL).
      split; unfold rustomata, main, mcfg_main, cfg_main; simpl word_eqb; cbv iota; rewrite (file_ok _ _ HG); cbn [and_then]; rewrite (number_ok _ _ HN); cbn [and_then]; rewrite (heard_text _ _ HS), HL.
      + destruct (pmcfg_of_text _ _ _ _); [|reflexivity..]. destruct (tsa_from_pmcfg _ _ _ _); [|reflexivity]. cbn [or_panic]. cbn [and_then mcfg_main_lines]. now rewrite (beam_bad _ HI HU).
      + destruct (cfg_of_text _ _ _ _); [|reflexivity..]. destruct (pda_from_cfg _ _ _ _ _ _); [|reflexivity]. cbn [or_panic]. cbn [and_then cfg_main_lines]. now rewrite (beam_bad _ HI HU).
  Qed.
  (* commands that do not exist print nothing *)
  Theorem C56_unknown : forall command rest, ~ In command [«"mcfg"»; «"cfg"»; «"tsa"»; «"approximation"»; «"csparsing"»] -> run (command :: rest) m = Done [].
  Proof.
    intros command rest HN. unfold rustomata, main. cbn [In] in HN.
    repeat match goal with |- context [word_eqb command ?w] => let E := fresh in destruct (word_eqb command w) eqn:E; [apply same_word in E; subst; tauto|] end. reflexivity.
  Qed.

  (* The claim that unreadable input is reported is false.  A standard input that is not UTF-8 counts as empty: whatever was parsed,
     nothing is printed, and a malformed beam width goes unnoticed as well. *)
  Theorem C56_input_not_text_refuted : forall grammar n, file_of «"grammar"» grammar -> has_number m «"number-of-parses"» n -> ~ is_text stdin ->
    ((exists g M, pmcfg_of_text string_io string_io iow grammar = FOk g /\ tsa_from_pmcfg neqb reqb teqb g = Some M) -> run [«"mcfg"»; «"parse"»] m = Done []) /\
    ((exists g M, cfg_of_text string_io string_io iow grammar = FOk g /\ pda_from_cfg teqb wadd wzero neqb order g = Some M) -> run [«"cfg"»; «"parse"»] m = Done []).
  Proof.
    intros grammar n HG HN HT. assert (HS : heard stdin []) by (right; now split).
    split; intros (g & M & E1 & E2); unfold rustomata, main, mcfg_main, cfg_main; simpl word_eqb; cbv iota; rewrite (file_ok _ _ HG); cbn [and_then]; rewrite (number_ok _ _ HN); cbn [and_then]; now rewrite (heard_text _ _ HS), E1, E2.
  Qed.
  (* A grammar file that is not UTF-8 counts as a grammar without rules: every sentence is answered as if it had no parse. *)
  Theorem C56_grammar_not_text_refuted : forall path content n text,
    has m «"grammar"» path -> files path = Some content -> ~ is_text content -> has_number m «"number-of-parses"» n -> lacks m «"beam-width"» -> heard stdin text ->
    2 <= calls -> (forall l, Permutation (shuffle_pd l) l) -> (forall l, Permutation (order l) l) ->
    run [«"cfg"»; «"parse"»] m = Done (repeat "010"%char (length (lines [] text))) /\
    (forall negra, flag m «"negra"» negra -> (forall l, In l (lines [] text) -> split_whitespace [] l <> []) ->
     run [«"mcfg"»; «"parse"»] m = Done (repeat "010"%char (length (lines [] text)))).
  Proof.
    intros path content n text HI HF HT HN HB HS HC Hs Ho.
    assert (HG : file_of «"grammar"» []) by (exists path, content; repeat split; auto; right; now split).
    assert (EC : exists c, calls = S (S c)) by (exists (calls - 2); lia). destruct EC as (c & EC). split.
    - rewrite (C56_cfg_parse [] n None text HG HN HB HS). unfold cfg_parse. replace (cfg_of_text string_io string_io iow []) with (FOk (CFG (N := bytes) (T := bytes) (K := K) [] [])) by reflexivity.
      destruct (blank_cfg_line neqb teqb wadd H_pd Hb_pd shuffle_pd order debug_string debug_weight Hs Ho) as (M & EM & HM). rewrite EM. cbn [or_panic and_then].
      induction (lines [] text) as [|l ls IH]; [reflexivity|]. cbn [cfg_lines]. rewrite EC, HM, <- EC. cbn [and_then]. rewrite IH. reflexivity.
    - intros negra HF' HL. rewrite (C56_mcfg_parse [] n None negra text HG HN HB HF' HS). unfold mcfg_parse. replace (pmcfg_of_text string_io string_io iow []) with (FOk (PMCFG (N := bytes) (T := bytes) (W := K) [] [])) by reflexivity.
      destruct (blank_mcfg_line neqb teqb reqb H_ts Hb_ts shuffle_ts display) as (M & EM & HM). rewrite EM. cbn [or_panic and_then].
      generalize 0. induction (lines [] text) as [|l ls IH]; intros i; [reflexivity|]. cbn [mcfg_lines]. rewrite EC, HM, <- EC by (apply HL; now left). cbn [and_then]. rewrite IH by (intros l' Hl'; apply HL; now right). reflexivity.
  Qed.

  (* csparsing extract: the grammar comes from the file or else from the standard input; it is unzipped if --zipped or --disco is
     given and --unzipped is not; -s is the length for the estimates, 0 if it is missing *)
  Definition unzipped_if (zipped : bool) (content text : bytes) : Prop :=
    is_text text /\ (if zipped then gunzip content = Some text else content = text).
  Theorem C56_csparsing_extract : forall source text zipped disco unzipped sxlen,
    flag m «"gzipped"» zipped -> flag m «"disco-grammar"» disco -> flag m «"ungzipped"» unzipped ->
    ((exists path, has m «"grammar"» path /\ files path = Some source) \/ lacks m «"grammar"» /\ source = stdin) ->
    unzipped_if ((zipped || disco) && negb unzipped) source text ->
    may_have usize m «"sxlen"» sxlen ->
    let width := match sxlen with Some n => n | None => 0 end in
    let written := fun rep => match rep with Some rep => Done (gzip (serialize rep)) | None => Panics end in
    (disco = false -> run [«"csparsing"»; «"extract"»] m = written (extract_command neqb teqb factorize H_cs distinct iow text width)) /\
    (disco = true -> lacks m «"disco-lexer"» ->
     run [«"csparsing"»; «"extract"»] m = written (extract_disco neqb teqb factorize H_cs distinct ops iow checked iterate text None width)) /\
    (forall path lexer lexer_text, disco = true -> has m «"disco-lexer"» path -> files path = Some lexer -> unzipped_if ((zipped || disco) && negb unzipped) lexer lexer_text ->
     run [«"csparsing"»; «"extract"»] m = written (extract_disco neqb teqb factorize H_cs distinct ops iow checked iterate text (Some lexer_text) width)).
  Proof.
    intros source text zipped disco unzipped sxlen FZ FD FU HG HT HX width written.
    assert (EZ : grammar_is_gzipped m = (zipped || disco) && negb unzipped) by (unfold grammar_is_gzipped; now rewrite (find_flag m _ _ FZ), (find_flag m _ _ FD), (find_flag m _ _ FU)).
    assert (RD : forall c t, unzipped_if ((zipped || disco) && negb unzipped) c t -> file_reader gunzip (grammar_is_gzipped m) c = Some t).
    { intros c t [IT HC]. rewrite EZ. unfold file_reader. destruct ((zipped || disco) && negb unzipped); [rewrite HC|subst c]; exact (proj2 (proj1 (C56_text t)) IT). }
    assert (EG : grammar_argument gunzip files stdin m = Some text).
    { unfold grammar_argument. destruct HG as [(path & HI & HF)|[HL ->]]; [rewrite (find_value m WF _ _ HI), HF|rewrite (find_none m _ HL)]; now apply RD. }
    assert (EX : match arg_value m «"sxlen"» with Some s => usize_of_text s | None => Some 0 end = Some width).
    { unfold width. destruct sxlen as [n|]; unfold may_have in HX; [destruct HX as (s & HI & HU); rewrite (find_value m WF _ _ HI); now apply usize_read|now rewrite (find_none m _ HX)]. }
    split; [intros ED|split; [intros ED HL|intros path lexer lexer_text ED HI HF HLT]]; unfold rustomata, main, csparsing_main; simpl word_eqb; cbv iota; unfold csparsing_extract; rewrite EG, EX, (find_flag m _ _ FD), ED.
    - destruct (extract_command _ _ _ _ _ _ _ _); reflexivity.
    - rewrite (find_none m _ HL). destruct (extract_disco _ _ _ _ _ _ _ _ _ _ _ _); reflexivity.
    - rewrite (find_value m WF _ _ HI), HF, (RD _ _ HLT). destruct (extract_disco _ _ _ _ _ _ _ _ _ _ _ _); reflexivity.
  Qed.
  (* csparsing parse reads what csparsing extract wrote: with the options k (1 if it is missing), beam, threshold and candidates
     (nothing is pruned where they are missing).  What parse_command prints is the subject of C43.  Unlike the other commands it
     panics if the standard input is not UTF-8. *)
  Theorem C56_csparsing_parse : forall rep, gunzip (gzip (serialize rep)) = Some (serialize rep) -> deserialize (serialize rep) = Some rep ->
    forall path k beam threshold candidates with_lines with_pos debugmode fallback,
    has m «"csfile"» path -> files path = Some (gzip (serialize rep)) ->
    may_have usize m «"k"» k -> may_have usize m «"beam"» beam -> may_have (fun s w => of_text iow s = Some w) m «"threshold"» threshold -> may_have usize m «"candidates"» candidates ->
    flag m «"with-lines"» with_lines -> flag m «"with-pos"» with_pos -> flag m «"debugmode"» debugmode -> flag m «"fallback"» fallback ->
    (forall words, is_text stdin -> heard stdin words ->
     run [«"csparsing"»; «"parse"»] m =
       or_panic (parse_command H_cs H_kb teqb fuel rep
                   (Settings candidates beam (match threshold with Some w => w | None => wzero end))
                   (Options (match k with Some k => k | None => 1 end) with_lines with_pos debugmode fallback) words)) /\
    (~ is_text stdin -> run [«"csparsing"»; «"parse"»] m = Panics).
  Proof.
    intros rep GZ SER path k beam threshold candidates wl wp db fb HI HF HK HB HT HC FL FP FD FF.
    assert (EK : match arg_value m «"k"» with Some s => usize_of_text s | None => Some 1 end = Some (match k with Some k => k | None => 1 end)).
    { destruct k as [n|]; unfold may_have in HK; [destruct HK as (s & HIk & HU); rewrite (find_value m WF _ _ HIk); now apply usize_read|now rewrite (find_none m _ HK)]. }
    split; [intros words IT HW|intros IT]; unfold rustomata, main, csparsing_main; simpl word_eqb; cbv iota; unfold csparsing_parse; [rewrite (proj2 (proj1 (C56_text stdin)) IT)|now rewrite (proj2 (proj2 (C56_text stdin)) IT)].
    rewrite EK, (find_optional_number m WF _ _ HB), (find_optional m WF _ _ _ HT), (find_optional_number m WF _ _ HC), (find_value m WF _ _ HI), HF, GZ, SER.
    rewrite (find_flag m _ _ FL), (find_flag m _ _ FP), (find_flag m _ _ FD), (find_flag m _ _ FF).
    replace (plain_white stdin) with words; [destruct beam, threshold, candidates; reflexivity|].
    rewrite <- (heard_text _ _ HW). unfold read_ignoring. now rewrite (proj2 (proj1 (C56_text stdin)) IT).
  Qed.
  (* csparsing reports what it cannot read: a grammar or lexer file that is missing, not zipped although it should be, or not text;
     a csfile that is missing or was not written by extract; numbers that are none *)
  Definition unreadable (zipped : bool) (content : bytes) : Prop :=
    if zipped then gunzip content = None \/ exists t, gunzip content = Some t /\ ~ is_text t else ~ is_text content.
  Theorem C56_csparsing_reports : forall zipped disco unzipped,
    flag m «"gzipped"» zipped -> flag m «"disco-grammar"» disco -> flag m «"ungzipped"» unzipped ->
    ((exists path, has m «"grammar"» path /\ (files path = None \/ exists content, files path = Some content /\ unreadable ((zipped || disco) && negb unzipped) content)) \/
     (lacks m «"grammar"» /\ unreadable ((zipped || disco) && negb unzipped) stdin) \/
     (disco = true /\ exists path, has m «"disco-lexer"» path /\ (files path = None \/ exists content, files path = Some content /\ unreadable ((zipped || disco) && negb unzipped) content)) \/
     (exists s, has m «"sxlen"» s /\ no_usize s) ->
     run [«"csparsing"»; «"extract"»] m = Panics) /\
    (lacks m «"csfile"» \/ (exists path, has m «"csfile"» path /\
        (files path = None \/ exists content, files path = Some content /\ (gunzip content = None \/ exists t, gunzip content = Some t /\ deserialize t = None))) \/
     (exists name s, In name [«"k"»; «"beam"»; «"candidates"»] /\ has m name s /\ no_usize s) \/ (exists s, has m «"threshold"» s /\ of_text iow s = None) ->
     run [«"csparsing"»; «"parse"»] m = Panics).
  Proof.
    intros zipped disco unzipped FZ FD FU.
    assert (EZ : grammar_is_gzipped m = (zipped || disco) && negb unzipped) by (unfold grammar_is_gzipped; now rewrite (find_flag m _ _ FZ), (find_flag m _ _ FD), (find_flag m _ _ FU)).
    assert (RD : forall c, unreadable ((zipped || disco) && negb unzipped) c -> file_reader gunzip (grammar_is_gzipped m) c = None).
    { intros c HC. rewrite EZ. unfold unreadable, file_reader in *. destruct ((zipped || disco) && negb unzipped); [destruct HC as [->|(t & -> & HT)]; [reflexivity|]|]; now apply C56_text. }
    split; intros HX; unfold rustomata, main, csparsing_main; simpl word_eqb; cbv iota.
    - assert (E : csparsing_extract neqb teqb H_cs distinct iterate iow factorize ops checked gzip gunzip serialize files stdin m = None); [|now rewrite E].
      unfold csparsing_extract. destruct (grammar_argument gunzip files stdin m) as [text|] eqn:EG; [|reflexivity].
      destruct HX as [(path & HI & HF)|[(HL & HF)|[(ED & path & HI & HF)|(s & HI & HU)]]].
      + exfalso. unfold grammar_argument in EG. rewrite (find_value m WF _ _ HI) in EG. destruct HF as [HF|(c & HF & HC)]; rewrite HF in EG; [discriminate|]. rewrite (RD _ HC) in EG. discriminate.
      + exfalso. unfold grammar_argument in EG. rewrite (find_none m _ HL), (RD _ HF) in EG. discriminate.
      + destruct (match arg_value m «"sxlen"» with Some s => usize_of_text s | None => Some 0 end); [|reflexivity]. rewrite (find_flag m _ _ FD), ED, (find_value m WF _ _ HI).
        destruct HF as [HF|(c & HF & HC)]; rewrite HF; [reflexivity|]. now rewrite (RD _ HC).
      + now rewrite (find_value m WF _ _ HI), (usize_bad _ HU).
    - assert (E : csparsing_parse teqb H_cs H_kb iow gunzip deserialize files stdin fuel m = None); [|now rewrite E].
      unfold csparsing_parse. destruct (read_to_string stdin) as [ws|]; [|reflexivity].
      assert (OB : forall name s, has m name s -> no_usize s -> optional_argument usize_of_text m name = None) by (intros name s HI HU; unfold optional_argument; now rewrite (find_value m WF _ _ HI), (usize_bad _ HU)).
      destruct (match arg_value m «"k"» with Some n => usize_of_text n | None => Some 1 end) as [k|] eqn:EK; [|reflexivity].
      destruct (optional_argument usize_of_text m «"beam"») as [beam|] eqn:EB; [|reflexivity].
      destruct (optional_argument (of_text iow) m «"threshold"») as [thr|] eqn:ET; [|reflexivity].
      destruct (optional_argument usize_of_text m «"candidates"») as [cand|] eqn:EC; [|reflexivity].
      destruct HX as [HL|[(path & HI & HF)|[(name & s & HN & HI & HU)|(s & HI & HU)]]].
      + now rewrite (find_none m _ HL).
      + rewrite (find_value m WF _ _ HI). destruct HF as [HF|(c & HF & HC)]; rewrite HF; [reflexivity|]. destruct HC as [HC|(t & HC & HD)]; rewrite HC; [reflexivity|]. now rewrite HD.
      + exfalso. cbn [In] in HN. destruct HN as [<-|[<-|[<-|[]]]].
        * rewrite (find_value m WF _ _ HI), (usize_bad _ HU) in EK. discriminate.
        * rewrite (OB _ _ HI HU) in EB. discriminate.
        * rewrite (OB _ _ HI HU) in EC. discriminate.
      + exfalso. unfold optional_argument in ET. rewrite (find_value m WF _ _ HI), HU in ET. discriminate.
  Qed.
End CommandLine.
Print Assumptions C56_mcfg_parse.
Print Assumptions C56_cfg_parse.
Print Assumptions C56_other_commands.
Print Assumptions C56_panics_partial.
Print Assumptions C56_unknown.
Print Assumptions C56_input_not_text_refuted.
Print Assumptions C56_grammar_not_text_refuted.
Print Assumptions C56_csparsing_extract.
Print Assumptions C56_csparsing_parse.
Print Assumptions C56_csparsing_reports.

(* ---- examples ---- *)
From Verif Require Import P_CSParse Properties_Chart Properties_CSParse Properties_Command Properties_Mcfg Properties_CfgCommand Properties_Disco.
(* the files: two grammars, one that is not text, and what csparsing extract writes for the first; zipping puts a mark in front *)
Definition ex_zip (s : bytes) : bytes := "Z"%char :: s.
Definition ex_unzip (s : bytes) : option bytes := match s with "Z"%char :: s => Some s | _ => None end.
Definition ex_rep : option (@cs_rep bytes bytes TropWeight) := trop_extract (grammar_text ex_g) 2.
Definition ex_serialize (_ : @cs_rep bytes bytes TropWeight) : bytes := «"csrep"».
Definition ex_deserialize (s : bytes) : option (@cs_rep bytes bytes TropWeight) := if word_eqb s «"csrep"» then ex_rep else None.
Definition ex_bad : bytes := «"S -> "» ++ [ascii_of_N 255].
Definition ex_files (path : bytes) : option bytes :=
  if word_eqb path «"g.mcfg"» then Some (grammar_text ex_m) else if word_eqb path «"g.cfg"» then Some (cfg_file ex_c)
  else if word_eqb path «"bad"» then Some ex_bad else if word_eqb path «"g.cs"» then Some (ex_zip «"csrep"») else None.
Definition ex_run (stdin : bytes) (commands : list bytes) (m : arg_matches) : outcome bytes :=
  main word_eqb word_eqb trop_reqb trop_sum (P_Agenda.list_heap _ trop_wi_TO) (P_Agenda.list_minmax _ trop_wi_TO) (P_Agenda.list_heap _ trop_pda_TO) (P_Agenda.list_minmax _ trop_pda_TO) trop_heap trop_kheap
    (fun l => l) (fun l => l) (fun l => l) (fun l => l) (fun l => l) (fun l => l) (fun l => l) (fun l => l) (nodup Nat.eq_dec) (fun l => l)
    trop_io trop_factorize trop_counts true (fun x => x) (to_text trop_io) (fun _ => []) (fun _ => «"(configuration)"») (fun _ _ _ _ => Panics)
    ex_zip ex_unzip ex_serialize ex_deserialize ex_files stdin 200 50 commands m.
Definition ex_mcfg_args : arg_matches := ArgMatches [(«"grammar"», «"g.mcfg"»); («"number-of-parses"», «"3"»); («"beam-width"», «"1000"»)] [«"negra"»].
Definition ex_cfg_args : arg_matches := ArgMatches [(«"grammar"», «"g.cfg"»); («"number-of-parses"», «"+5"»)] [].
Definition ex_extract_args : arg_matches := ArgMatches [(«"sxlen"», «"2"»)] [«"gzipped"»].
Definition ex_parse_args : arg_matches := ArgMatches [(«"csfile"», «"g.cs"»); («"k"», «"1"»)] [«"with-pos"»; «"fallback"»].
Definition ex_bad_args : arg_matches := ArgMatches [(«"grammar"», «"bad"»); («"number-of-parses"», «"5"»)] [].
Definition ex_typo_args : arg_matches := ArgMatches [(«"grammar"», «"g.cfg"»); («"number-of-parses"», «"5"»); («"beam-width"», «"wide"»)] [].
Ltac there := cbn; tauto.
Ltac absent := unfold lacks; cbn; intuition discriminate.
Ltac flagged := split; [absent|cbn; intuition (try discriminate)].
Example C56_example :
  (* mcfg parse -b 1000 --negra *)
  (well_formed ex_mcfg_args /\ file_of ex_files ex_mcfg_args «"grammar"» (grammar_text ex_m) /\ has_number ex_mcfg_args «"number-of-parses"» 3 /\
   may_have usize ex_mcfg_args «"beam-width"» (Some 1000) /\ flag ex_mcfg_args «"negra"» true /\ is_text ex_corpus /\ is_text (grammar_text ex_m) /\
   ex_run ex_corpus [«"mcfg"»; «"parse"»] ex_mcfg_args = trop_mcfg 3 (Some 1000) true (grammar_text ex_m) 200 50 ex_corpus /\
   ex_run ex_corpus [«"mcfg"»; «"parse"»] ex_mcfg_args = trop_mcfg 3 None true (grammar_text ex_m) 200 50 ex_corpus) /\
  (* cfg parse *)
  (well_formed ex_cfg_args /\ file_of ex_files ex_cfg_args «"grammar"» (cfg_file ex_c) /\ has_number ex_cfg_args «"number-of-parses"» 5 /\
   may_have usize ex_cfg_args «"beam-width"» None /\ is_text (cfg_file ex_c) /\
   ex_run (lines_of [«"a a"»; «"b"»]) [«"cfg"»; «"parse"»] ex_cfg_args = Done (conf_line «"2"» ++ conf_line «"3"» ++ newline ++ newline)) /\
  (* csparsing extract reads the standard input, csparsing parse what was written *)
  (exists rep, ex_rep = Some rep /\ ex_unzip (ex_zip (ex_serialize rep)) = Some (ex_serialize rep) /\ ex_deserialize (ex_serialize rep) = Some rep /\
   ex_files «"g.cs"» = Some (ex_zip (ex_serialize rep)) /\
   flag ex_extract_args «"gzipped"» true /\ flag ex_extract_args «"ungzipped"» false /\ flag ex_extract_args «"disco-grammar"» false /\ lacks ex_extract_args «"grammar"» /\
   ex_run (ex_zip (grammar_text ex_g)) [«"csparsing"»; «"extract"»] ex_extract_args = Done (ex_zip (ex_serialize rep)) /\
   well_formed ex_parse_args /\ flag ex_parse_args «"with-pos"» true /\ flag ex_parse_args «"fallback"» true /\ flag ex_parse_args «"with-lines"» false /\ flag ex_parse_args «"debugmode"» false /\
   exists out, ex_run (lines_of [ex_line1; ex_line2]) [«"csparsing"»; «"parse"»] ex_parse_args = Done out /\
     trop_command rep 50 (command_settings None None None) (Options 1 false true false true) (lines_of [ex_line1; ex_line2]) = Some out /\ out <> []) /\
  (* not text; a file that is not there; a beam width that is no number: noticed with the first sentence only *)
  ~ is_text ex_bad /\ ex_run («"b"» ++ newline) [«"cfg"»; «"parse"»] ex_bad_args = Done newline /\ ex_run ex_bad [«"cfg"»; «"parse"»] ex_cfg_args = Done [] /\
  ex_run [] [«"cfg"»; «"parse"»] (ArgMatches [(«"grammar"», «"none"»)] []) = Panics /\ no_usize «"wide"» /\
  ex_run [] [«"cfg"»; «"parse"»] ex_typo_args = Done [] /\ ex_run («"a"» ++ newline) [«"cfg"»; «"parse"»] ex_typo_args = Panics /\
  ex_run [] [«"pmcfg"»; «"parse"»] ex_mcfg_args = Done [] /\
  ex_run (grammar_text ex_g) [«"csparsing"»; «"extract"»] ex_extract_args = Panics /\ ex_run (ex_zip ex_bad) [«"csparsing"»; «"extract"»] ex_extract_args = Panics /\
  ex_run [] [«"csparsing"»; «"parse"»] (ArgMatches [(«"csfile"», «"g.cfg"»)] []) = Panics.
Proof.
  assert (U : forall s n, usize_of_text s = Some n -> usize s n) by (intros s n X; now apply usize_iff).
  split; [|split; [|split]].
  - split; [unfold well_formed; cbn; repeat constructor; cbn; intuition discriminate|]. split; [eexists «"g.mcfg"», _; split; [there|split; [reflexivity|left; split; [apply utf8_text; vm_compute; reflexivity|reflexivity]]]|].
    split; [exists «"3"»; split; [there|apply U; reflexivity]|]. split; [exists «"1000"»; split; [there|apply U; vm_compute; reflexivity]|]. split; [flagged|].
    split; [apply utf8_text; vm_compute; reflexivity|]. split; [apply utf8_text; vm_compute; reflexivity|]. split; vm_compute; reflexivity.
  - split; [unfold well_formed; cbn; repeat constructor; cbn; intuition discriminate|]. split; [eexists «"g.cfg"», _; split; [there|split; [reflexivity|left; split; [apply utf8_text; vm_compute; reflexivity|reflexivity]]]|].
    split; [exists «"+5"»; split; [there|apply U; reflexivity]|]. split; [change (lacks ex_cfg_args «"beam-width"»); absent|].
    split; [apply utf8_text; vm_compute; reflexivity|]. vm_compute; reflexivity.
  - eexists. split; [vm_compute; reflexivity|]. split; [vm_compute; reflexivity|]. split; [vm_compute; reflexivity|]. split; [vm_compute; reflexivity|].
    split; [flagged|]. split; [flagged|]. split; [flagged|]. split; [absent|]. split; [vm_compute; reflexivity|].
    split; [unfold well_formed; cbn; repeat constructor; cbn; intuition discriminate|].
    split; [flagged|]. split; [flagged|]. split; [flagged|]. split; [flagged|].
    eexists. split; [vm_compute; reflexivity|]. split; [vm_compute; reflexivity|discriminate].
  - split; [intros X; apply utf8_text in X; discriminate|]. split; [vm_compute; reflexivity|]. split; [vm_compute; reflexivity|]. split; [vm_compute; reflexivity|].
    split; [intros n X; apply usize_iff in X; discriminate|]. repeat split; vm_compute; reflexivity.
Qed.
