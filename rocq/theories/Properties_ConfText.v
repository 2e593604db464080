(* C54: the derivations that mcfg parse prints without the export format. *)
From Verif Require Import M_Nom Base BMap M_Util M_Agenda M_Search M_Recog M_Automata M_CFG M_TreeStack M_Grammar M_Chart M_FromPmcfg M_Negra M_Text M_Command M_Mcfg M_TsaCommand M_ConfText
  S_Recog S_TreeStack S_Grammar S_FromPmcfg S_Negra S_Text S_AutText S_Command S_Mcfg S_ConfText P_Agenda P_Search P_Util P_Recog P_Automata P_PDA P_TreeStack P_TSA P_Grammar P_GrammarCFG
  P_FromPmcfg P_FromPmcfg2 P_FromPmcfg3 P_FromPmcfg4 P_FromPmcfg5 P_Text P_AutText P_Command P_ConfText P_ConfText2 P_Mcfg M_AutText Properties_Negra Properties_RuleMask Properties_Text Properties_FromPmcfg Properties_Beam Properties_Chart Properties_CSParse Properties_Command Properties_Mcfg.

(* C54: under the conditions of C44, but for any form of the rules: what the command prints for a derivation is, line by line,
   its weight and its rules in preorder, each indented by its depth and marked with the number of the child it is. *)
Theorem C54_printed_tree_partial :
  forall (K : ZWeight) (neqb teqb : bytes -> bytes -> bool) (reqb : prule bytes bytes K -> prule bytes bytes K -> bool),
  RoundLaws K -> EqbSpec neqb -> EqbSpec teqb -> EqbSpec reqb ->
  forall (H : max_heap (item (tstack nat) (ts_instr nat) nat K * K) (wi_leb wleb)) (Hb : minmax_heap (item (tstack nat) (ts_instr nat) nat K * K) (wi_leb wleb))
    (shuffle : list (transition (ts_instr nat) nat K) -> list (transition (ts_instr nat) nat K)), (forall l, Permutation (shuffle l) l) ->
  forall (iow : text_io K) (grammar : bytes) (init : list bytes) (rules : list (prule bytes bytes K)), text_means string_io (pmcfg_rule_syntax string_io string_io iow) grammar init rules ->
  forall (f : bytes -> nat), ordered_grammar f (PMCFG init rules : pmcfg bytes bytes K) -> (forall r, In r rules -> short_tails r) ->
  forall (text : bytes) (sents : list (list bytes)), sentences text sents -> (forall s, In s sents -> s <> []) ->
  forall (n : nat) (beam : option nat),
  let run calls fuel := mcfg_parse neqb teqb reqb H Hb shuffle iow (parse_text iow) grammar n beam false calls fuel text in
  let tree_of d := shown_tree (pmcfg_rule_text string_io string_io iow) (to_text iow) (read_weight d) d ++ newline in
  forall calls, exists F, (forall fuel, F <= fuel -> run calls fuel = Running) \/
    exists outs, (forall fuel, F <= fuel -> run calls fuel = Done (List.concat outs)) /\
      Forall2 (fun s out => printed init rules (beam = None) n (fun d t => t = tree_of d) s out) sents outs.
Proof.
  intros K neqb teqb reqb KL NE TE RE H Hb shuffle SH iow grammar init rules TM f OG ST text sents HS NZ n beam run tree_of calls.
  destruct (proj1 (C44_mcfg_parse_partial K neqb teqb reqb KL NE TE RE H Hb shuffle SH iow (parse_text iow) grammar init rules TM f OG ST false ltac:(discriminate) text sents HS NZ n beam) calls) as (F & [E|(outs & E & HO)]);
    exists F; [left; exact E|right]. exists outs. split; [exact E|].
  assert (P : forall tokens out t, printed init rules (beam = None) n (fun d t => exists conf, c_word conf = [] /\ c_weight conf = read_weight d /\ S_FromPmcfg.shows (c_storage conf) d /\ holds_tree (c_storage conf) d /\ t = parse_text iow conf ++ newline) tokens out -> t = out ->
     printed init rules (beam = None) n (fun d t => t = tree_of d) tokens t).
  { intros tokens out t (ds & texts & A1 & A2 & A3 & A4 & A5 & A6) ->. exists ds, texts. split; [exact A1|]. split; [exact A2|]. split; [exact A3|]. split; [exact A4|]. split; [|exact A6].
    clear -A5. induction A5 as [|d t ds texts (conf & EW & EK & _ & HT & ->) _ IH]; constructor; [|exact IH]. unfold tree_of. rewrite (conf_text iow conf d EW HT). now rewrite EK. }
  clear -HO P. cbv zeta in HO. revert outs HO. generalize 1. induction sents as [|s sents IH]; intros i outs HO; cbn [length seq combine] in HO; inversion HO as [|x out y os HP HF]; subst; constructor; [|exact (IH (S i) os HF)].
  exact (P s out out HP eq_refl).
Qed.
Print Assumptions C54_printed_tree_partial.

(* C54: the derivation can be read from the text, if the texts of the rules can be read and have no line break. *)
Theorem C54_tree_readable :
  forall (K : Weight) (N T : Type) (ion : text_io N) (iot : text_io T) (iow : text_io K) (d d' : dtree N T K),
  (forall r, In r (d_rules d) \/ In r (d_rules d') -> showable_rule ion iot iow r /\ one_line_rule ion iot r) -> one_line iow (read_weight d) -> one_line iow (read_weight d') ->
  shown_tree (pmcfg_rule_text ion iot iow) (to_text iow) (read_weight d) d = shown_tree (pmcfg_rule_text ion iot iow) (to_text iow) (read_weight d') d' -> d = d'.
Proof.
  intros K N T ion iot iow d d' HR W1 W2 E.
  refine (proj1 (shown_inj (pmcfg_rule_text ion iot iow) (fun r => showable_rule ion iot iow r /\ one_line_rule ion iot r) _ _ (to_text iow) (read_weight d) (read_weight d') d d' W1 W2 (fun r Hr => HR r (or_introl Hr)) (fun r Hr => HR r (or_intror Hr)) E)).
  - intros r [H1 H2]. now apply rule_one_line.
  - intros r r' [H1 _] [H2 _] Er. pose proof (C39_pmcfg_round_trip_partial N T K ion iot iow r H1) as P. rewrite Er, (C39_pmcfg_round_trip_partial N T K ion iot iow r' H2) in P. now injection P.
Qed.
Print Assumptions C54_tree_readable.

(* C54: an empty line.  Whatever the grammar, the first thing shown is the initial configuration, which stands for no derivation. *)
Theorem C54_empty_line_refuted :
  forall (K : ZWeight) (neqb teqb : bytes -> bytes -> bool) (reqb : prule bytes bytes K -> prule bytes bytes K -> bool), EqbSpec teqb -> EqbSpec reqb ->
  forall (H : max_heap (item (tstack nat) (ts_instr nat) nat K * K) (wi_leb wleb)) (Hb : minmax_heap (item (tstack nat) (ts_instr nat) nat K * K) (wi_leb wleb))
    (shuffle : list (transition (ts_instr nat) nat K) -> list (transition (ts_instr nat) nat K)), (forall l, Permutation (shuffle l) l) ->
  forall (iow : text_io K) (grammar text : bytes) (sents : list (list bytes)), sentences text ([] :: sents) ->
  forall n calls fuel out, 1 <= n -> mcfg_parse neqb teqb reqb H Hb shuffle iow (parse_text iow) grammar n None false calls fuel text = Done out ->
  exists rest, out = unlines [«"Configuration:"»; «"word:[]"»; «"weight:"» ++ to_text iow wone; «" "»; «"*I"»; []; []] ++ rest.
Proof.
  intros K neqb teqb reqb TE RE H Hb shuffle SH iow grammar text sents (ls & TL & HW) n calls fuel out HN E. unfold mcfg_parse in E.
  destruct (pmcfg_of_text _ _ _ grammar) as [g| |]; try discriminate. unfold tsa_from_pmcfg in E. destruct (pmcfg_transitions neqb g) as [ts|]; cbn [option_map or_panic and_then] in E; [|discriminate].
  rewrite (text_lines_app text ls TL) in E. set (M := tsa_new (posstate_eqb reqb) teqb ts (ts_new Initial)) in *. inversion HW as [|line ? ls' ? W1 W2]; subst. cbn [mcfg_lines] in E.
  destruct (mcfg_line teqb H Hb shuffle (parse_text iow) M n None false calls fuel 0 line) as [o| |] eqn:EL; try discriminate. cbn [and_then] in E. destruct (mcfg_lines _ _ _ _ _ _ _ _ _ _ _ 1 ls') as [os| |]; try discriminate. cbn [and_then] in E. injection E as <-.
  enough (G : exists rest, o = unlines [«"Configuration:"»; «"word:[]"»; «"weight:"» ++ to_text iow wone; «" "»; «"*I"»; []; []] ++ rest) by (destruct G as (rest & ->); exists (rest ++ os); now rewrite <- app_assoc).
  unfold mcfg_line in EL. rewrite (words_split line [] W1) in EL. unfold found in EL. destruct calls as [|calls].
  - cbn in EL. rewrite firstn_nil in EL. cbn in EL. destruct n; [lia|discriminate].
  - destruct (tsa_recognise teqb shuffle M H [] (S calls)) as [outs|] eqn:ER; [|discriminate]. cbn [or_panic and_then] in EL.
    destruct (coded_first _ _ _ _ _ _ _ _ _ _ _ _ _ (tsa_coded (posstate_eqb reqb) teqb (peqb_spec reqb RE) TE ts (ts_new Initial) shuffle SH) H calls outs eq_refl ER) as (rest & ->).
    destruct n as [|n]; [lia|]. cbn [firstn print_parses] in EL. unfold print_parse at 1 in EL.
    change (to_abstract_syntax_tree (ts_to_tree (c_storage (fst (Conf [] (ts_new Initial) wone, pd_new))))) with (@Some (gorn (prule bytes bytes K)) []) in EL. cbn [or_panic and_then] in EL.
    match type of EL with context [print_parses ?a ?b ?c ?d ?e] => destruct (print_parses a b c d e) as [t| |]; try discriminate end. cbn [and_then] in EL.
    destruct (Nat.leb _ _ || _); [|discriminate]. injection EL as <-. exists (t ++ newline). unfold parse_text, configuration_text, unlines. cbn. rewrite <- !app_assoc. reflexivity.
Qed.
Print Assumptions C54_empty_line_refuted.

(* C54, Display of any configuration: four entries, one below the other; the symbols that are left to read are separated by
   spaces, so they can be told apart if their texts have no white space.  Display of a pushdown lists the symbols in the same
   way, the bottom first, and names the bottom; it panics on an empty one. *)
Definition plain_word (s : bytes) : Prop := s <> [] /\ forall a, In a s -> is_white a = false.
Lemma spaces_words ws : (forall w, In w ws -> plain_word w) -> words (M_ConfText.spaces ws) ws.
Proof.
  assert (G : forall ws, (forall w, In w ws -> plain_word w) -> ws <> [] -> forall s, whites s -> words (s ++ M_ConfText.spaces ws) ws).
  { clear ws. induction ws as [|w ws IH]; intros HP NE s WS; [congruence|]. destruct (HP w (or_introl eq_refl)) as [NW PW]. destruct ws as [|v ws].
    - cbn [M_ConfText.spaces]. rewrite <- (app_nil_r w) at 1. apply wd_cons; auto. constructor. intros a [].
    - change (M_ConfText.spaces (w :: v :: ws)) with (w ++ [" "%char] ++ M_ConfText.spaces (v :: ws)). apply wd_cons; auto.
      + right. exists " "%char, (M_ConfText.spaces (v :: ws)). split; reflexivity.
      + apply IH; [intros; apply HP; now right|discriminate|]. intros a [<-|[]]. reflexivity. }
  intros HP. destruct ws as [|w ws]; [constructor; intros a []|]. apply (G (w :: ws) HP ltac:(discriminate) []). intros a [].
Qed.
Theorem C54_configuration_text :
  (forall (X T : Type) (W : Weight) (show_s : X -> bytes) (show_t : T -> bytes) (show_w : W -> bytes) (c : configuration X T W),
     (forall t, In t (c_word c) -> plain_word (show_t t)) ->
     exists l, words l (map show_t (c_word c)) /\
       configuration_text show_s show_t show_w c = unlines [«"Configuration:"»; «"word:["» ++ l ++ «"]"»; «"weight:"» ++ show_w (c_weight c); show_s (c_storage c)]) /\
  (forall (A : Type) (show : A -> bytes) (bottom : A) (rest : list A), (forall a, In a (bottom :: rest) -> plain_word (show a)) ->
     exists l, words l (map show (bottom :: rest)) /\ pushdown_text show (bottom :: rest) = Some («"stack: ["» ++ l ++ «"], empty:"» ++ show bottom)) /\
  (forall (A : Type) (show : A -> bytes), pushdown_text show [] = None).
Proof.
  split; [|split; [|reflexivity]].
  - intros X T W show_s show_t show_w c HP. exists (M_ConfText.spaces (map show_t (c_word c))). split.
    + apply spaces_words. intros w Hw. apply in_map_iff in Hw. destruct Hw as (t & <- & Ht). now apply HP.
    + unfold configuration_text, unlines. cbn [map List.concat]. rewrite <- !app_assoc. cbn [app]. now rewrite app_nil_r.
  - intros A show b rest HP. exists (M_ConfText.spaces (map show (b :: rest))). split; [|reflexivity].
    apply spaces_words. intros w Hw. apply in_map_iff in Hw. destruct Hw as (t & <- & Ht). now apply HP.
Qed.
Print Assumptions C54_configuration_text.
Example C54_configuration_example :
  configuration_text (fun s : list bytes => match pushdown_text (fun x => x) s with Some t => t | None => [] end) (fun x => x) (to_text trop_io)
    (Conf (K := TropWeight) [«"a"»; «"b"»] [«"@"»; «"S"»] (Some 3)) =
  unlines [«"Configuration:"»; «"word:[a b]"»; «"weight:3"»; «"stack: [@ S], empty:@"»].
Proof. reflexivity. Qed.

(* ---- an example: the grammar of C44_example, which meets the conditions ---- *)
Definition trop_text (n : nat) (beam : option nat) (grammar : bytes) (calls : nat) (text : bytes) : outcome bytes :=
  mcfg_parse word_eqb word_eqb trop_reqb (P_Agenda.list_heap _ trop_wi_TO) (P_Agenda.list_minmax _ trop_wi_TO) (fun l => l) trop_io (parse_text trop_io) grammar n beam false calls 0 text.
Definition ex_shown : list bytes :=
  [«"Configuration:"»; «"word:[]"»; «"weight:4"»;
   « " " »;
   «"*@"»;
   «" |"»;
   « " +-0: (""S"" → [[Var 0 0, Var 1 0, Var 0 1]] (""A"", ""B"")  # 1, 0, 3)" »;
   «" | |"»;
   « " | +-0: (""A"" → [[Var 0 0], [Var 1 0]] (""X"", ""Y"")  # 1, 1, 1)" »;
   «" | | |"»;
   « " | | +-0: (""X"" → [[T ""a""]] ()  # 2, 0, 0)" »;
   «" | | |"»;
   « " | | +-1: (""Y"" → [[T ""c""]] ()  # 0, 0, 0)" »;
   «" | |"»;
   « " | +-1: (""B"" → [[T ""b""]] ()  # 0, 0, 0)" »;
   []].
Example C54_example :
  trop_text 3 None (grammar_text ex_m) 100 (lines_of [«"a b c"»; «"a b"»]) = Done (unlines ex_shown ++ newline ++ newline ++ newline) /\
  trop_text 1 (Some 5) (grammar_text ex_m) 100 (lines_of [«"a b c"»]) = Done (unlines ex_shown ++ newline ++ newline) /\
  (let d := DNode (ex_cr «"S"» [«"A"»; «"B"»] [[Var 0 0; Var 1 0; Var 0 1]] 1)
              [DNode (ex_cr «"A"» [«"X"»; «"Y"»] [[Var 0 0]; [Var 1 0]] 1) [DNode (ex_cr «"X"» [] [[Tm «"a"»]] 2) []; DNode (ex_cr «"Y"» [] [[Tm «"c"»]] 0) []]; DNode (ex_cr «"B"» [] [[Tm «"b"»]] 0) []] in
   (forall r, In r (d_rules d) -> showable_rule string_io string_io trop_io r /\ one_line_rule string_io string_io r) /\ one_line trop_io (read_weight d) /\
   shown_tree (pmcfg_rule_text string_io string_io trop_io) (to_text trop_io) (read_weight d) d = unlines ex_shown) /\
  trop_text 1 None (grammar_text ex_m) 100 (lines_of [[]]) = Done (unlines [«"Configuration:"»; «"word:[]"»; «"weight:0"»; « " " »; «"*I"»; []; []] ++ newline).
Proof.
  split; [vm_compute; reflexivity|]. split; [vm_compute; reflexivity|]. split; [|vm_compute; reflexivity]. split; [|split; [not_in|vm_compute; reflexivity]].
  intros r Hr. cbn in Hr. in_cases Hr; show_rule.
Qed.
