(* C39: the text formats of grammars. *)
From Verif Require Import M_Nom Base M_Recog M_CFG M_Grammar M_Text S_Recog S_Text P_Recog P_Text Properties_TreeStack.

(* Every text of the documented syntax is read as the rule it means. *)
Theorem C39_cfg_rule_syntax :
  forall (N T : Type) (K : Weight) (ion : text_io N) (iot : text_io T) (iow : text_io K) text r,
  cfg_rule_syntax ion iot iow text r -> cfg_rule_of_text ion iot iow text = FOk r.
Proof. intros N T K ion iot iow text r H. unfold cfg_rule_of_text, run_parser. now rewrite (cfg_rule_app ion iot iow text r H). Qed.
Print Assumptions C39_cfg_rule_syntax.
Theorem C39_pmcfg_rule_syntax :
  forall (N T : Type) (K : Weight) (ion : text_io N) (iot : text_io T) (iow : text_io K) text r,
  pmcfg_rule_syntax ion iot iow text r -> pmcfg_rule_of_text ion iot iow text = FOk r.
Proof. intros N T K ion iot iow text r H. unfold pmcfg_rule_of_text, run_parser. now rewrite (pmcfg_rule_app ion iot iow text r H). Qed.
Print Assumptions C39_pmcfg_rule_syntax.

(* Every text of the documented syntax of grammars is read as the rules of its lines and the union of the initial nonterminals,
   both in the order of the text. *)
Theorem C39_grammar_syntax :
  forall (N T : Type) (K : Weight) (ion : text_io N) (iot : text_io T) (iow : text_io K) text is,
  (forall rs, text_means ion (cfg_rule_syntax ion iot iow) text is rs -> cfg_of_text ion iot iow text = FOk (CFG is rs)) /\
  (forall rs, text_means ion (pmcfg_rule_syntax ion iot iow) text is rs -> pmcfg_of_text ion iot iow text = FOk (PMCFG is rs) /\
     lcfrs_of_text ion iot iow text = match is with [i] => FOk (MCFG rs i) | _ => FErr end).
Proof.
  intros N T K ion iot iow text is. split.
  - intros rs H. unfold cfg_of_text. rewrite (text_app ion (cfg_rule_of_text ion iot iow) (cfg_rule_syntax ion iot iow)) with (is := is) (rs := rs); auto.
    intros t r HT. split; [now apply C39_cfg_rule_syntax|]. destruct HT as (h & sp1 & a & sp2 & c & sp3 & w & sp4 & z & _ & _ & _ & _ & -> & HH & _). apply token_first in HH. destruct HH as (b & t' & -> & _). discriminate.
  - intros rs H. unfold pmcfg_of_text, lcfrs_of_text. rewrite (text_app ion (pmcfg_rule_of_text ion iot iow) (pmcfg_rule_syntax ion iot iow)) with (is := is) (rs := rs); auto.
    intros t r HT. split; [now apply C39_pmcfg_rule_syntax|]. destruct HT as (h & sp1 & a & sp2 & c & sp3 & s & sp4 & w & sp5 & z & _ & _ & _ & _ & _ & -> & HH & _). apply token_first in HH. destruct HH as (b & t' & -> & _). discriminate.
Qed.
Print Assumptions C39_grammar_syntax.

(* A symbol in quotation marks is read back if and only if its own text is well escaped: Display does not escape. *)
Theorem C39_token :
  forall (X : Type) (io : text_io X) (x : X) rest, readable io x ->
  parse_token io (in_quotes (to_text io x) ++ rest) = Done rest x <-> well_escaped (to_text io x).
Proof.
  intros X io x rest HR. split; [|intros W; apply token_app; now apply in_quotes_token].
  unfold parse_token, map_opt, alt. destruct (quoted (in_quotes (to_text io x) ++ rest)) as [r s| | |] eqn:E; try discriminate.
  destruct (of_text io s) as [y|]; [|discriminate]. intros H. injection H as -> _. apply quoted_done in E. destruct E as [E W]. unfold in_quotes in E. rewrite <- !app_assoc in E.
  apply app_inv_head in E. rewrite !app_assoc in E. apply app_inv_tail, app_inv_tail in E. now rewrite E.
Qed.
Print Assumptions C39_token.

Lemma weight_shown {K : Weight} (io : text_io K) (w : K) : showable_weight io w -> weight_part io ([] ++ []) («"# "» ++ to_text io w) w.
Proof.
  intros (HR & NE & HS). right. exists [" "%char], (to_text io w). split; [intros a [<-|[]]; now left|]. split; [assumption|]. split; [intros a Ha; specialize (HS a Ha); split; intros ->; discriminate|].
  split; [assumption|]. split; [reflexivity|now left].
Qed.
Lemma blank1 : spaces [" "%char].
Proof. intros a [<-|[]]. now left. Qed.
Lemma blank2 : spaces [" "; " "]%char.
Proof. intros a [<-|[<-|[]]]; now left. Qed.
Lemma blank0 : spaces [].
Proof. intros a []. Qed.
Lemma cfg_rule_shown {N T} {K : Weight} (ion : text_io N) (iot : text_io T) (iow : text_io K) r : showable_cfg_rule ion iot iow r -> cfg_rule_syntax ion iot iow (cfg_rule_text ion iot iow r) r.
Proof.
  intros ([H1 H2] & HW & HL). exists (in_quotes (to_text ion (cr_head r))), [" "%char], «"→"», [" "%char], («"["» ++ commas (map (letter_text ion iot) (cr_rhs r)) ++ «"]"»), [" "; " "]%char, («"# "» ++ to_text iow (cr_weight r)), [], [].
  split; [apply blank1|]. split; [apply blank1|]. split; [apply blank2|]. split; [apply blank0|]. split; [unfold cfg_rule_text; rewrite <- !app_assoc, app_nil_r; reflexivity|].
  split; [now apply in_quotes_token|]. split; [now left|]. split; [|split; [now apply weight_shown|now left]].
  apply (commas_vec (letter ion iot) (letter_text ion iot) "]"%char eq_refl "["%char). intros x Hx rest _. specialize (HL x Hx). destruct x as [n|t]; destruct HL as [L1 L2].
  - exists [" "%char], (in_quotes (to_text ion n)). split; [apply blank1|]. split; [reflexivity|now apply in_quotes_token].
  - exists [" "%char], (in_quotes (to_text iot t)). split; [apply blank1|]. split; [reflexivity|now apply in_quotes_token].
Qed.
Lemma pmcfg_rule_shown {N T} {K : Weight} (ion : text_io N) (iot : text_io T) (iow : text_io K) r : showable_rule ion iot iow r -> pmcfg_rule_syntax ion iot iow (pmcfg_rule_text ion iot iow r) r.
Proof.
  intros ([H1 H2] & HW & HT & HL). exists (in_quotes (to_text ion (pr_head r))), [" "%char], «"→"», [" "%char], (composition_text iot (pr_comp r)), [" "%char],
    («"("» ++ commas (map (fun nt => in_quotes (to_text ion nt)) (pr_tail r)) ++ «")"»), [" "; " "]%char, («"# "» ++ to_text iow (pr_weight r)), [], [].
  split; [apply blank1|]. split; [apply blank1|]. split; [apply blank1|]. split; [apply blank2|]. split; [apply blank0|]. split; [unfold pmcfg_rule_text; rewrite <- !app_assoc, app_nil_r; reflexivity|].
  split; [now apply in_quotes_token|]. split; [now left|]. split; [|split; [|split; [now apply weight_shown|now left]]].
  - apply (commas_vec (component iot) (fun proj => «"["» ++ commas (map (vart_text iot) proj) ++ «"]"») "]"%char eq_refl "["%char). intros c Hc rest _.
    apply (commas_vec (variable_or_terminal iot) (vart_text iot) "]"%char eq_refl "["%char). intros x Hx rest' ER. specialize (HL c x Hc Hx). exists [" "%char]. split; [apply blank1|]. destruct x as [i j|t].
    + destruct HL as [L1 L2]. exists [" "%char]. split; [apply blank1|]. split; [discriminate|]. repeat split; auto.
    + destruct HL as [L1 L2]. exists (in_quotes (to_text iot t)). split; [reflexivity|now apply in_quotes_token].
  - apply (commas_vec (token ion) (fun nt => in_quotes (to_text ion nt)) ")"%char eq_refl "("%char). intros n Hn rest _. destruct (HT n Hn). now apply in_quotes_token.
Qed.

(* C39: the text of a rule is read back as the rule. *)
Theorem C39_cfg_round_trip_partial :
  forall (N T : Type) (K : Weight) (ion : text_io N) (iot : text_io T) (iow : text_io K) (r : cfg_rule N T K),
  showable_cfg_rule ion iot iow r -> cfg_rule_of_text ion iot iow (cfg_rule_text ion iot iow r) = FOk r.
Proof. intros. now apply C39_cfg_rule_syntax, cfg_rule_shown. Qed.
Print Assumptions C39_cfg_round_trip_partial.
Theorem C39_pmcfg_round_trip_partial :
  forall (N T : Type) (K : Weight) (ion : text_io N) (iot : text_io T) (iow : text_io K) (r : prule N T K),
  showable_rule ion iot iow r -> pmcfg_rule_of_text ion iot iow (pmcfg_rule_text ion iot iow r) = FOk r.
Proof. intros. now apply C39_pmcfg_rule_syntax, pmcfg_rule_shown. Qed.
Print Assumptions C39_pmcfg_round_trip_partial.

Lemma not_in_app {X} (a : X) x y : ~ In a x -> ~ In a y -> ~ In a (x ++ y).
Proof. intros H1 H2 H. apply in_app_iff in H. tauto. Qed.
Lemma not_in_commas (a : ascii) l : (forall x, In x l -> ~ In a x) -> a <> ","%char -> a <> " "%char -> ~ In a (commas l).
Proof.
  intros H N1 N2. destruct l as [|x l]; [intros []|]. rewrite commas_cons. apply not_in_app; [apply H; now left|]. intros C. apply in_flat_map in C. destruct C as (y & Hy & C). cbn in C.
  destruct C as [C|[C|C]]; [congruence|congruence|]. revert C. apply H. now right.
Qed.
Lemma not_in_quotes (a : ascii) x : ~ In a x -> a <> """"%char -> ~ In a (in_quotes x).
Proof. intros H N. unfold in_quotes. apply not_in_app; [intros [C|[]]; congruence|]. apply not_in_app; [assumption|intros [C|[]]; congruence]. Qed.
Lemma usize_no_newline n : ~ In "010"%char (usize_text n).
Proof. intros H. apply uint_text_digits in H. discriminate. Qed.
Ltac no_nl := match goal with |- ~ In _ (list_ascii_of_string _) => intros C; cbn in C; repeat (destruct C as [C|C]; [discriminate|]); destruct C end.
Ltac apps := repeat match goal with |- ~ In _ (_ ++ _) => apply not_in_app end.
Lemma rule_one_line {N T} {K : Weight} (ion : text_io N) (iot : text_io T) (iow : text_io K) r : showable_rule ion iot iow r -> one_line_rule ion iot r -> ~ In "010"%char (pmcfg_rule_text ion iot iow r).
Proof.
  intros (_ & (_ & _ & HW) & _) (O1 & O2 & O3). unfold pmcfg_rule_text, composition_text.
  apps; try no_nl; try (apply not_in_quotes; [assumption|discriminate]); try (intros C; specialize (HW _ C); discriminate).
  - apply not_in_commas; [|discriminate|discriminate]. intros x Hx. apply in_map_iff in Hx. destruct Hx as (c & <- & Hc). apps; try no_nl. apply not_in_commas; [|discriminate|discriminate].
    intros x Hx. apply in_map_iff in Hx. destruct Hx as ([i j|t] & <- & Ht); cbn [vart_text]; apps; try no_nl; try apply usize_no_newline. apply not_in_quotes; [now apply (O3 c)|discriminate].
  - apply not_in_commas; [|discriminate|discriminate]. intros x Hx. apply in_map_iff in Hx. destruct Hx as (n & <- & Hn). apply not_in_quotes; [now apply O2|discriminate].
Qed.

Lemma rule_last {N T} {K : Weight} (ion : text_io N) (iot : text_io T) (iow : text_io K) r : to_text iow (pr_weight r) <> [] ->
  exists u a, pmcfg_rule_text ion iot iow r = u ++ [a] /\ In a (to_text iow (pr_weight r)).
Proof.
  intros NW. destruct (@exists_last _ (to_text iow (pr_weight r)) NW) as (w & a & E). unfold pmcfg_rule_text. rewrite E, !app_assoc. eexists. exists a. split; [reflexivity|]. apply in_app_iff. right. now left.
Qed.

Lemma grammar_shown {N T} {K : Weight} (ion : text_io N) (iot : text_io T) (iow : text_io K) v is rs :
  ~ In "010"%char v -> (exists v', v = v' ++ «"]"») -> vec (token ion) «"["» «"]"» «","» [] v is ->
  (forall r, In r rs -> showable_rule ion iot iow r /\ one_line_rule ion iot r) ->
  text_means ion (pmcfg_rule_syntax ion iot iow) («"initial: "» ++ v ++ newline ++ newline ++ concat (map (fun r => pmcfg_rule_text ion iot iow r ++ newline) rs)) is rs.
Proof.
  intros NV (v' & EV) HV HR.
  replace («"initial: "» ++ v ++ newline ++ newline ++ concat (map (fun r => pmcfg_rule_text ion iot iow r ++ newline) rs))
    with ((«"initial:"» ++ [" "%char] ++ v ++ []) ++ newline ++ [] ++ newline ++ concat (map (fun r => pmcfg_rule_text ion iot iow r ++ newline) rs))
    by (change «"initial: "» with («"initial:"» ++ [" "%char]); rewrite <- !app_assoc, !app_nil_l; reflexivity).
  replace (text_means ion (pmcfg_rule_syntax ion iot iow) ((«"initial:"» ++ [" "%char] ++ v ++ []) ++ newline ++ [] ++ newline ++ concat (map (fun r => pmcfg_rule_text ion iot iow r ++ newline) rs)) is rs)
    with (text_means ion (pmcfg_rule_syntax ion iot iow) ((«"initial:"» ++ [" "%char] ++ v ++ []) ++ newline ++ [] ++ newline ++ concat (map (fun r => pmcfg_rule_text ion iot iow r ++ newline) rs)) (is ++ [] ++ []) ([] ++ [] ++ rs)) by (now rewrite !app_nil_r).
  constructor.
  - apps; try no_nl; try assumption; try (intros [C|[]]; discriminate); intros [].
  - intros l' E. rewrite app_nil_r, EV in E. rewrite !app_assoc in E. apply app_inj_tail in E. destruct E as [_ E]. discriminate.
  - constructor; [apply blank1|assumption].
  - constructor; [intros []|intros l' E; now destruct l'|constructor|]. clear NV EV v' HV v is. induction rs as [|r rs IH]; [constructor|]. cbn [map concat]. rewrite <- app_assoc. apply (tm_line ion (pmcfg_rule_syntax ion iot iow) (pmcfg_rule_text ion iot iow r) [] [r] (concat (map (fun r => pmcfg_rule_text ion iot iow r ++ newline) rs)) [] rs).
    4: (apply IH; intros r' Hr'; apply HR; now right).
    1: (now apply (rule_one_line ion iot iow); apply HR; left).
    all: destruct (HR r (or_introl eq_refl)) as [SR _]; pose proof SR as (_ & (_ & NW & WW) & _); destruct (rule_last ion iot iow r NW) as (u & a & ER & Ia); apply WW in Ia.
    + intros l' E. rewrite ER in E. apply app_inj_tail in E. destruct E as [_ ->]. discriminate.
    + rewrite <- (app_nil_l (pmcfg_rule_text ion iot iow r)). rewrite <- (app_nil_r (pmcfg_rule_text ion iot iow r)). apply lm_rule; [intros c []|intros c []|now apply pmcfg_rule_shown|..].
      * intros c t' E. injection E as <- _. reflexivity.
      * intros c t' E. rewrite ER in E. apply app_inj_tail in E. destruct E as [_ <-]. assumption.
      * intros z E. discriminate.
      * intros z E. discriminate.
Qed.

(* C39: the text of a grammar is read back as the grammar, if no symbol contains the end of a line. *)
Theorem C39_grammar_round_trip_partial :
  forall (N T : Type) (K : Weight) (ion : text_io N) (iot : text_io T) (iow : text_io K) (g : pmcfg N T K),
  (forall n, In n (pg_initial g) -> showable ion n /\ one_line ion n) ->
  (forall r, In r (pg_rules g) -> showable_rule ion iot iow r /\ one_line_rule ion iot r) ->
  pmcfg_of_text ion iot iow (pmcfg_text ion iot iow g) = FOk g.
Proof.
  intros N T K ion iot iow [is rs] HI HR. cbn [pg_initial pg_rules] in *. apply C39_grammar_syntax. unfold pmcfg_text. cbn [pg_initial pg_rules].
  change «"initial: ["» with («"initial: "» ++ «"["»). rewrite <- app_assoc, (app_assoc (commas _)), (app_assoc «"["»). apply grammar_shown; auto.
  - apps; try no_nl. apply not_in_commas; [|discriminate|discriminate]. intros x Hx. apply in_map_iff in Hx. destruct Hx as (n & <- & Hn). apply not_in_quotes; [now apply HI|discriminate].
  - eexists. rewrite app_assoc. reflexivity.
  - apply (commas_vec (token ion) (fun nt => in_quotes (to_text ion nt)) "]"%char eq_refl "["%char); intros n Hn rest _; destruct (HI n Hn) as [[A B] _]; now apply in_quotes_token.
Qed.
Print Assumptions C39_grammar_round_trip_partial.
Lemma lcfrs_shown {N T : Type} {K : Weight} (ion : text_io N) (iot : text_io T) (iow : text_io K) (g : mcfg N T K) :
  readable ion (mg_initial g) -> bare (to_text ion (mg_initial g)) -> one_line ion (mg_initial g) ->
  (forall r, In r (mg_rules g) -> showable_rule ion iot iow r /\ one_line_rule ion iot r) ->
  text_means ion (pmcfg_rule_syntax ion iot iow) (lcfrs_text ion iot iow g) [mg_initial g] (mg_rules g).
Proof.
  destruct g as [rs i]. intros RI BI OI HR. cbn [mg_initial mg_rules] in *.
  unfold lcfrs_text. cbn [mg_initial mg_rules]. change «"initial: ["» with («"initial: "» ++ «"["»). rewrite <- app_assoc, (app_assoc (to_text ion i)), (app_assoc «"["»). apply grammar_shown; auto.
    - apps; try no_nl. assumption.
    - eexists. rewrite app_assoc. reflexivity.
    - exists [], (to_text ion i). split; [apply blank0|]. split; [|reflexivity]. rewrite <- (app_nil_r (to_text ion i)). apply (it_cons (token ion) «","» _ (to_text ion i) [] [] i []); [apply blank0| |constructor].
      exists (to_text ion i). split; [assumption|]. right. split; [reflexivity|]. split; [assumption|]. right. eexists _, _. split; [reflexivity|]. cbn. tauto.
Qed.
(* The text of an LCFRS does not put the initial nonterminal in quotation marks. *)
Theorem C39_lcfrs_round_trip_partial :
  forall (N T : Type) (K : Weight) (ion : text_io N) (iot : text_io T) (iow : text_io K) (g : mcfg N T K),
  readable ion (mg_initial g) -> bare (to_text ion (mg_initial g)) -> one_line ion (mg_initial g) ->
  (forall r, In r (mg_rules g) -> showable_rule ion iot iow r /\ one_line_rule ion iot r) ->
  lcfrs_of_text ion iot iow (lcfrs_text ion iot iow g) = FOk g.
Proof.
  intros N T K ion iot iow [rs i] RI BI OI HR. pose proof (lcfrs_shown ion iot iow _ RI BI OI HR) as H. now apply C39_grammar_syntax in H.
Qed.
Print Assumptions C39_lcfrs_round_trip_partial.

(* ---- examples and refutations: symbols are texts, weights are numbers ---- *)
Definition sio : text_io bytes := TextIO _ (fun x => x) (fun x => Some x).
Definition wio : text_io CostWeight := TextIO _ usize_text usize_of_text.
Definition text_rule := PRule (W:=CostWeight) «"S"» [«"A"»;«"B"»] [[Tm «"a,b"»; Var 0 1];[Var 11 0];[]] 12.
Ltac plain := repeat (apply we_plain; [discriminate|discriminate|]); apply we_nil.
Lemma text_rule_showable : showable_rule sio sio wio text_rule.
Proof.
  split; [split; [reflexivity|cbn; plain]|]. split; [split; [reflexivity|split; [discriminate|]]|].
  { intros a Ha. change (to_text wio (pr_weight text_rule)) with «"12"» in Ha. cbn in Ha. destruct Ha as [<-|[<-|[]]]; reflexivity. }
  split; [intros n [<-|[<-|[]]]; (split; [reflexivity|cbn; plain])|].
  intros c x [<-|[<-|[<-|[]]]]; cbn [In]; intros Hx.
  - destruct Hx as [<-|[<-|[]]]; [split; [reflexivity|cbn; plain]|now split].
  - destruct Hx as [<-|[]]. now split.
  - destruct Hx.
Qed.
Lemma text_rule_one_line : one_line_rule sio sio text_rule.
Proof.
  repeat split; cbn.
  - intros [C|[]]. discriminate.
  - intros n [<-|[<-|[]]]; cbn; (intros [C|[]]; discriminate).
  - intros c t [<-|[<-|[<-|[]]]] Ht; cbn in Ht.
    + destruct Ht as [[= <-]|[C|[]]]; [|discriminate]. cbn. intros [C|[C|[C|[]]]]; discriminate.
    + destruct Ht as [C|[]]. discriminate.
    + destruct Ht.
Qed.
Example C39_pmcfg_example : pmcfg_rule_of_text sio sio wio (pmcfg_rule_text sio sio wio text_rule) = FOk text_rule.
Proof. apply C39_pmcfg_round_trip_partial, text_rule_showable. Qed.
Example C39_pmcfg_text_example : pmcfg_rule_text sio sio wio text_rule = « """S"" → [[T ""a,b"", Var 0 1], [Var 11 0], []] (""A"", ""B"")  # 12" ».
Proof. reflexivity. Qed.
Example C39_grammar_example : pmcfg_of_text sio sio wio (pmcfg_text sio sio wio (PMCFG [«"S"»] [text_rule; text_rule])) = FOk (PMCFG [«"S"»] [text_rule; text_rule]).
Proof.
  apply C39_grammar_round_trip_partial.
  - intros n [<-|[]]. split; [split; [reflexivity|cbn; plain]|]. cbn. intros [C|[]]. discriminate.
  - intros r Hr. assert (r = text_rule) as -> by (destruct Hr as [<-|[<-|[]]]; reflexivity). split; [apply text_rule_showable|]. apply text_rule_one_line.
Qed.
Definition text_cfg_rule := CFGRule (K:=CostWeight) «"S"» [Value «"a b"»; Label «"S"»; Value «"\\"»] 7.
Example C39_cfg_example : cfg_rule_of_text sio sio wio (cfg_rule_text sio sio wio text_cfg_rule) = FOk text_cfg_rule.
Proof.
  apply C39_cfg_round_trip_partial. split; [split; [reflexivity|cbn; plain]|]. split; [split; [reflexivity|split; [discriminate|]]|].
  - intros a Ha. change (to_text wio (cr_weight text_cfg_rule)) with «"7"» in Ha. cbn in Ha. destruct Ha as [<-|[]]; reflexivity.
  - intros x [<-|[<-|[<-|[]]]]; (split; [reflexivity|cbn]); try plain. apply we_esc; [now right|]. apply we_nil.
Qed.
(* without quotation marks, with blanks and a comment *)
Example C39_syntax_example : pmcfg_rule_syntax sio sio wio « "S -> [[T a,Var 0 1] ] ( A ) # 3 % c" » (PRule (W:=CostWeight) «"S"» [«"A"»] [[Tm «"a"»; Var 0 1]] 3).
Proof.
  assert (B : forall c, ~ In c stops -> c <> "009"%char -> bare [c]) by (intros c H1 H2; split; [discriminate|intros a [<-|[]]; now split]).
  exists «"S"», «" "», «"->"», «" "», «"[[T a,Var 0 1] ]"», «" "», «"( A )"», «" "», «"# 3"», «" "», «"% c"». do 5 (split; [apply blank1|]). split; [reflexivity|].
  assert (T1 : forall c rest, ~ In c stops -> c <> "009"%char -> at_stop rest -> token sio rest [c] [c]) by (intros c rest H1 H2 H3; exists [c]; split; [reflexivity|right; auto]).
  split; [apply T1; [cbn; intros C; repeat (destruct C as [C|C]; [discriminate|]); destruct C|discriminate|right; eexists _, _; split; [reflexivity|cbn; tauto]]|]. split; [right; now left|].
  split; [|split; [|split; [|right; now eexists]]].
  - exists [], «"[T a,Var 0 1] "». split; [apply blank0|]. split; [|reflexivity]. apply (it_cons (component sio) _ _ «"[T a,Var 0 1]"» «" "» []); [apply blank1| |constructor].
    exists [], «"T a,Var 0 1"». split; [apply blank0|]. split; [|reflexivity]. apply (it_cons (variable_or_terminal sio) _ _ «"T a"» [] «",Var 0 1"»); [apply blank0| |].
    + exists «" "». split; [apply blank1|]. exists «"a"». split; [reflexivity|]. apply T1; [cbn; intros C; repeat (destruct C as [C|C]; [discriminate|]); destruct C|discriminate|right; eexists _, _; split; [reflexivity|cbn; tauto]].
    + apply (mi_cons (variable_or_terminal sio) «","» _ [] «"Var 0 1"» [] [] (Var 0 1)); [apply blank0|apply blank0| |constructor]. exists «" "». split; [apply blank1|]. exists «" "». split; [apply blank1|]. split; [discriminate|]. split; [reflexivity|]. split; [reflexivity|]. split; [reflexivity|].
      intros d r [= <- _]. reflexivity.
  - exists «" "», «"A "». split; [apply blank1|]. split; [|reflexivity]. apply (it_cons (token sio) _ _ «"A"» «" "» []); [apply blank1| |constructor].
    apply T1; [cbn; intros C; repeat (destruct C as [C|C]; [discriminate|]); destruct C|discriminate|right; eexists _, _; split; [reflexivity|cbn; tauto]].
  - right. exists «" "», «"3"». split; [apply blank1|]. split; [discriminate|]. split; [intros a [<-|[]]; split; discriminate|]. split; [reflexivity|]. split; [reflexivity|]. right. now eexists.
Qed.
Example C39_grammar_syntax_example : exists rs, text_means sio (pmcfg_rule_syntax sio sio wio) (« "initial: [ ""S"" ]" » ++ newline ++ « "  % c" » ++ newline ++ « " S -> [[T a,Var 0 1] ] ( A ) # 3 % c" » ++ newline ++ []) ([«"S"»] ++ [] ++ [] ++ []) ([] ++ [] ++ rs ++ []) /\ length rs = 1.
Proof.
  exists [PRule (W:=CostWeight) «"S"» [«"A"»] [[Tm «"a"»; Var 0 1]] 3]. split; [|reflexivity].
  assert (L : forall l, In (last l "x"%char) «"]c"» -> forall l', l <> l' ++ ["013"%char]) by (intros l H l' ->; rewrite last_last in H; destruct H as [H|[H|[]]]; discriminate).
  constructor; [intros C; cbn in C; repeat (destruct C as [C|C]; [discriminate|]); destruct C|apply L; cbn; tauto| |].
  { apply (lm_initial sio _ «" "» « "[ ""S"" ]" » []); [apply blank1|]. exists «" "», « """S"" " ». split; [apply blank1|]. split; [|reflexivity]. apply (it_cons (token sio) _ _ « """S""" » «" "» [] «"S"»); [apply blank1| |constructor]. exists «"S"». split; [reflexivity|]. left. split; [reflexivity|plain]. }
  constructor; [intros C; cbn in C; repeat (destruct C as [C|C]; [discriminate|]); destruct C|apply L; cbn; tauto| |].
  { apply (lm_comment _ _ «"  "» «" c"»). intros a [<-|[<-|[]]]; reflexivity. }
  constructor; [intros C; cbn in C; repeat (destruct C as [C|C]; [discriminate|]); destruct C|apply L; cbn; tauto| |constructor].
  apply (lm_rule _ _ «" "» « "S -> [[T a,Var 0 1] ] ( A ) # 3 % c" » []); [intros a [<-|[]]; reflexivity|intros a []|apply C39_syntax_example|intros a t [= <- _]; reflexivity| |intros z; discriminate|intros z; discriminate].
  intros a t E. change (list_ascii_of_string _) with (« "S -> [[T a,Var 0 1] ] ( A ) # 3 % " » ++ ["c"%char]) in E. apply app_inj_tail in E. destruct E as [_ <-]. reflexivity.
Qed.

(* Without the condition on quotation marks the text of one rule is read as another rule. *)
Theorem C39_quotes_refuted :
  exists r r' : cfg_rule bytes bytes CostWeight, cfg_rule_of_text sio sio wio (cfg_rule_text sio sio wio r) = FOk r' /\ length (cr_rhs r) = 1 /\ length (cr_rhs r') = 2.
Proof. exists (CFGRule (K:=CostWeight) «"S"» [Value « "a"", T ""b" »] 7), (CFGRule (K:=CostWeight) «"S"» [Value «"a"»; Value «"b"»] 7). split; [reflexivity|now split]. Qed.
Print Assumptions C39_quotes_refuted.
(* Symbols that contain the end of a line: every rule is read back from its own text, the grammar is not. *)
Theorem C39_newline_refuted :
  exists g : pmcfg bytes bytes CostWeight, (forall r, In r (pg_rules g) -> pmcfg_rule_of_text sio sio wio (pmcfg_rule_text sio sio wio r) = FOk r) /\
    pmcfg_of_text sio sio wio (pmcfg_text sio sio wio g) = FErr.
Proof. exists (PMCFG [«"S"»] [PRule (W:=CostWeight) «"S"» [] [[Tm (newline ++ «"a"»)]] 0]). split; [|reflexivity]. intros r [<-|[]]. reflexivity. Qed.
Print Assumptions C39_newline_refuted.
Example C39_lcfrs_example : lcfrs_of_text sio sio wio (lcfrs_text sio sio wio (MCFG [text_rule] «"S"»)) = FOk (MCFG [text_rule] «"S"»).
Proof.
  apply C39_lcfrs_round_trip_partial; [reflexivity|..].
  - split; [discriminate|]. intros a [<-|[]]. split; [|discriminate]. cbn. intros C. repeat (destruct C as [C|C]; [discriminate|]). destruct C.
  - intros [C|[]]. discriminate.
  - intros r [<-|[]]. split; [apply text_rule_showable|]. apply (text_rule_one_line).
Qed.
(* An LCFRS whose initial nonterminal is not a bare token: every symbol of every rule is read back, the text of the grammar is not. *)
Theorem C39_lcfrs_initial_refuted :
  exists g : mcfg bytes bytes CostWeight, (forall r, In r (mg_rules g) -> showable_rule sio sio wio r) /\ showable sio (mg_initial g) /\
    lcfrs_of_text sio sio wio (lcfrs_text sio sio wio g) = FErr.
Proof. exists (MCFG [text_rule] «"A B"»). split; [intros r [<-|[]]; apply text_rule_showable|]. split; [split; [reflexivity|cbn; plain]|reflexivity]. Qed.
Print Assumptions C39_lcfrs_initial_refuted.
(* C39, numbers (line numbers, indices, widths): exactly the texts of decimal digits with or without a plus sign are read, if
   the value is less than 2^64. *)
Theorem C39_numbers : forall s n, usize_of_text s = Some n <-> number s (N.of_nat n) /\ (N.of_nat n < 2 ^ 64)%N.
Proof. exact usize_iff. Qed.
Print Assumptions C39_numbers.
Example C39_numbers_example :
  usize_of_text «"+042"» = Some 42 /\ usize_of_text «""» = None /\ usize_of_text «"+"» = None /\ usize_of_text «"-1"» = None /\ usize_of_text «"18446744073709551616"» = None.
Proof. repeat split; reflexivity. Qed.

(* A text with a malformed weight or a number that is not a usize makes the parser of PMCFG rules panic; that of CFG rules answers Err.
   So does a comment that follows the weight without a space. *)
Theorem C39_panic_refuted :
  pmcfg_rule_of_text sio sio wio «"S -> [[]] () # x"» = FPanic /\ cfg_rule_of_text sio sio wio «"S -> [] # x"» = FErr /\
  pmcfg_rule_of_text sio sio wio «"S -> [[]] () # 1% comment"» = FPanic /\
  pmcfg_rule_of_text sio sio wio «"S -> [[Var 0 18446744073709551616]] (A)"» = FPanic /\
  pmcfg_rule_of_text sio sio wio «"S -> [[Var 18446744073709551616 0]] (A)"» = FPanic.
Proof. repeat split; vm_compute; reflexivity. Qed.
Print Assumptions C39_panic_refuted.
(* The documentation allows in bare tokens every symbol but the listed ones: the listed symbol → excludes each of its bytes, so a token with Æ is cut.
   A tab does not end a token. *)
Theorem C39_bare_token_refuted :
  (exists r, parse_token sio «"Æ,"» = Done r ["195"%char] /\ length r = 2) /\
  cfg_rule_of_text sio sio wio «"Æ -> []"» = FErr /\
  cfg_rule_of_text sio sio wio (« "S -> [T a" » ++ ["009"%char] ++ « ", T b]" ») = FOk (CFGRule (K:=CostWeight) «"S"» [Value («"a"» ++ ["009"%char]); Value «"b"»] 0).
Proof. split; [eexists; split; reflexivity|]. split; reflexivity. Qed.
Print Assumptions C39_bare_token_refuted.
