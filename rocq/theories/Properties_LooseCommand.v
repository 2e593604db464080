(* C43 and C50 without conditions on the tokens: what the command csparsing parse prints. *)
From Coq Require Import Permutation NArith.
From Verif Require Import M_Nom Base BMap M_Util M_Recog M_Agenda M_Automata M_CFG M_TreeStack M_Grammar M_Chart M_CSAuto M_Estimates M_RuleMask M_ToDeriv M_KBest M_Cow M_CSParse M_Negra M_Text M_AutText M_Import M_Disco M_Command
  S_Recog S_Grammar S_Negra S_Text S_Import S_Disco S_CS S_Cow S_RuleMask S_CSParse S_AutText S_Command S_Loose S_LooseCommand P_Agenda P_Automata P_PDA P_TreeStack P_Grammar P_Separate P_Negra P_Text P_AutText P_FromPmcfg3 P_CSParse P_Import P_Disco P_Command
  Properties_Negra Properties_Chart Properties_RuleMask Properties_CSParse Properties_Text Properties_Import Properties_Loose Properties_Total Properties_Command Properties_Disco.

Lemma near_length {N T} {K : ZWeight} (rules : list (prule N T K)) init word word' : near rules init word word' -> length word' = length word.
Proof. intros [F|(t & t' & r & -> & -> & _)]; [induction F; cbn; congruence|reflexivity]. Qed.

Section Line.
  Context {K : ZWeight} (KL : ZWeightLaws K) (neqb teqb : bytes -> bytes -> bool) (NE : EqbSpec neqb) (TE : EqbSpec teqb).
  Context (factorize : K -> nat -> list K) (FL : FactorLaws factorize).
  Context (H : max_heap (K * nat) (@item_leb K)) (H2 : max_heap (K * bt K) (@kb_leb K)).
  Context (distinct : list nat -> list nat) (HD : forall l, NoDup (distinct l) /\ forall x, In x (distinct l) <-> In x l).
  Context (rules : list (prule bytes bytes K)) (init : bytes) (width : nat).
  Context (GO : grammar_ok neqb rules init) (HW : width <= 254) (CF : chain_free rules) (NR : no_root_token rules init).

  Lemma trees_of (P : gorn (prule bytes bytes K) -> dtree bytes bytes K -> Prop) (L : list (gorn (prule bytes bytes K))) : (forall t, In t L -> exists d, P t d) ->
    exists PL, L = map fst PL /\ forall p, In p PL -> P (fst p) (snd p).
  Proof.
    induction L as [|t L IH]; intros HL; [exists []; split; [reflexivity|intros p []]|]. destruct (HL t (or_introl eq_refl)) as (d & Hd). destruct IH as (PL & -> & HP); [intros; apply HL; now right|].
    exists ((t, d) :: PL). split; [reflexivity|]. intros p [<-|Hp]; [exact Hd|now apply HP].
  Qed.
  Lemma line_loose : exists rep, cs_new neqb teqb factorize H distinct rules init width = Some rep /\
    forall o cand beam delta i line id tokens shown, sentence_of (o_lines o) (o_pos o) i line id tokens shown -> length tokens <= 255 ->
    settings_ok (states (rep_generator rep)) (Settings None beam delta) ->
    exists F out, (forall fuel, F <= fuel -> parse_line H H2 teqb fuel rep (Settings cand beam delta) o i line = Some out) /\
      near_answer rules init (no_pruning (states (rep_generator rep)) (Settings None beam delta)) cand (if o_debug o then 1 else o_k o) (o_pos o) (o_debug o || o_fallback o) id tokens shown out.
  Proof.
    destruct (total_trees KL neqb teqb NE TE factorize FL H H2 distinct HD rules init width GO HW CF) as (rep & ER & P). exists rep. split; [exact ER|].
    intros o cand beam delta i line id tokens shown HS Hn SO. set (complete := no_pruning _ _).
    destruct (P tokens beam delta Hn SO) as (F0 & fb & ws & E & ED & SD & CP & FB1 & FB2). clear P. fold complete in CP.
    destruct GO as [HN HF HC _ _]. destruct (C27_accepted_grammars _ _ K neqb rules init _ NE HN HF HC) as ((f & FO & _) & _ & NF). clear HN HF HC.
    destruct (sentence_split _ _ _ _ _ _ _ HS) as (line_words & ES & EP). pose proof (sentence_length _ _ _ _ _ _ _ HS) as SL.
    (* derivations *)
    destruct (trees_of (fun t d => represents t d /\ near_derivation rules init tokens d) (somes (fun x => x) ws)) as (PL & EL & HPL).
    { intros t Hin. apply somes_in in Hin. destruct Hin as (x & Hx & ->). destruct (SD t Hx) as (word' & w & NR' & d & D & Y & Wd & S0 & HM). exists d. split; [split; assumption|]. split; [exact D|]. exists word'. auto. }
    set (ds := map snd PL).
    set (n := length (somes (fun x => x) (upto cand ws))).
    assert (EN : somes (fun x => x) (upto cand ws) = firstn n (somes (fun x => x) ws)).
    { unfold n. destruct cand as [c|]; cbn [upto]; [|now rewrite firstn_all]. assert (SA : somes (fun x => x) ws = somes (fun x => x) (firstn c ws) ++ somes (fun x => x) (skipn c ws)) by (unfold somes; rewrite <- flat_map_app, firstn_skipn; reflexivity).
      rewrite SA, firstn_app, Nat.sub_diag, firstn_all, firstn_O, app_nil_r. reflexivity. }
    assert (NC : match cand with None => n = length ds | Some c => n <= c end).
    { unfold n, ds. rewrite map_length. destruct cand as [c|]; cbn [upto]; [etransitivity; [apply somes_length|]; rewrite firstn_length; lia|]. rewrite EL, map_length. reflexivity. }
    assert (NOD : complete -> ws = [] -> forall d w, ~ parse_of rules init tokens d w).
    { intros CO -> d w (D & Y & Wd). destruct (tree_of d) as (t & S0 & HM). elim (CP CO t w). exists d. auto. }
    assert (BP : forall d, In d ds -> near_derivation rules init tokens d) by (intros d Hd; apply in_map_iff in Hd; destruct Hd as (p & <- & Hp); apply HPL; exact Hp).
    assert (AL : complete -> forall d w, parse_of rules init tokens d w -> In d ds).
    { intros CO d w (D & Y & Wd). destruct (tree_of d) as (t & S0 & HM). assert (IP : is_parse rules init tokens t w) by (exists d; auto). apply (CP CO) in IP.
      assert (Hin : In t (somes (fun x => x) ws)) by (apply somes_in; exists (Some t); auto). rewrite EL in Hin. apply in_map_iff in Hin. destruct Hin as (p & Et & Hp). destruct (HPL p Hp) as ((_ & HM') & _).
      apply in_map_iff. exists p. split; [|exact Hp]. symmetry. apply rule_at_ext. intros a. now rewrite <- HM, <- HM', Et. }
    (* texts *)
    assert (ROOT : forall d, deriv (fun r => In r rules) init d -> forall r t, rule_at d [] = Some r -> ~ In (Tm t) (List.concat (pr_comp r))).
    { intros [r0 ts] D r t Er Ht. cbn in Er. injection Er as <-. apply deriv_inv in D. destruct D as (Hr & Hh & _). apply (terminal_rule rules NF) in Ht; [|exact Hr]. exact (NR r0 t Hr Hh Ht). }
    set (k := if o_debug o then 1 else o_k o).
    destruct (bounded (fun fuel (p : gorn (prule bytes bytes K) * dtree bytes bytes K) y => print_tree fuel id (mode_of (o_pos o) shown) (fst p) = Some y) (fun p y => shows_near (o_pos o) id shown (snd p) y) (firstn k (firstn n PL))) as (F1 & texts & ET & QT).
    { intros p Hp. assert (Hp' : In p PL). { clear -Hp. revert Hp. generalize k, n. intros a b Hp. assert (X : forall m (l : list (gorn (prule bytes bytes K) * dtree bytes bytes K)) x, In x (firstn m l) -> In x l) by (intros m l x Hx; rewrite <- (firstn_skipn m l); apply in_or_app; now left). now apply X, X in Hp. }
      destruct (HPL p Hp') as (RP & D & word' & NW & Y).
      destruct (print_shows (fst p) (snd p) word' (if o_pos o then shown else word') (o_pos o) id) as (F1 & text & E1 & SH); [exact RP| |apply ROOT; exact D|exact Y| |].
      - intros r Hr. apply (rule_normal rules NF). exact (deriv_rules _ _ _ D r Hr).
      - apply near_length in NW. destruct (o_pos o); cbn in *; [congruence|reflexivity].
      - exists F1, text. split; [|exists word'; auto]. intros fuel HFu. specialize (E1 fuel HFu). unfold mode_of in *. destruct (o_pos o); exact E1. }
    assert (FBT : exists F2 out, (forall fuel tree, F2 <= fuel -> fb = Some tree -> print_tree fuel id (mode_of (o_pos o) shown) tree = Some out) /\ (fb <> None -> exists word' d, near rules init tokens word' /\ fallback_of rules init word' d /\ shows id (if o_pos o then shown else word') d out)).
    { destruct fb as [tree|]; [|exists 0, []; split; [discriminate|now intros []]]. assert (WN : ws <> []) by (intros C; specialize (FB1 C); discriminate). destruct (FB2 WN) as (tree' & word' & Et & NW & d & D & Y & S0 & HM). injection Et as <-.
      destruct (print_shows tree d word' (if o_pos o then shown else word') (o_pos o) id) as (F2 & text & E2 & SH); auto.
      - split; assumption.
      - intros r Hr. apply (merged_normal rules f FO NF). eapply deriv_rules in Hr; [|exact D]. apply Hr.
      - intros r t Er Ht. destruct d as [r0 ts]. cbn in Er. injection Er as <-. apply deriv_inv in D. destruct D as ((HM0 & _) & Hh & _). destruct (merged_terminal rules f FO NF r0 t HM0 Ht) as (_ & r1 & Hr1 & Hh1 & P1). apply (NR r1 t Hr1); congruence.
      - apply near_length in NW. destruct (o_pos o); cbn in *; [congruence|reflexivity].
      - exists F2, text. split; [intros fuel t HF Et; injection Et as <-; specialize (E2 fuel HF); unfold mode_of in *; destruct (o_pos o); exact E2|]. intros _. exists word', d. split; [exact NW|]. split; [split; assumption|exact SH]. }
    destruct FBT as (F2 & fbtext & EF & SF).
    assert (FN : firstn k (firstn n ds) = map snd (firstn k (firstn n PL))) by (unfold ds; rewrite !firstn_map; reflexivity).
    assert (FT : firstn n (somes (fun x => x) ws) = map fst (firstn n PL)) by (rewrite EL, firstn_map; reflexivity).
    exists (Nat.max F0 (Nat.max F1 F2)).
    assert (LINE : exists out, (forall fuel, Nat.max F0 (Nat.max F1 F2) <= fuel -> parse_line H H2 teqb fuel rep (Settings cand beam delta) o i line = Some out) /\
      match firstn k (firstn n PL) with
      | [] => (out = no_parse id (o_pos o) tokens shown /\ (o_debug o || o_fallback o = true -> complete -> cand <> Some 0 -> ws = [])) \/ (o_debug o || o_fallback o = true /\ fb <> None /\ out = fbtext)
      | _ => out = List.concat texts
      end).
    { unfold parse_line, k in *. destruct (o_debug o).
      - destruct (ED cand F0 (le_n _)) as (fb' & _ & Efb).
        exists (match firstn n PL with p :: _ => List.concat texts | [] => match fb' with Some _ => fbtext | None => no_parse id (o_pos o) tokens shown end end). split.
        + intros fuel HF. rewrite ES, EP. destruct (ED cand fuel ltac:(lia)) as (fb2 & -> & Efb2). assert (fb2 = fb') as -> by congruence. clear Efb2. rewrite EN, EL, firstn_map.
          specialize (ET fuel ltac:(lia)). destruct (firstn n PL) as [|p PL']; cbn [map hd_error].
          * destruct fb' as [t'|]; [|now rewrite noparse_block]. apply EF; [lia|]. destruct (upto cand ws); [discriminate|congruence].
          * cbn [firstn] in ET. inversion ET as [|? y ? ys E1 E2]; subst. inversion E2; subst. cbn [List.concat]. rewrite app_nil_r. exact E1.
        + cbn [orb]. destruct (firstn n PL) as [|p PL']; cbn [firstn]; [|reflexivity]. destruct fb' as [t'|].
          * right. split; [reflexivity|]. split; [|reflexivity]. intros ->. destruct (upto cand ws); discriminate.
          * left. split; [reflexivity|]. intros _ _ C0. destruct ws as [|w ws']; [reflexivity|]. exfalso. destruct (FB2 ltac:(discriminate)) as (tree & ? & Et & _). rewrite Et in Efb. destruct cand as [[|c]|]; [now elim C0| |]; discriminate.
      - assert (WF : forall fuel, F0 <= fuel -> exists c mask s, with_fallback teqb H H2 fuel rep (Settings cand beam delta) tokens = Some (c, mask, s, fb) /\ gives (trees_next H2 fuel rep c mask) s (firstn n (somes (fun x => x) ws))).
        { intros fuel HF. pose proof (E cand fuel 0 HF) as E0. unfold parse in E0. destruct (with_fallback teqb H H2 fuel rep (Settings cand beam delta) tokens) as [[[[c mask] s] fb']|] eqn:EW; [|discriminate]. cbn in E0. injection E0 as ->. exists c, mask, s. split; [reflexivity|].
          intros m. specialize (E cand fuel m HF). unfold parse in E. rewrite EW in E. destruct (run (trees_next H2 fuel rep c mask) m s) as [ts|]; [|discriminate]. injection E as ->. now rewrite EN. }
        exists (match firstn (o_k o) (firstn n PL) with p :: _ => List.concat texts | [] => if o_fallback o then match fb with Some _ => fbtext | None => no_parse id (o_pos o) tokens shown end else no_parse id (o_pos o) tokens shown end). split.
        + intros fuel HF. rewrite ES, EP. destruct (WF fuel ltac:(lia)) as (c & mask & s & -> & GV). rewrite FT in GV. specialize (ET fuel ltac:(lia)).
          rewrite (print_trees_gives (trees_next H2 fuel rep c mask) fuel id (mode_of (o_pos o) shown) (o_k o) s _ texts GV) by (rewrite firstn_map; now apply Forall2_map_l).
          destruct (firstn (o_k o) (firstn n PL)) as [|p PL']; inversion ET as [|? y ? ys E1 E2]; subst; cbn [is_nil negb andb]; [|reflexivity]. cbn [List.concat app].
          destruct (o_fallback o); [|now rewrite noparse_block]. destruct fb as [tree|]; [now rewrite (EF fuel tree) by (lia || reflexivity)|now rewrite noparse_block].
        + cbn [orb]. destruct (firstn (o_k o) (firstn n PL)) as [|p PL']; [|reflexivity]. destruct (o_fallback o); [|left; split; [reflexivity|discriminate]]. destruct fb as [tree|]; [right; repeat split; discriminate|].
          left. split; [reflexivity|]. intros _ _ _. destruct ws as [|w ws']; [reflexivity|]. destruct (FB2 ltac:(discriminate)) as (tree & ? & Et & _). discriminate. }
    destruct LINE as (out & EO & HO). exists out. split; [exact EO|]. exists ds, n. split; [exact BP|]. split; [exact AL|]. split; [exact NC|]. rewrite FN.
    destruct (firstn k (firstn n PL)) as [|p PL']; cbn [map].
    - destruct HO as [(-> & HO)|(EFB & FBN & ->)]; [left; split; [reflexivity|]; intros X CO C0; apply NOD; auto|right; split; [exact EFB|now apply SF]].
    - exists texts. split; [|exact HO]. change (snd p :: map snd PL') with (map snd (p :: PL')). now apply Forall2_map_l.
  Qed.
End Line.

(* the output of csparsing parse, for every input *)
Definition parses_near {K : ZWeight} (teqb : bytes -> bytes -> bool) (H : max_heap (K * nat) (@item_leb K)) (H2 : max_heap (K * bt K) (@kb_leb K)) (rep : @cs_rep bytes bytes K) (rules : list (prule bytes bytes K)) (init : bytes) : Prop :=
  forall (o : options) beam threshold cand text sents, corpus (o_lines o) (o_pos o) text sents -> (forall s, In s sents -> length (snd (fst s)) <= 255) ->
  let st := command_settings beam threshold None in
  settings_ok (states (rep_generator rep)) st ->
  exists F outs,
    (forall fuel, F <= fuel -> parse_command H H2 teqb fuel rep (command_settings beam threshold cand) o text = Some (List.concat outs)) /\
    Forall2 (fun s out => near_answer rules init (no_pruning (states (rep_generator rep)) st) cand (if o_debug o then 1 else o_k o) (o_pos o) (o_debug o || o_fallback o)
      (fst (fst s)) (snd (fst s)) (snd s) out) sents outs.

Lemma command_near {K : ZWeight} (neqb teqb : bytes -> bytes -> bool) (factorize : K -> nat -> list K)
    (H : max_heap (K * nat) (@item_leb K)) (H2 : max_heap (K * bt K) (@kb_leb K)) (distinct : list nat -> list nat)
    (rules : list (prule bytes bytes K)) (init : bytes) (width : nat) :
    ZWeightLaws K -> EqbSpec neqb -> EqbSpec teqb -> FactorLaws factorize -> (forall l, NoDup (distinct l) /\ forall x, In x (distinct l) <-> In x l) ->
    grammar_ok neqb rules init -> width <= 254 -> chain_free rules -> no_root_token rules init ->
    exists rep, cs_new neqb teqb factorize H distinct rules init width = Some rep /\ parses_near teqb H H2 rep rules init.
Proof.
  intros KL NE TE FL HD GO HW CF NR.
  destruct (line_loose KL neqb teqb NE TE factorize FL H H2 distinct HD rules init width GO HW CF NR) as (rep & ER & P). exists rep. split; [exact ER|].
  intros o beam threshold cand text sents (ls & TL & F2) HLen st SO. unfold st in *. rewrite !settings_command in *. set (delta := match threshold with Some d => d | None => wzero end) in *. unfold parse_command. rewrite (text_lines_app _ _ TL). clear TL text. revert F2. generalize 0 at 1 2. revert sents HLen.
  induction ls as [|l ls IH]; intros sents HLen i F2; cbn [seq length combine] in F2; inversion F2 as [|? s ? sents' HS F3]; subst; [exists 0, []; split; [intros; reflexivity|constructor]|].
  destruct (IH sents' (fun s Hs => HLen s (or_intror Hs)) (S i) F3) as (F0 & outs & E0 & A0). clear IH F2 F3. cbn [fst snd] in HS. destruct (P o cand beam delta i l _ _ _ HS (HLen s (or_introl eq_refl)) SO) as (F1 & out & E1 & A1).
  exists (Nat.max F0 F1), (out :: outs). split; [|constructor; assumption]. intros fuel HF. cbn [parse_lines]. rewrite E1, E0 by lia. reflexivity.
Qed.

(* C43: for every grammar without chains of rules, also if tokens are shared: csparsing parse prints one answer for every line
   and does not panic; the printed trees are derivations of the sentence or of words near it, and without pruning every
   derivation of the sentence is among the candidates (so it is printed if k is large enough). *)
Theorem C43_shared_tokens :
  forall (K : ZWeight) (neqb teqb : bytes -> bytes -> bool) (factorize : K -> nat -> list K)
    (H : max_heap (K * nat) (@item_leb K)) (H2 : max_heap (K * bt K) (@kb_leb K)) (distinct : list nat -> list nat) (iow : text_io K)
    (grammar : bytes) (rules : list (prule bytes bytes K)) (init : bytes) (width : nat),
    ZWeightLaws K -> EqbSpec neqb -> EqbSpec teqb -> FactorLaws factorize -> (forall l, NoDup (distinct l) /\ forall x, In x (distinct l) <-> In x l) ->
    text_means string_io (pmcfg_rule_syntax string_io string_io iow) grammar [init] rules ->
    grammar_ok neqb rules init -> width <= 254 -> chain_free rules -> no_root_token rules init ->
    exists rep, extract_command neqb teqb factorize H distinct iow grammar width = Some rep /\ parses_near teqb H H2 rep rules init.
Proof.
  intros K neqb teqb factorize H H2 distinct iow grammar rules init width KL NE TE FL HD HG GO HW CF NR.
  destruct (command_near neqb teqb factorize H H2 distinct rules init width KL NE TE FL HD GO HW CF NR) as (rep & ER & P). exists rep. split; [|exact P].
  unfold extract_command. rewrite (proj2 (proj2 (C39_grammar_syntax _ _ K string_io string_io iow grammar [init]) rules HG)). exact ER.
Qed.
Print Assumptions C43_shared_tokens.

(* C50: a disco-dop grammar with any lexicon, also if parts of speech have many words; the root has no word. *)
Theorem C50_any_lexicon :
  forall (K : ZWeight) (neqb teqb : bytes -> bytes -> bool) (factorize : K -> nat -> list K)
    (H : max_heap (K * nat) (@item_leb K)) (H2 : max_heap (K * bt K) (@kb_leb K)) (distinct : list nat -> list nat)
    (ops : num_ops K) (iow : text_io K) (checked : bool) (iterate : list (bytes * bool) -> list (bytes * bool)) (grammar lexicon : bytes)
    (rs : list (import_rule bytes K)) (ess : list (list (bytes * bytes * K))) (width : nat),
    ZWeightLaws K -> EqbSpec neqb -> EqbSpec teqb -> FactorLaws factorize -> (forall l, NoDup (distinct l) /\ forall x, In x (distinct l) <-> In x l) ->
    count_laws ops ->
    file (disco_line ops string_io iow) grammar rs -> file (lexer_line ops string_io string_io iow) lexicon ess ->
    disco_grammar rs (fun A => exists t w, In (t, A, w) (concat ess)) «"ROOT"» -> (forall t A w, In (t, A, w) (concat ess) -> w <> wzero) -> (forall t w, ~ In (t, «"ROOT"», w) (concat ess)) -> width <= 254 ->
    exists rules words, Forall2 (imported ops neqb rs (concat ess)) rs rules /\ Forall2 (imported_word ops neqb rs (concat ess)) (concat ess) words /\
      (chain_free (rules ++ words) ->
       exists rep, extract_disco neqb teqb factorize H distinct ops iow checked iterate grammar (Some lexicon) width = Some rep /\ parses_near teqb H H2 rep (rules ++ words) «"ROOT"»).
Proof.
  intros K neqb teqb factorize H H2 distinct ops iow checked iterate grammar lexicon rs ess width KL NE TE FL HD CL HF HL DG LW HR HW.
  assert (HN : forall r c, In r rs -> In c (ir_yield r) -> length c <= 64) by (intros r c Hr; now apply (dg_size _ _ _ DG)).
  destruct (disco_imported ops string_io neqb checked rs (concat ess) «"ROOT"» NE HN eq_refl) as (g & rules & words & EG & EI & ER & FR & FW).
  exists rules, words. split; [exact FR|]. split; [exact FW|]. intros CF.
  assert (GO : grammar_ok neqb (rules ++ words) «"ROOT"») by exact (disco_ok neqb NE ops CL iow grammar rs HF (concat ess) _ DG LW rules words FR FW).
  assert (NR : no_root_token (rules ++ words) «"ROOT"») by exact (root_apart neqb ops rs (concat ess) _ rules words FR FW HR).
  destruct (command_near neqb teqb factorize H H2 distinct (rules ++ words) «"ROOT"» width KL NE TE FL HD GO HW CF NR) as (rep & E & P).
  exists rep. split; [|exact P]. unfold extract_disco, disco_lexed. rewrite (disco_file ops string_io iow checked grammar rs HF) by (intros r Hr c; now apply HN).
  rewrite (lexer_file ops string_io string_io iow lexicon ess HL). setoid_rewrite EG. cbn. rewrite ER, EI. exact E.
Qed.
Print Assumptions C50_any_lexicon.

(* the lexicon of C50_words_refuted, in which the parts of speech share words *)
Example C50_any_lexicon_example :
  exists rep, trop_disco ex_w_text (Some ex_w_lex_text) 2 = Some rep /\ exists rules words, parses_near word_eqb trop_heap trop_kheap rep (rules ++ words) «"ROOT"» /\
    Forall2 (imported trop_counts word_eqb ex_w (concat ex_w_lex)) ex_w rules /\ Forall2 (imported_word trop_counts word_eqb ex_w (concat ex_w_lex)) (concat ex_w_lex) words.
Proof.
  destruct C50_words_refuted as (H1 & H2 & H3 & H4 & _ & _ & _ & H5 & _).
  destruct (C50_any_lexicon TropWeight word_eqb word_eqb trop_factorize trop_heap trop_kheap (nodup Nat.eq_dec) trop_counts trop_io true (@rev _) ex_w_text ex_w_lex_text ex_w ex_w_lex 2
    TropLaws word_eqb_spec word_eqb_spec trop_factor_laws nodup_distinct trop_counts_laws H1 H2 H3 H4 H5) as (rules & words & FR & FW & P); [lia|].
  destruct P as (rep & E & P).
  { exists (fun _ _ => 0). intros r k i j B Hr Ek Et. exfalso. apply in_app_iff in Hr. destruct Hr as [Hr|Hr].
    - destruct (F2_in_r _ _ _ FR r Hr) as (x & Hx & _ & _ & (RD & _) & _). revert RD Ek; generalize (pr_comp r); intros pc RD Ek. unfold ex_w in Hx. in_cases Hx; cbn in RD; inversion RD as [|? ? ? ? RC RE]; subst; inversion RE; subst; (destruct k as [|k]; cbn in Ek; [injection Ek as E0; subst|destruct k; discriminate]); inversion RC as [|? ? ? ? _ RC2]; subst; inversion RC2.
    - destruct (F2_in_r _ _ _ FW r Hr) as ([[t A] w] & Hx & _ & _ & EC & _). rewrite EC in Ek. destruct k as [|k]; cbn in Ek; [discriminate|destruct k; discriminate]. }
  exists rep. split; [exact E|]. exists rules, words. auto.
Qed.
(* the same rules as a grammar of this project: tokens are not apart *)
Example C43_shared_tokens_example :
  text_means string_io (pmcfg_rule_syntax string_io string_io trop_io) (lcfrs_text string_io string_io trop_io (MCFG (ex_w_rules ++ ex_w_words) «"ROOT"»)) [«"ROOT"»] (ex_w_rules ++ ex_w_words) /\
  grammar_ok word_eqb (ex_w_rules ++ ex_w_words) «"ROOT"» /\ chain_free (ex_w_rules ++ ex_w_words) /\ no_root_token (ex_w_rules ++ ex_w_words) «"ROOT"» /\ ~ tokens_apart (ex_w_rules ++ ex_w_words).
Proof.
  split; [|split; [|split; [|split]]].
  - apply (lcfrs_shown string_io string_io trop_io (MCFG (ex_w_rules ++ ex_w_words) «"ROOT"»)); [reflexivity| |not_in|].
    + split; [discriminate|]. intros a [<-|[<-|[<-|[<-|[]]]]]; (split; [not_in|discriminate]).
    + cbn [mg_rules]. intros r Hr. cbn [app ex_w_rules ex_w_words] in Hr. in_cases Hr; show_rule.
  - constructor; try reflexivity; intros r Hr; cbn [app ex_w_rules ex_w_words] in Hr; in_cases Hr; try discriminate; try (cbn; lia); cbn; (split; [reflexivity|discriminate]).
  - apply C50_words_refuted.
  - intros r t Hr Hh Hc. cbn [app ex_w_rules ex_w_words] in Hr. in_cases Hr; discriminate.
  - intros TA. assert (E : «"8"» = «"7"»); [|discriminate].
    apply (TA (ex_cr «"A"» [] [[Tm «"7"»]] 0) «"7"» (DNode (ex_cr «"A"» [] [[Tm «"8"»]] 5) []) «"8"»); [cbn; tauto|reflexivity| |reflexivity].
    refine (deriv_node _ (ex_cr «"A"» [] [[Tm «"8"»]] 5) [] _ _); [cbn; tauto|constructor].
Qed.
