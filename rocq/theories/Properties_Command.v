(* C43: what the command csparsing parse prints, and the text of the export format. *)
From Verif Require Import M_Nom Base BMap M_Util M_Recog M_Agenda M_Automata M_CFG M_TreeStack M_Grammar M_Chart M_CSAuto M_Estimates M_RuleMask M_ToDeriv M_KBest M_Cow M_CSParse M_Negra M_Text M_AutText M_Command
  S_Recog S_Grammar S_Negra S_Text S_CS S_Cow S_RuleMask S_CSParse S_AutText S_Command P_Agenda P_Automata P_PDA P_TreeStack P_Grammar P_Separate P_Negra P_Text P_AutText P_FromPmcfg3 P_CSParse P_Command
  Properties_Negra Properties_Chart Properties_RuleMask Properties_CSParse Properties_Text.

(* no rule of the initial nonterminal is a token *)
Definition no_root_token {N T W} (rules : list (prule N T W)) (init : N) : Prop := forall r t, In r rules -> pr_head r = init -> pr_comp r <> [[Tm t]].

Section Line.
  Context {K : ZWeight} (KL : ZWeightLaws K) (neqb teqb : bytes -> bytes -> bool) (NE : EqbSpec neqb) (TE : EqbSpec teqb).
  Context (factorize : K -> nat -> list K) (FL : FactorLaws factorize).
  Context (H : max_heap (K * nat) (@item_leb K)) (H2 : max_heap (K * bt K) (@kb_leb K)).
  Context (distinct : list nat -> list nat) (HD : forall l, NoDup (distinct l) /\ forall x, In x (distinct l) <-> In x l).
  Context (rules : list (prule bytes bytes K)) (init : bytes) (width : nat).
  Context (GO : grammar_ok neqb rules init) (HW : width <= 254) (CF : chain_free rules) (TA : tokens_apart rules) (NR : no_root_token rules init).

  Lemma pairs_of (P : gorn (prule bytes bytes K) -> dtree bytes bytes K -> K -> Prop) (L : list (gorn (prule bytes bytes K) * K)) : (forall t w, In (t, w) L -> exists d, P t d w) ->
    exists PL, L = map (fun p => (fst (fst p), snd p)) PL /\ forall p, In p PL -> P (fst (fst p)) (snd (fst p)) (snd p).
  Proof.
    induction L as [|[t w] L IH]; intros HL; [exists []; split; [reflexivity|intros p []]|]. destruct (HL t w (or_introl eq_refl)) as (d & Hd). destruct IH as (PL & -> & HP); [intros; apply HL; now right|].
    exists (((t, d), w) :: PL). split; [reflexivity|]. intros p [<-|Hp]; [exact Hd|now apply HP].
  Qed.
  Lemma sorted_map {X Y} (f : X -> Y) (R : Y -> Y -> Prop) l : StronglySorted R (map f l) <-> StronglySorted (fun x y => R (f x) (f y)) l.
  Proof.
    induction l as [|x l IH]; [split; constructor|]. cbn. split; intros S0; inversion S0 as [|? ? S1 S2]; subst; constructor; try (apply IH; exact S1); rewrite Forall_forall in *; intros y Hy.
    - apply S2. now apply in_map.
    - apply in_map_iff in Hy. destruct Hy as (z & <- & Hz). now apply S2.
  Qed.
  Lemma Forall2_map_l {X Y Z} (f : X -> Y) (P : Y -> Z -> Prop) l : forall l', Forall2 P (map f l) l' <-> Forall2 (fun x y => P (f x) y) l l'.
  Proof. induction l as [|x l IH]; intros [|y l']; cbn; split; intros F; inversion F; subst; constructor; auto; now apply IH. Qed.

  Lemma line_answer : exists rep, cs_new neqb teqb factorize H distinct rules init width = Some rep /\
    forall o cand beam delta i line id tokens shown, sentence_of (o_lines o) (o_pos o) i line id tokens shown -> length tokens <= 255 ->
    settings_ok (states (rep_generator rep)) (Settings None beam delta) ->
    exists F out, (forall fuel, F <= fuel -> parse_line H H2 teqb fuel rep (Settings cand beam delta) o i line = Some out) /\
      answer rules init (no_pruning (states (rep_generator rep)) (Settings None beam delta)) cand (if o_debug o then 1 else o_k o) (o_pos o) (o_debug o || o_fallback o) id tokens shown out.
  Proof.
    destruct (parser_trees KL neqb teqb NE TE factorize FL H H2 distinct HD rules init width GO HW CF TA) as (rep & ER & P). exists rep. split; [exact ER|].
    intros o cand beam delta i line id tokens shown HS Hn SO. set (complete := no_pruning _ _).
    assert (RTK : root_token rules init tokens) by (intros r t t' Hr Hh Hc; elim (NR r t Hr Hh Hc)).
    destruct (P tokens beam delta Hn RTK SO) as (F0 & fb & ws & E & ED & SD & SS & CP & FB1 & FB2 & OC). clear P. fold complete in CP.
    destruct GO as [HN HF HC _ _]. destruct (C27_accepted_grammars _ _ K neqb rules init _ NE HN HF HC) as ((f & FO & _) & _ & NF). clear HN HF HC.
    destruct (sentence_split _ _ _ _ _ _ _ HS) as (line_words & ES & EP). pose proof (sentence_length _ _ _ _ _ _ _ HS) as SL.
    (* derivations *)
    destruct (pairs_of (fun t d w => represents t d /\ parse_of rules init tokens d w) (somes (fun x => x) ws)) as (PL & EL & HPL).
    { intros t w Hin. apply somes_in in Hin. destruct Hin as (x & Hx & ->). destruct (SD t w Hx) as (d & D & Y & Wd & S0 & HM). exists d. repeat split; assumption. }
    set (ds := map (fun p : gorn (prule bytes bytes K) * dtree bytes bytes K * K => (snd (fst p), snd p)) PL).
    set (n := length (somes (fun x => x) (upto cand ws))).
    assert (EN : somes (fun x => x) (upto cand ws) = firstn n (somes (fun x => x) ws)).
    { unfold n. destruct cand as [c|]; cbn [upto]; [|now rewrite firstn_all]. assert (SA : somes (fun x => x) ws = somes (fun x => x) (firstn c ws) ++ somes (fun x => x) (skipn c ws)) by (unfold somes; rewrite <- flat_map_app, firstn_skipn; reflexivity).
      rewrite SA, firstn_app, Nat.sub_diag, firstn_all, firstn_O, app_nil_r. reflexivity. }
    assert (NC : match cand with None => n = length ds | Some c => n <= c end).
    { unfold n, ds. rewrite map_length. destruct cand as [c|]; cbn [upto]; [etransitivity; [apply somes_length|]; rewrite firstn_length; lia|]. rewrite EL, map_length. reflexivity. }
    assert (NOD : complete -> ws = [] -> forall d w, ~ parse_of rules init tokens d w).
    { intros CO -> d w (D & Y & Wd). destruct (tree_of d) as (t & S0 & HM). elim (CP CO t w). exists d. auto. }
    assert (BP : best_parses rules init complete tokens ds).
    { split; [|split; [|split]].
      - intros d w Hin. apply in_map_iff in Hin. destruct Hin as (p & Ep & Hp). injection Ep as <- <-. now apply HPL.
      - unfold ds. apply sorted_map. rewrite EL in SS. apply sorted_map in SS. exact SS.
      - intros NR0. specialize (OC NR0). unfold ds. rewrite map_map. cbn [fst]. rewrite EL, map_map in OC. cbn [fst] in OC. clear -OC HPL. induction PL as [|p PL IH]; cbn [map] in *; [constructor|]. inversion OC as [|? ? O1 O2]; subst. constructor; [|apply IH; [exact O2|intros; apply HPL; now right]].
        intros Hin. apply in_map_iff in Hin. destruct Hin as (p' & Ep & Hp). apply O1. apply in_map_iff. exists p'. split; [|exact Hp]. destruct (HPL p (or_introl eq_refl)) as ((S1 & M1) & _), (HPL p' (or_intror Hp)) as ((S2 & M2) & _). cbn [fst]. apply tree_ext; [exact S2|exact S1|]. intros a. now rewrite M1, M2, Ep.
      - intros CO d w (D & Y & Wd). destruct (tree_of d) as (t & S0 & HM). assert (IP : is_parse rules init tokens t w) by (exists d; auto). apply (CP CO) in IP.
        assert (Hin : In (t, w) (somes (fun x => x) ws)) by (apply somes_in; exists (Some (t, w)); auto). rewrite EL in Hin. apply in_map_iff in Hin. destruct Hin as (p & Ep & Hp). injection Ep as Et <-. destruct (HPL p Hp) as ((_ & HM') & _).
        apply in_map_iff. exists p. split; [|exact Hp]. f_equal. symmetry. apply rule_at_ext. intros a. now rewrite <- HM, <- HM', Et. }
    (* texts *)
    assert (ROOT : forall d, deriv (fun r => In r rules) init d -> forall r t, rule_at d [] = Some r -> ~ In (Tm t) (List.concat (pr_comp r))).
    { intros [r0 ts] D r t Er Ht. cbn in Er. injection Er as <-. apply deriv_inv in D. destruct D as (Hr & Hh & _). apply (terminal_rule rules NF) in Ht; [|exact Hr]. exact (NR r0 t Hr Hh Ht). }
    set (k := if o_debug o then 1 else o_k o).
    destruct (bounded (fun fuel (p : gorn (prule bytes bytes K) * dtree bytes bytes K * K) y => print_tree fuel id (mode_of (o_pos o) shown) (fst (fst p)) = Some y) (fun p y => shows id shown (snd (fst p)) y) (firstn k (firstn n PL))) as (F1 & texts & ET & QT).
    { intros p Hp. assert (Hp' : In p PL). { clear -Hp. revert Hp. generalize k, n. intros a b Hp. assert (X : forall m (l : list (gorn (prule bytes bytes K) * dtree bytes bytes K * K)) x, In x (firstn m l) -> In x l) by (intros m l x Hx; rewrite <- (firstn_skipn m l); apply in_or_app; now left). now apply X, X in Hp. }
      destruct (HPL p Hp') as (RP & D & Y & Wd). apply (print_shows (fst (fst p)) (snd (fst p)) tokens); [exact RP| |apply ROOT; exact D|exact Y|exact SL]. intros r Hr. apply (rule_normal rules NF). exact (deriv_rules _ _ _ D r Hr). }
    assert (FBT : exists F2 out, (forall fuel tree, F2 <= fuel -> fb = Some tree -> print_tree fuel id (mode_of (o_pos o) shown) tree = Some out) /\ (fb <> None -> exists d, fallback_of rules init tokens d /\ shows id shown d out)).
    { destruct fb as [tree|]; [|exists 0, []; split; [discriminate|now intros []]]. assert (WN : ws <> []) by (intros C; specialize (FB1 C); discriminate). destruct (FB2 WN) as (tree' & Et & d & D & Y & S0 & HM). injection Et as <-.
      destruct (print_shows tree d tokens shown (o_pos o) id) as (F2 & text & E2 & SH); auto.
      - split; assumption.
      - intros r Hr. apply (merged_normal rules f FO NF). eapply deriv_rules in Hr; [|exact D]. apply Hr.
      - intros r t Er Ht. destruct d as [r0 ts]. cbn in Er. injection Er as <-. apply deriv_inv in D. destruct D as ((HM0 & _) & Hh & _). destruct (merged_terminal rules f FO NF r0 t HM0 Ht) as (_ & r1 & Hr1 & Hh1 & P1). apply (NR r1 t Hr1); congruence.
      - exists F2, text. split; [intros fuel t HF Et; injection Et as <-; now apply E2|]. intros _. exists d. split; [split; assumption|exact SH]. }
    destruct FBT as (F2 & fbtext & EF & SF).
    assert (FN : firstn k (map fst (firstn n ds)) = map (fun p => snd (fst p)) (firstn k (firstn n PL))) by (unfold ds; rewrite !firstn_map, map_map; reflexivity).
    assert (FT : map fst (firstn n (somes (fun x => x) ws)) = map (fun p : gorn (prule bytes bytes K) * dtree bytes bytes K * K => fst (fst p)) (firstn n PL)) by (rewrite EL, firstn_map, map_map; reflexivity).
    exists (Nat.max F0 (Nat.max F1 F2)).
    assert (LINE : exists out, (forall fuel, Nat.max F0 (Nat.max F1 F2) <= fuel -> parse_line H H2 teqb fuel rep (Settings cand beam delta) o i line = Some out) /\
      match firstn k (firstn n PL) with
      | [] => (out = no_parse id (o_pos o) tokens shown /\ (o_debug o || o_fallback o = true -> complete -> cand <> Some 0 -> ws = [])) \/ (o_debug o || o_fallback o = true /\ fb <> None /\ out = fbtext)
      | _ => out = List.concat texts
      end).
    { unfold parse_line, k in *. destruct (o_debug o).
      - destruct (ED cand F0 (le_n _)) as (fb' & _ & Efb).
        exists (match firstn n PL with p :: _ => List.concat texts | [] => match fb' with Some _ => fbtext | None => no_parse id (o_pos o) tokens shown end end). split.
        + intros fuel HF. rewrite ES, EP. destruct (ED cand fuel ltac:(lia)) as (fb2 & -> & Efb2). assert (fb2 = fb') as -> by congruence. clear Efb2. rewrite EN, EL, firstn_map.
          specialize (ET fuel ltac:(lia)). destruct (firstn n PL) as [|p PL']; cbn [map hd_error].
          * destruct fb' as [t'|]; [|now rewrite noparse_block]. apply EF; [lia|]. destruct (upto cand ws); [discriminate|congruence].
          * cbn [firstn] in ET. inversion ET as [|? y ? ys E1 E2]; subst. inversion E2; subst. cbn [List.concat]. rewrite app_nil_r. exact E1.
        + cbn [orb]. destruct (firstn n PL) as [|p PL']; cbn [firstn]; [|reflexivity]. destruct fb' as [t'|].
          * right. split; [reflexivity|]. split; [|reflexivity]. intros ->. destruct (upto cand ws); discriminate.
          * left. split; [reflexivity|]. intros _ _ C0. destruct ws as [|w ws']; [reflexivity|]. exfalso. destruct (FB2 ltac:(discriminate)) as (tree & Et & _). rewrite Et in Efb. destruct cand as [[|c]|]; [now elim C0| |]; discriminate.
      - assert (WF : forall fuel, F0 <= fuel -> exists c mask s, with_fallback teqb H H2 fuel rep (Settings cand beam delta) tokens = Some (c, mask, s, fb) /\ gives (trees_next H2 fuel rep c mask) s (map fst (firstn n (somes (fun x => x) ws)))).
        { intros fuel HF. pose proof (E cand fuel 0 HF) as E0. unfold parse in E0. destruct (with_fallback teqb H H2 fuel rep (Settings cand beam delta) tokens) as [[[[c mask] s] fb']|] eqn:EW; [|discriminate]. cbn in E0. injection E0 as ->. exists c, mask, s. split; [reflexivity|].
          intros m. specialize (E cand fuel m HF). unfold parse in E. rewrite EW in E. destruct (run (trees_next H2 fuel rep c mask) m s) as [ts|]; [|discriminate]. injection E as ->. now rewrite EN. }
        exists (match firstn (o_k o) (firstn n PL) with p :: _ => List.concat texts | [] => if o_fallback o then match fb with Some _ => fbtext | None => no_parse id (o_pos o) tokens shown end else no_parse id (o_pos o) tokens shown end). split.
        + intros fuel HF. rewrite ES, EP. destruct (WF fuel ltac:(lia)) as (c & mask & s & -> & GV). rewrite FT in GV. specialize (ET fuel ltac:(lia)).
          rewrite (print_trees_gives (trees_next H2 fuel rep c mask) fuel id (mode_of (o_pos o) shown) (o_k o) s _ texts GV) by (rewrite firstn_map; now apply Forall2_map_l).
          destruct (firstn (o_k o) (firstn n PL)) as [|p PL']; inversion ET as [|? y ? ys E1 E2]; subst; cbn [is_nil negb andb]; [|reflexivity]. cbn [List.concat app].
          destruct (o_fallback o); [|now rewrite noparse_block]. destruct fb as [tree|]; [now rewrite (EF fuel tree) by (lia || reflexivity)|now rewrite noparse_block].
        + cbn [orb]. destruct (firstn (o_k o) (firstn n PL)) as [|p PL']; [|reflexivity]. destruct (o_fallback o); [|left; split; [reflexivity|discriminate]]. destruct fb as [tree|]; [right; repeat split; discriminate|].
          left. split; [reflexivity|]. intros _ _ _. destruct ws as [|w ws']; [reflexivity|]. destruct (FB2 ltac:(discriminate)) as (tree & Et & _). discriminate. }
    destruct LINE as (out & EO & HO). exists out. split; [exact EO|]. exists ds, n. split; [exact BP|]. split; [exact NC|]. rewrite FN.
    destruct (firstn k (firstn n PL)) as [|p PL']; cbn [map].
    - destruct HO as [(-> & HO)|(EFB & FBN & ->)]; [left; split; [reflexivity|]; intros X CO C0; apply NOD; auto|right; split; [exact EFB|now apply SF]].
    - exists texts. split; [|exact HO]. change (snd (fst p) :: map (fun p => snd (fst p)) PL') with (map (fun p : gorn (prule bytes bytes K) * dtree bytes bytes K * K => snd (fst p)) (p :: PL')). now apply Forall2_map_l.
  Qed.
End Line.

Lemma settings_command {K : ZWeight} beam threshold cand : command_settings (K := K) beam threshold cand = Settings cand beam (match threshold with Some d => d | None => wzero end).
Proof. destruct beam, threshold, cand; reflexivity. Qed.

(* what csparsing parse prints with the representation of a grammar *)
Lemma command_answers {K : ZWeight} (neqb teqb : bytes -> bytes -> bool) (factorize : K -> nat -> list K)
    (H : max_heap (K * nat) (@item_leb K)) (H2 : max_heap (K * bt K) (@kb_leb K)) (distinct : list nat -> list nat)
    (rules : list (prule bytes bytes K)) (init : bytes) (width : nat) :
    ZWeightLaws K -> EqbSpec neqb -> EqbSpec teqb -> FactorLaws factorize -> (forall l, NoDup (distinct l) /\ forall x, In x (distinct l) <-> In x l) ->
    grammar_ok neqb rules init -> width <= 254 -> chain_free rules -> tokens_apart rules -> no_root_token rules init ->
    exists rep, cs_new neqb teqb factorize H distinct rules init width = Some rep /\
    forall (o : options) beam threshold cand text sents, corpus (o_lines o) (o_pos o) text sents -> (forall s, In s sents -> length (snd (fst s)) <= 255) ->
    let st := command_settings beam threshold None in
    settings_ok (states (rep_generator rep)) st ->
    exists F outs,
      (forall fuel, F <= fuel -> parse_command H H2 teqb fuel rep (command_settings beam threshold cand) o text = Some (List.concat outs)) /\
      Forall2 (fun s out => answer rules init (no_pruning (states (rep_generator rep)) st) cand (if o_debug o then 1 else o_k o) (o_pos o) (o_debug o || o_fallback o)
        (fst (fst s)) (snd (fst s)) (snd s) out) sents outs.
Proof.
  intros KL NE TE FL HD GO HW CF TA NR.
  destruct (line_answer KL neqb teqb NE TE factorize FL H H2 distinct HD rules init width GO HW CF TA NR) as (rep & ER & P). exists rep. split; [exact ER|].
  intros o beam threshold cand text sents (ls & TL & F2) HLen st SO. unfold st in *. rewrite !settings_command in *. set (delta := match threshold with Some d => d | None => wzero end) in *. unfold parse_command. rewrite (text_lines_app _ _ TL). clear TL text. revert F2. generalize 0 at 1 2. revert sents HLen.
  induction ls as [|l ls IH]; intros sents HLen i F2; cbn [seq length combine] in F2; inversion F2 as [|? s ? sents' HS F3]; subst; [exists 0, []; split; [intros; reflexivity|constructor]|].
  destruct (IH sents' (fun s Hs => HLen s (or_intror Hs)) (S i) F3) as (F0 & outs & E0 & A0). clear IH F2 F3. cbn [fst snd] in HS. destruct (P o cand beam delta i l _ _ _ HS (HLen s (or_introl eq_refl)) SO) as (F1 & out & E1 & A1).
  exists (Nat.max F0 F1), (out :: outs). split; [|constructor; assumption]. intros fuel HF. cbn [parse_lines]. rewrite E1, E0 by lia. reflexivity.
Qed.

(* C43: csparsing extract reads the text of a grammar and csparsing parse prints, for every line of its input and in this
   order, an answer in the sense of S_Command; nothing else is printed, and the commands do not panic.
   Missing from the full property: grammars with a rule that turns the initial nonterminal into a token (see
   C43_root_token_refuted), and what C28_parser_partial lacks. *)
Theorem C43_commands_partial :
  forall (K : ZWeight) (neqb teqb : bytes -> bytes -> bool) (factorize : K -> nat -> list K)
    (H : max_heap (K * nat) (@item_leb K)) (H2 : max_heap (K * bt K) (@kb_leb K)) (distinct : list nat -> list nat) (iow : text_io K)
    (grammar : bytes) (rules : list (prule bytes bytes K)) (init : bytes) (width : nat),
    ZWeightLaws K -> EqbSpec neqb -> EqbSpec teqb -> FactorLaws factorize -> (forall l, NoDup (distinct l) /\ forall x, In x (distinct l) <-> In x l) ->
    text_means string_io (pmcfg_rule_syntax string_io string_io iow) grammar [init] rules ->
    grammar_ok neqb rules init -> width <= 254 -> chain_free rules -> tokens_apart rules -> no_root_token rules init ->
    exists rep, extract_command neqb teqb factorize H distinct iow grammar width = Some rep /\
    forall (o : options) beam threshold cand text sents, corpus (o_lines o) (o_pos o) text sents -> (forall s, In s sents -> length (snd (fst s)) <= 255) ->
    let st := command_settings beam threshold None in
    settings_ok (states (rep_generator rep)) st ->
    exists F outs,
      (forall fuel, F <= fuel -> parse_command H H2 teqb fuel rep (command_settings beam threshold cand) o text = Some (List.concat outs)) /\
      Forall2 (fun s out => answer rules init (no_pruning (states (rep_generator rep)) st) cand (if o_debug o then 1 else o_k o) (o_pos o) (o_debug o || o_fallback o)
        (fst (fst s)) (snd (fst s)) (snd s) out) sents outs.
Proof.
  intros K neqb teqb factorize H H2 distinct iow grammar rules init width KL NE TE FL HD HG GO HW CF TA NR.
  destruct (command_answers neqb teqb factorize H H2 distinct rules init width KL NE TE FL HD GO HW CF TA NR) as (rep & ER & P). exists rep. split; [|exact P].
  unfold extract_command. rewrite (proj2 (proj2 (C39_grammar_syntax _ _ K string_io string_io iow grammar [init]) rules HG)). exact ER.
Qed.
Print Assumptions C43_commands_partial.

(* C43: the words, labels and parents of all sentences can be read back from the text *)
Theorem C43_table :
  (forall bs bs' : list (nat * list (list bytes)),
    (forall b, In b bs \/ In b bs' -> (N.of_nat (fst b) < usize_bound)%N /\ table (snd b)) ->
    List.concat (map (fun b => block (fst b) (snd b)) bs) = List.concat (map (fun b => block (fst b) (snd b)) bs') -> bs = bs') /\
  (forall (K : ZWeight) (rules : list (prule bytes bytes K)) (init : bytes), column_ok init -> (forall r A, In r rules -> In A (pr_tail r) -> column_ok A) ->
    forall complete cand k wl wp fallback i line id tokens shown out, sentence_of wl wp i line id tokens shown -> answer rules init complete cand k wp fallback id tokens shown out ->
    exists tables, out = List.concat (map (block id) tables) /\ forall rows, In rows tables -> table rows).
Proof.
  split; [intros bs bs' HB E; apply blocks_split in E; auto|].
  intros K rules init HI HT complete cand k wl wp fallback i line id tokens shown out HS (ds & n & BP & NC & HA). destruct (sentence_columns _ _ _ _ _ _ _ HS) as (C1 & C2).
  assert (HEAD : forall (P : prule bytes bytes K -> Prop), (forall r A, P r -> In A (pr_tail r) -> column_ok A) -> forall d A, column_ok A -> deriv P A d -> forall r, In r (d_rules d) -> column_ok (pr_head r)).
  { intros P HP. induction d as [r0 ts IH] using dtree_ind2. intros A HA0 D r Hr. inversion D as [r1 ts1 Pr HF E1 E2]; subst. destruct Hr as [<-|Hr]; [exact HA0|]. apply in_flat_map in Hr. destruct Hr as (t & Ht & Hr). rewrite Forall_forall in IH.
    assert (X : exists B, In B (pr_tail r0) /\ deriv P B t). { clear -HF Ht. induction HF as [|B t' Bs ts D _ IH]; [destruct Ht|]. destruct Ht as [->|Ht]; [exists B; split; [now left|exact D]|]. destruct (IH Ht) as (B' & HB & D'). exists B'. split; [now right|exact D']. }
    destruct X as (B & HB & D'). eapply IH; [exact Ht| |exact D'|exact Hr]. eapply HP; eassumption. }
  destruct (firstn k (map fst (firstn n ds))) as [|d best] eqn:EB.
  - destruct HA as [(-> & _)|(_ & d & (D & _) & SH)].
    + destruct (no_parse_table id wp tokens shown C1 C2) as (rows & HR & ->). exists [rows]. cbn. rewrite app_nil_r. split; [reflexivity|]. intros x [<-|[]]; exact HR.
    + destruct (shows_table id shown d out C1) as (rows & HR & ->); [|exact SH|exists [rows]; cbn; rewrite app_nil_r; split; [reflexivity|intros x [<-|[]]; exact HR]].
      eapply HEAD; [|exact HI|exact D]. intros r A ((from & re & _ & _ & H3 & _ & H5) & _) HIn. apply In_nth_error in HIn. destruct HIn as (j & Ej). destruct (H5 j) as (o & i0 & HU & Ere); [apply nth_error_Some; congruence|].
      destruct (H3 o i0 HU) as (r0 & E0 & _ & E1). rewrite Ere, Ej in E1. symmetry in E1. apply nth_error_In in E0, E1. eapply HT; eassumption.
  - destruct HA as (texts & F2 & ->). assert (HB : forall d', In d' (d :: best) -> deriv (fun r => In r rules) init d').
    { intros d' Hd. rewrite <- EB in Hd. assert (X : forall {Y} m (l : list Y) x, In x (firstn m l) -> In x l) by (intros Y m l x Hx; rewrite <- (firstn_skipn m l); apply in_or_app; now left). apply X in Hd. apply in_map_iff in Hd. destruct Hd as ([d2 w] & <- & Hd). apply X in Hd. apply (proj1 BP) in Hd. apply Hd. }
    clear -F2 HB HEAD HI HT C1. induction F2 as [|d' t ds' texts SH _ IH]; [exists []; split; [reflexivity|intros rows []]|]. destruct IH as (tables & E & HTb); [intros d2 H2; apply HB; now right|].
    destruct (shows_table id shown d' t C1) as (rows & HR & ->); [|exact SH|]. { eapply HEAD; [|exact HI|apply HB; now left]. intros r A Hr HA. exact (HT r A Hr HA). }
    exists (rows :: tables). cbn. rewrite E. split; [reflexivity|]. intros x [<-|Hx]; [exact HR|now apply HTb].
Qed.
Print Assumptions C43_table.

(* C43: lines that stand for no sentence make the whole command panic: nothing is known about the other sentences. *)
Theorem C43_malformed :
  forall (K : ZWeight) H H2 teqb fuel (rep : @cs_rep bytes bytes K) st (o : options) text ls line ws, text_lines text ls -> In line ls -> words line ws ->
    ((o_lines o = true /\ match ws with [] => True | n :: _ => usize_of_text n = None end) \/
     (o_pos o = true /\ exists w, In w (if o_lines o then tl ws else ws) /\ ~ In "/"%char w)) ->
    parse_command H H2 teqb fuel rep st o text = None.
Proof.
  intros K H H2 teqb fuel rep st o text ls line ws TL HIn HW HM. unfold parse_command. rewrite (text_lines_app _ _ TL). clear TL.
  assert (NL : forall i, parse_line H H2 teqb fuel rep st o i line = None).
  { intros i. unfold parse_line, split_line. rewrite (words_split _ _ HW).
    assert (NS : o_pos o = true -> forall l w, In w l -> ~ In "/"%char w -> split_pos l (o_pos o) = None).
    { intros -> l w Hw NS. unfold split_pos. assert (X : opt_all (fun wp => let '(pos, w) := rsplit2 "/" [] wp in option_map (pair pos) w) l = None); [|now rewrite X].
      induction l as [|a l IH]; [destruct Hw|]. cbn [opt_all]. destruct Hw as [->|Hw]; [rewrite (rsplit2_none "/" w NS); reflexivity|]. rewrite (IH Hw). destruct (let '(pos, w0) := rsplit2 "/" [] a in option_map (pair pos) w0); reflexivity. }
    destruct HM as [(-> & Hn)|(HP & w & Hw & NW)].
    - destruct ws as [|n ws]; [reflexivity|]. now rewrite Hn.
    - destruct (o_lines o); [destruct ws as [|n ws]; [reflexivity|destruct (usize_of_text n); [cbn [tl] in Hw; now rewrite (NS HP ws w Hw NW)|reflexivity]]|now rewrite (NS HP ws w Hw NW)]. }
  generalize 0. induction ls as [|l ls IH]; intros i; [destruct HIn|]. cbn [parse_lines]. destruct HIn as [->|HIn]; [now rewrite NL|]. destruct (parse_line H H2 teqb fuel rep st o i l); [now rewrite (IH HIn)|reflexivity].
Qed.
Print Assumptions C43_malformed.

(* ---- examples ---- *)
Definition trop_io : text_io TropWeight := TextIO _ (fun w => match w with Some n => usize_text n | None => «"inf"» end) (fun s => option_map Some (usize_of_text s)).
Definition trop_extract := extract_command word_eqb word_eqb trop_factorize trop_heap (nodup Nat.eq_dec) trop_io.
Definition trop_command rep fuel := parse_command trop_heap trop_kheap word_eqb fuel rep.
Definition ex_cr (h : bytes) (tl : list bytes) (c : composition bytes) (w : nat) : prule bytes bytes TropWeight := PRule (W := TropWeight) h tl c (Some w).
(* crossing dependencies: a a b c c *)
Definition ex_g : list (prule bytes bytes TropWeight) :=
  [ex_cr «"S"» [«"A"»; «"B"»] [[Var 0 0; Var 1 0; Var 0 1]] 1; ex_cr «"A"» [«"X"»; «"Y"»] [[Var 0 0]; [Var 1 0]] 1;
   ex_cr «"A"» [«"A"»; «"X"»; «"Y"»] [[Var 0 0; Var 1 0]; [Var 0 1; Var 2 0]] 1; ex_cr «"X"» [] [[Tm «"a"»]] 2; ex_cr «"Y"» [] [[Tm «"c"»]] 0; ex_cr «"B"» [] [[Tm «"b"»]] 0].
Definition grammar_text (rules : list (prule bytes bytes TropWeight)) : bytes := lcfrs_text string_io string_io trop_io (MCFG rules «"S"»).
Definition lines_of (ls : list bytes) : bytes := List.concat (map (fun l => l ++ newline) ls).
Ltac not_in := let C := fresh in intros C; cbn in C; repeat (destruct C as [C|C]; [discriminate|]); destruct C.
Ltac show_rule := split; [split; [split; [reflexivity|plain]|split; [split; [reflexivity|split; [discriminate|]]|split]]|split; [not_in|split]];
  [let a := fresh in intros a; cbn; intros; repeat match goal with H : _ \/ _ |- _ => destruct H as [<-|H] end; [reflexivity|contradiction]
  |cbn; intros; repeat match goal with H : _ \/ _ |- _ => destruct H as [<-|H] end; try contradiction; (split; [reflexivity|plain])
  |cbn; intros; repeat match goal with H : _ \/ _ |- _ => destruct H as [<-|H] end; try contradiction; cbn in *; repeat match goal with H : _ \/ _ |- _ => destruct H as [<-|H] end; try contradiction; (split; [reflexivity|first [reflexivity|plain]])
  |cbn; intros; repeat match goal with H : _ \/ _ |- _ => destruct H as [<-|H] end; try contradiction; not_in
  |cbn; intros; repeat match goal with H : _ \/ _ |- _ => destruct H as [<-|H] end; try contradiction; cbn in *; repeat match goal with H : _ \/ _ |- _ => destruct H as [?|H] end; try contradiction; try discriminate; match goal with H : Tm _ = Tm _ |- _ => injection H as <- end; not_in].
Lemma word_eqb_spec : EqbSpec word_eqb.
Proof. apply list_eqb_spec. exact beqb_true. Qed.
Ltac read_words := repeat first
  [ match goal with |- words [] [] => apply wd_nil; intros ? [] end
  | match goal with |- words ?l (?w :: ?ws) =>
      first [ refine (wd_cons [] w (skipn (length w) l) ws _ _ _ _ _) | refine (wd_cons [" "%char] w (skipn (S (length w)) l) ws _ _ _ _ _) ]; 
      [let H := fresh in intros ? H; cbn in H; repeat (destruct H as [<-|H]; [reflexivity|]); destruct H
      |discriminate|let H := fresh in intros ? H; cbn in H; repeat (destruct H as [<-|H]; [reflexivity|]); destruct H
      |first [left; reflexivity|right; eexists _, _; split; reflexivity]|cbn] end ].

Definition ex_line1 : bytes := «"the/a u/a v/b w/c x/c"».
Definition ex_line2 : bytes := «"x/a y/b"».
Example C43_example :
  text_means string_io (pmcfg_rule_syntax string_io string_io trop_io) (grammar_text ex_g) [«"S"»] ex_g /\
  grammar_ok word_eqb ex_g «"S"» /\ chain_free ex_g /\ tokens_apart ex_g /\ no_root_token ex_g «"S"» /\
  corpus false true (lines_of [ex_line1; ex_line2])
    [(0, [«"a"»; «"a"»; «"b"»; «"c"»; «"c"»], [«"the"»; «"u"»; «"v"»; «"w"»; «"x"»]); (1, [«"a"»; «"b"»], [«"x"»; «"y"»])] /\
  exists rep, trop_extract (grammar_text ex_g) 2 = Some rep /\ settings_ok (states (rep_generator rep)) (command_settings (K := TropWeight) None None None) /\ no_pruning (states (rep_generator rep)) (command_settings (K := TropWeight) None None None) /\
    trop_command rep 50 (command_settings None None None) (Options 1 false true false true) (lines_of [ex_line1; ex_line2]) = Some (
      block 0 [[«"the"»; «"X"»; «"--"»; «"--"»; «"500"»]; [«"u"»; «"X"»; «"--"»; «"--"»; «"501"»]; [«"v"»; «"B"»; «"--"»; «"--"»; «"0"»];
               [«"w"»; «"Y"»; «"--"»; «"--"»; «"500"»]; [«"x"»; «"Y"»; «"--"»; «"--"»; «"501"»]; [«"#500"»; «"A"»; «"--"»; «"--"»; «"501"»]; [«"#501"»; «"A"»; «"--"»; «"--"»; «"0"»]] ++
      block 1 [[«"x"»; «"a"»; «"--"»; «"--"»; «"500"»]; [«"y"»; «"b"»; «"--"»; «"--"»; «"500"»]; [«"#500"»; «"NOPARSE"»; «"--"»; «"--"»; «"0"»]]).
Proof.
  split; [|split; [|split; [|split; [|split; [|split]]]]].
  - apply (lcfrs_shown string_io string_io trop_io (MCFG ex_g «"S"»)); [reflexivity| |not_in|].
    + split; [discriminate|]. intros a [<-|[]]. split; [not_in|discriminate].
    + cbn [mg_rules]. intros r Hr. unfold ex_g in Hr. in_cases Hr; show_rule.
  - constructor; try reflexivity; intros r Hr; unfold ex_g in Hr; in_cases Hr; try discriminate; try (cbn; lia); cbn; (split; [reflexivity|discriminate]).
  - exists (fun A _ => if word_eqb A «"A"» then 1 else 0). intros r k i j B Hr Ek Et. unfold ex_g in Hr. in_cases Hr; destruct k as [|[|[|k]]]; cbn in Ek; try discriminate; try (destruct k; discriminate); injection Ek as <- <-; cbn in Et; injection Et as <-; cbn; lia.
  - intros r t [r' ts] t' Hr Hc D Y. apply deriv_inv in D. destruct D as (Hr' & EA & HF). unfold ex_g in Hr, Hr'. in_cases Hr; cbn in Hc; try discriminate; injection Hc as <-; in_cases Hr'; cbn in EA; try discriminate; cbn in Y; congruence.
  - intros r t Hr Hh Hc. unfold ex_g in Hr. in_cases Hr; discriminate.
  - exists [ex_line1; ex_line2]. split.
    + assert (L : forall l, In (last l "x"%char) «"cb"» -> forall l', l <> l' ++ ["013"%char]) by (intros l HI l' ->; rewrite last_last in HI; destruct HI as [HI|[HI|[]]]; discriminate).
      apply (tl_cons ex_line1 [] (lines_of [ex_line2]) [ex_line2]); [not_in|apply L; cbn; tauto|now left|]. apply (tl_cons ex_line2 [] [] []); [not_in|apply L; cbn; tauto|now left|constructor].
    + constructor; [|constructor; [|constructor]]; cbn [fst snd].
      * exists [«"the/a"»; «"u/a"»; «"v/b"»; «"w/c"»; «"x/c"»]. split; [split; [|reflexivity]|split; [reflexivity|split; [|reflexivity]]]; [cbn; read_words|]. intros t Ht. cbn in Ht. repeat (destruct Ht as [<-|Ht]; [not_in|]); destruct Ht.
      * exists [«"x/a"»; «"y/b"»]. split; [split; [|reflexivity]|split; [reflexivity|split; [|reflexivity]]]; [cbn; read_words|]. intros t Ht. cbn in Ht. repeat (destruct Ht as [<-|Ht]; [not_in|]); destruct Ht.
  - eexists. split; [vm_compute; reflexivity|]. split; [vm_compute; discriminate|]. split; [split; reflexivity|]. vm_compute. reflexivity.
Qed.

(* Without no_root_token: the sentence a is derived by S -> a, but the command panics instead of printing anything. *)
Definition ex_rt : list (prule bytes bytes TropWeight) := [ex_cr «"S"» [] [[Tm «"a"»]] 1].
Theorem C43_root_token_refuted :
  text_means string_io (pmcfg_rule_syntax string_io string_io trop_io) (grammar_text ex_rt) [«"S"»] ex_rt /\
  grammar_ok word_eqb ex_rt «"S"» /\ chain_free ex_rt /\ tokens_apart ex_rt /\
  corpus false false (lines_of [«"a"»]) [(0, [«"a"»], [«"a"»])] /\ (exists d w, parse_of ex_rt «"S"» [«"a"»] d w) /\
  exists rep, trop_extract (grammar_text ex_rt) 0 = Some rep /\
    forall fuel, trop_command rep fuel (command_settings None None None) (Options 1 false false false false) (lines_of [«"a"»]) = None.
Proof.
  split; [|split; [|split; [|split; [|split; [|split]]]]].
  - apply (lcfrs_shown string_io string_io trop_io (MCFG ex_rt «"S"»)); [reflexivity| |not_in|].
    + split; [discriminate|]. intros a [<-|[]]. split; [not_in|discriminate].
    + cbn [mg_rules]. intros r Hr. unfold ex_rt in Hr. in_cases Hr; show_rule.
  - constructor; try reflexivity; intros r Hr; unfold ex_rt in Hr; in_cases Hr; try discriminate; try (cbn; lia); cbn; (split; [reflexivity|discriminate]).
  - exists (fun A _ => 0). intros r k i j B Hr Ek Et. unfold ex_rt in Hr. in_cases Hr; destruct k as [|[|[|k]]]; cbn in Ek; try discriminate.
  - intros r t [r' ts] t' Hr Hc D Y. apply deriv_inv in D. destruct D as (Hr' & EA & HF). unfold ex_rt in Hr, Hr'. in_cases Hr; cbn in Hc; try discriminate; injection Hc as <-; in_cases Hr'; cbn in EA; try discriminate; cbn in Y; congruence.
  - exists [«"a"»]. split.
    + apply (tl_cons «"a"» [] [] []); [not_in| |now left|constructor]. intros [|x [|y l]] E; discriminate.
    + constructor; [|constructor]. cbn [fst snd]. exists [«"a"»]. split; [split; [|reflexivity]|split; reflexivity]. cbn. read_words.
  - exists (DNode (ex_cr «"S"» [] [[Tm «"a"»]] 1) []), (Some 1 : TropWeight). split; [|split; reflexivity]. refine (deriv_node _ (ex_cr «"S"» [] [[Tm «"a"»]] 1) [] _ _); [now left|constructor].
  - eexists. split; [vm_compute; reflexivity|]. intros fuel. do 8 (destruct fuel as [|fuel]; [vm_compute; reflexivity|]). vm_compute. reflexivity.
Qed.
Print Assumptions C43_root_token_refuted.
