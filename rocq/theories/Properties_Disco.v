(* C50: csparsing extract with a grammar of disco-dop, and csparsing parse. *)
From Coq Require Import Permutation NArith.
From Verif Require Import M_Nom Base BMap M_Util M_Recog M_Agenda M_Automata M_CFG M_Grammar M_Chart M_CSAuto M_RuleMask M_KBest M_CSParse M_Negra M_Text M_AutText M_Command M_Import M_Disco
  S_Recog S_Grammar S_Negra S_Text S_CS S_CSParse S_Command S_Import S_Disco P_Util P_Agenda P_Automata P_Text P_Import P_Disco P_Broken P_Command
  Properties_Chart Properties_CSParse Properties_Command Properties_Import.

Lemma Forall2_same {X Y} (P Q : X -> Y -> Prop) l l' : Forall2 P l l' -> (forall x y, In x l -> P x y -> Q x y) -> Forall2 Q l l'.
Proof. induction 1 as [|x y l l' HP _ IH]; intros HQ; constructor; [apply HQ; [now left|exact HP]|apply IH; intros a b Ha; apply HQ; now right]. Qed.
Lemma on_lhs_rules {N W} (rs : list (import_rule N W)) n : on_lhs (map disco_of rs) n <-> exists r, In r rs /\ ir_lhs r = n.
Proof.
  split.
  - intros (d & y & w & Hd & E). apply in_map_iff in Hd. destruct Hd as (r & Er & Hr). exists r. split; [exact Hr|]. unfold disco_of, deriv_of in Er. destruct (ir_rhs2 r); injection Er as <- _ _; auto.
  - intros (r & Hr & <-). exists (deriv_of r), (map packed (ir_yield r)), (ir_weight r). split; [apply in_map_iff; exists r; split; [reflexivity|exact Hr]|]. unfold deriv_of. destruct (ir_rhs2 r); reflexivity.
Qed.
Lemma on_rhs_rules {K : ZWeight} (rs : list (import_rule bytes K)) n : on_rhs (map disco_of rs) n <-> exists r, In r rs /\ In n (successors r).
Proof.
  unfold successors. split.
  - intros (d & y & w & Hd & E). apply in_map_iff in Hd. destruct Hd as (r & Er & Hr). exists r. split; [exact Hr|]. unfold disco_of, deriv_of in Er. destruct (ir_rhs2 r); injection Er as <- _ _; cbn; intuition congruence.
  - intros (r & Hr & HI). exists (deriv_of r), (map packed (ir_yield r)), (ir_weight r). split; [apply in_map_iff; exists r; split; [reflexivity|exact Hr]|]. unfold deriv_of. destruct (ir_rhs2 r); cbn in HI; intuition congruence.
Qed.

Lemma filter_none {X} (f : X -> bool) l : (forall x, In x l -> f x = false) -> filter f l = [].
Proof. induction l as [|x l IH]; intros HN; [reflexivity|]. cbn. rewrite (HN x (or_introl eq_refl)). apply IH. intros y Hy. apply HN. now right. Qed.
Section Tags.
  Context {K : ZWeight} (neqb : bytes -> bytes -> bool) (NE : EqbSpec neqb) (ops : num_ops K) (CL : count_laws ops) (rs : list (import_rule bytes K)).
  Lemma one_weight (l : list (bytes * bytes * K)) A : NoDup (map (fun e => fst (fst e)) l) -> (forall t C u, In (t, C, u) l -> t = C /\ u = wone) -> In (A, A, wone) l ->
    map snd (filter (fun e => neqb (snd (fst e)) A) l) = [wone].
  Proof.
    induction l as [|[[t C] u] l IH]; intros ND HL HX; [destruct HX|]. cbn [map fst] in ND. inversion ND as [|? ? NI ND']; subst. cbn [filter fst snd]. destruct HX as [HX|HX].
    - injection HX as -> -> ->. rewrite (proj2 (NE A A) eq_refl). cbn [map snd]. f_equal. rewrite filter_none; [reflexivity|].
      intros [[t C] u] He. cbn. destruct (neqb C A) eqn:EB; [|reflexivity]. apply NE in EB. subst C. exfalso. apply NI. destruct (HL t A u (or_intror He)) as (-> & _). apply in_map_iff. exists (A, A, u). auto.
    - destruct (neqb C A) eqn:EB; cbn [map snd]; [|apply IH; auto; intros a b c Hc; apply HL; now right]. apply NE in EB. subst C. exfalso. destruct (HL t A u (or_introl eq_refl)) as (-> & _). apply NI. apply in_map_iff. exists (A, A, wone). auto.
  Qed.
  Lemma tag_rules (lex l : list (bytes * bytes * K)) words : Forall2 (imported_word ops neqb rs lex) l words -> (forall t A w, In (t, A, w) l -> t = A /\ w = wone /\ weights neqb rs lex A = [wone]) ->
    words = map (fun e => PRule (fst (fst e)) [] [[Tm (fst (fst e))]] wone) l.
  Proof.
    induction 1 as [|[[t A] w] p l words (E1 & E2 & E3 & s & HS & E4) _ IH]; intros HL; [reflexivity|]. cbn [map fst]. rewrite <- IH by (intros; apply HL; now right). f_equal.
    destruct (HL t A w (or_introl eq_refl)) as (-> & -> & EW). rewrite EW in HS. cbn in HS. subst s. rewrite (cl_ones _ CL) in E4. destruct p as [h tl c v]. cbn in *. congruence.
  Qed.
End Tags.

(* the output of csparsing parse, for every grammar, lexicon and input *)
Definition parses_with {K : ZWeight} (teqb : bytes -> bytes -> bool) (H : max_heap (K * nat) (@item_leb K)) (H2 : max_heap (K * bt K) (@kb_leb K)) (rep : @cs_rep bytes bytes K) (rules : list (prule bytes bytes K)) (init : bytes) : Prop :=
  forall (o : options) beam threshold cand text sents, corpus (o_lines o) (o_pos o) text sents -> (forall s, In s sents -> length (snd (fst s)) <= 255) ->
  let st := command_settings beam threshold None in
  settings_ok (states (rep_generator rep)) st ->
  exists F outs,
    (forall fuel, F <= fuel -> parse_command H H2 teqb fuel rep (command_settings beam threshold cand) o text = Some (List.concat outs)) /\
    Forall2 (fun s out => answer rules init (no_pruning (states (rep_generator rep)) st) cand (if o_debug o then 1 else o_k o) (o_pos o) (o_debug o || o_fallback o)
      (fst (fst s)) (snd (fst s)) (snd s) out) sents outs.

(* C50: a disco-dop grammar without a lexicon, whose preterminals are then the words (the usual way to parse tagged sentences):
   csparsing extract writes a representation from which csparsing parse prints, for every sentence, an answer in the sense of
   S_Command for the rules of the file with normalised weights and one rule A -> A of weight one for every preterminal A. *)
Theorem C50_tags :
  forall (K : ZWeight) (neqb teqb : bytes -> bytes -> bool) (factorize : K -> nat -> list K)
    (H : max_heap (K * nat) (@item_leb K)) (H2 : max_heap (K * bt K) (@kb_leb K)) (distinct : list nat -> list nat)
    (ops : num_ops K) (iow : text_io K) (checked : bool) (iterate : list (bytes * bool) -> list (bytes * bool)) (grammar : bytes) (rs : list (import_rule bytes K)) (width : nat),
    ZWeightLaws K -> EqbSpec neqb -> EqbSpec teqb -> FactorLaws factorize -> (forall l, NoDup (distinct l) /\ forall x, In x (distinct l) <-> In x l) ->
    count_laws ops -> (forall m, Permutation (iterate m) m) ->
    file (disco_line ops string_io iow) grammar rs -> disco_grammar rs (preterminal rs) «"ROOT"» -> width <= 254 ->
    exists rules words, Forall2 (imported ops neqb rs []) rs rules /\
      NoDup words /\ (forall p, In p words <-> exists A, preterminal rs A /\ p = PRule A [] [[Tm A]] wone) /\
      (chain_free (rules ++ words) ->
       exists rep, extract_disco neqb teqb factorize H distinct ops iow checked iterate grammar None width = Some rep /\ parses_with teqb H H2 rep (rules ++ words) «"ROOT"»).
Proof.
  intros K neqb teqb factorize H H2 distinct ops iow checked iterate grammar rs width KL NE TE FL HD CL HI HF DG HW.
  set (lex := default_lexer ops neqb iterate (map disco_of rs)).
  destruct (C38_default_lexer bytes K ops neqb iterate (map disco_of rs) NE HI) as (LN & LI). fold lex in LN, LI.
  assert (LI' : forall t A w, In (t, A, w) lex <-> t = A /\ w = wone /\ preterminal rs A).
  { intros t A w. rewrite LI, (cl_one _ CL). unfold preterminal. rewrite on_rhs_rules, on_lhs_rules. tauto. }
  assert (HN : forall r c, In r rs -> In c (ir_yield r) -> length c <= 64) by (intros r c Hr; now apply (dg_size _ _ _ DG)).
  destruct (disco_imported ops string_io neqb checked rs lex «"ROOT"» NE HN eq_refl) as (g & rules & words & EG & EI & ER & FR & FW).
  assert (PL : forall r A, In r rs -> preterminal rs A -> neqb (ir_lhs r) A = false).
  { intros r A Hr HP. destruct (neqb (ir_lhs r) A) eqn:EB; [|reflexivity]. apply NE in EB. exfalso. apply (proj2 HP). eauto. }
  assert (NW : forall A w, In (A, A, w) lex -> weights neqb rs lex A = [wone]).
  { intros A w He. apply LI' in He. destruct He as (_ & _ & HP). unfold weights. rewrite (filter_none (fun r => neqb (ir_lhs r) A)) by (intros r Hr; now apply PL). cbn [map app].
    apply (one_weight neqb NE); [exact LN| |apply LI'; auto]. intros t C u Hu. apply LI' in Hu. tauto. }
  assert (FWD : words = map (fun e => PRule (fst (fst e)) [] [[Tm (fst (fst e))]] wone) lex).
  { apply (tag_rules neqb ops CL rs lex lex words FW). intros t A w He. pose proof He as He'. apply LI' in He'. destruct He' as (-> & -> & _). repeat split. eapply NW, He. }
  exists rules, words. split; [|split; [|split]].
  - apply (Forall2_same _ _ _ _ FR). intros r p Hr (E1 & E2 & E3 & s & HS & E4). split; [exact E1|]. split; [exact E2|]. split; [exact E3|]. exists s. split; [|exact E4].
    replace (weights neqb rs (@nil (bytes * bytes * K)) (ir_lhs r)) with (weights neqb rs lex (ir_lhs r)); [exact HS|]. unfold weights. f_equal. rewrite filter_none; [reflexivity|].
    intros [[t A] w] He. cbn. apply LI' in He. destruct (neqb A (ir_lhs r)) eqn:EB; [|reflexivity]. apply NE in EB. subst A. exfalso. apply (proj2 (proj2 (proj2 He))). eauto.
  - rewrite FWD. apply (NoDup_map_inv pr_head). rewrite map_map. cbn. exact LN.
  - intros p. rewrite FWD, in_map_iff. split.
    + intros ([[t A] w] & <- & He). apply LI' in He. cbn. exists t. split; [|reflexivity]. destruct He as (-> & _ & HP). exact HP.
    + intros (A & HP & ->). exists (A, A, wone). split; [reflexivity|]. apply LI'. auto.
  - intros CF.
    assert (DG' : disco_grammar rs (fun A => exists t w, In (t, A, w) lex) «"ROOT"»).
    { destruct DG as [(f & F1 & F2 & F3) D2 D3 D4 D5]. constructor; auto.
      - exists f. split; [exact F1|]. split; [|exact F3]. intros A (t & w & He). apply F2. apply LI' in He. tauto.
      - intros r A Hr HA. destruct (D3 r A Hr HA) as [HP|HX]; [left|now right]. exists A, wone. apply LI'. auto. }
    assert (LW : forall t A w, In (t, A, w) lex -> w <> wzero).
    { intros t A w He. apply LI' in He. destruct He as (_ & -> & _). intros C. destruct (dg_root _ _ _ DG) as (r & Hr & _). apply (dg_weight _ _ _ DG r Hr). rewrite <- (wl_one_l _ (zl_weight _ KL) (ir_weight r)), C. apply (zl_zero_mul _ KL). }
    assert (GO : grammar_ok neqb (rules ++ words) «"ROOT"») by exact (disco_ok neqb NE ops CL iow grammar rs HF lex _ DG' LW rules words FR FW).
    assert (TA : tokens_apart (rules ++ words)).
    { apply (words_apart neqb ops rs lex rules words FR FW).
      - intros t t' A w w' H3 H4. apply LI' in H3, H4. destruct H3 as (-> & _), H4 as (-> & _). reflexivity.
      - intros t A w r He Hr E. apply LI' in He. apply (proj2 (proj2 (proj2 He))). eauto. }
    assert (NR : no_root_token (rules ++ words) «"ROOT"»).
    { apply (root_apart neqb ops rs lex _ rules words FR FW). intros t w He. apply LI' in He. apply (proj2 (proj2 (proj2 He))). exact (dg_root _ _ _ DG). }
    destruct (command_answers neqb teqb factorize H H2 distinct (rules ++ words) «"ROOT"» width KL NE TE FL HD GO HW CF TA NR) as (rep & E & P).
    exists rep. split; [|exact P]. unfold extract_disco, disco_default. rewrite (disco_file ops string_io iow checked grammar rs HF) by (intros r Hr c; now apply HN). fold lex. setoid_rewrite EG. cbn. rewrite ER, EI. exact E.
Qed.
Print Assumptions C50_tags.

(* C50: the same with a lexicon.
   Missing from the full property: lexicons in which a part of speech has two words (tokens_apart, see C50_words_refuted), or
   the root has a word (see C43_root_token_refuted), and what C43_commands_partial lacks. *)
Theorem C50_lexicon_partial :
  forall (K : ZWeight) (neqb teqb : bytes -> bytes -> bool) (factorize : K -> nat -> list K)
    (H : max_heap (K * nat) (@item_leb K)) (H2 : max_heap (K * bt K) (@kb_leb K)) (distinct : list nat -> list nat)
    (ops : num_ops K) (iow : text_io K) (checked : bool) (iterate : list (bytes * bool) -> list (bytes * bool)) (grammar lexicon : bytes)
    (rs : list (import_rule bytes K)) (ess : list (list (bytes * bytes * K))) (width : nat),
    ZWeightLaws K -> EqbSpec neqb -> EqbSpec teqb -> FactorLaws factorize -> (forall l, NoDup (distinct l) /\ forall x, In x (distinct l) <-> In x l) ->
    count_laws ops ->
    file (disco_line ops string_io iow) grammar rs -> file (lexer_line ops string_io string_io iow) lexicon ess ->
    disco_grammar rs (fun A => exists t w, In (t, A, w) (concat ess)) «"ROOT"» -> (forall t A w, In (t, A, w) (concat ess) -> w <> wzero) -> width <= 254 ->
    exists rules words, Forall2 (imported ops neqb rs (concat ess)) rs rules /\ Forall2 (imported_word ops neqb rs (concat ess)) (concat ess) words /\
      (chain_free (rules ++ words) -> tokens_apart (rules ++ words) -> (forall t w, ~ In (t, «"ROOT"», w) (concat ess)) ->
       exists rep, extract_disco neqb teqb factorize H distinct ops iow checked iterate grammar (Some lexicon) width = Some rep /\ parses_with teqb H H2 rep (rules ++ words) «"ROOT"»).
Proof.
  intros K neqb teqb factorize H H2 distinct ops iow checked iterate grammar lexicon rs ess width KL NE TE FL HD CL HF HL DG LW HW.
  assert (HN : forall r c, In r rs -> In c (ir_yield r) -> length c <= 64) by (intros r c Hr; now apply (dg_size _ _ _ DG)).
  destruct (disco_imported ops string_io neqb checked rs (concat ess) «"ROOT"» NE HN eq_refl) as (g & rules & words & EG & EI & ER & FR & FW).
  exists rules, words. split; [exact FR|]. split; [exact FW|]. intros CF TA HR.
  assert (GO : grammar_ok neqb (rules ++ words) «"ROOT"») by exact (disco_ok neqb NE ops CL iow grammar rs HF (concat ess) _ DG LW rules words FR FW).
  assert (NR : no_root_token (rules ++ words) «"ROOT"») by exact (root_apart neqb ops rs (concat ess) _ rules words FR FW HR).
  destruct (command_answers neqb teqb factorize H H2 distinct (rules ++ words) «"ROOT"» width KL NE TE FL HD GO HW CF TA NR) as (rep & E & P).
  exists rep. split; [|exact P]. unfold extract_disco, disco_lexed. rewrite (disco_file ops string_io iow checked grammar rs HF) by (intros r Hr c; now apply HN).
  rewrite (lexer_file ops string_io string_io iow lexicon ess HL). setoid_rewrite EG. cbn. rewrite ER, EI. exact E.
Qed.
Print Assumptions C50_lexicon_partial.

Section NoRoot.
  Context {N T W : Type} (neqb : N -> N -> bool) (NE : EqbSpec neqb) (teqb : T -> T -> bool) (distinct : list nat -> list nat).
  Lemma integerise_in (l : list N) x y : In y (fst (int_integerise neqb l x)) -> In y l \/ y = x.
  Proof. unfold int_integerise. destruct (find_index neqb x l); cbn; [auto|]. rewrite in_app_iff. cbn. intuition. Qed.
  Lemma int_list_in xs : forall (l : list N) y, In y (fst (int_list neqb l xs)) -> In y l \/ In y xs.
  Proof.
    induction xs as [|x xs IH]; intros l y Hy; [now left|]. cbn in Hy. destruct (int_integerise neqb l x) as [l1 k] eqn:E1. destruct (int_list neqb l1 xs) as [l2 ks] eqn:E2. cbn in Hy.
    specialize (IH l1 y). rewrite E2 in IH. destruct (IH Hy) as [H|H]; [|right; now right]. pose proof (integerise_in l x y) as X. rewrite E1 in X. destruct (X H) as [?| ->]; [now left|right; now left].
  Qed.
  Lemma rm_new_unknown (rules : list (prule N T W)) init : (forall r, In r rules -> pr_head r <> init /\ ~ In init (pr_tail r)) -> rm_new neqb teqb distinct rules init = None.
  Proof.
    intros HN. unfold rm_new. destruct (fold_p (rm_rule neqb teqb distinct) rules (RmState 0 [] [] vmm_new vmm_new)) as [s|] eqn:E; [|reflexivity].
    assert (G : forall rules s0 s, (forall r : prule N T W, In r rules -> pr_head r <> init /\ ~ In init (pr_tail r)) -> ~ In init (rs_ints s0) -> fold_p (rm_rule neqb teqb distinct) rules s0 = Some s -> ~ In init (rs_ints s)).
    { clear. induction rules as [|r rules IH]; intros s0 s HN H0 E; cbn in E; [injection E as <-; exact H0|]. destruct (rm_rule neqb teqb distinct s0 r) as [s1|] eqn:E1; [|discriminate].
      apply (IH s1 s); [intros r' Hr'; apply HN; now right| |exact E]. destruct (HN r (or_introl eq_refl)) as [N1 N2]. unfold rm_rule in E1. destruct (int_integerise neqb (rs_ints s0) (pr_head r)) as [ints nid] eqn:EI.
      assert (X : ~ In init ints). { intros C. pose proof (integerise_in (rs_ints s0) (pr_head r) init) as Y. rewrite EI in Y. destruct (Y C); [auto|congruence]. }
      assert (Z : forall s', (match component_rids (rs_rid s0) (pr_comp r) with Some (rids, rid') =>
          let '(ints, codes) := int_list neqb ints (pr_tail r) in
          match fold_p (fun inner x => vmm_push_to (fst x) (snd x, nid) inner) (removals [] (distinct codes)) (rs_inner s0) with
          | Some inner => match vmm_push_to nid (rids, distinct codes) (rs_td s0) with Some td => Some (RmState rid' ints (rs_terminal s0) inner td) | None => None end
          | None => None end | None => None end) = Some s' -> ~ In init (rs_ints s')).
      { intros s'. destruct (component_rids (rs_rid s0) (pr_comp r)) as [[rids rid']|]; [|discriminate]. destruct (int_list neqb ints (pr_tail r)) as [ints' codes] eqn:EL.
        destruct (fold_p _ _ _); [|discriminate]. destruct (vmm_push_to _ _ _); [|discriminate]. intros E'. injection E' as <-. cbn. intros C. pose proof (int_list_in (pr_tail r) ints init) as Y. rewrite EL in Y. destruct (Y C); auto. }
      destruct (pr_comp r) as [|[|[i j|t] [|]] [|]] eqn:EC; try (eapply Z; rewrite ?EC; exact E1).
      destruct (vmm_push_to _ _ _); [|discriminate]. injection E1 as <-. exact X. }
    pose proof (G rules (RmState 0 [] [] vmm_new vmm_new) s HN (fun x => x) E) as X. unfold int_find_key. rewrite (proj2 (find_index_none neqb NE init (rs_ints s)) X). reflexivity.
  Qed.
End NoRoot.

(* C50: the root has to be called ROOT: if no rule mentions it, csparsing extract panics, whatever the lexicon is. *)
Theorem C50_no_root :
  forall (K : ZWeight) (neqb teqb : bytes -> bytes -> bool) (factorize : K -> nat -> list K) (H : max_heap (K * nat) (@item_leb K)) (distinct : list nat -> list nat)
    (ops : num_ops K) (iow : text_io K) (checked : bool) (iterate : list (bytes * bool) -> list (bytes * bool)) (grammar : bytes) (rs : list (import_rule bytes K)) (width : nat),
    EqbSpec neqb -> (forall m, Permutation (iterate m) m) -> file (disco_line ops string_io iow) grammar rs -> (forall r c, In r rs -> In c (ir_yield r) -> length c <= 64) ->
    (forall r, In r rs -> ir_lhs r <> «"ROOT"» /\ ~ In «"ROOT"» (successors r)) ->
    extract_disco neqb teqb factorize H distinct ops iow checked iterate grammar None width = None /\
    forall lexicon ess, file (lexer_line ops string_io string_io iow) lexicon ess -> (forall t w, ~ In (t, «"ROOT"», w) (concat ess)) ->
      extract_disco neqb teqb factorize H distinct ops iow checked iterate grammar (Some lexicon) width = None.
Proof.
  intros K neqb teqb factorize H distinct ops iow checked iterate grammar rs width NE HI HF HN HR.
  assert (G : forall lex : list (bytes * bytes * K), (forall t w, ~ In (t, «"ROOT"», w) lex) ->
    match lcfrs_of_discodop ops string_io neqb checked (map disco_of rs) (Some lex) with Some g => cs_new neqb teqb factorize H distinct (mg_rules g) (mg_initial g) width | None => None end = None).
  { intros lex HL. destruct (disco_imported ops string_io neqb checked rs lex «"ROOT"» NE HN eq_refl) as (g & rules & words & -> & -> & -> & FR & FW).
    unfold cs_new. destruct (Nat.ltb 255 width); [reflexivity|]. destruct (negb (in_normal_form (rules ++ words))); [reflexivity|]. destruct (from_grammar neqb teqb factorize (rules ++ words) «"ROOT"»); [|reflexivity].
    rewrite (rm_new_unknown neqb NE); [reflexivity|]. intros p Hp. apply in_app_iff in Hp. destruct Hp as [Hp|Hp].
    - destruct (F2_in_r _ _ _ FR p Hp) as (r & Hr & E1 & E2 & _). rewrite E1, E2. now apply HR.
    - destruct (F2_in_r _ _ _ FW p Hp) as ([[t A] w] & He & E1 & E2 & _). rewrite E1, E2. split; [intros ->; now apply HL in He|intros []]. }
  unfold extract_disco, disco_default, disco_lexed. rewrite (disco_file ops string_io iow checked grammar rs HF) by (intros r Hr c; now apply HN). split.
  - apply G. intros t w He. apply (C38_default_lexer bytes K ops neqb iterate (map disco_of rs) NE HI) in He. destruct He as (_ & _ & HO & _). apply on_rhs_rules in HO. destruct HO as (r & Hr & HA). now apply (HR r Hr).
  - intros lexicon ess HL HE. rewrite (lexer_file ops string_io string_io iow lexicon ess HL). now apply G.
Qed.
Print Assumptions C50_no_root.

(* C50: csparsing extract reports no malformed file.  No lexicon is refused, and a grammar file is refused only by a panic for
   a component with more than 64 variables.  Everything from the first empty line or line with a single field on is ignored in both files. *)
Theorem C50_no_error :
  forall (K : ZWeight) (neqb teqb : bytes -> bytes -> bool) (factorize : K -> nat -> list K) (H : max_heap (K * nat) (@item_leb K)) (distinct : list nat -> list nat)
    (ops : num_ops K) (iow : text_io K) (checked : bool) (iterate : list (bytes * bool) -> list (bytes * bool)),
    (forall lexicon, exists lex, lexer_of_text ops string_io string_io iow lexicon = FOk lex) /\
    (forall grammar, discodop_of_text ops string_io iow checked grammar <> FErr) /\
    (forall grammar lexicon ess f u width, listing (eq newline) (lexer_line ops string_io string_io iow) lexicon ess ->
       (forall a, In a f -> is_white a = false) -> (u = [] \/ exists v, u = newline ++ v) ->
       extract_disco neqb teqb factorize H distinct ops iow checked iterate grammar (Some (lexicon ++ newline ++ f ++ u)) width =
       extract_disco neqb teqb factorize H distinct ops iow checked iterate grammar (Some lexicon) width) /\
    (forall grammar lexicon rs f u width, listing (eq newline) (disco_line ops string_io iow) grammar rs -> (forall r c, In r rs -> In c (ir_yield r) -> length c <= 64) ->
       (forall a, In a f -> is_white a = false) -> (u = [] \/ exists v, u = newline ++ v) ->
       extract_disco neqb teqb factorize H distinct ops iow checked iterate (grammar ++ newline ++ f ++ u) lexicon width =
       extract_disco neqb teqb factorize H distinct ops iow checked iterate grammar lexicon width).
Proof.
  intros K neqb teqb factorize H distinct ops iow checked iterate. split; [exact (lexer_no_error ops iow)|]. split; [exact (constituents_no_error ops string_io iow checked)|]. split.
  - intros grammar lexicon ess f u width HL HF HU. unfold extract_disco, disco_lexed. destruct (discodop_of_text _ _ _ _ _); try reflexivity.
    rewrite (lexer_before ops string_io string_io iow lexicon (f ++ u) ess HL) by (exists f, u; auto). now rewrite (lexer_file ops string_io string_io iow lexicon ess) by (right; eauto).
  - intros grammar lexicon rs f u width HL HN HF HU. unfold extract_disco, disco_lexed, disco_default.
    rewrite (constituents_before ops string_io iow checked grammar (f ++ u) rs HL); [|intros r Hr c; now apply HN|exists f, u; auto].
    rewrite (disco_file ops string_io iow checked grammar rs); [reflexivity|right; eauto|intros r Hr c; now apply HN].
Qed.
Print Assumptions C50_no_error.

(* ---- examples ---- *)
(* costs: the sum of costs is the smallest, and the quotient is the difference *)
Definition trop_counts : num_ops TropWeight :=
  NumOps TropWeight (fun a b => match a, b with Some x, Some y => Some (Nat.min x y) | Some x, None => Some x | None, _ => b end)
    (fun a b => match a, b with Some x, Some y => Some (x - y) | _, _ => None end) (Some 0).
Lemma trop_counts_laws : count_laws trop_counts.
Proof.
  constructor; [reflexivity|reflexivity|]. intros ws w s HN HI HT. assert (HS : exists x, s = Some x).
  { destruct ws as [|v ws]; [destruct HT|]. cbn in HT. subst s. assert (HV : exists x, v = Some x) by (specialize (HN v (or_introl eq_refl)); destruct v; [eauto|exfalso; now apply HN]).
    assert (HN' : forall u, In u ws -> u <> (wzero : TropWeight)) by (intros u Hu; apply HN; now right). clear HN HI. revert v HV. induction ws as [|u ws IH]; intros v HV; [exact HV|]. cbn. apply IH; [intros z Hz; apply HN'; now right|].
    destruct HV as (x & ->). destruct u; eauto. }
  destruct HS as (x & ->). specialize (HN w HI). destruct w as [y|]; [|exfalso; now apply HN]. split; [reflexivity|discriminate].
Qed.
Definition trop_disco := extract_disco word_eqb word_eqb trop_factorize trop_heap (nodup Nat.eq_dec) trop_counts trop_io true (@rev _).
Definition ex_ir (l a : bytes) (b : option bytes) (y : yield) (w : nat) : import_rule bytes TropWeight := IRule (W := TropWeight) l a b y (Some w).
Lemma disco_line2 l a b y yt (w : nat) wt : word l -> word a -> word b -> yield_text yt y -> digits wt -> usize_of_text wt = Some w ->
  disco_line trop_counts string_io trop_io (l ++ «" "» ++ a ++ «" "» ++ b ++ «" "» ++ yt ++ «" "» ++ wt) (ex_ir l a (Some b) y w).
Proof.
  intros Hl Ha Hb Hy Hd Hw. exists l, «" "», a, «" "», (b ++ «" "»), yt, «" "», wt. do 3 (split; [apply one_blank|]). split; [rewrite <- !app_assoc; reflexivity|]. split; [now split|]. split; [now split|]. split; [exact Hy|].
  split; [left; split; [exact Hd|cbn; now rewrite Hw]|]. cbn. exists b, «" "». split; [apply one_blank|]. split; [now split|reflexivity].
Qed.
Ltac line l a b yt wt := refine (disco_line2 l a b _ yt _ wt _ _ _ _ _ _); [a_word|a_word|a_word| |a_word|reflexivity].
Ltac one_component := apply l_one; split; [discriminate|reflexivity].
(* crossing dependencies *)
Definition ex_d : list (import_rule bytes TropWeight) :=
  [ex_ir «"ROOT"» «"A"» (Some «"B"») [[false; true; false]] 1; ex_ir «"A"» «"X"» (Some «"Y"») [[false]; [true]] 1;
   ex_ir «"A"» «"A"» (Some «"C"») [[false; true]; [false; true]] 3; ex_ir «"C"» «"X"» (Some «"Y"») [[false]; [true]] 1].
Definition ex_d_text : bytes := lines_of [«"ROOT A B 010 1"»; «"A X Y 0,1 1"»; «"A A C 01,01 3"»; «"C X Y 0,1 1"»].
Lemma lines_file {X} (E : bytes -> X -> Prop) ls xs : Forall2 E ls xs -> file E (lines_of ls) xs.
Proof.
  intros F. destruct F as [|l x ls xs HE F]; [left; split; [now left|reflexivity]|]. right.
  assert (G : exists t, listing (eq newline) E t (x :: xs) /\ lines_of (l :: ls) = t ++ newline); [|destruct G as (t & HL & HT); exists t; auto].
  revert l x HE. induction F as [|l' x' ls xs HE' F IH]; intros l x HE.
  - exists l. split; [now apply l_one|]. unfold lines_of. cbn. now rewrite app_nil_r.
  - destruct (IH l' x' HE') as (t & HL & HT). exists (l ++ newline ++ t). split; [now apply l_cons|]. unfold lines_of in *. cbn [map List.concat] in *. rewrite HT. now rewrite <- !app_assoc.
Qed.
Lemma ex_d_file : file (disco_line trop_counts string_io trop_io) ex_d_text ex_d.
Proof.
  apply lines_file. repeat constructor.
  - line «"ROOT"» «"A"» «"B"» «"010"» «"1"». one_component.
  - line «"A"» «"X"» «"Y"» «"0,1"» «"1"». apply (l_cons (eq «","») _ «"0"» «","» «"1"» [false] [[true]]); [split; [discriminate|reflexivity]|reflexivity|one_component].
  - line «"A"» «"A"» «"C"» «"01,01"» «"3"». apply (l_cons (eq «","») _ «"01"» «","» «"01"» [false; true] [[false; true]]); [split; [discriminate|reflexivity]|reflexivity|one_component].
  - line «"C"» «"X"» «"Y"» «"0,1"» «"1"». apply (l_cons (eq «","») _ «"0"» «","» «"1"» [false] [[true]]); [split; [discriminate|reflexivity]|reflexivity|one_component].
Qed.

Definition ex_line3 : bytes := «"the/X u/X v/B w/Y x/Y"».
Definition ex_line4 : bytes := «"x/X y/B"».
Example C50_example :
  file (disco_line trop_counts string_io trop_io) ex_d_text ex_d /\ disco_grammar ex_d (preterminal ex_d) «"ROOT"» /\
  corpus false true (lines_of [ex_line3; ex_line4])
    [(0, [«"X"»; «"X"»; «"B"»; «"Y"»; «"Y"»], [«"the"»; «"u"»; «"v"»; «"w"»; «"x"»]); (1, [«"X"»; «"B"»], [«"x"»; «"y"»])] /\
  exists rep, trop_disco ex_d_text None 2 = Some rep /\ settings_ok (states (rep_generator rep)) (command_settings (K := TropWeight) None None None) /\
    chain_free (rep_rules rep) /\
    trop_command rep 50 (command_settings None None None) (Options 1 false true false true) (lines_of [ex_line3; ex_line4]) = Some (
      block 0 [[«"the"»; «"X"»; «"--"»; «"--"»; «"500"»]; [«"u"»; «"X"»; «"--"»; «"--"»; «"501"»]; [«"v"»; «"B"»; «"--"»; «"--"»; «"0"»];
               [«"w"»; «"Y"»; «"--"»; «"--"»; «"500"»]; [«"x"»; «"Y"»; «"--"»; «"--"»; «"501"»]; [«"#500"»; «"A"»; «"--"»; «"--"»; «"502"»];
               [«"#501"»; «"C"»; «"--"»; «"--"»; «"502"»]; [«"#502"»; «"A"»; «"--"»; «"--"»; «"0"»]] ++
      block 1 [[«"x"»; «"X"»; «"--"»; «"--"»; «"500"»]; [«"y"»; «"B"»; «"--"»; «"--"»; «"500"»]; [«"#500"»; «"NOPARSE"»; «"--"»; «"--"»; «"0"»]]).
Proof.
  split; [apply ex_d_file|]. split; [|split].
  - constructor.
    + exists (fun A => if word_eqb A «"A"» then 2 else if word_eqb A «"C"» then 2 else 1). split; [reflexivity|]. split.
      * intros A ((r & Hr & HA) & NL). destruct (word_eqb A «"A"») eqn:E1; [|destruct (word_eqb A «"C"») eqn:E2; [|reflexivity]].
        -- apply word_eqb_spec in E1. exfalso. apply NL. exists (ex_ir «"A"» «"X"» (Some «"Y"») [[false]; [true]] 1). split; [right; now left|symmetry; exact E1].
        -- apply word_eqb_spec in E2. exfalso. apply NL. exists (ex_ir «"C"» «"X"» (Some «"Y"») [[false]; [true]] 1). split; [do 3 right; now left|symmetry; exact E2].
      * intros r Hr. unfold ex_d in Hr. in_cases Hr; repeat split.
    + eexists. split; [now left|reflexivity].
    + intros r A Hr HA. assert (D : forall A, In A [«"A"»; «"C"»; «"ROOT"»] \/ ~ exists r, In r ex_d /\ ir_lhs r = A).
      { intros B. destruct (in_dec (list_eq_dec Ascii.ascii_dec) B [«"A"»; «"C"»; «"ROOT"»]); [now left|right]. intros (r' & Hr' & <-). apply n. unfold ex_d in Hr'. in_cases Hr'; cbn; tauto. }
      destruct (D A) as [HD|HD]; [right|left; split; [eauto|exact HD]]. unfold ex_d. destruct HD as [<-|[<-|[<-|[]]]]; eexists; [split; [right; now left|reflexivity]|split; [do 3 right; now left|reflexivity]|split; [now left|reflexivity]].
    + intros r Hr. unfold ex_d in Hr. in_cases Hr; discriminate.
    + intros r Hr. unfold ex_d in Hr. in_cases Hr; (split; [cbn; lia|]); intros c Hc; cbn in Hc; repeat (destruct Hc as [<-|Hc]; [cbn; lia|]); destruct Hc.
  - exists [ex_line3; ex_line4]. split.
    + assert (L : forall l, In (last l "x"%char) «"YB"» -> forall l', l <> l' ++ ["013"%char]) by (intros l HI l' ->; rewrite last_last in HI; destruct HI as [HI|[HI|[]]]; discriminate).
      apply (tl_cons ex_line3 [] (lines_of [ex_line4]) [ex_line4]); [not_in|apply L; cbn; tauto|now left|]. apply (tl_cons ex_line4 [] [] []); [not_in|apply L; cbn; tauto|now left|constructor].
    + constructor; [|constructor; [|constructor]]; cbn [fst snd].
      * exists [«"the/X"»; «"u/X"»; «"v/B"»; «"w/Y"»; «"x/Y"»]. split; [split; [|reflexivity]|split; [reflexivity|split; [|reflexivity]]]; [cbn; read_words|]. intros t Ht. cbn in Ht. repeat (destruct Ht as [<-|Ht]; [not_in|]); destruct Ht.
      * exists [«"x/X"»; «"y/B"»]. split; [split; [|reflexivity]|split; [reflexivity|split; [|reflexivity]]]; [cbn; read_words|]. intros t Ht. cbn in Ht. repeat (destruct Ht as [<-|Ht]; [not_in|]); destruct Ht.
  - eexists. split; [vm_compute; reflexivity|]. split; [vm_compute; discriminate|]. split; [|vm_compute; reflexivity].
    exists (fun A _ => if word_eqb A «"A"» then 1 else if word_eqb A «"C"» then 1 else 0). intros r k i j B Hr Ek Et. cbn [rep_rules] in Hr. in_cases Hr; destruct k as [|[|[|k]]]; cbn in Ek; try discriminate; try (destruct k; discriminate); injection Ek as <- <-; cbn in Et; injection Et as <-; cbn; lia.
Qed.

(* A lexicon with two words for one part of speech: the sentence 7 8 has the derivations A(7) B(8) of cost 1 and A(7) A(8) of
   cost 5, but the command prints A(7) B(9), which is not about this sentence at all; asked for two trees it prints this one
   and A(7) B(8), and A(7) A(8) only as the fourth. *)
Definition ex_w : list (import_rule bytes TropWeight) := [ex_ir «"ROOT"» «"A"» (Some «"A"») [[false; true]] 1; ex_ir «"ROOT"» «"A"» (Some «"B"») [[false; true]] 1].
Definition ex_w_text : bytes := lines_of [«"ROOT A A 01 1"»; «"ROOT A B 01 1"»].
Definition ex_w_lex : list (list (bytes * bytes * TropWeight)) := [[(«"7"», «"A"», Some 0)]; [(«"8"», «"A"», Some 5); («"8"», «"B"», Some 1)]; [(«"9"», «"B"», Some 0)]].
Definition ex_w_lex_text : bytes := lines_of [«"7 A 0"»; «"8 A 5 B 1"»; «"9 B 0"»].
Definition ex_w_rules : list (prule bytes bytes TropWeight) := [ex_cr «"ROOT"» [«"A"»; «"A"»] [[Var 0 0; Var 1 0]] 0; ex_cr «"ROOT"» [«"A"»; «"B"»] [[Var 0 0; Var 1 0]] 0].
Definition ex_w_words : list (prule bytes bytes TropWeight) := [ex_cr «"A"» [] [[Tm «"7"»]] 0; ex_cr «"A"» [] [[Tm «"8"»]] 5; ex_cr «"B"» [] [[Tm «"8"»]] 1; ex_cr «"B"» [] [[Tm «"9"»]] 0].
Definition ex_w_tree (w a v b : bytes) : bytes := block 0 [[w; a; «"--"»; «"--"»; «"0"»]; [v; b; «"--"»; «"--"»; «"0"»]].
Theorem C50_words_refuted :
  file (disco_line trop_counts string_io trop_io) ex_w_text ex_w /\ file (lexer_line trop_counts string_io string_io trop_io) ex_w_lex_text ex_w_lex /\
  disco_grammar ex_w (fun A => exists t w, In (t, A, w) (concat ex_w_lex)) «"ROOT"» /\ (forall t A w, In (t, A, w) (concat ex_w_lex) -> w <> wzero) /\
  Forall2 (imported trop_counts word_eqb ex_w (concat ex_w_lex)) ex_w ex_w_rules /\ Forall2 (imported_word trop_counts word_eqb ex_w (concat ex_w_lex)) (concat ex_w_lex) ex_w_words /\
  chain_free (ex_w_rules ++ ex_w_words) /\ (forall t w, ~ In (t, «"ROOT"», w) (concat ex_w_lex)) /\
  corpus false false (lines_of [«"7 8"»]) [(0, [«"7"»; «"8"»], [«"7"»; «"8"»])] /\
  (exists d, parse_of (ex_w_rules ++ ex_w_words) «"ROOT"» [«"7"»; «"8"»] d (Some 1 : TropWeight) /\
     shows 0 [«"7"»; «"8"»] d (ex_w_tree «"7"» «"A"» «"8"» «"B"»)) /\
  exists rep, trop_disco ex_w_text (Some ex_w_lex_text) 2 = Some rep /\
    trop_command rep 50 (command_settings None None None) (Options 1 false false false true) (lines_of [«"7 8"»]) = Some (ex_w_tree «"7"» «"A"» «"9"» «"B"») /\
    trop_command rep 50 (command_settings None None None) (Options 4 false false false true) (lines_of [«"7 8"»]) =
      Some (ex_w_tree «"7"» «"A"» «"9"» «"B"» ++ ex_w_tree «"7"» «"A"» «"8"» «"B"» ++ ex_w_tree «"7"» «"A"» «"7"» «"A"» ++ ex_w_tree «"7"» «"A"» «"8"» «"A"»).
Proof.
  split; [|split; [|split; [|split; [|split; [|split; [|split; [|split; [|split; [|split]]]]]]]]].
  - apply lines_file. repeat constructor; [line «"ROOT"» «"A"» «"A"» «"01"» «"1"»|line «"ROOT"» «"A"» «"B"» «"01"» «"1"»]; one_component.
  - apply lines_file. repeat constructor.
    + exists «"7"», «" "», «"7"», «"A 0"». split; [a_name|]. split; [apply one_blank|]. split; [reflexivity|]. apply l_one. exists «"A"», «" "», «"0"», «"A"», (Some 0 : TropWeight). split; [a_name|]. split; [apply one_blank|]. split; [|auto]. left. split; [a_word|reflexivity].
    + exists «"8"», «" "», «"8"», «"A 5 B 1"». split; [a_name|]. split; [apply one_blank|]. split; [reflexivity|].
      apply (l_cons blanks _ «"A 5"» «" "» «"B 1"»); [|apply one_blank|apply l_one].
      * exists «"A"», «" "», «"5"», «"A"», (Some 5 : TropWeight). split; [a_name|]. split; [apply one_blank|]. split; [|auto]. left. split; [a_word|reflexivity].
      * exists «"B"», «" "», «"1"», «"B"», (Some 1 : TropWeight). split; [a_name|]. split; [apply one_blank|]. split; [|auto]. left. split; [a_word|reflexivity].
    + exists «"9"», «" "», «"9"», «"B 0"». split; [a_name|]. split; [apply one_blank|]. split; [reflexivity|]. apply l_one. exists «"B"», «" "», «"0"», «"B"», (Some 0 : TropWeight). split; [a_name|]. split; [apply one_blank|]. split; [|auto]. left. split; [a_word|reflexivity].
  - constructor.
    + exists (fun _ => 1). split; [reflexivity|]. split; [reflexivity|]. intros r Hr. unfold ex_w in Hr. in_cases Hr; repeat split.
    + eexists. split; [now left|reflexivity].
    + intros r A Hr HA. left. unfold ex_w in Hr. in_cases Hr; cbn in HA; repeat (destruct HA as [<-|HA]; [first [exists «"7"», (Some 0 : TropWeight); now left|exists «"8"», (Some 1 : TropWeight); right; right; now left]|]); destruct HA.
    + intros r Hr. unfold ex_w in Hr. in_cases Hr; discriminate.
    + intros r Hr. unfold ex_w in Hr. in_cases Hr; (split; [cbn; lia|]); intros c Hc; cbn in Hc; repeat (destruct Hc as [<-|Hc]; [cbn; lia|]); destruct Hc.
  - intros t A w Hw. cbn in Hw. repeat (destruct Hw as [Hw|Hw]; [injection Hw as <- <- <-; discriminate|]). destruct Hw.
  - constructor; [|constructor; [|constructor]]; (split; [reflexivity|]); (split; [reflexivity|]); (split; [split; [constructor; [constructor; [exists 0; reflexivity|constructor; [exists 0; reflexivity|constructor]]|constructor]|intros [|[|s]]; [now exists 1|now exists 1|now exists 0]]|]); exists (Some 1 : TropWeight); split; reflexivity.
  - constructor; [|constructor; [|constructor; [|constructor; [|constructor]]]]; (split; [reflexivity|]); (split; [reflexivity|]); (split; [reflexivity|]); exists (Some 0 : TropWeight); split; reflexivity.
  - exists (fun _ _ => 0). intros r k i j B Hr Ek Et. cbn [app ex_w_rules ex_w_words] in Hr. in_cases Hr; destruct k as [|[|[|k]]]; cbn in Ek; try discriminate; try (destruct k; discriminate).
  - intros t w Hw. cbn in Hw. repeat (destruct Hw as [Hw|Hw]; [discriminate|]). destruct Hw.
  - exists [«"7 8"»]. split.
    + apply (tl_cons «"7 8"» [] [] []); [not_in| |now left|constructor]. intros l' E. apply (f_equal (fun l => last l "x"%char)) in E. rewrite last_last in E. discriminate.
    + constructor; [|constructor]. cbn [fst snd]. exists [«"7"»; «"8"»]. split; [split; [|reflexivity]|split; reflexivity]. cbn. read_words.
  - exists (DNode (ex_cr «"ROOT"» [«"A"»; «"B"»] [[Var 0 0; Var 1 0]] 0) [DNode (ex_cr «"A"» [] [[Tm «"7"»]] 0) []; DNode (ex_cr «"B"» [] [[Tm «"8"»]] 1) []]). split.
    + split; [|split; reflexivity].
      repeat match goal with |- deriv _ _ (DNode ?r ?ts) => refine (deriv_node _ r ts _ _); [cbn [In app ex_w_rules ex_w_words]; repeat (first [left; reflexivity|right])|unfold ex_cr; cbn [pr_tail]] | |- Forall2 _ _ _ => constructor end.
    + exists [([0], «"7"»); ([1], «"8"»)], [(NWord «"7"», «"A"», 0); (NWord «"8"», «"B"», 0)]. split; [reflexivity|]. split; [|reflexivity].
      exists [], [(NWord «"7"», «"A"», 0); (NWord «"8"», «"B"», 0)], []. split; [constructor|]. split.
      * intros x. split; [intros []|]. intros (NX & y & Hy & z & NZ & E). cbn in Hy. destruct Hy as [<-|[<-|[]]]; destruct x as [|x0 [|x1 x]]; try congruence; destruct z; try congruence; discriminate.
      * split; [|split; [constructor|reflexivity]]. constructor; [|constructor; [|constructor]]; eexists _, [], _, 0; (split; [reflexivity|]); (split; [reflexivity|]); (split; [left; auto|reflexivity]).
  - eexists. split; [vm_compute; reflexivity|]. split; vm_compute; reflexivity.
Qed.
Print Assumptions C50_words_refuted.

(* one word for every part of speech *)
Definition ex_v : list (import_rule bytes TropWeight) := [ex_ir «"ROOT"» «"A"» (Some «"B"») [[false; true]] 1; ex_ir «"ROOT"» «"B"» (Some «"A"») [[true; false]] 4].
Definition ex_v_lex : list (list (bytes * bytes * TropWeight)) := [[(«"7"», «"A"», Some 2)]; [(«"8"», «"B"», Some 1)]].
Example C50_lexicon_example :
  file (disco_line trop_counts string_io trop_io) (lines_of [«"ROOT A B 01 1"»; «"ROOT B A 10 4"»]) ex_v /\ file (lexer_line trop_counts string_io string_io trop_io) (lines_of [«"7 A 2"»; «"8 B 1"»]) ex_v_lex /\
  disco_grammar ex_v (fun A => exists t w, In (t, A, w) (concat ex_v_lex)) «"ROOT"» /\ (forall t A w, In (t, A, w) (concat ex_v_lex) -> w <> wzero) /\ (forall t w, ~ In (t, «"ROOT"», w) (concat ex_v_lex)) /\
  (forall rules words, Forall2 (imported trop_counts word_eqb ex_v (concat ex_v_lex)) ex_v rules -> Forall2 (imported_word trop_counts word_eqb ex_v (concat ex_v_lex)) (concat ex_v_lex) words -> tokens_apart (rules ++ words)) /\
  exists rep, trop_disco (lines_of [«"ROOT A B 01 1"»; «"ROOT B A 10 4"»]) (Some (lines_of [«"7 A 2"»; «"8 B 1"»])) 2 = Some rep /\
    trop_command rep 50 (command_settings None None None) (Options 3 false false false true) (lines_of [«"7 8"»]) = Some (ex_w_tree «"7"» «"A"» «"8"» «"B"» ++ ex_w_tree «"7"» «"A"» «"8"» «"B"»).
Proof.
  split; [|split; [|split; [|split; [|split; [|split]]]]].
  - apply lines_file. repeat constructor; [line «"ROOT"» «"A"» «"B"» «"01"» «"1"»|line «"ROOT"» «"B"» «"A"» «"10"» «"4"»]; one_component.
  - apply lines_file. repeat constructor.
    + exists «"7"», «" "», «"7"», «"A 2"». split; [a_name|]. split; [apply one_blank|]. split; [reflexivity|]. apply l_one. exists «"A"», «" "», «"2"», «"A"», (Some 2 : TropWeight). split; [a_name|]. split; [apply one_blank|]. split; [|auto]. left. split; [a_word|reflexivity].
    + exists «"8"», «" "», «"8"», «"B 1"». split; [a_name|]. split; [apply one_blank|]. split; [reflexivity|]. apply l_one. exists «"B"», «" "», «"1"», «"B"», (Some 1 : TropWeight). split; [a_name|]. split; [apply one_blank|]. split; [|auto]. left. split; [a_word|reflexivity].
  - constructor.
    + exists (fun _ => 1). split; [reflexivity|]. split; [reflexivity|]. intros r Hr. unfold ex_v in Hr. in_cases Hr; repeat split.
    + eexists. split; [now left|reflexivity].
    + intros r A Hr HA. left. unfold ex_v in Hr. in_cases Hr; cbn in HA; repeat (destruct HA as [<-|HA]; [first [exists «"7"», (Some 2 : TropWeight); now left|exists «"8"», (Some 1 : TropWeight); right; now left]|]); destruct HA.
    + intros r Hr. unfold ex_v in Hr. in_cases Hr; discriminate.
    + intros r Hr. unfold ex_v in Hr. in_cases Hr; (split; [cbn; lia|]); intros c Hc; cbn in Hc; repeat (destruct Hc as [<-|Hc]; [cbn; lia|]); destruct Hc.
  - intros t A w Hw. cbn in Hw. repeat (destruct Hw as [Hw|Hw]; [injection Hw as <- <- <-; discriminate|]). destruct Hw.
  - intros t w Hw. cbn in Hw. repeat (destruct Hw as [Hw|Hw]; [discriminate|]). destruct Hw.
  - intros rules words FR FW. apply (words_apart word_eqb trop_counts ex_v (concat ex_v_lex) rules words FR FW).
    + intros t t' A w w' H1 H2. cbn in H1, H2. destruct H1 as [H1|[H1|[]]], H2 as [H2|[H2|[]]]; injection H1 as <- <- <-; injection H2 as <- E; try reflexivity; discriminate.
    + intros t A w r He Hr E. cbn in He. unfold ex_v in Hr. destruct He as [He|[He|[]]]; injection He as <- <- <-; in_cases Hr; discriminate.
  - eexists. split; [vm_compute; reflexivity|]. vm_compute. reflexivity.
Qed.
(* a grammar whose root is called S *)
Example C50_no_root_example : forall r, In r [ex_ir «"S"» «"A"» (Some «"B"») [[false; true]] 1] -> ir_lhs r <> «"ROOT"» /\ ~ In «"ROOT"» (successors r).
Proof. intros r [<-|[]]. split; [discriminate|]. intros [C|[C|[]]]; discriminate. Qed.
(* an empty line in the grammar: the rule after it is lost, and the second word of the lexicon after a line with a single field *)
Example C50_no_error_example :
  (exists rep, trop_disco («"ROOT A B 01 1"» ++ newline ++ [] ++ newline ++ «"ROOT B A 10 4"») None 2 = Some rep /\ trop_disco «"ROOT A B 01 1"» None 2 = Some rep) /\
  (exists rep, trop_disco «"ROOT A B 01 1"» (Some («"7 A 2"» ++ newline ++ «"8"» ++ newline ++ «"8 B 1"»)) 2 = Some rep /\ trop_disco «"ROOT A B 01 1"» (Some «"7 A 2"») 2 = Some rep).
Proof. split; (eexists; split; vm_compute; reflexivity). Qed.
