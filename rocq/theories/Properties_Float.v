(* C55: the searches do not rely on exact arithmetic. *)
From Coq Require Import ZArith Reals Lra.
From Flocq Require Import Core BinarySingleNaN.
From Verif Require Import M_Nom Base BMap M_Agenda M_Search M_Util M_Recog M_Automata M_CFG M_TreeStack M_Grammar M_FromPmcfg M_Float
  S_Recog S_CFG S_TreeStack S_Grammar S_FromPmcfg S_Automata P_Agenda P_Search P_Util P_Recog P_Automata P_TreeStack P_TSA P_Grammar P_GrammarCFG P_Conversion
  P_FromPmcfg P_FromPmcfg2 P_FromPmcfg3 P_FromPmcfg4 P_FromPmcfg5 P_Approx P_Float Properties_TreeStack Properties_Automata Properties_FromPmcfg
  M_Chart M_Negra M_Text M_Command M_Mcfg S_Negra S_Text S_AutText S_Command S_ConfText S_Mcfg P_Text P_Command Properties_FromPmcfg Properties_Chart Properties_CSParse Properties_Command Properties_Text Properties_Negra Properties_RuleMask M_AutText P_AutText Properties_Mcfg.

(* the real number a double that is neither infinite nor NaN stands for, and rounding of reals to doubles, ties to even *)
Notation real x := (B2R (prec := 53) (emax := 1024) (proj1_sig x)).
Notation to_f64 := (round radix2 (SpecFloat.fexp 53 1024) ZnearestE).
Notation finite x := (is_finite (prec := 53) (emax := 1024) (proj1_sig x) = true).

(* C55: what the weights of the commands are: the product of two probabilities given by their logarithms is the rounded sum of
   the logarithms (-inf if that is below the range of doubles); the order is that of the logarithms, -inf first.  They satisfy
   the laws the theorems C12 to C16, C18, C40, C44 to C47, C54 ask for, and no weight exceeds one. *)
Theorem C55_doubles :
  (forall x y : LogProb, finite x -> finite y ->
     (- bpow radix2 1024 < to_f64 (real x + real y) /\ finite (wmul x y) /\ real (wmul x y) = to_f64 (real x + real y))%R \/
     (to_f64 (real x + real y) <= - bpow radix2 1024 /\ proj1_sig (wmul x y) = B754_infinity true)%R) /\
  (forall x y : LogProb, proj1_sig x = B754_infinity true -> proj1_sig (wmul x y) = B754_infinity true /\ proj1_sig (wmul y x) = B754_infinity true) /\
  (forall x y : LogProb, wleb x y = true <-> proj1_sig x = B754_infinity true \/ (finite x /\ finite y /\ real x <= real y)%R) /\
  RoundLaws LogProb /\ (forall x : LogProb, wleb x wone = true).
Proof.
  split; [|split; [|split; [exact log_leb_iff|split; [exact log_laws|exact log_le_one]]]].
  - intros [x Hx] [y Hy]. cbn [proj1_sig wmul LogProb log_mul]. intros Fx Fy. destruct (sum_cases x y Fx Fy Hx Hy) as [L V F H|L E]; [left|right; auto].
    split; [|auto]. rewrite Rabs_left1 in L by (apply rnd_nonpos; assumption). change ZnearestE with (round_mode mode_NE). lra.
  - intros [x Hx] [y Hy]. cbn [proj1_sig wmul LogProb log_mul]. intros ->. destruct y as [s|s| |s m e H]; cbn in *; try discriminate; auto. now subst s.
Qed.
Print Assumptions C55_doubles.

(* C55: doubles are not associative, and so the product of a list of weights depends on their order: -1, -2^-53, -2^-53 *)
Definition log_of (m : positive) (e : Z) (H : SpecFloat.bounded 53 1024 m e = true) : LogProb :=
  exist (fun x : f64 => is_log x = true) (B754_finite true m e H) eq_refl.
Definition ex_big : LogProb := log_of 4503599627370496 (-52) eq_refl.
Definition ex_small : LogProb := log_of 4503599627370496 (-105) eq_refl.
Theorem C55_order_matters_refuted :
  lprod [ex_big; ex_small; ex_small] <> lprod [ex_small; ex_small; ex_big] /\ ~ WeightLaws LogProb.
Proof.
  assert (E : B2SF (proj1_sig (lprod [ex_big; ex_small; ex_small])) <> B2SF (proj1_sig (lprod [ex_small; ex_small; ex_big]))) by (vm_compute; discriminate).
  split; [intros G; apply E; now rewrite G|]. intros L. apply E. rewrite !(lprod_wprod L). rewrite (P_Recog.wprod_perm L [ex_big; ex_small; ex_small] [ex_small; ex_small; ex_big]); [reflexivity|].
  rewrite perm_swap. apply perm_skip. apply perm_swap.
Qed.
Print Assumptions C55_order_matters_refuted.

(* the exact logarithm of the product of the weights, and one half unit in the last place *)
Notation exact l := (fold_right Rplus 0%R (map (fun x : LogProb => real x) l)).
Notation eps := (bpow radix2 (-53)).

(* C55: how far the computed weight is from the exact one: it differs by a relative error of at most eps for each factor, or it
   is zero (-inf) because the exact one is, up to that error, below the range of doubles.  The factors are not zero. *)
Theorem C55_rounding_error :
  forall l : list LogProb, (forall x, In x l -> finite x) ->
  (finite (lprod l) /\ exact l * (1 + eps) ^ length l <= real (lprod l) <= exact l * (1 - eps) ^ length l)%R \/
  (proj1_sig (lprod l) = B754_infinity true /\ exact l * (1 + eps) ^ length l <= - bpow radix2 1024)%R.
Proof. exact lprod_error. Qed.
Print Assumptions C55_rounding_error.

(* the weights of the commands, with the zero -inf *)
Definition log_zero : LogProb := exist (fun x : f64 => is_log x = true) (B754_infinity true) eq_refl.
Definition LogZ : ZWeight := mkZWeight LogProb log_zero (fun x y => Beqb (proj1_sig x) (proj1_sig y)).

(* d' is not better than d: not by the computed weights, and by the exact ones only within the rounding error *)
Definition rule_logs (d : dtree bytes bytes LogZ) : list LogProb := map (fun r : prule bytes bytes LogZ => pr_weight r : LogProb) (d_rules d).
Definition not_better (d d' : dtree bytes bytes LogZ) : Prop :=
  wleb (read_weight d' : LogProb) (read_weight d : LogProb) = true /\
  ((forall x, In x (rule_logs d ++ rule_logs d') -> finite x) -> finite (read_weight d : LogProb) ->
    (exact (rule_logs d') * (1 + eps) ^ length (d_rules d') <= exact (rule_logs d) * (1 - eps) ^ length (d_rules d))%R).

(* C55, mcfg parse with doubles: as C44.  The derivations printed come best first by their computed weights, and so by their
   exact weights up to the rounding error; no better one is left out. *)
Theorem C55_mcfg_parse :
  forall (neqb teqb : bytes -> bytes -> bool) (reqb : prule bytes bytes LogZ -> prule bytes bytes LogZ -> bool), EqbSpec neqb -> EqbSpec teqb -> EqbSpec reqb ->
  forall (H : max_heap (item (tstack nat) (ts_instr nat) nat LogZ * LogZ) (wi_leb wleb)) (Hb : minmax_heap (item (tstack nat) (ts_instr nat) nat LogZ * LogZ) (wi_leb wleb))
    (shuffle : list (transition (ts_instr nat) nat LogZ) -> list (transition (ts_instr nat) nat LogZ)), (forall l, Permutation (shuffle l) l) ->
  forall (iow : text_io LogZ) (display : configuration (tstack (posstate (prule bytes bytes LogZ))) bytes LogZ -> bytes)
    (grammar : bytes) (init : list bytes) (rules : list (prule bytes bytes LogZ)), text_means string_io (pmcfg_rule_syntax string_io string_io iow) grammar init rules ->
  forall (f : bytes -> nat), ordered_grammar f (PMCFG init rules : pmcfg bytes bytes LogZ) -> (forall r, In r rules -> short_tails r) ->
  forall (negra : bool), (negra = true -> forall r, In r rules -> negra_normal (pr_comp r) /\ (In (pr_head r) init -> forall t, ~ In (Tm t) (List.concat (pr_comp r)))) ->
  forall (text : bytes) (sents : list (list bytes)), sentences text sents -> (forall s, In s sents -> s <> []) ->
  forall (n : nat) (beam : option nat),
  let run calls fuel := mcfg_parse neqb teqb reqb H Hb shuffle iow display grammar n beam negra calls fuel text in
  let text_for id tokens d out :=
    if negra then S_Command.shows id tokens d out
    else exists conf, c_word conf = [] /\ c_weight conf = read_weight d /\ S_FromPmcfg.shows (c_storage conf) d /\ holds_tree (c_storage conf) d /\ out = display conf ++ newline in
  let answer s out := exists ds texts, length ds <= n /\ (forall d, In d ds -> parse_from init rules (snd s) d) /\
    (NoDup rules -> NoDup ds) /\ StronglySorted not_better ds /\
    (beam = None -> (length ds < n -> forall d, parse_from init rules (snd s) d -> In d ds) /\
                    (forall d d', parse_from init rules (snd s) d' -> ~ In d' ds -> In d ds -> not_better d d')) /\
    Forall2 (text_for (fst s) (snd s)) ds texts /\ out = List.concat texts ++ newline in
  (forall calls, exists F, (forall fuel, F <= fuel -> run calls fuel = Running) \/
     exists outs, (forall fuel, F <= fuel -> run calls fuel = Done (List.concat outs)) /\ Forall2 answer (combine (seq 1 (length sents)) sents) outs) /\
  (forall rank, no_left_recursion rules rank ->
     exists calls0, forall calls, calls0 <= calls -> exists F outs, forall fuel, F <= fuel -> run calls fuel = Done outs).
Proof.
  intros neqb teqb reqb NE TE RE H Hb shuffle SH iow display grammar init rules TM f OG ST negra HN text sents TS NZ n beam run text_for answer.
  destruct (C44_mcfg_parse_partial LogZ neqb teqb reqb log_laws NE TE RE H Hb shuffle SH iow display grammar init rules TM f OG ST negra HN text sents TS NZ n beam) as [H1 H2].
  split; [|exact H2]. intros calls. destruct (H1 calls) as (F & [R|(outs & R & FO)]); exists F; [now left|right]. exists outs. split; [exact R|].
  eapply P_Approx.Forall2_impl_P; [|exact FO]. intros [id tokens] out (ds & texts & L & PF & [O1 O2] & BO & FT & ->). cbn [fst snd] in *. exists ds, texts.
  assert (NB : forall d d', parse_from init rules tokens d -> parse_from init rules tokens d' -> wleb (read_weight d' : LogProb) (read_weight d : LogProb) = true -> not_better d d').
  { assert (PM : forall d, parse_from init rules tokens d -> Permutation (map (fun r : prule bytes bytes LogZ => pr_weight r : LogProb) (entered d 0)) (rule_logs d)).
    { intros d (A & HA & HD & _). apply Permutation_map. exact (proj1 (C55_read_weight bytes bytes LogZ f (PMCFG init rules : pmcfg bytes bytes LogZ) OG A d HA HD)). }
    intros d d' D D' W. split; [exact W|]. intros FI FR. pose proof (PM d D) as P1. pose proof (PM d' D') as P2.
    change (exact_log (rule_logs d') * (1 + eps) ^ length (d_rules d') <= exact_log (rule_logs d) * (1 - eps) ^ length (d_rules d))%R.
    rewrite <- (exact_perm _ _ P1), <- (exact_perm _ _ P2).
    assert (L1 : length (d_rules d) = length (map (fun r : prule bytes bytes LogZ => pr_weight r : LogProb) (entered d 0))) by (rewrite (Permutation_length P1); unfold rule_logs; now rewrite map_length).
    assert (L2 : length (d_rules d') = length (map (fun r : prule bytes bytes LogZ => pr_weight r : LogProb) (entered d' 0))) by (rewrite (Permutation_length P2); unfold rule_logs; now rewrite map_length).
    rewrite L1, L2. apply lprod_order; [| |exact FR|exact W].
    - intros x Hx. apply FI, in_or_app. left. exact (Permutation_in _ P1 Hx).
    - intros x Hx. apply FI, in_or_app. right. exact (Permutation_in _ P2 Hx). }
  split; [exact L|]. split; [exact PF|]. split; [exact O1|]. split; [|split].
  - specialize (O2 (fun r _ => log_le_one (pr_weight r))). clear -O2 PF NB. induction O2 as [|d ds S1 IH S2]; [constructor|]. constructor; [apply IH; intros; apply PF; now right|].
    apply Forall_forall. intros d' Hd'. rewrite Forall_forall in S2. apply NB; [apply PF; now left|apply PF; now right|now apply S2].
  - intros HB. destruct (BO HB) as [B1 B2]. split; [exact B1|]. intros d d' D' NI ID. apply NB; [now apply PF|exact D'|]. apply B2; [exact (fun r _ => log_le_one (pr_weight r))|exact D'|exact NI|exact ID].
  - split; [exact FT|reflexivity].
Qed.
Print Assumptions C55_mcfg_parse.

(* an automaton over doubles with two runs for the same word whose exact weights differ only in the order of the factors:
   -2^-53 and -1 in either order, then -2^-53; the computed weights differ and the outputs are sorted by them *)
Definition ex_ftrans : list (transition (fs_instr nat) nat LogProb) :=
  [Trans (K:=LogProb) [7] ex_small (FSI 0 1); Trans (K:=LogProb) [8] ex_small (FSI 1 2); Trans (K:=LogProb) [9] ex_big (FSI 2 3);
   Trans (K:=LogProb) [7] ex_big (FSI 0 4); Trans (K:=LogProb) [8] ex_small (FSI 4 5); Trans (K:=LogProb) [9] ex_small (FSI 5 3)].
Definition ex_fheap : max_heap (item nat (fs_instr nat) nat LogProb * LogProb) (wi_leb wleb) := list_heap _ (wi_TO wleb (rl_order _ log_laws)).
Definition shown (x : LogProb) : SpecFloat.spec_float := B2SF (proj1_sig x).
Example C55_example :
  option_map (map (fun i => shown (item_weight i))) (fsa_recognise Nat.eqb (fun l => l) (fsa_new Nat.eqb Nat.eqb ex_ftrans 0 [3]) ex_fheap [7; 8; 9] 20) =
    Some [SpecFloat.S754_finite true 4503599627370496 (-52); SpecFloat.S754_finite true 4503599627370497 (-52)] /\
  shown (lprod [ex_big; ex_small; ex_small]) = SpecFloat.S754_finite true 4503599627370496 (-52) /\
  shown (lprod [ex_small; ex_small; ex_big]) = SpecFloat.S754_finite true 4503599627370497 (-52).
Proof. split; [vm_compute; reflexivity|]. split; vm_compute; reflexivity. Qed.

(* A grammar over doubles with two derivations of the same sentence.  Their exact weights are the same, -1 - 2^-52; the computed
   ones differ, and the derivation with the larger computed weight is printed first. *)
Definition log_io : text_io LogZ :=
  TextIO LogZ (fun w : LogProb => if Beqb (proj1_sig w) (proj1_sig ex_big) then «"1"» else «"2"»)
    (fun s => if word_eqb s «"1"» then Some ex_big else if word_eqb s «"2"» then Some ex_small else None).
Definition ex_fr (h : bytes) (tl : list bytes) (c : composition bytes) (w : LogProb) : prule bytes bytes LogZ := PRule (W := LogZ) h tl c w.
Definition ex_frules : list (prule bytes bytes LogZ) :=
  [ex_fr «"S"» [«"A"»] [[Var 0 0]] ex_small; ex_fr «"A"» [«"B"»] [[Var 0 0]] ex_small; ex_fr «"B"» [] [[Tm «"a"»]] ex_big;
   ex_fr «"S"» [«"C"»] [[Var 0 0]] ex_big; ex_fr «"C"» [«"D"»] [[Var 0 0]] ex_small; ex_fr «"D"» [] [[Tm «"a"»]] ex_small].
Definition ex_ftext : bytes := lcfrs_text string_io string_io log_io (MCFG ex_frules «"S"»).
Lemma ex_frule_dec (x y : prule bytes bytes LogZ) : {x = y} + {x <> y}.
Proof.
  assert (B : forall a b : bytes, {a = b} + {a <> b}) by (apply list_eq_dec, Ascii.ascii_dec).
  assert (V : forall a b : vart bytes, {a = b} + {a <> b}) by (decide equality; apply Nat.eq_dec).
  assert (W : forall a b : LogProb, {a = b} + {a <> b}).
  { intros a b. destruct (wleb a b) eqn:E1; [destruct (wleb b a) eqn:E2|].
    - left. now apply (rl_anti _ log_laws).
    - right. intros ->. congruence.
    - right. intros ->. destruct (to_total _ (rl_order _ log_laws) b b); congruence. }
  destruct x as [h t c w], y as [h' t' c' w']. destruct (B h h'); [|right; congruence]. destruct (list_eq_dec B t t'); [|right; congruence].
  destruct (list_eq_dec (list_eq_dec V) c c'); [|right; congruence]. destruct (W w w'); [left|right]; congruence.
Defined.
Definition ex_freqb (x y : prule bytes bytes LogZ) : bool := if ex_frule_dec x y then true else false.
Lemma ex_freqb_spec : EqbSpec ex_freqb.
Proof. intros x y. unfold ex_freqb. destruct (ex_frule_dec x y); split; congruence. Qed.
Definition ex_fTO : TotalOrder (wi_leb (I := item (tstack nat) (ts_instr nat) nat LogZ) (wleb (w := LogZ))) := wi_TO _ (rl_order _ log_laws).
Definition ex_display (conf : configuration (tstack (posstate (prule bytes bytes LogZ))) bytes LogZ) : bytes :=
  if Beqb (proj1_sig (c_weight conf : LogProb)) (proj1_sig ex_big) then «"-1"» else «"less"».
Example C55_mcfg_example :
  text_means string_io (pmcfg_rule_syntax string_io string_io log_io) ex_ftext [«"S"»] ex_frules /\
  ordered_grammar (fun _ => 1) (PMCFG [«"S"»] ex_frules : pmcfg bytes bytes LogZ) /\ (forall r, In r ex_frules -> short_tails r) /\
  (forall r, In r ex_frules -> finite (pr_weight r : LogProb)) /\
  mcfg_parse word_eqb word_eqb ex_freqb (P_Agenda.list_heap _ ex_fTO) (P_Agenda.list_minmax _ ex_fTO) (fun l => l) log_io ex_display ex_ftext 3 None false 100 50 (lines_of [«"a"»]) =
    Done («"-1"» ++ newline ++ «"less"» ++ newline ++ newline).
Proof.
  split; [|split; [|split; [|split]]].
  - apply (lcfrs_shown string_io string_io log_io (MCFG ex_frules «"S"»)); [reflexivity| |not_in|].
    + split; [discriminate|]. intros a [<-|[]]. split; [not_in|discriminate].
    + cbn [mg_rules]. intros r Hr. unfold ex_frules in Hr. in_cases Hr; show_rule.
  - unfold ex_frules. ordered_by ltac:(idtac).
    intros r B Hr HB. in_cases Hr; cbn in HB; solve_vars; try contradiction; subst;
      first [exists (ex_fr «"A"» [«"B"»] [[Var 0 0]] ex_small); cbn; auto 10; fail|exists (ex_fr «"B"» [] [[Tm «"a"»]] ex_big); cbn; auto 10; fail
            |exists (ex_fr «"C"» [«"D"»] [[Var 0 0]] ex_small); cbn; auto 10; fail|exists (ex_fr «"D"» [] [[Tm «"a"»]] ex_small); cbn; auto 10; fail].
  - unfold ex_frules. short_by.
  - intros r Hr. unfold ex_frules in Hr. in_cases Hr; reflexivity.
  - vm_compute. reflexivity.
Qed.

(* C55, how rule weights are split into factors for the components of a rule: n equal factors, whose product is the weight of
   the rule up to a relative error of eps for each factor and two more.  Logarithms that are not zero but smaller than 2^-960 in
   size, and more than 2^53 components, are left aside. *)
Theorem C55_factorize :
  forall (w : LogProb) (n : nat), finite w -> (real w = 0 \/ bpow radix2 (-960) <= Rabs (real w))%R -> 0 < n -> (Z.of_nat n <= 2 ^ 53)%Z ->
  exists l : list LogProb, map (@proj1_sig _ _) l = log_factorize (proj1_sig w) n /\ length l = n /\ (forall x y, In x l -> In y l -> x = y) /\
  ((finite (lprod l) /\ real w * (1 + eps) ^ (n + 2) <= real (lprod l) <= real w * (1 - eps) ^ (n + 2))%R \/
   (proj1_sig (lprod l) = B754_infinity true /\ real w * (1 + eps) ^ (n + 2) <= - bpow radix2 1024)%R).
Proof. exact factorize_error. Qed.
Print Assumptions C55_factorize.

(* C55: the product of the factors is not exactly the weight: -1 split in six *)
Theorem C55_factorize_refuted :
  exists l : list LogProb, map (@proj1_sig _ _) l = log_factorize (proj1_sig ex_big) 6 /\ real ex_big = (-1)%R /\ lprod l <> ex_big /\
    wleb ex_big (lprod l) = true.
Proof.
  assert (L : is_log (fmul (proj1_sig ex_big) (fdiv (f64_of_usize 1) (f64_of_usize 6))) = true) by (vm_compute; reflexivity).
  set (x := exist (fun x : f64 => is_log x = true) _ L : LogProb). exists (repeat x 6). split; [reflexivity|]. split; [|split].
  - change (real ex_big) with (IZR (-4503599627370496) * / IZR 4503599627370496)%R. lra.
  - intros E. assert (C : B2SF (proj1_sig (lprod (repeat x 6))) <> B2SF (proj1_sig ex_big)) by (vm_compute; discriminate). apply C. now rewrite E.
  - vm_compute. reflexivity.
Qed.
Print Assumptions C55_factorize_refuted.
