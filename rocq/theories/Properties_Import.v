(* C38: disco-dop and rparse imports. *)
From Coq Require Import QArith Permutation.
From Verif Require Import M_Nom Base M_Recog M_CFG M_Grammar M_Text S_Text P_Text M_Import S_Import P_Import.
Open Scope nat_scope.

Lemma all_some_each {X Y} (f : X -> option Y) (R : X -> Y -> Prop) l : (forall x, In x l -> exists y, f x = Some y /\ R x y) -> exists ys, all_some f l = Some ys /\ Forall2 R l ys.
Proof.
  induction l as [|x l IH]; intros H; [exists []; split; [reflexivity|constructor]|]. destruct (H x (or_introl eq_refl)) as (y & E & HR). destruct IH as (ys & E' & HF); [intros z Hz; apply H; now right|].
  exists (y :: ys). cbn. rewrite E, E'. split; [reflexivity|now constructor].
Qed.

Lemma Forall2_len {X Y} (R : X -> Y -> Prop) l l' : Forall2 R l l' -> length l = length l'.
Proof. induction 1; cbn; congruence. Qed.

(* the imported grammar, for rules and a lexicon that have been read *)
Lemma disco_imported {N T W : Type} (ops : num_ops W) (ion : text_io N) (neq : N -> N -> bool) (checked : bool) rs (lex : list (T * N * W)) root :
  (forall a b, neq a b = true <-> a = b) -> (forall r c, In r rs -> In c (ir_yield r) -> length c <= 64) -> of_text ion «"ROOT"» = Some root ->
  exists g rules words, lcfrs_of_discodop ops ion neq checked (map disco_of rs) (Some lex) = Some g /\ mg_initial g = root /\ mg_rules g = rules ++ words /\
    Forall2 (imported ops neq rs lex) rs rules /\ Forall2 (imported_word ops neq rs lex) lex words.
Proof.
  intros Hneq HN HR.
  set (m := denominators ops neq (map disco_of rs) (Some lex)).
  assert (Dm : forall n w, In w (weights neq rs lex n) -> exists s, denominator neq m n = Some s /\ total ops (weights neq rs lex n) s).
  { intros n w Hw. unfold m. rewrite denominators_weights by assumption. rewrite weights_of. eapply sum_total, Hw. }
  assert (G1 : exists rules, all_some (disco_rule (T := T) ops neq checked m) (map disco_of rs) = Some rules /\ Forall2 (imported ops neq rs lex) rs rules).
  { destruct (all_some_each (fun r => disco_rule (T := T) ops neq checked m (disco_of r)) (imported ops neq rs lex) rs) as (rules & E & F).
    - intros r Hr. destruct (Dm (ir_lhs r) (ir_weight r)) as (s & Es & Hs).
      { apply in_app_iff. left. apply in_map_iff. exists r. split; [reflexivity|]. apply filter_In. split; [assumption|]. now apply Hneq. }
      unfold disco_rule, disco_of. replace (get_lhs (deriv_of r)) with (ir_lhs r) by (unfold deriv_of; destruct (ir_rhs2 r); reflexivity). rewrite Es.
      rewrite read_yield_app by (intros c Hc; now apply (HN r)). eexists. split; [reflexivity|]. unfold deriv_of. destruct (ir_rhs2 r) as [n|] eqn:E2; (split; [reflexivity|]); cbn [pr_tail pr_comp pr_weight]; rewrite E2;
      (split; [reflexivity|]); (split; [apply reads|]); exists s; auto.
    - exists rules. split; [|assumption]. rewrite <- E. clearbody m. clear. induction rs as [|r rs IH]; [reflexivity|]. cbn [map all_some]. now rewrite IH. }
  assert (G2 : exists words, all_some (lexer_rule ops neq m) lex = Some words /\ Forall2 (imported_word ops neq rs lex) lex words).
  { apply all_some_each. intros [[t n] w] He. destruct (Dm n w) as (s & Es & Hs).
    { apply in_app_iff. right. apply in_map_iff. exists (t, n, w). split; [reflexivity|]. apply filter_In. split; [assumption|]. now apply Hneq. }
    cbn [lexer_rule]. rewrite Es. eexists. split; [reflexivity|]. cbn. repeat split. exists s. auto. }
  destruct G1 as (rules & E1 & F1). destruct G2 as (words & E2 & F2). exists (MCFG (rules ++ words) root), rules, words. repeat split; auto.
  unfold lcfrs_of_discodop. unfold m in E1, E2. cbn zeta. setoid_rewrite E1. setoid_rewrite E2. now rewrite HR.
Qed.

(* C38: the two files of a disco-dop grammar whose components have at most 64 variables are read completely; the grammar has the rules of
   the first file and the words of the second, in this order, with one variable for every bit, numbered from left to right, and every
   weight is divided by the sum of the weights of the left-hand side.  This holds with and without overflow checks. *)
Theorem C38_discodop_partial :
  forall (N T W : Type) (ops : num_ops W) (ion : text_io N) (iot : text_io T) (iow : text_io W) (neq : N -> N -> bool) (checked : bool) text lexicon rs ess root,
  (forall a b, neq a b = true <-> a = b) ->
  file (disco_line ops ion iow) text rs -> file (lexer_line ops ion iot iow) lexicon ess ->
  (forall r c, In r rs -> In c (ir_yield r) -> length c <= 64) -> of_text ion «"ROOT"» = Some root ->
  exists cs lex, discodop_of_text ops ion iow checked text = FOk cs /\ lexer_of_text ops ion iot iow lexicon = FOk lex /\
    exists g rules words, lcfrs_of_discodop ops ion neq checked cs (Some lex) = Some g /\ mg_initial g = root /\ mg_rules g = rules ++ words /\
      Forall2 (imported ops neq rs (concat ess)) rs rules /\ Forall2 (imported_word ops neq rs (concat ess)) (concat ess) words.
Proof.
  intros N T W ops ion iot iow neq checked text lexicon rs ess root Hneq HF HL HN HR.
  exists (map disco_of rs), (concat ess). split; [apply disco_file; [assumption|intros r Hr c Hc; now apply (HN r)]|]. split; [now apply lexer_file|].
  now apply disco_imported.
Qed.
Print Assumptions C38_discodop_partial.

(* C38: with exact arithmetic the weights of every left-hand side sum to one, unless their sum in the files is zero. *)
Theorem C38_normalised :
  forall (N T : Type) (ion : text_io N) (neq : N -> N -> bool) (checked : bool) cs (lex : option (list (T * N * Q))) g,
  (forall a b, neq a b = true <-> a = b) -> lcfrs_of_discodop q_ops ion neq checked cs lex = Some g ->
  forall n, ~ (sum_q (weights_in neq cs (match lex with Some l => l | None => [] end) n) == 0)%Q ->
  (sum_q (map pr_weight (filter (fun p => neq (pr_head p) n) (mg_rules g))) == 1)%Q.
Proof.
  intros N T ion neq checked cs lex g Hneq HG n NZ. unfold lcfrs_of_discodop in HG. cbn zeta in HG. set (m := denominators q_ops neq cs lex) in *. set (ls := match lex with Some l => l | None => [] end) in *.
  change (match lex with Some l => l | None => [] end) with ls in HG.
  destruct (all_some (disco_rule (T := T) q_ops neq checked m) cs) as [rs|] eqn:E1; [|discriminate]. destruct (all_some (lexer_rule q_ops neq m) ls) as [ws|] eqn:E2; [|discriminate].
  destruct (of_text ion _) as [i|]; [|discriminate]. injection HG as <-. cbn [mg_rules].
  assert (SQ : forall ws v, (fold_left Qplus ws v == v + sum_q ws)%Q).
  { clear. induction ws as [|w ws IH]; intros v; cbn [fold_left sum_q fold_right]; [ring|]. rewrite IH. unfold sum_q. ring. }
  assert (D : exists d, denominator neq m n = Some d /\ (d == sum_q (weights_in neq cs ls n))%Q).
  { unfold m. rewrite denominators_weights by assumption. fold ls. destruct (weights_in neq cs ls n) as [|w l] eqn:EW; [exfalso; apply NZ; reflexivity|]. cbn [sum_of fold_left]. exists (fold_left Qplus l w). split; [apply (sum_some q_ops)|]. rewrite SQ. reflexivity. }
  destruct D as (d & Ed & Hd). clearbody m ls.
  assert (M1 : map pr_weight (filter (fun p => neq (pr_head p) n) rs) = map (fun w => Qdiv w d) (map snd (filter (fun x => neq (get_lhs (fst (fst x))) n) cs))).
  { clear E2 NZ Hd. revert rs E1. induction cs as [|[[dv y] w] cs IH]; intros rs E; cbn [all_some] in E; [injection E as <-; reflexivity|].
    destruct (disco_rule (T := T) q_ops neq checked m (dv, y, w)) as [p|] eqn:EP; [|discriminate]. destruct (all_some (disco_rule (T := T) q_ops neq checked m) cs) as [ps|]; [|discriminate]. injection E as <-. specialize (IH ps eq_refl).
    unfold disco_rule in EP. destruct (denominator neq m (get_lhs dv)) as [d'|] eqn:ED; [|discriminate]. destruct (read_yield (T := T) checked y 0 0) as [c|]; [|discriminate]. injection EP as <-. cbn [filter fst snd].
    assert (H : forall p : prule N T Q, pr_head p = get_lhs dv -> pr_weight p = Qdiv w d' ->
      map pr_weight (if neq (pr_head p) n then p :: filter (fun p => neq (pr_head p) n) ps else filter (fun p => neq (pr_head p) n) ps) =
      map (fun w => Qdiv w d) (map snd (if neq (get_lhs dv) n then (dv, y, w) :: filter (fun x => neq (get_lhs (fst (fst x))) n) cs else filter (fun x => neq (get_lhs (fst (fst x))) n) cs))).
    { intros p Hp Hw. rewrite Hp. destruct (neq (get_lhs dv) n) eqn:EN; cbn [map snd]; [|exact IH]. rewrite IH, Hw. f_equal. apply Hneq in EN. rewrite EN in ED. congruence. }
    apply H; destruct dv; reflexivity. }
  assert (M2 : map pr_weight (filter (fun p => neq (pr_head p) n) ws) = map (fun w => Qdiv w d) (map snd (filter (fun e => neq (snd (fst e)) n) ls))).
  { clear E1 M1 NZ Hd. revert ws E2. induction ls as [|[[t k] w] l IH]; intros ps E; cbn [all_some] in E; [injection E as <-; reflexivity|].
    destruct (lexer_rule q_ops neq m (t, k, w)) as [p|] eqn:EP; [|discriminate]. destruct (all_some (lexer_rule q_ops neq m) l) as [ps'|]; [|discriminate]. injection E as <-. specialize (IH ps' eq_refl).
    unfold lexer_rule in EP. destruct (denominator neq m k) as [d'|] eqn:ED; [|discriminate]. injection EP as <-. cbn [filter fst snd pr_head]. destruct (neq k n) eqn:EN; cbn [map snd pr_weight]; [|exact IH]. rewrite IH. f_equal. apply Hneq in EN. subst k. cbn. congruence. }
  rewrite filter_app, map_app, M1, M2, <- !map_app. fold (weights_in neq cs ls n).
  assert (SD : forall l, (sum_q (map (fun w => Qdiv w d) l) == sum_q l / d)%Q).
  { assert (ND : ~ (d == 0)%Q) by (rewrite Hd; exact NZ). clear - ND. induction l as [|w l IH]; cbn [map sum_q fold_right]; [field; exact ND|]. unfold sum_q in *. rewrite IH. field. exact ND. }
  rewrite SD. unfold weights_in in Hd. rewrite <- Hd. field. rewrite Hd. exact NZ.
Qed.
Print Assumptions C38_normalised.

(* C38: without a lexicon, the default lexicon has exactly one word for every nonterminal that is on a right-hand side but on no left-hand
   side, namely itself, with weight one; for every order in which the hash map is traversed. *)
Theorem C38_default_lexer :
  forall (N W : Type) (ops : num_ops W) (neq : N -> N -> bool) iterate (cs : disco_constituents (N := N) (W := W)),
  (forall a b, neq a b = true <-> a = b) -> (forall m, Permutation (iterate m) m) ->
  NoDup (map (fun e => fst (fst e)) (default_lexer ops neq iterate cs)) /\
  forall t n w, In (t, n, w) (default_lexer ops neq iterate cs) <-> t = n /\ w = n_one ops /\ on_rhs cs n /\ ~ on_lhs cs n.
Proof.
  intros N W ops neq iterate cs Hneq HI. destruct (only_on_rhs_ok neq Hneq cs) as (K & H1 & _). unfold default_lexer. specialize (HI (only_on_rhs neq cs)).
  assert (K' : NoDup (map fst (iterate (only_on_rhs neq cs)))) by (eapply Permutation_NoDup; [apply Permutation_map, Permutation_sym, HI|exact K]).
  assert (H1' : forall n, In (n, true) (iterate (only_on_rhs neq cs)) <-> on_rhs cs n /\ ~ on_lhs cs n) by (intros n; rewrite <- H1; split; apply Permutation_in; [|apply Permutation_sym]; exact HI).
  generalize dependent (iterate (only_on_rhs neq cs)). intros l _ K' H1'. split.
  - clear H1'. induction l as [|[n b] l IH]; cbn; [constructor|]. inversion K' as [|? ? NI ND]; subst. destruct b; cbn; [|now apply IH]. constructor; [|now apply IH].
    intros C. apply NI. apply in_map_iff in C. destruct C as ([[t k] w] & E & C). cbn in E. subst t. apply in_flat_map in C. destruct C as ([x b] & Hx & C). destruct b; [destruct C as [C|[]]|destruct C]. injection C as C1 C2 _. subst. apply in_map_iff. eexists. split; [|exact Hx]. reflexivity.
  - intros t n w. rewrite in_flat_map. split.
    + intros ([x b] & Hx & E). destruct b; [destruct E as [E|[]]|destruct E]. injection E as <- <- <-. apply H1' in Hx. tauto.
    + intros (-> & -> & H). apply H1' in H. exists (n, true). split; [assumption|now left].
Qed.
Print Assumptions C38_default_lexer.

(* C38: an rparse file is read completely; the rules have one variable for every truth value, numbered from left to right, and the weights of the file. *)
Theorem C38_rparse_partial :
  forall (N W : Type) (ion : text_io N) (iow : text_io W) text rs root,
  file (rparse_line ion iow) text rs -> rs <> [] -> of_text ion «"VROOT1"» = Some root ->
  exists cs g, rparse_of_text ion iow text = FOk cs /\ lcfrs_of_rparse ion cs = Some g /\ mg_initial g = root /\ Forall2 rparse_imported rs (mg_rules g).
Proof.
  intros N W ion iow text rs root HF NE HR. eexists _, _. split; [apply rparse_file; [exact NE|exact HF]|]. split; [unfold lcfrs_of_rparse; rewrite HR; reflexivity|]. split; [reflexivity|]. cbn [mg_rules]. clear.
  induction rs as [|r rs IH]; cbn [map]; constructor; [|assumption]. unfold rparse_imported. cbn. destruct (ir_rhs2 r); repeat split; auto; apply (reads (T := unit)).
Qed.
Print Assumptions C38_rparse_partial.

(* ---- examples: symbols are texts, weights are fractions ---- *)
Definition tio : text_io bytes := TextIO _ (fun x => x) (fun x => Some x).
Definition qio : text_io Q := TextIO _ (fun q => usize_text (Z.to_nat (Qnum q))) (fun s => option_map (fun n => inject_Z (Z.of_nat n)) (usize_of_text s)).
Fixpoint bytes_eqb (a b : bytes) : bool := match a, b with [], [] => true | x :: a, y :: b => beqb x y && bytes_eqb a b | _, _ => false end.
Lemma bytes_eqb_spec a : forall b, bytes_eqb a b = true <-> a = b.
Proof.
  induction a as [|x a IH]; intros [|y b]; cbn; try (split; [discriminate|discriminate]); [tauto|]. rewrite andb_true_iff, beqb_true, IH. split; [intros [-> ->]; reflexivity|]. intros E. injection E as -> ->. auto.
Qed.
Ltac a_word := split; [discriminate|]; intros a Ha; cbn in Ha; repeat (destruct Ha as [<-|Ha]; [reflexivity|]); destruct Ha.
Ltac a_name := split; [a_word|reflexivity].
Lemma one_blank : blanks [" "%char].
Proof. split; [discriminate|]. intros a [<-|[]]. now left. Qed.
Definition r1 : import_rule bytes Q := IRule «"S"» «"NP"» (Some «"VP"») [[false; true]; [false]] (3#1).
Definition r2 : import_rule bytes Q := IRule «"S"» «"NP"» None [[false]] (1#1).
Example C38_line1 : disco_line q_ops tio qio «"S NP VP 01,0 3"» r1.
Proof.
  exists «"S"», «" "», «"NP"», «" "», «"VP "», «"01,0"», «" "», «"3"». repeat (split; [apply one_blank|]). split; [reflexivity|]. split; [a_name|]. split; [a_name|]. split; [|split].
  - apply (l_cons (eq «","») _ «"01"» «","» «"0"» [false; true] [[false]]); [split; [discriminate|reflexivity]|reflexivity|]. apply l_one. split; [discriminate|reflexivity].
  - left. split; [a_word|reflexivity].
  - exists «"VP"», «" "». split; [apply one_blank|]. split; [a_name|reflexivity].
Qed.
Example C38_line2 : disco_line q_ops tio qio «"S NP 0 1"» r2.
Proof.
  exists «"S"», «" "», «"NP"», «" "», [], «"0"», «" "», «"1"». repeat (split; [apply one_blank|]). split; [reflexivity|]. split; [a_name|]. split; [a_name|]. split; [|split; [|reflexivity]].
  - apply l_one. split; [discriminate|reflexivity].
  - left. split; [a_word|reflexivity].
Qed.
Definition disco_text : bytes := «"S NP VP 01,0 3"» ++ newline ++ «"S NP 0 1"».
Example C38_file : file (disco_line q_ops tio qio) (disco_text ++ newline) [r1; r2].
Proof. right. exists disco_text. split; [|now right]. apply l_cons; [apply C38_line1|reflexivity|]. apply l_one, C38_line2. Qed.
Definition lexicon : list (bytes * bytes * Q) := [(«"a"», «"NP"», (1#1) / (2#1)); («"a"», «"VP"», 3#1)]%Q.
Example C38_lexicon : file (lexer_line q_ops tio tio qio) «"a NP 1/2 VP 3"» [lexicon].
Proof.
  right. exists «"a NP 1/2 VP 3"». split; [|now left]. apply l_one. exists «"a"», «" "», «"a"», «"NP 1/2 VP 3"». split; [a_name|]. split; [apply one_blank|]. split; [reflexivity|].
  apply (l_cons blanks _ «"NP 1/2"» «" "» «"VP 3"»); [|apply one_blank|apply l_one].
  - exists «"NP"», «" "», «"1/2"», «"NP"», ((1#1) / (2#1))%Q. split; [a_name|]. split; [apply one_blank|]. split; [|auto]. right. exists «"1"», «"2"», (1#1)%Q, (2#1)%Q. split; [a_word|]. split; [a_word|]. auto.
  - exists «"VP"», «" "», «"3"», «"VP"», (3#1)%Q. split; [a_name|]. split; [apply one_blank|]. split; [|auto]. left. split; [a_word|reflexivity].
Qed.
Example C38_discodop_example : exists cs lex g, discodop_of_text q_ops tio qio true (disco_text ++ newline) = FOk cs /\ lexer_of_text q_ops tio tio qio «"a NP 1/2 VP 3"» = FOk lex /\
  lcfrs_of_discodop q_ops tio bytes_eqb true cs (Some lex) = Some g /\ length (mg_rules g) = 4 /\
  (sum_q (map pr_weight (filter (fun p => bytes_eqb (pr_head p) «"S"») (mg_rules g))) == 1)%Q.
Proof.
  destruct (C38_discodop_partial bytes bytes Q q_ops tio tio qio bytes_eqb true _ _ _ _ «"ROOT"» bytes_eqb_spec C38_file C38_lexicon) as (cs & lex & E1 & E2 & g & rs & ws & E3 & _ & E4 & F1 & F2); [|reflexivity|].
  - intros r c [<-|[<-|[]]] Hc; cbn in Hc; [destruct Hc as [<-|[<-|[]]]|destruct Hc as [<-|[]]]; cbn; lia.
  - exists cs, lex, g. split; [assumption|]. split; [assumption|]. split; [assumption|]. split; [apply Forall2_len in F1, F2; rewrite E4, app_length, <- F1, <- F2; reflexivity|].
    apply (C38_normalised _ _ tio bytes_eqb true cs (Some lex) g bytes_eqb_spec E3). vm_compute in E1. injection E1 as <-. vm_compute in E2. injection E2 as <-. vm_compute. discriminate.
Qed.
Example C38_default_example : map (fun e => fst (fst e)) (default_lexer q_ops bytes_eqb (fun m => m) (map disco_of [r1; r2; IRule «"VP"» «"V"» None [[false]] 1%Q])) = [«"NP"»; «"V"»].
Proof. reflexivity. Qed.
Definition rp : import_rule bytes Q := IRule «"VROOT1"» «"S1"» (Some «"$.1"») [[false; true]; []] (3#1).
Example C38_rparse_example : exists g cs, rparse_of_text tio qio (« "10 3:VROOT1 --> S1 $.1 [[[false, true], []]]" » ++ newline) = FOk cs /\ lcfrs_of_rparse tio cs = Some g /\ Forall2 rparse_imported [rp] (mg_rules g).
Proof.
  assert (HF : file (rparse_line tio qio) (« "10 3:VROOT1 --> S1 $.1 [[[false, true], []]]" » ++ newline) [rp]).
  { right. exists « "10 3:VROOT1 --> S1 $.1 [[[false, true], []]]" ». split; [|now right]. apply l_one. exists «"10"», «" "», «"3"», «"VROOT1"», «" "», «" "», «"S1"», «" "», «"$.1 "», «"[[[false, true], []]]"».
    split; [a_word|]. do 4 (split; [apply one_blank|]). split; [reflexivity|]. split; [a_name|]. split; [intros [C|[]]; discriminate|]. split; [a_name|]. split; [a_name|]. split.
    - exists «"[false, true], []"». split; [|reflexivity]. apply (l_cons (eq «", "») _ «"[false, true]"» «", "» «"[]"»); [|reflexivity|apply l_one; now left]. right. exists «"false, true"». split; [|reflexivity].
      apply (l_cons (eq «", "») _ «"false"» «", "» «"true"»); [reflexivity|reflexivity|]. now apply l_one.
    - exists «"$.1"», «" "». split; [apply one_blank|]. split; [a_name|]. split; [intros z; discriminate|reflexivity]. }
  destruct (C38_rparse_partial bytes Q tio qio _ _ «"VROOT1"» HF) as (cs & g & E1 & E2 & _ & F); [discriminate|reflexivity|]. eauto.
Qed.

(* ---- refutations ---- *)
(* A component with 65 variables: with overflow checks the import panics, without them the 65th variable is one of the wrong successor.
   A component with 256 variables is empty in the imported grammar (without overflow checks). *)
Definition wide (n : nat) (last : bytes) : bytes := «"S A B "» ++ repeat "0"%char n ++ last ++ «" 1"».
Theorem C38_wide_refuted :
  discodop_of_text q_ops tio qio true (wide 64 «"1"») = FPanic /\
  (exists cs g c, discodop_of_text q_ops tio qio false (wide 64 «"1"») = FOk cs /\ lcfrs_of_discodop (T := bytes) q_ops tio bytes_eqb false cs None = Some g /\
     map pr_comp (mg_rules g) = [[c]] /\ length c = 65 /\ nth 64 c (Tm []) = Var 0 64) /\
  (exists cs g, discodop_of_text q_ops tio qio false (wide 256 []) = FOk cs /\ lcfrs_of_discodop (T := bytes) q_ops tio bytes_eqb false cs None = Some g /\ map pr_comp (mg_rules g) = [[[]]]).
Proof.
  split; [vm_compute; reflexivity|]. split.
  - eexists _, _, _. split; [vm_compute; reflexivity|]. split; [vm_compute; reflexivity|]. split; [cbn [mg_rules map pr_comp]; reflexivity|]. split; reflexivity.
  - eexists _, _. split; [vm_compute; reflexivity|]. split; [vm_compute; reflexivity|]. reflexivity.
Qed.
Print Assumptions C38_wide_refuted.
(* A line that is not a rule ends the import without an error, rules after it are lost.  So does an empty line in the lexicon.
   An empty component and everything after it is lost, as is everything after a wrong digit. *)
Theorem C38_truncated_refuted :
  (exists c, discodop_of_text q_ops tio qio true («"S A 0 1"» ++ newline ++ newline ++ «"A B 0 1"») = FOk [c]) /\
  (exists c, discodop_of_text q_ops tio qio true («"S A 0 1"» ++ newline ++ «"A B 0 0.5x"» ++ newline ++ «"A B x 1"» ++ newline ++ «"A B 0 1"») = FOk (c ++ [(Chain «"A"» «"B"», [(1, 0%N)], 0%Q)]) /\ length c = 1) /\
  lexer_of_text q_ops tio tio qio («"a A 1"» ++ newline ++ newline ++ «"b B 1"») = FOk [(«"a"», «"A"», 1%Q)] /\
  discodop_of_text q_ops tio qio true «"S A B 0,,1 1"» = discodop_of_text q_ops tio qio true «"S A B 0 1"» /\
  discodop_of_text q_ops tio qio true «"S A B 02,1 1"» = discodop_of_text q_ops tio qio true «"S A B 0 1"».
Proof.
  split; [eexists; vm_compute; reflexivity|]. split; [exists [(Chain «"S"» «"A"», [(1, 0%N)], 1%Q)]; split; vm_compute; reflexivity|]. split; [vm_compute; reflexivity|]. split; vm_compute; reflexivity.
Qed.
Print Assumptions C38_truncated_refuted.
(* The weights of an rparse file are not normalised; a weight that cannot be read makes the import panic. *)
Theorem C38_rparse_refuted :
  (exists cs g, rparse_of_text tio qio «"1 3:A --> B [[[false]]]"» = FOk cs /\ lcfrs_of_rparse tio cs = Some g /\ map pr_weight (mg_rules g) = [3#1]%Q) /\
  rparse_of_text tio qio «"1 x:A --> B [[[false]]]"» = FPanic.
Proof. split; [eexists _, _; split; [vm_compute; reflexivity|split; reflexivity]|vm_compute; reflexivity]. Qed.
Print Assumptions C38_rparse_refuted.
