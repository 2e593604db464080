(* C39: weights that cannot be read. *)
From Verif Require Import M_Nom Base M_Recog M_CFG M_Grammar M_Text S_Recog S_Text P_Recog P_Text Properties_TreeStack Properties_Text.

(* A PMCFG rule of the documented syntax up to its weight makes the parser panic whenever the text of the weight, up to the
   next space or the end, is not a weight; this includes a rule that ends behind the # or the spaces after it. *)
Theorem C39_weight_panics :
  forall (N T : Type) (K : Weight) (ion : text_io N) (iot : text_io T) (iow : text_io K)
    (h sp1 a sp2 c sp3 s sp4 sp x rest : bytes) (head : N) (comp : list (list (vart T))) (tail : list N),
    spaces sp1 -> spaces sp2 -> spaces sp3 -> spaces sp4 -> spaces sp -> an_arrow a ->
    let w := «"#"» ++ sp ++ x ++ rest in
    token ion (sp1 ++ a ++ sp2 ++ c ++ sp3 ++ s ++ sp4 ++ w) h head ->
    vec (component iot) «"["» «"]"» «","» (sp3 ++ s ++ sp4 ++ w) c comp ->
    vec (token ion) «"("» «")"» «","» (sp4 ++ w) s tail ->
    (forall b, In b x -> b <> " "%char /\ b <> "009"%char) -> rest = [] \/ (x <> [] /\ exists rest', rest = " "%char :: rest') ->
    of_text iow x = None ->
    pmcfg_rule_of_text ion iot iow (h ++ sp1 ++ a ++ sp2 ++ c ++ sp3 ++ s ++ sp4 ++ w) = FPanic.
Proof.
  intros N T K ion iot iow h sp1 a sp2 c sp3 s sp4 sp x rest head comp tail S1 S2 S3 S4 S5 HA w HH HV HT HX HR HO. unfold pmcfg_rule_of_text, run_parser.
  assert (E : parse_pmcfg_rule ion iot iow (h ++ sp1 ++ a ++ sp2 ++ c ++ sp3 ++ s ++ sp4 ++ w) = Panic); [|now rewrite E]. unfold parse_pmcfg_rule.
  rewrite (pb _ _ _ _ _ (token_app _ _ _ _ HH)), (pb _ _ _ _ _ (skip_spaces _ _ S1 (arrow_first _ _ HA))), (pb _ _ _ _ _ (arrow_app _ _ HA)).
  rewrite (pb _ _ _ _ _ (skip_spaces _ _ S2 (vec_ends _ "["%char _ _ _ _ _ _ eq_refl ltac:(discriminate) HV))), (pb _ _ _ _ _ (composition_app iot _ _ _ HV)).
  rewrite (pb _ _ _ _ _ (skip_spaces _ _ S3 (vec_ends _ "("%char _ _ _ _ _ _ eq_refl ltac:(discriminate) HT))).
  assert (ET : parse_successors ion (s ++ sp4 ++ w) = Done (sp4 ++ w) tail) by (apply (tokens_app ion "("%char ")"%char); [reflexivity|discriminate|discriminate|cbn; tauto|exact HT]).
  rewrite (pb _ _ _ _ _ ET), (pb _ _ _ _ _ (skip_spaces sp4 w S4 (ends_first is_space "#"%char [] _ eq_refl))).
  assert (ES : ends is_space (x ++ rest)). { destruct x as [|b x]; [destruct HR as [->|[[] _]]; [intros ? ? Q; discriminate|reflexivity]|]. apply ends_first. destruct (HX b (or_introl eq_refl)) as [H1 H2]. unfold is_space. apply orb_false_iff. split; now apply beqb_false. }
  assert (EI : is_not (one_of «" "») (x ++ rest) = Done rest x).
  { destruct x as [|b x]; [destruct HR as [->|[[] _]]; reflexivity|]. apply is_not_app; [discriminate|intros b' Hb; exact (proj2 (orb_false_iff _ _) (conj (proj2 (beqb_false _ _) (proj1 (HX b' Hb))) eq_refl))|]. intros b' r E. destruct HR as [->|[_ [r' ->]]]; [discriminate|]. now injection E as <- <-. }
  assert (EO : opt (complete (skip tag «"#"»; skip take_while is_space; do weight_s <- is_not (one_of «" "»); unwrap (of_text iow weight_s))) w = Panic).
  { unfold opt, complete, w. rewrite (pb _ _ _ _ _ (tag_app _ _)), (pb _ _ _ _ _ (skip_spaces _ _ S5 ES)), (pb _ _ _ _ _ EI), HO. reflexivity. }
  unfold pbind at 1. now rewrite EO.
Qed.
Print Assumptions C39_weight_panics.

(* nothing, and something else than a number, behind the # *)
Example C39_weight_panics_ex :
  pmcfg_rule_of_text sio sio wio «"S -> [[]] () #"» = FPanic /\ pmcfg_rule_of_text sio sio wio «"S -> [[]] () #  "» = FPanic /\
  pmcfg_rule_of_text sio sio wio «"S -> [[]] () # x y"» = FPanic /\ (exists r, pmcfg_rule_of_text sio sio wio «"S -> [[]] ()"» = FOk r) /\ of_text wio [] = None.
Proof. repeat split; try (vm_compute; reflexivity). eexists. vm_compute. reflexivity. Qed.

(* A CFG rule with such a weight is an error, not a panic. *)
Theorem C39_cfg_weight_error :
  forall (N T : Type) (K : Weight) (ion : text_io N) (iot : text_io T) (iow : text_io K)
    (h sp1 a sp2 c sp3 sp x rest : bytes) (head : N) (rhs : list (lettert N T)),
    spaces sp1 -> spaces sp2 -> spaces sp3 -> spaces sp -> an_arrow a ->
    let w := «"#"» ++ sp ++ x ++ rest in
    token ion (sp1 ++ a ++ sp2 ++ c ++ sp3 ++ w) h head ->
    vec (letter ion iot) «"["» «"]"» «","» (sp3 ++ w) c rhs ->
    (forall b, In b x -> b <> " "%char /\ b <> "009"%char) -> rest = [] \/ (x <> [] /\ exists rest', rest = " "%char :: rest') ->
    of_text iow x = None ->
    cfg_rule_of_text ion iot iow (h ++ sp1 ++ a ++ sp2 ++ c ++ sp3 ++ w) = FErr.
Proof.
  intros N T K ion iot iow h sp1 a sp2 c sp3 sp x rest head rhs S1 S2 S3 S5 HA w HH HV HX HR HO. unfold cfg_rule_of_text, run_parser.
  assert (E : parse_cfg_rule ion iot iow (h ++ sp1 ++ a ++ sp2 ++ c ++ sp3 ++ w) = Error); [|now rewrite E]. unfold parse_cfg_rule.
  rewrite (pb _ _ _ _ _ (token_app _ _ _ _ HH)), (pb _ _ _ _ _ (skip_spaces _ _ S1 (arrow_first _ _ HA))), (pb _ _ _ _ _ (arrow_app _ _ HA)).
  rewrite (pb _ _ _ _ _ (skip_spaces _ _ S2 (vec_ends _ "["%char _ _ _ _ _ _ eq_refl ltac:(discriminate) HV))), (pb _ _ _ _ _ (cfg_vec_app ion iot _ _ _ HV)).
  rewrite (pb _ _ _ _ _ (skip_spaces sp3 w S3 (ends_first is_space "#"%char [] _ eq_refl))).
  assert (ES : ends is_space (x ++ rest)). { destruct x as [|b x]; [destruct HR as [->|[[] _]]; [intros ? ? Q; discriminate|reflexivity]|]. apply ends_first. destruct (HX b (or_introl eq_refl)) as [H1 H2]. unfold is_space. apply orb_false_iff. split; now apply beqb_false. }
  assert (EI : is_not (one_of «" "») (x ++ rest) = Done rest x).
  { destruct x as [|b x]; [destruct HR as [->|[[] _]]; reflexivity|]. apply is_not_app; [discriminate|intros b' Hb; exact (proj2 (orb_false_iff _ _) (conj (proj2 (beqb_false _ _) (proj1 (HX b' Hb))) eq_refl))|]. intros b' r E. destruct HR as [->|[_ [r' ->]]]; [discriminate|]. now injection E as <- <-. }
  assert (EO : opt (complete (skip tag «"#"»; skip take_while is_space; do weight_s <- is_not (one_of «" "»); expr_res (of_text iow weight_s))) w = Done w None).
  { unfold opt, complete, w at 1. rewrite (pb _ _ _ _ _ (tag_app _ _)), (pb _ _ _ _ _ (skip_spaces _ _ S5 ES)), (pb _ _ _ _ _ EI), HO. reflexivity. }
  rewrite (pb _ _ _ _ _ EO), (pb _ _ _ _ _ (skip_no_spaces w (ends_first is_space "#"%char [] _ eq_refl))). reflexivity.
Qed.
Print Assumptions C39_cfg_weight_error.

Example C39_cfg_weight_error_ex :
  cfg_rule_of_text sio sio wio «"S -> [] #"» = FErr /\ cfg_rule_of_text sio sio wio «"S -> [] # x y"» = FErr /\
  (exists r, cfg_rule_of_text sio sio wio «"S -> []"» = FOk r).
Proof. repeat split; try (vm_compute; reflexivity). eexists. vm_compute. reflexivity. Qed.

(* S → [[T a]] (A) # x y and S → [Nt A] # meet the hypotheses. *)
Lemma sp0 : spaces [].
Proof. intros a []. Qed.
Lemma sp1 : spaces «" "».
Proof. intros a [<-|[]]. now left. Qed.
Lemma bare_letter (a : ascii) rest : one_of stops a = false -> a <> "009"%char -> at_stop rest -> token sio rest [a] [a].
Proof. intros HS HT HR. exists [a]. split; [reflexivity|]. right. repeat split; [discriminate| | |exact HR]; destruct H as [<-|[]]; [|assumption]. intros HI. apply one_of_spec in HI. congruence. Qed.
Lemma at_stop_first a rest : one_of stops a = true -> at_stop (a :: rest).
Proof. intros H. right. exists a, rest. split; [reflexivity|now apply one_of_spec]. Qed.
Example C39_weight_panics_met : pmcfg_rule_of_text sio sio wio «"S -> [[T a]] (A) # x y"» = FPanic.
Proof.
  apply (C39_weight_panics _ _ _ sio sio wio «"S"» «" "» «"->"» «" "» «"[[T a]]"» «" "» «"(A)"» «" "» «" "» «"x"» «" y"» «"S"» [[Tm «"a"»]] [«"A"»]); try apply sp1.
  - right. now left.
  - apply bare_letter; [reflexivity|discriminate|now apply at_stop_first].
  - exists [], «"[T a]"». split; [apply sp0|split; [|reflexivity]]. apply (it_cons _ _ _ «"[T a]"» [] []); [apply sp0| |constructor].
    exists [], «"T a"». split; [apply sp0|split; [|reflexivity]]. apply (it_cons _ _ _ «"T a"» [] []); [apply sp0| |constructor].
    exists «" "». split; [apply sp1|]. exists «"a"». split; [reflexivity|]. apply bare_letter; [reflexivity|discriminate|now apply at_stop_first].
  - exists [], «"A"». split; [apply sp0|split; [|reflexivity]]. apply (it_cons _ _ _ «"A"» [] []); [apply sp0| |constructor]. apply bare_letter; [reflexivity|discriminate|now apply at_stop_first].
  - intros b [<-|[]]. split; discriminate.
  - right. split; [discriminate|]. now exists «"y"».
  - reflexivity.
Qed.
Example C39_cfg_weight_error_met : cfg_rule_of_text sio sio wio «"S -> [Nt A] #"» = FErr.
Proof.
  apply (C39_cfg_weight_error _ _ _ sio sio wio «"S"» «" "» «"->"» «" "» «"[Nt A]"» «" "» [] [] [] «"S"» [Label «"A"»]); try apply sp1; try apply sp0.
  - right. now left.
  - apply bare_letter; [reflexivity|discriminate|now apply at_stop_first].
  - exists [], «"Nt A"». split; [apply sp0|split; [|reflexivity]]. apply (it_cons _ _ _ «"Nt A"» [] []); [apply sp0| |constructor].
    exists «" "», «"A"». split; [apply sp1|]. split; [reflexivity|]. apply bare_letter; [reflexivity|discriminate|now apply at_stop_first].
  - intros b [].
  - now left.
  - reflexivity.
Qed.
