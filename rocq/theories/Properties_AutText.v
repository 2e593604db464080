(* C42: the text format of automata. *)
From Verif Require Import M_Nom Base M_Recog M_CFG M_Grammar M_Automata M_TreeStack M_Text M_AutText S_Recog S_Text S_AutText P_Agenda P_Recog P_PDA P_Text P_AutText Properties_TreeStack Properties_Text.
From Coq Require Import Permutation.

(* Every text of the syntax of transitions is read as the transition it means, for both kinds of automata. *)
Theorem C42_transition_syntax :
  forall (X T : Type) (K : Weight) (io : text_io X) (iot : text_io T) (iow : text_io K) text,
  (forall t, transition_syntax (fs_syntax io) iot iow text t -> transition_of_text (fsi_of_text io) iot iow text = FOk t) /\
  (forall t, transition_syntax (ts_syntax io) iot iow text t -> transition_of_text (tsi_of_text io) iot iow text = FOk t).
Proof. intros X T K io iot iow text. split; intros t H; [exact (transition_text_app _ _ iot iow (fsi_app io) text t H)|exact (transition_text_app _ _ iot iow (tsi_app io) text t H)]. Qed.
Print Assumptions C42_transition_syntax.

(* Every text of the syntax of finite state automata is read as the automaton with exactly its transitions, its last initial state and
   its last list of final states; it is rejected if there is no initial state or no final state. *)
Theorem C42_fsa_syntax :
  forall (Q T : Type) (K : Weight) (qeqb : Q -> Q -> bool) (teqb : T -> T -> bool) (ioq : text_io Q) (iot : text_io T) (iow : text_io K) text is fs ts,
  automaton_text True ioq (transition_syntax (fs_syntax ioq) iot iow) text is fs ts ->
  fsa_of_text qeqb teqb ioq iot iow text =
    match last_of is, last_of fs with Some i, Some (f :: fs) => FOk (fsa_new qeqb teqb ts i (f :: fs)) | _, _ => FErr end.
Proof.
  intros Q T K qeqb teqb ioq iot iow text is fs ts H. unfold fsa_of_text. rewrite (fsa_text_app ioq iot iow text is fs ts H). unfold later, laterl. cbn [app].
  destruct (last_of is) as [i|], (last_of fs) as [[|f l]|]; reflexivity.
Qed.
Print Assumptions C42_fsa_syntax.
(* Every text of the syntax of tree stack automata is read as the automaton with exactly its transitions and its last initial symbol. *)
Theorem C42_tsa_syntax :
  forall (A T : Type) (K : Weight) (aeqb : A -> A -> bool) (teqb : T -> T -> bool) (ioa : text_io A) (iot : text_io T) (iow : text_io K) text is fs ts,
  automaton_text False ioa (transition_syntax (ts_syntax ioa) iot iow) text is fs ts ->
  tsa_of_text aeqb teqb ioa iot iow text = match last_of is with Some i => FOk (tsa_new aeqb teqb ts (ts_new i)) | None => FErr end.
Proof.
  intros A T K aeqb teqb ioa iot iow text is fs ts H. unfold tsa_of_text. rewrite (tsa_text_app ioa iot iow text is fs ts H). unfold later. cbn [app]. now destruct (last_of is).
Qed.
Print Assumptions C42_tsa_syntax.

(* A transition of a tree stack automaton is read back from its text. *)
Theorem C42_ts_transition_round_trip :
  forall (A T : Type) (K : Weight) (ioa : text_io A) (iot : text_io T) (iow : text_io K) (debug : T -> bytes) t,
  showable_ts_transition ioa iot iow debug t ->
  transition_of_text (tsi_of_text ioa) iot iow (transition_text iow debug (tsi_text ioa) t) = FOk t.
Proof. intros A T K ioa iot iow debug t H. apply (transition_text_app _ _ iot iow (tsi_app ioa)). now apply transition_shown. Qed.
Print Assumptions C42_ts_transition_round_trip.

(* The text of a tree stack automaton, whatever the order in which its transitions are enumerated, is read as an automaton with the
   same transitions.  Missing: its initial symbol is the one whose text is the number of the initial symbol (see C42_tsa_initial_refuted). *)
Theorem C42_tsa_round_trip_partial :
  forall (A T : Type) (K : Weight) (aeqb : A -> A -> bool) (teqb : T -> T -> bool) (ioa : text_io A) (iot : text_io T) (iow : text_io K) (debug : T -> bytes),
  forall (a : tsa A T K) (all ts : list (transition (ts_instr A) T K)) x, tsa_list_transitions a = Some all -> Permutation ts all ->
  (forall t, In t all -> showable_ts_transition ioa iot iow debug t) ->
  of_text ioa (usize_text (ts_current_symbol (ta_init a))) = Some x ->
  tsa_of_text aeqb teqb ioa iot iow (tsa_text ioa iow debug ts a) = FOk (tsa_new aeqb teqb ts (ts_new x)).
Proof.
  intros A T K aeqb teqb ioa iot iow debug a all ts x _ HP HS HO. rewrite (C42_tsa_syntax A T K aeqb teqb ioa iot iow _ [x] [] ts); [reflexivity|].
  apply shown_automaton; [|exact HO]. intros t Ht. apply HS. apply (Permutation_in _ HP Ht).
Qed.
Print Assumptions C42_tsa_round_trip_partial.
(* If the labels are numbers and the initial one is 0, nothing is lost: the automaton that is read has the initial symbol and the
   transitions of the automaton that was written. *)
Theorem C42_tsa_round_trip_zero :
  forall (T : Type) (K : Weight) (teqb : T -> T -> bool) (iot : text_io T) (iow : text_io K) (debug : T -> bytes), EqbSpec teqb ->
  let ioa := TextIO nat usize_text usize_of_text in
  forall (ts order all : list (transition (ts_instr nat) T K)), let a := tsa_new Nat.eqb teqb ts (ts_new 0) in
  tsa_list_transitions a = Some all -> Permutation order all ->
  (forall t, In t ts -> showable_ts_transition ioa iot iow debug t) ->
  exists a' all', tsa_of_text Nat.eqb teqb ioa iot iow (tsa_text ioa iow debug order a) = FOk a' /\
    tsa_initial a' = Some (ts_new 0) /\ tsa_list_transitions a' = Some all' /\ Permutation all' ts.
Proof.
  intros T K teqb iot iow debug TE ioa ts order all a HA HP HS.
  destruct (C14_tsa_reads_back nat T K Nat.eqb teqb nat_eqb_spec TE ts (ts_new 0)) as (_ & l & EL & PL). fold a in EL. rewrite HA in EL. injection EL as <-.
  assert (EI : ts_current_symbol (ta_init a) = 0) by (unfold a, tsa_new; cbn; destruct (trs_integerise _ _ _ _ _) as [[? ?] ?]; reflexivity).
  exists (tsa_new Nat.eqb teqb order (ts_new 0)). destruct (C14_tsa_reads_back nat T K Nat.eqb teqb nat_eqb_spec TE order (ts_new 0)) as (I' & l' & EL' & PL').
  exists l'. split; [|split; [exact I'|split; [exact EL'|]]].
  - apply (C42_tsa_round_trip_partial nat T K Nat.eqb teqb ioa iot iow debug a all order 0 HA HP); [|now rewrite EI]. intros t Ht. apply HS, (Permutation_in _ PL Ht).
  - now rewrite PL', HP.
Qed.
Print Assumptions C42_tsa_round_trip_zero.

(* ---- the general claim is false ---- *)
(* The text of a finite state automaton writes its instructions without parentheses: as soon as the automaton has a transition, its own
   text is rejected. *)
Theorem C42_fsa_round_trip_refuted :
  forall (Q T : Type) (K : Weight) (qeqb : Q -> Q -> bool) (teqb : T -> T -> bool) (ioq : text_io Q) (iot : text_io T) (iow : text_io K) (debug : T -> bytes),
  forall (a : fsa Q T K) (all ts : list (transition (fs_instr Q) T K)) t, fsa_list_transitions a = Some all -> Permutation (t :: ts) all ->
  showable_label ioq (fs_source (t_ins t)) -> showable_label ioq (fs_target (t_ins t)) -> (forall s, to_text ioq (fs_source (t_ins t)) <> «"("» ++ s) ->
  (forall x, In x (t_word t) -> showable_terminal iot debug x) -> showable_weight iow (t_weight t) ->
  fsa_of_text qeqb teqb ioq iot iow (fsa_text ioq iow debug (t :: ts) a) = FErr.
Proof.
  intros Q T K qeqb teqb ioq iot iow debug a all ts t _ _ H1 H2 NP HT HW. apply label_parts in H1. destruct H1 as (_ & NE & W1 & _ & L1). apply label_parts in H2. destruct H2 as (_ & _ & _ & _ & L2).
  destruct (to_text ioq (fs_source (t_ins t))) as [|b p] eqn:E; [congruence|]. apply fsa_unreadable with (b := b) (p := p); auto.
  - specialize (W1 b (or_introl eq_refl)). unfold is_space. apply orb_false_iff. split; apply beqb_false; intros ->; discriminate.
  - intros ->. now apply (NP p).
  - now rewrite E.
Qed.
Print Assumptions C42_fsa_round_trip_refuted.

Definition nio : text_io nat := TextIO _ usize_text usize_of_text.
Definition shown_fsa : fsa nat bytes CostWeight := fsa_new Nat.eqb word_eqb [Trans (K:=CostWeight) [«"a"»] 3 (FSI 5 7)] 5 [7].
(* such an automaton; its text also lists no final state: the text goes through the numbers below the number of final states *)
Example C42_fsa_text_example :
  fsa_text nio wio in_quotes [Trans (K:=CostWeight) [«"a"»] 3 (FSI 5 7)] shown_fsa = «"initial: 0"» ++ newline ++ «"final: []"» ++ newline ++ newline ++ « "Transition [""a""] 5 → 7  # 3" » ++ newline /\
  fsa_of_text Nat.eqb word_eqb nio sio wio (fsa_text nio wio in_quotes [Trans (K:=CostWeight) [«"a"»] 3 (FSI 5 7)] shown_fsa) = FErr /\
  fsa_list_transitions shown_fsa = Some [Trans (K:=CostWeight) [«"a"»] 3 (FSI 5 7)].
Proof. split; [vm_compute; reflexivity|]. split; vm_compute; reflexivity. Qed.
(* Even without transitions the states are lost: the automaton that accepts the empty word with state 1 is rejected, the one with the final states 5 and 7
   is read with the states 0 and 1. *)
Theorem C42_fsa_states_refuted :
  fsa_of_text (K:=CostWeight) Nat.eqb word_eqb nio sio wio (fsa_text nio wio in_quotes [] (fsa_new Nat.eqb word_eqb [] 5 [7])) = FErr /\
  fsa_of_text (K:=CostWeight) Nat.eqb word_eqb nio sio wio (fsa_text nio wio in_quotes [] (fsa_new Nat.eqb word_eqb [] 5 [5; 7])) = FOk (fsa_new Nat.eqb word_eqb [] 0 [0; 1]).
Proof. split; vm_compute; reflexivity. Qed.
Print Assumptions C42_fsa_states_refuted.

(* A tree stack automaton whose own text is read, with all its transitions, as an automaton with another initial symbol: the first one
   recognises, the second cannot take any step. *)
Definition shown_ts : list (transition (ts_instr nat) bytes CostWeight) := [Trans (K:=CostWeight) [«"a"»] 3 (IPush 1 5 7); Trans (K:=CostWeight) [] 1 (IDown 7 5 8)].
Definition shown_tsa : tsa nat bytes CostWeight := tsa_new Nat.eqb word_eqb shown_ts (ts_new 5).
Lemma num_label n : (N.of_nat n < usize_bound)%N -> showable_label nio n.
Proof. intros L. split; [now apply usize_text_back|]. destruct (usize_label n) as (H1 & H2 & H3 & _). split; [exact H1|]. intros a Ha. split; [now apply H2|]. intros ->. contradiction. Qed.
Lemma shown_ts_showable : forall t, In t shown_ts -> showable_ts_transition nio sio wio in_quotes t.
Proof.
  assert (HW : forall n : nat, (N.of_nat n < usize_bound)%N -> showable_weight wio n) by (intros n L; destruct (usize_label n) as (H1 & H2 & _); split; [now apply usize_text_back|split; [exact H1|exact H2]]).
  intros t [<-|[<-|[]]]; (split; [|split; [|split]]); cbn [t_ins t_word t_weight labels child].
  - intros x [<-|[<-|[]]]; apply num_label; reflexivity.
  - intros n E. injection E as <-. reflexivity.
  - intros x [<-|[]]. split; [cbn; intuition discriminate|]. intros rest _. exists «"a"». split; [reflexivity|]. left. split; [reflexivity|]. constructor; [discriminate|discriminate|constructor].
  - apply HW. reflexivity.
  - intros x [<-|[<-|[<-|[]]]]; apply num_label; reflexivity.
  - intros n E. discriminate.
  - intros x [].
  - apply HW. reflexivity.
Qed.
Theorem C42_tsa_initial_refuted :
  (forall t, In t shown_ts -> showable_ts_transition nio sio wio in_quotes t) /\
  (exists a', tsa_of_text Nat.eqb word_eqb nio sio wio (tsa_text nio wio in_quotes shown_ts shown_tsa) = FOk a' /\
    tsa_list_transitions shown_tsa = Some shown_ts /\ tsa_list_transitions a' = Some shown_ts /\
    tsa_initial shown_tsa = Some (ts_new 5) /\ tsa_initial a' = Some (ts_new 0)).
Proof. split; [apply shown_ts_showable|]. exists (tsa_new Nat.eqb word_eqb shown_ts (ts_new 0)). repeat split; vm_compute; reflexivity. Qed.
Print Assumptions C42_tsa_initial_refuted.
Example C42_tsa_text_example :
  tsa_text nio wio in_quotes shown_ts shown_tsa = «"initial: 0"» ++ newline ++ newline ++ « "Transition [""a""] (Push 1 5 7)  # 3" » ++ newline ++ «"Transition [] (Down 7 5 8)  # 1"» ++ newline.
Proof. vm_compute. reflexivity. Qed.
Example C42_tsa_round_trip_example :
  tsa_of_text Nat.eqb word_eqb nio sio wio (tsa_text nio wio in_quotes shown_ts shown_tsa) = FOk (tsa_new Nat.eqb word_eqb shown_ts (ts_new 0)) /\
  exists a' all', tsa_of_text Nat.eqb word_eqb nio sio wio (tsa_text nio wio in_quotes shown_ts (tsa_new Nat.eqb word_eqb shown_ts (ts_new 0))) = FOk a' /\
    tsa_initial a' = Some (ts_new 0) /\ tsa_list_transitions a' = Some all' /\ Permutation all' shown_ts.
Proof.
  split.
  - apply (C42_tsa_round_trip_partial nat bytes CostWeight Nat.eqb word_eqb nio sio wio in_quotes shown_tsa shown_ts shown_ts 0); [vm_compute; reflexivity|reflexivity|apply shown_ts_showable|vm_compute; reflexivity].
  - apply (C42_tsa_round_trip_zero bytes CostWeight word_eqb sio wio in_quotes (list_eqb_spec beqb beqb_true) shown_ts shown_ts shown_ts); [vm_compute; reflexivity|reflexivity|apply shown_ts_showable].
Qed.

(* Texts that are not of the syntax: a malformed instruction or weight makes the parser panic instead of answering Err; what follows the
   instruction without # is ignored, so a weight is dropped; a line of blanks is an error; a closing parenthesis in a label ends the instruction. *)
Theorem C42_malformed_refuted :
  transition_of_text (tsi_of_text nio) sio wio «"Transition [a] (Push 1 2)"» = FPanic /\
  transition_of_text (tsi_of_text nio) sio wio «"Transition [a] ()"» = FPanic /\
  transition_of_text (fsi_of_text nio) sio wio «"Transition [a] (1 2)"» = FPanic /\
  transition_of_text (fsi_of_text nio) sio wio «"Transition [a] (1 -> 2) # x"» = FPanic /\
  transition_of_text (fsi_of_text nio) sio wio «"Transition [a] (1 -> 2) 3"» = FOk (Trans (K:=CostWeight) [«"a"»] 0 (FSI 1 2)) /\
  tsa_of_text Nat.eqb word_eqb nio sio wio («"initial: 0"» ++ newline ++ «" "») = FErr /\
  tsa_of_text Nat.eqb word_eqb nio sio wio («"initial: 0"» ++ newline) = FOk (tsa_new (K:=CostWeight) Nat.eqb word_eqb [] (ts_new 0)) /\
  transition_of_text (fsi_of_text sio) sio wio «"Transition [a] (f(x) -> y)"» = FPanic.
Proof. repeat split; vm_compute; reflexivity. Qed.
Print Assumptions C42_malformed_refuted.

(* a text of the syntax, with comments, a repeated declaration, tabs and a last line without newline *)
Definition fsa_file : bytes :=
  «"% example"» ++ newline ++ «"  initial: 3"» ++ newline ++ newline ++ «"initial: 5 % again"» ++ newline ++ «"final: [7, 8]"» ++ newline ++ « " Transition [a, ""b c""] (5   -> 7) # 3  % c" ».
Example C42_fsa_file_example : automaton_text True nio (transition_syntax (fs_syntax nio) sio wio) fsa_file [3; 5] [[7; 8]] [Trans (K:=CostWeight) [«"a"»; «"b c"»] 3 (FSI 5 7)].
Proof.
  assert (B1 : forall s, token nio s «"5"» 5 \/ at_stop s -> at_stop s -> token nio s «"5"» 5 /\ token nio s «"3"» 3 /\ token nio s «"7"» 7 /\ token nio s «"8"» 8).
  { intros s _ HS. assert (H : forall d n, usize_of_text [d] = Some n -> is_digit d = true -> token nio s [d] n).
    { intros d n HO HD. exists [d]. split; [exact HO|]. right. split; [reflexivity|]. split; [|exact HS]. split; [discriminate|]. intros a [<-|[]]. split; [|intros ->; discriminate].
      intros C. cbn in C. repeat (destruct C as [C|C]; [subst d; discriminate|]). destruct C. }
    repeat split; apply H; reflexivity. }
  assert (SS : forall s : bytes, forallb is_space s = true -> spaces s) by (intros s H a Ha; rewrite forallb_forall in H; specialize (H a Ha); unfold is_space in H; apply orb_true_iff in H; destruct H as [H|H]; apply beqb_true in H; auto).
  assert (WW : forall s : bytes, forallb is_white s = true -> whites s) by (intros s H a Ha; rewrite forallb_forall in H; now apply H).
  assert (ST : forall a s, In a stops -> at_stop (a :: s)) by (intros a s H; right; eauto).
  assert (CR : forall l c, c <> "013"%char -> forall l', l ++ [c] <> l' ++ ["013"%char]) by (intros l c NC l' E; apply app_inj_tail in E; tauto).
  unfold fsa_file.
  change [3; 5] with ([] ++ [3] ++ [] ++ [5] ++ [] ++ @nil nat). change [[7; 8]] with ([] ++ [] ++ [] ++ [] ++ [[7; 8]] ++ @nil (list nat)).
  change [Trans (K:=CostWeight) [«"a"»; «"b c"»] 3 (FSI 5 7)] with ([] ++ [] ++ [] ++ [] ++ [] ++ [Trans (K:=CostWeight) [«"a"»; «"b c"»] 3 (FSI 5 7)]).
  apply at_line; [cbn; intuition discriminate|apply (CR «"% exampl"»); discriminate|change «"% example"» with ([] ++ «"%"» ++ «" example"»); apply al_comment, WW; reflexivity|].
  apply at_line; [cbn; intuition discriminate|apply (CR «"  initial: "»); discriminate|change «"  initial: 3"» with («"  "» ++ «"initial:"» ++ «" "» ++ «"3"» ++ []); apply al_initial; [apply WW; reflexivity|apply SS; reflexivity|apply B1; [right|]; now left]|].
  apply (at_line True nio _ []); [intros []|intros l' E; destruct l'; discriminate|apply al_empty|].
  apply at_line; [cbn; intuition discriminate|apply (CR «"initial: 5 % agai"»); discriminate|change «"initial: 5 % again"» with ([] ++ «"initial:"» ++ «" "» ++ «"5"» ++ «" % again"»); apply al_initial; [apply WW; reflexivity|apply SS; reflexivity|apply B1; [right|]; apply ST; cbn; tauto]|].
  apply at_line; [cbn; intuition discriminate|apply (CR «"final: [7, 8"»); discriminate| |].
  - change «"final: [7, 8]"» with ([] ++ «"final:"» ++ «" "» ++ «"[7, 8]"» ++ []). apply al_final; [exact Logic.I|apply WW; reflexivity|apply SS; reflexivity|].
    exists [], «"7, 8"». split; [apply SS; reflexivity|]. split; [|reflexivity]. change «"7, 8"» with («"7"» ++ [] ++ «","» ++ «" "» ++ «"8"» ++ [] ++ []).
    apply it_cons; [apply SS; reflexivity|apply B1; [right|]; apply ST; cbn; tauto|]. apply mi_cons; [apply SS; reflexivity|apply SS; reflexivity|apply B1; [right|]; apply ST; cbn; tauto|constructor].
  - apply at_last; [discriminate|cbn; intuition discriminate|]. change « " Transition [a, ""b c""] (5   -> 7) # 3  % c" » with («" "» ++ « "Transition [a, ""b c""] (5   -> 7) # 3  % c" » ++ []).
    apply al_transition; [apply WW; reflexivity|apply WW; reflexivity| |].
    2: intros a t' E; change « "Transition [a, ""b c""] (5   -> 7) # 3  % c" » with (« "Transition [a, ""b c""] (5   -> 7) # 3  % " » ++ ["c"%char]) in E; apply app_inj_tail in E; destruct E as [_ <-]; reflexivity.
    exists «" "», « "[a, ""b c""]" », «" "», «"5   -> 7"», «" "», «"# 3"», «"  "», «"% c"». repeat (split; [apply SS; reflexivity|]). split; [reflexivity|]. split; [|split; [|split; [|split]]].
    + exists [], « "a, ""b c""" ». split; [apply SS; reflexivity|]. split; [|reflexivity]. change « "a, ""b c""" » with («"a"» ++ [] ++ «","» ++ «" "» ++ « """b c""" » ++ [] ++ []).
      apply it_cons; [apply SS; reflexivity| |apply mi_cons; [apply SS; reflexivity|apply SS; reflexivity| |constructor]].
      * exists «"a"». split; [reflexivity|]. right. split; [reflexivity|]. split; [|apply ST; cbn; tauto]. split; [discriminate|]. intros b [<-|[]]. split; [cbn; intuition discriminate|discriminate].
      * exists «"b c"». split; [reflexivity|]. left. split; [reflexivity|]. repeat (constructor; [discriminate|discriminate|]). constructor.
    + cbn. intuition discriminate.
    + exists «"5"», «"->"», «"7"». split; [|split; [now left|split; reflexivity]].
      change «"5   -> 7"» with ([] ++ «"5"» ++ «"   "» ++ «"->"» ++ «" "» ++ «"7"» ++ []).
      apply wd_cons; [apply WW; reflexivity|discriminate|intros b [<-|[]]; reflexivity|right; eexists _, _; split; reflexivity|].
      apply wd_cons; [apply WW; reflexivity|discriminate|intros b [<-|[<-|[]]]; reflexivity|right; eexists _, _; split; reflexivity|].
      apply wd_cons; [apply WW; reflexivity|discriminate|intros b [<-|[]]; reflexivity|now left|]. constructor. apply WW. reflexivity.
    + right. exists «" "», «"3"». split; [apply SS; reflexivity|]. split; [discriminate|]. split; [intros b [<-|[]]; split; discriminate|]. split; [reflexivity|]. split; [reflexivity|]. right. eexists. reflexivity.
    + right. exists «" c"». reflexivity.
Qed.
Example C42_fsa_file_read : fsa_of_text Nat.eqb word_eqb nio sio wio fsa_file = FOk (fsa_new (K:=CostWeight) Nat.eqb word_eqb [Trans (K:=CostWeight) [«"a"»; «"b c"»] 3 (FSI 5 7)] 5 [7; 8]).
Proof. rewrite (C42_fsa_syntax _ _ _ _ _ _ _ _ _ _ _ _ C42_fsa_file_example). reflexivity. Qed.
