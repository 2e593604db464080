(* Proofs about the command tsa recognise and about what mcfg automaton prints. *)
From Coq Require Import Sorted.
From Verif Require Import M_Nom Base M_Util M_Recog M_Agenda M_Search M_Automata M_CFG M_TreeStack M_Grammar M_Chart M_FromPmcfg M_Text M_AutText M_Negra M_Command M_Mcfg M_CfgCommand M_TsaCommand
  S_Search S_Util S_Recog S_Automata S_CFG S_Text S_AutText S_Command S_Mcfg S_TsaCommand P_Agenda P_Search P_Util P_Recog P_Automata P_TSA P_Text P_AutText P_Command P_Beam P_Mcfg
  Properties_Automata Properties_TreeStack Properties_Beam.

(* ---- the first n of an enumeration ---- *)
Section Best.
  Context {S I T : Type} {K : Weight} (apply : I -> S -> list S) (init : S) (tr : transition I T K -> Prop) (final : S -> Prop) (word : list T).
  Definition run_of (o : item S I T K) : list (transition I T K) := pd_to_vec (snd o).
  Lemma sorted_outs outs : enum_sound apply init tr final word outs ->
    (forall before y after, outs = before ++ y :: after -> forall x, In x before -> wleb (item_weight y) (item_weight x) = true) ->
    StronglySorted (fun x y => wleb (run_weight y) (run_weight x) = true) (map run_of outs).
  Proof.
    intros HS HO. assert (HW : forall x, In x outs -> item_weight x = run_weight (run_of x)) by (intros [c r] Hx; apply (HS c r Hx)). clear HS.
    induction outs as [|x outs IH]; [constructor|]. cbn [map]. constructor.
    - apply IH; [|intros y Hy; apply HW; now right]. intros b y a -> z Hz. apply (HO (x :: b) y a eq_refl). now right.
    - rewrite Forall_map. apply Forall_forall. intros y Hy. apply in_split in Hy. destruct Hy as (b & a & ->). rewrite <- !HW; [|now left|right; apply in_or_app; right; now left].
      apply (HO (x :: b) y a eq_refl). now left.
  Qed.
  Lemma runs_distinct outs : NoDup (map snd outs) -> NoDup (map run_of outs).
  Proof. intros H. change (map run_of outs) with (map (fun o => pd_to_vec (snd o)) outs). rewrite <- (map_map snd pd_to_vec). apply FinFun.Injective_map_NoDup; [|exact H]. intros p q. apply pd_to_vec_inj. Qed.
  Lemma sound_prefix n outs : enum_sound apply init tr final word outs -> enum_sound apply init tr final word (firstn n outs).
  Proof. intros H c r Hx. apply H. rewrite <- (firstn_skipn n outs). apply in_or_app. now left. Qed.
  Lemma order_prefix n (outs : list (item S I T K)) :
    (forall before y after, outs = before ++ y :: after -> forall x, In x before -> wleb (item_weight y) (item_weight x) = true) ->
    forall before y after, firstn n outs = before ++ y :: after -> forall x, In x before -> wleb (item_weight y) (item_weight x) = true.
  Proof. intros H b y a E. apply (H b y (a ++ skipn n outs)). rewrite <- (firstn_skipn n outs) at 1. rewrite E, <- app_assoc. reflexivity. Qed.

  Lemma best_beam n outs (distinct : Prop) : enum_sound apply init tr final word outs -> (distinct -> NoDup (map snd outs)) ->
    (no_weight_exceeds_one tr -> forall before y after, outs = before ++ y :: after -> forall x, In x before -> wleb (item_weight y) (item_weight x) = true) ->
    best_runs apply init tr final False distinct n word (map run_of (firstn n outs)).
  Proof.
    intros HS HD HO. split; [rewrite map_length, firstn_length; lia|]. split; [|split; [|split; [|intros []]]].
    - intros run Hr. apply in_map_iff in Hr. destruct Hr as ([c r] & <- & Hx). exists (c_storage c). apply (sound_prefix n _ HS c r Hx).
    - intros D. apply runs_distinct. specialize (HD D). rewrite <- (firstn_skipn n outs), map_app in HD. eapply nodup_front; exact HD.
    - intros HB. apply sorted_outs; [now apply sound_prefix|]. apply order_prefix. now apply HO.
  Qed.
  Lemma best_exact n outs (distinct ended : Prop) : enum_sound apply init tr final word outs -> (distinct -> NoDup (map snd outs)) ->
    (no_weight_exceeds_one tr -> enum_best_first apply init tr final word outs) -> (ended -> enum_exhaustive apply init tr final word outs) ->
    n <= length outs \/ ended -> best_runs apply init tr final True distinct n word (map run_of (firstn n outs)).
  Proof.
    intros HS HD HO HE HN. destruct (best_beam n outs distinct HS HD) as (B1 & B2 & B3 & B4 & _); [intros HB b y a E; exact (proj1 (HO HB b y a E))|].
    split; [exact B1|]. split; [exact B2|]. split; [exact B3|]. split; [exact B4|]. intros _. split.
    - intros HL run (s & HR). rewrite map_length, firstn_length in HL. assert (E : ended) by (destruct HN; [lia|assumption]). rewrite firstn_all2 by lia.
      apply in_map_iff. eexists. split; [|exact (HE E run s HR)]. unfold run_of. cbn [snd]. apply pd_to_from.
    - intros HB run run' (s & HR) NI HI. apply in_map_iff in HI. destruct HI as (y & <- & HI). destruct (wleb (run_weight run) (run_weight (run_of y))) eqn:EW; [reflexivity|exfalso].
      assert (EY : item_weight y = run_weight (run_of y)) by (destruct y as [c r]; exact (proj2 (proj2 (sound_prefix n _ HS c r HI)))).
      apply in_split in HI. destruct HI as (b & a & E). destruct (HO HB b y (a ++ skipn n outs)) as [_ C]; [rewrite <- (firstn_skipn n outs) at 1; rewrite E, <- app_assoc; reflexivity|].
      rewrite <- EY in EW. specialize (C run s HR EW). apply NI. apply in_map_iff. eexists. split; [|rewrite E; apply in_or_app; left; exact C]. unfold run_of. cbn [snd]. apply pd_to_from.
  Qed.
End Best.

(* ---- the text of a run ---- *)
Lemma nested_pushdown {X : Type} (shown : X -> bytes) (p : pushdown X) : debug_pushdown_list shown p = nested shown (pd_to_vec p).
Proof.
  rewrite pd_to_vec_elements. induction p as [|x p IH]; [reflexivity|]. cbn [debug_pushdown_list elements rev]. unfold nested in *. rewrite fold_left_app. cbn [fold_left]. now rewrite <- IH.
Qed.

(* ---- one search ---- *)
Lemma forall2_impl {X Y : Type} (P Q : X -> Y -> Prop) (l : list X) (l' : list Y) : (forall x y, P x y -> Q x y) -> Forall2 P l l' -> Forall2 Q l l'.
Proof. intros HI. induction 1; constructor; auto. Qed.
Lemma nested_ext {X : Type} (f g : X -> bytes) (l : list X) : (forall x, f x = g x) -> nested f l = nested g l.
Proof. intros E. unfold nested. generalize «"Empty"». induction l as [|x l IH]; intros b; cbn [fold_left]; [reflexivity|]. now rewrite E, IH. Qed.
Ltac same_text := cbn; repeat (progress (rewrite <- ?app_assoc; cbn [app])); reflexivity.
Lemma vec_text {X : Type} (f g : X -> bytes) (l : list X) : (forall x, f x = g x) -> debug_vec f l = list_text g l.
Proof.
  intros E. unfold debug_vec, list_text. do 2 f_equal. induction l as [|x [|y l] IH]; [reflexivity|cbn; apply E|].
  change (debug_items f (x :: y :: l)) with (f x ++ «", "» ++ debug_items f (y :: l)). change (commas (map g (x :: y :: l))) with (g x ++ «", "» ++ commas (map g (y :: l))). now rewrite IH, E.
Qed.
Lemma step_text_eq {I T : Type} {K : Weight} (f g : I -> bytes) (s : T -> bytes) (w : K -> bytes) t : (forall i, f i = g i) -> debug_transition f s w t = step_text g s w t.
Proof.
  intros E. unfold debug_transition, step_text, record_text. rewrite (vec_text s s (t_word t) (fun x => eq_refl)), E. generalize (list_text s (t_word t)) (w (t_weight t)) (g (t_ins t)). intros a b c. same_text.
Qed.
Lemma ts_instruction_text (s : bytes -> bytes) i : debug_ts_instruction s i = ts_instr_text s i.
Proof. destruct i as [n c o v|n c v|c o v]; unfold debug_ts_instruction, ts_instr_text, record_text; try generalize (usize_text n); intros; generalize (s c) (s v); try generalize (s o); intros; same_text. Qed.

Section Found.
  Context {A : Type} {K : Weight} (KL : RoundLaws K) (aeqb : A -> A -> bool) (teqb : bytes -> bytes -> bool) (AE : EqbSpec aeqb) (TE : EqbSpec teqb).
  Context (H : max_heap (item (tstack nat) (ts_instr nat) nat K * K) (wi_leb wleb)) (Hb : minmax_heap (item (tstack nat) (ts_instr nat) nat K * K) (wi_leb wleb))
          (shuffle : list (transition (ts_instr nat) nat K) -> list (transition (ts_instr nat) nat K)) (SH : forall l, Permutation (shuffle l) l).
  Context (ts : list (transition (ts_instr A) bytes K)) (init : tstack A).
  Notation M := (tsa_new aeqb teqb ts init).
  Definition tsa_over (beam : option nat) (word : list bytes) (calls : nat) : Prop :=
    match beam with
    | Some b => recognise_beam_ended (tsa_automaton shuffle M) Hb b (opt_all (int_find_key teqb (ta_t M)) word) calls
    | None => recognise_ended (tsa_automaton shuffle M) H (opt_all (int_find_key teqb (ta_t M)) word) calls
    end.
  Lemma tsa_found_gives beam word calls : exists outs ended, tsa_found teqb H Hb shuffle M beam word calls = (Some outs, ended) /\
    (ended = true <-> tsa_over beam word calls) /\
    forall n, n <= length outs \/ ended = true ->
      best_runs (tsi_apply aeqb) init (fun t => In t ts) (fun s => ts_is_at_bottom s = true) (beam = None) (NoDup ts) n word (map run_of (firstn n outs)).
  Proof.
    destruct beam as [b|].
    - destruct (C14_tsa_beam_search A bytes K aeqb teqb AE TE KL ts init shuffle SH Hb b word) as [HO _]. destruct (HO calls) as (outs & E & E1 & E2 & E3 & _).
      exists outs. eexists. split; [unfold tsa_found; rewrite E; reflexivity|]. split; [apply ended_calls_iff|]. intros n _.
      destruct (best_beam (tsi_apply aeqb) init (fun t => In t ts) (fun s => ts_is_at_bottom s = true) word n outs (NoDup ts) E1 E2 E3) as (B1 & B2 & B3 & B4 & _).
      split; [exact B1|]. split; [exact B2|]. split; [exact B3|]. split; [exact B4|]. discriminate.
    - destruct (C14_tsa_recognise A bytes K aeqb teqb AE TE KL ts init shuffle SH H word calls) as (outs & E & E1 & E2 & E3 & E4 & _).
      exists outs. eexists. split; [unfold tsa_found; rewrite E; reflexivity|]. split; [apply ended_calls_iff|]. intros n HN.
      destruct (best_exact (tsi_apply aeqb) init (fun t => In t ts) (fun s => ts_is_at_bottom s = true) word n outs (NoDup ts)
                  (tsa_over None word calls) E1 E4 E2 E3) as (B1 & B2 & B3 & B4 & B5).
      + destruct HN as [HN|HN]; [now left|right]. apply ended_calls_iff in HN. exact HN.
      + split; [exact B1|]. split; [exact B2|]. split; [exact B3|]. split; [exact B4|]. intros _. now apply B5.
  Qed.
  Lemma tsa_over_bounded beam word bound : (forall us, partial_run (tsi_apply aeqb) init (fun t => In t ts) word us -> length us < bound) -> exists c0, forall calls, c0 <= calls -> tsa_over beam word calls.
  Proof.
    intros HB. destruct beam as [b|]; cbn [tsa_over]; [exact (proj2 (C14_tsa_beam_search A bytes K aeqb teqb AE TE KL ts init shuffle SH Hb b word) bound HB)|].
    pose proof (tsa_coded aeqb teqb AE TE ts init shuffle SH) as CD.
    assert (DEF : forall n, exists o, recognise_int (tsa_automaton shuffle M) H (opt_all (int_find_key teqb (ta_t M)) word) n = Some o) by (intros n; apply (coded_defined _ _ _ _ _ _ _ _ _ _ _ _ _ CD KL H word n); intros; discriminate).
    assert (EN : exists n0, recognise_ended (tsa_automaton shuffle M) H (opt_all (int_find_key teqb (ta_t M)) word) n0).
    { apply (coded_ends _ _ _ _ _ _ _ _ _ _ _ _ _ CD KL H word bound). intros us s rest A1 A2 A3 _. split; [discriminate|]. apply HB. exists s, rest. auto. }
    destruct EN as (n0 & EN). exists n0. intros calls HC. apply ended_calls_iff. apply (ended_mono _ _ n0 calls); [exact HC| |now apply ended_calls_iff].
    destruct (DEF calls) as (o & E). unfold recognise_int in E. intros C. match type of E with context [search_calls_p ?a ?s ?c ?h] => assert (C' : search_calls_p a s c h = None) by exact C end. rewrite C' in E. discriminate.
  Qed.
End Found.

(* ---- the command ---- *)
Section Lines.
  Context {K : ZWeight} (KL : RoundLaws K) (aeqb teqb : bytes -> bytes -> bool) (AE : EqbSpec aeqb) (TE : EqbSpec teqb).
  Context (H : max_heap (item (tstack nat) (ts_instr nat) nat K * K) (wi_leb wleb)) (Hb : minmax_heap (item (tstack nat) (ts_instr nat) nat K * K) (wi_leb wleb))
          (shuffle : list (transition (ts_instr nat) nat K) -> list (transition (ts_instr nat) nat K)) (SH : forall l, Permutation (shuffle l) l).
  Context (debug_string : bytes -> bytes) (debug_weight : K -> bytes).
  Context (ts : list (transition (ts_instr bytes) bytes K)) (init : tstack bytes) (n : nat) (beam : option nat).
  Notation M := (tsa_new aeqb teqb ts init).
  Notation shown := (debug_transition (debug_ts_instruction debug_string) debug_string debug_weight).
  Notation printed := (runs_printed (tsi_apply aeqb) init (fun t => In t ts) (fun s => ts_is_at_bottom s = true) (beam = None) (NoDup ts) n
    (fun word => debug_vec debug_string word ++ «":"» ++ newline) (fun run => «"  "» ++ nested shown run ++ newline)).
  Lemma tsa_line_gives calls word :
    (tsa_line teqb H Hb shuffle debug_string debug_weight M n beam calls word = Running /\ ~ tsa_over aeqb teqb H Hb shuffle ts init beam word calls) \/
    exists out, tsa_line teqb H Hb shuffle debug_string debug_weight M n beam calls word = Done out /\ printed word out.
  Proof.
    unfold tsa_line. destruct (tsa_found_gives KL aeqb teqb AE TE H Hb shuffle SH ts init beam word calls) as (outs & ended & E & EE & HB). rewrite E. cbn [or_panic and_then].
    destruct (Nat.leb n (length outs) || ended) eqn:EB; [right|left; split; [reflexivity|]].
    - eexists. split; [reflexivity|]. exists (map run_of (firstn n outs)). split; [apply HB; apply orb_true_iff in EB; now rewrite Nat.leb_le in EB|].
      rewrite map_map, <- !app_assoc. do 5 f_equal. apply map_ext. intros [c r]. unfold debug_run, run_of. cbn [snd]. now rewrite nested_pushdown.
    - intros C. apply EE in C. rewrite C, orb_true_r in EB. discriminate.
  Qed.
  Lemma recognise_corpus_gives calls corpus :
    (recognise_corpus teqb H Hb shuffle debug_string debug_weight M n beam calls corpus = Running /\ exists word, In word corpus /\ ~ tsa_over aeqb teqb H Hb shuffle ts init beam word calls) \/
    exists outs, recognise_corpus teqb H Hb shuffle debug_string debug_weight M n beam calls corpus = Done (List.concat outs) /\ Forall2 printed corpus outs.
  Proof.
    induction corpus as [|word corpus IH]; [right; exists []; split; [reflexivity|constructor]|]. cbn [recognise_corpus].
    destruct (tsa_line_gives calls word) as [(E & HN)|(out & E & HP)]; rewrite E; cbn [and_then]; [left; split; [reflexivity|exists word; split; [now left|exact HN]]|].
    destruct IH as [(E2 & w & Hw & HN)|(outs & E2 & HF)]; rewrite E2; cbn [and_then]; [left; split; [reflexivity|exists w; split; [now right|exact HN]]|].
    right. exists (out :: outs). split; [reflexivity|constructor; assumption].
  Qed.
End Lines.

(* ---- an automaton printed by mcfg automaton ---- *)
Lemma pbind_done {X Y} (p : parser X) (q : X -> parser Y) i r y : pbind p q i = M_Nom.Done r y -> exists x r', p i = M_Nom.Done r' x /\ q x r' = M_Nom.Done r y.
Proof. unfold pbind. destruct (p i) as [r' x| | |]; try discriminate. intros H. exists x, r'. auto. Qed.
Lemma split_two q b y : is_white b = false -> forall acc, (acc <> [] -> exists w1 w2 ws, split_whitespace acc (q ++ " "%char :: b :: y) = w1 :: w2 :: ws) /\
  (exists w1 ws, split_whitespace acc (q ++ " "%char :: b :: y) = w1 :: ws).
Proof.
  intros HB. assert (ONE : forall s acc, acc <> [] -> exists w ws, split_whitespace acc s = w :: ws).
  { induction s as [|a s IH]; intros acc NA; cbn [split_whitespace]; [destruct acc; [congruence|eauto]|]. destruct (is_white a); [destruct acc; [congruence|eauto]|apply IH; discriminate]. }
  induction q as [|a q IH]; intros acc.
  - cbn [app split_whitespace]. change (is_white " ") with true. rewrite HB. destruct (ONE y [b]) as (w & ws & E); [discriminate|]. cbn iota. destruct acc as [|c acc]; rewrite E; split; eauto; congruence.
  - cbn [app split_whitespace]. destruct (IH []) as [_ (w & ws & E)]. destruct (is_white a).
    + destruct acc as [|c acc]; rewrite E; split; eauto; congruence.
    + destruct (IH (a :: acc)) as [H1 H2]. split; [intros _; apply H1; discriminate|exact H2].
Qed.
Definition push_prefix (head : bytes) : bytes := «"Transition [] (Push 0 I ("» ++ (quote ++ head ++ quote) ++ « " →" ».
Section Printed.
  Context {A T : Type} {K : Weight} (ioa : text_io A) (iot : text_io T) (iow : text_io K).
  Lemma span_app f (x u : bytes) : (forall a, In a x -> f a = true) -> span f (x ++ u) = (x ++ fst (span f u), snd (span f u)).
  Proof. induction x as [|a x IH]; intros H; cbn [app span]; [now destruct (span f u)|]. rewrite (H a (or_introl eq_refl)), IH by (intros b Hb; apply H; now right). reflexivity. Qed.
  Lemma push_unreadable head rest t : ~ In ")"%char head -> transition_of_text (tsi_of_text ioa) iot iow (push_prefix head ++ rest) <> FOk t.
  Proof.
    intros NH E. unfold transition_of_text, run_parser in E. destruct (parse_transition _ _ _ _) as [r0 t0| | |] eqn:EP; try discriminate. clear E t. revert EP.
    unfold push_prefix, parse_transition. change «"Transition [] (Push 0 I ("» with («"Transition"» ++ [" "%char] ++ («"["» ++ [] ++ «"]"») ++ [" "%char] ++ «"("» ++ «"Push 0 I ("»). rewrite <- !(app_assoc).
    rewrite (pb _ _ _ _ _ (tag_app _ _)). set (R := [" "%char] ++ «"("» ++ «"Push 0 I ("» ++ quote ++ head ++ quote ++ « " →" » ++ rest). intros EP.
    apply pbind_done in EP. destruct EP as (x1 & r1 & E1 & EP). cbn in E1. injection E1 as <- <-.
    assert (HV : vec (token iot) «"["» «"]"» «","» R («"["» ++ commas (map (fun _ : T => []) []) ++ «"]"») []) by (apply (stop_vec (token iot) (fun _ => []) "]"%char ltac:(cbn; tauto) "["%char); intros x []).
    assert (EV : parse_word iot ((«"["» ++ commas (map (fun _ : T => []) []) ++ «"]"») ++ R) = M_Nom.Done R []) by (apply (tokens_app iot "["%char "]"%char); [reflexivity|discriminate|discriminate|cbn; tauto|exact HV]).
    apply pbind_done in EP. destruct EP as (x2 & r2 & E2 & EP). change (parse_word iot ((«"["» ++ commas (map (fun _ : T => []) []) ++ «"]"») ++ R) = M_Nom.Done r2 x2) in E2. rewrite EV in E2. injection E2 as <- <-.
    apply pbind_done in EP. destruct EP as (x3 & r3 & E3 & EP). unfold R in E3. cbn in E3. injection E3 as <- <-.
    apply pbind_done in EP. destruct EP as (x4 & r4 & E4 & EP). cbn in E4. injection E4 as <- <-.
    apply pbind_done in EP. destruct EP as (x5 & r5 & E5 & EP).
    assert (EX : exists y, x5 = «"Push 0 I ("» ++ (quote ++ head ++ quote) ++ « " →" » ++ y).
    { unfold take_until in E5. match type of E5 with match ?a with _ => _ end = _ => destruct a as [x r] eqn:ES end.
      match type of ES with span ?f ?i = _ => replace i with ((«"Push 0 I ("» ++ (quote ++ head ++ quote) ++ « " →" ») ++ rest) in ES by (rewrite <- !app_assoc; reflexivity) end.
      rewrite span_app in ES.
      - injection ES as <- <-. destruct (snd (span _ rest)); [discriminate|]. injection E5 as <- <-. exists (fst (span (fun a => negb (beqb a ")")) rest)). now rewrite <- !app_assoc.
      - intros a Ha. apply negb_true_iff. destruct (beqb a ")") eqn:EA; [|reflexivity]. apply beqb_true in EA. subst a. exfalso. rewrite !in_app_iff in Ha. cbn in Ha. intuition discriminate. }
    do 5 (apply pbind_done in EP; destruct EP as (? & ? & _ & EP)).
    apply pbind_done in EP. destruct EP as (i & r6 & E6 & _). destruct EX as (y & ->).
    assert (SW : exists a b ws, split_whitespace [] («"Push 0 I ("» ++ (quote ++ head ++ quote) ++ « " →" » ++ y) = «"Push"» :: «"0"» :: «"I"» :: a :: b :: ws).
    { change (split_whitespace [] («"Push 0 I ("» ++ (quote ++ head ++ quote) ++ « " →" » ++ y)) with («"Push"» :: «"0"» :: «"I"» :: split_whitespace ["("%char] ((quote ++ head ++ quote) ++ " "%char :: «"→"» ++ y)).
      change («"→"» ++ y) with ("226"%char :: tl «"→"» ++ y).
      destruct (proj1 (split_two (quote ++ head ++ quote) "226"%char (tl «"→"» ++ y) eq_refl ["("%char]) ltac:(discriminate)) as (a & b & ws & E). exists a, b, ws. do 3 f_equal. exact E. }
    destruct SW as (a & b & ws & SW). unfold unwrap_str, tsi_of_text in E6. rewrite SW in E6. discriminate.
  Qed.
  (* a line with this prefix spoils the text *)
  Lemma trim_keeps p c y : is_white c = false -> (forall a p', p ++ [c] = a :: p' -> is_white a = false) -> exists y', trim ((p ++ [c]) ++ y) = (p ++ [c]) ++ y'.
  Proof.
    intros HC HP. assert (E1 : trim_start ((p ++ [c]) ++ y) = (p ++ [c]) ++ y).
    { destruct (p ++ [c]) as [|a q] eqn:E; [destruct p; discriminate|]. unfold trim_start. cbn [app span]. now rewrite (HP a q eq_refl). }
    unfold trim. rewrite E1, !rev_app_distr. cbn [rev app]. unfold trim_start.
    assert (G : forall z, exists z', snd (span is_white (z ++ c :: rev p)) = z' ++ c :: rev p).
    { induction z as [|a z IH]; cbn [app span]; [rewrite HC; exists []; reflexivity|]. destruct (is_white a); [|exists (a :: z); reflexivity]. destruct IH as (z' & IH). exists z'. destruct (span is_white (z ++ c :: rev p)). exact IH. }
    destruct (G (rev y)) as (z' & ->). exists (rev z'). rewrite rev_app_distr. cbn [rev]. now rewrite rev_involutive.
  Qed.
  Lemma strip_keeps p c y : c <> "013"%char -> exists y', strip_cr ((p ++ [c]) ++ y) = (p ++ [c]) ++ y'.
  Proof.
    intros HC. destruct (rev y) as [|a z] eqn:E.
    - apply (f_equal (@rev _)) in E. rewrite rev_involutive in E. cbn in E. subst y. exists []. rewrite !app_nil_r. unfold strip_cr. rewrite rev_app_distr. cbn [rev app].
      destruct c as [[] [] [] [] [] [] [] []]; try reflexivity. congruence.
    - assert (EY : y = rev z ++ [a]) by (rewrite <- (rev_involutive y), E; reflexivity). subst y. destruct (Ascii.ascii_dec a "013"%char) as [->|NA].
      + exists (rev z). unfold strip_cr. rewrite app_assoc, rev_app_distr. cbn [rev app]. now rewrite rev_involutive.
      + exists (rev z ++ [a]). apply strip_cr_id. intros l' EL. rewrite app_assoc in EL. apply app_inj_tail in EL. destruct EL as [_ EL]. congruence.
  Qed.
  Lemma prefix_line p c s : ~ In "010"%char (p ++ [c]) -> c <> "013"%char -> exists y ls, lines [] ((p ++ [c]) ++ s) = ((p ++ [c]) ++ y) :: ls.
  Proof.
    intros NP NC. assert (G : forall s acc, acc <> [] -> exists y ls, lines acc s = (rev acc ++ y) :: ls \/ lines acc s = strip_cr (rev acc ++ y) :: ls).
    { clear s. induction s as [|a s IH]; intros acc NA; [destruct acc; [congruence|exists [], []; left; cbn [lines]; now rewrite app_nil_r]|].
      destruct (Ascii.ascii_dec a "010"%char) as [->|N]; [exists [], (lines [] s); right; cbn [lines]; now rewrite app_nil_r|]. rewrite lines_step by exact N.
      destruct (IH (a :: acc) ltac:(discriminate)) as (y & ls & E). exists (a :: y), ls. cbn [rev] in E. rewrite <- !app_assoc in E. exact E. }
    assert (L : forall q acc, ~ In "010"%char q -> lines acc (q ++ s) = lines (rev q ++ acc) s).
    { induction q as [|a q IH]; intros acc NQ; [reflexivity|]. cbn [app rev]. rewrite lines_step by (intros ->; apply NQ; now left). rewrite IH by (intros C; apply NQ; now right). now rewrite <- app_assoc. }
    rewrite L by exact NP. rewrite app_nil_r. destruct (G s (rev (p ++ [c]))) as (y & ls & E); [rewrite rev_app_distr; discriminate|]. rewrite rev_involutive in E.
    destruct E as [E|E]; [exists y, ls; exact E|]. destruct (strip_keeps p c y NC) as (y' & EY). exists y', ls. now rewrite E, EY.
  Qed.
  Lemma later_line x s acc : exists ls, lines acc (x ++ newline ++ s) = ls ++ lines [] s.
  Proof.
    revert acc. induction x as [|a x IH]; intros acc; [exists [strip_cr (rev acc)]; reflexivity|]. cbn [app]. destruct (Ascii.ascii_dec a "010"%char) as [->|N].
    - destruct (IH []) as (ls & E). exists (strip_cr (rev acc) :: ls). cbn [lines app]. now rewrite <- E.
    - rewrite lines_step by exact N. apply IH.
  Qed.
  Lemma spoilt_lines l : text_starts_with «"initial:"» (trim_start l) = false -> has_content l = true -> (forall t, transition_of_text (tsi_of_text ioa) iot iow (trim l) <> FOk t) ->
    forall before after init ts r, tsa_lines ioa iot iow (before ++ l :: after) init ts <> FOk r.
  Proof.
    intros H1 H2 H3. induction before as [|l0 before IH]; intros after init ts r; cbn [app tsa_lines].
    - rewrite H1, H2. destruct (transition_of_text _ _ _ _) as [t| |] eqn:E; [exfalso; exact (H3 t eq_refl)|discriminate|discriminate].
    - destruct (text_starts_with _ (trim_start l0)); [destruct (parse_initial _ _); try discriminate; apply IH|]. destruct (has_content l0); [|apply IH]. destruct (transition_of_text _ _ _ (trim l0)); try discriminate. apply IH.
  Qed.
  Lemma spoilt_text aeqb teqb x head s M : ~ In ")"%char head -> ~ In "010"%char head -> tsa_of_text aeqb teqb ioa iot iow (x ++ newline ++ push_prefix head ++ s) <> FOk M.
  Proof.
    intros N1 N2. unfold tsa_of_text. destruct (later_line x (push_prefix head ++ s) []) as (ls & ->).
    assert (EP : push_prefix head = («"Transition [] (Push 0 I ("» ++ (quote ++ head ++ quote) ++ [" "%char; "226"%char; "134"%char]) ++ ["146"%char]) by (unfold push_prefix; rewrite <- !app_assoc; reflexivity).
    destruct (prefix_line («"Transition [] (Push 0 I ("» ++ (quote ++ head ++ quote) ++ [" "%char; "226"%char; "134"%char]) "146"%char s) as (y & ls' & EL).
    { rewrite !in_app_iff. cbn. intuition discriminate. } { discriminate. }
    rewrite <- EP in EL. rewrite EL. set (l := push_prefix head ++ y).
    assert (X : forall r, tsa_lines ioa iot iow (ls ++ l :: ls') None [] <> FOk r).
    { intros r. apply spoilt_lines; [reflexivity|reflexivity|]. intros t. unfold l. rewrite EP.
      destruct (trim_keeps («"Transition [] (Push 0 I ("» ++ (quote ++ head ++ quote) ++ [" "%char; "226"%char; "134"%char]) "146"%char y) as (y' & ->); [reflexivity|intros a p' E; injection E as <- _; reflexivity|].
      rewrite <- EP. now apply push_unreadable. }
    destruct (tsa_lines ioa iot iow (ls ++ l :: ls') None []) as [[[i|] ts]| |] eqn:E; try discriminate. exfalso. exact (X _ eq_refl).
  Qed.
End Printed.
