(* Proofs about the commands approximation relabel parse and approximation tts parse. *)
From Verif Require Import M_Nom Base M_Util M_Recog M_Agenda M_Search M_Automata M_CFG M_TreeStack M_Grammar M_Chart M_FromPmcfg M_Approx M_Text M_AutText M_Negra M_Command M_Mcfg M_CfgCommand M_TsaCommand M_ApproxCommand
  S_Search S_Util S_Recog S_Automata S_CFG S_TreeStack S_Grammar S_FromPmcfg S_Approx S_Text S_AutText S_Command S_Mcfg S_CfgCommand S_TsaCommand S_ApproxCommand
  P_Agenda P_Search P_Util P_Recog P_Automata P_PDA P_CFG P_FromPmcfg P_FromPmcfg2 P_FromPmcfg5 P_Approx P_Text P_AutText P_Command P_Beam P_CfgEnds P_Mcfg P_TsaCommand
  Properties_Automata Properties_CFG Properties_Beam Properties_CfgEnds Properties_Approx.

(* ---- the first run of a search ---- *)
Section First.
  Context {A : Type} {K : Weight} (KL : RoundLaws K) (wadd : K -> K -> K) (wzero : K) (aeqb : A -> A -> bool) (teqb : bytes -> bytes -> bool) (AE : EqbSpec aeqb) (TE : EqbSpec teqb).
  Context (ts : list (transition (pd_instr A) bytes K)) (init : list A) (M : pda A bytes K) (HM : pda_new wadd wzero aeqb teqb ts init = Some M).
  Context (H : max_heap (item (list nat) (pd_instr nat) nat K * K) (wi_leb wleb))
          (shuffle : list (transition (pd_instr nat) nat K) -> list (transition (pd_instr nat) nat K)) (SH : forall l, Permutation (shuffle l) l).
  Notation tr := (merged wadd wzero aeqb teqb ts).
  Notation accepted word us s := (accepting_run (pdi_apply aeqb) init tr (fun s => length s = 1) word us s).
  Context (NZ : forall us s, executes (pdi_apply aeqb) init us s -> (forall t, In t us -> tr t) -> s <> []).

  Lemma first_run_gives word calls :
    first_run teqb H shuffle M word calls = Running \/
    (first_run teqb H shuffle M word calls = Done None /\ forall us s, ~ accepted word us s) \/
    exists run s, first_run teqb H shuffle M word calls = Done (Some (Conf [] s (run_weight (pd_to_vec run)), run)) /\ accepted word (pd_to_vec run) s /\
      ((forall t, tr t -> wleb (t_weight t) wone = true) -> forall us s', accepted word us s' -> wleb (run_weight us) (run_weight (pd_to_vec run)) = true).
  Proof.
    destruct (C14_pda_recognise A bytes K wadd wzero aeqb teqb AE TE KL ts init shuffle SH M HM H word calls) as [C D].
    destruct (D ltac:(intros us s rest X1 X2 _; exact (NZ us s X1 X2))) as (outs & E). destruct (C outs E) as (C1 & C2 & C3 & _). unfold first_run. rewrite E. destruct outs as [|[c run] outs].
    - destruct (ended_calls _) eqn:EE; [|now left]. right. left. split; [reflexivity|]. apply ended_calls_iff in EE. intros us s HA. exact (C3 EE us s HA).
    - right. right. destruct (C1 c run (or_introl eq_refl)) as (HA & W1 & W2). exists run, (c_storage c). split; [|split; [exact HA|]].
      + destruct c as [w s k]. cbn [c_word c_storage c_weight] in *. now subst.
      + intros HB us s' HA'. match goal with |- ?x = true => destruct x eqn:EW end; [reflexivity|exfalso].
        destruct (C2 HB [] (c, run) outs eq_refl) as [_ X]. apply (X us s' HA'). unfold item_weight. cbn [fst]. now rewrite W2.
  Qed.
  Lemma first_run_ends word b : (forall us, partial_run (pdi_apply aeqb) init tr word us -> length us < b) ->
    exists c0, forall calls, c0 <= calls -> first_run teqb H shuffle M word calls <> Running.
  Proof.
    intros HB.
    destruct (coded_ends _ _ _ _ _ _ _ _ _ _ _ _ _ (pda_coded wadd wzero aeqb teqb AE TE ts init shuffle SH M HM) KL H word b) as (c0 & EN).
    { intros us s rest X1 X2 X3 _. split.
      - apply (pda_key_ok (K := K)). cbn. specialize (NZ us s X1 X2). destruct s as [|y s]; [congruence|]. intros Z. inversion Z.
      - apply HB. exists s, rest. auto. }
    exists c0. intros calls HC ER. unfold first_run in ER.
    destruct (C14_pda_recognise A bytes K wadd wzero aeqb teqb AE TE KL ts init shuffle SH M HM H word calls) as [_ D].
    destruct (D ltac:(intros us s rest X1 X2 _; exact (NZ us s X1 X2))) as (outs & E). rewrite E in ER. destruct outs; [|discriminate].
    replace (ended_calls _) with true in ER; [discriminate|]. symmetry. apply (ended_mono _ _ c0 calls); [exact HC| |now apply ended_calls_iff].
    unfold pda_recognise, recognise_with, recognise_int in E. intros C.
    match type of E with context [search_calls_p ?A0 ?s ?c ?h] => assert (C' : search_calls_p A0 s c h = None) by exact C end. rewrite C' in E. discriminate.
  Qed.

  Context (debug : A -> bytes) (debug_string : bytes -> bytes) (debug_weight : K -> bytes).
  Notation text_of x line := (debug_option (debug_pda_item debug debug_string debug_weight) x ++ «": "» ++ line ++ newline).
  (* what is printed for all lines *)
  Lemma approx_lines_give (P : bytes -> list bytes -> bytes -> Prop) calls :
    (forall line word, words line word ->
       (forall us s, ~ accepted word us s) -> P line word (text_of None line)) ->
    (forall line word run s, words line word -> accepted word (pd_to_vec run) s ->
       ((forall t, tr t -> wleb (t_weight t) wone = true) -> forall us s', accepted word us s' -> wleb (run_weight us) (run_weight (pd_to_vec run)) = true) ->
       P line word (text_of (Some (Conf [] s (run_weight (pd_to_vec run)), run)) line)) ->
    forall ls sents, Forall2 words ls sents ->
      approx_lines teqb H shuffle debug debug_string debug_weight M calls ls = Running \/
      exists outs, approx_lines teqb H shuffle debug debug_string debug_weight M calls ls = Done (List.concat outs) /\ Forall2 (fun lw out => P (fst lw) (snd lw) out) (combine ls sents) outs.
  Proof.
    intros HN HS ls sents F. induction F as [|line word ls sents HW F IH]; [right; exists []; split; [reflexivity|constructor]|].
    cbn [approx_lines combine]. rewrite (words_split line word HW).
    destruct (first_run_gives word calls) as [E|[(E & HA)|(run & s & E & HA & HB)]]; rewrite E; cbn [and_then]; [now left| |].
    - destruct IH as [->|(outs & -> & FO)]; [now left|right]. eexists (_ :: outs). cbn [and_then List.concat]. split; [reflexivity|]. constructor; [|exact FO]. now apply HN.
    - destruct IH as [->|(outs & -> & FO)]; [now left|right]. eexists (_ :: outs). cbn [and_then List.concat]. split; [reflexivity|]. constructor; [|exact FO]. now apply HS.
  Qed.
  Lemma approx_lines_end : (forall word, exists b, forall us, partial_run (pdi_apply aeqb) init tr word us -> length us < b) ->
    forall ls, exists c0, forall calls, c0 <= calls -> exists out, approx_lines teqb H shuffle debug debug_string debug_weight M calls ls = Done out.
  Proof.
    intros HB ls. induction ls as [|line ls (c1 & IH)]; [exists 0; intros; eexists; reflexivity|]. destruct (HB (split_whitespace [] line)) as (b & B). destruct (first_run_ends _ b B) as (c0 & HO).
    exists (Nat.max c0 c1). intros calls HC. cbn [approx_lines]. specialize (HO calls ltac:(lia)). destruct (IH calls ltac:(lia)) as (out & EO). rewrite EO.
    destruct (first_run_gives (split_whitespace [] line) calls) as [E|[(E & _)|(run & s & E & _)]]; [contradiction| |]; rewrite E; cbn [and_then]; eexists; reflexivity.
  Qed.
End First.

(* ---- the relabelled automaton of a grammar and the automaton of the coarse grammar ---- *)
Lemma same_steps_sym {A T : Type} {K : Weight} (us vs : list (transition (pd_instr A) T K)) : same_steps us vs -> same_steps vs us.
Proof. induction 1 as [|u v us vs [E1 E2] F IH]; constructor; auto. Qed.
Lemma same_steps_trans {A T : Type} {K : Weight} (us vs ws : list (transition (pd_instr A) T K)) : same_steps us vs -> same_steps vs ws -> same_steps us ws.
Proof. intros F. revert ws. induction F as [|u v us vs [E1 E2] F IH]; intros ws G; inversion G as [|? w ? ws' [E3 E4] G']; subst; constructor; [split; congruence|now apply IH]. Qed.
Lemma same_steps_length {A T : Type} {K : Weight} (us vs : list (transition (pd_instr A) T K)) : same_steps us vs -> length us = length vs.
Proof. induction 1; cbn; congruence. Qed.
Lemma same_steps_word {A T : Type} {K : Weight} (us vs : list (transition (pd_instr A) T K)) : same_steps us vs -> run_word us = run_word vs.
Proof. induction 1 as [|u v us vs [E1 E2] F IH]; [reflexivity|]. unfold run_word in *. cbn [flat_map]. now rewrite E1, IH. Qed.
Lemma same_steps_run {A T : Type} {K : Weight} (apply : pd_instr A -> list A -> list (list A)) (us vs : list (transition (pd_instr A) T K)) : same_steps us vs ->
  forall s s', executes apply s us s' -> executes apply s vs s'.
Proof.
  induction 1 as [|u v us vs [E1 E2] F IH]; intros s s' X; inversion X as [|? ? ? s1 ? X1 X2]; subst; [constructor|]. econstructor; [rewrite <- E2; exact X1|auto].
Qed.
(* if every transition of one kind has a counterpart of the other, so has every run *)
Lemma same_steps_exist {A T : Type} {K : Weight} (P Q : transition (pd_instr A) T K -> Prop) (us : list (transition (pd_instr A) T K)) :
  (forall t, P t -> exists t', Q t' /\ t_word t = t_word t' /\ t_ins t = t_ins t') -> (forall t, In t us -> P t) ->
  exists vs, same_steps us vs /\ forall t, In t vs -> Q t.
Proof.
  intros HP. induction us as [|u us IH]; intros HU; [exists []; split; [constructor|intros ? []]|].
  destruct IH as (vs & F & HV); [intros; apply HU; now right|]. destruct (HP u (HU u (or_introl eq_refl))) as (v & Hv & E1 & E2).
  exists (v :: vs). split; [now constructor|]. intros t [<-|Ht]; auto.
Qed.
Lemma nodup_map_inj {X Y : Type} (h : X -> Y) (l : list X) : NoDup (map h l) -> forall x y, In x l -> In y l -> h x = h y -> x = y.
Proof.
  induction l as [|a l IH]; intros ND x y Hx Hy E; [destruct Hx|]. cbn in ND. apply NoDup_cons_iff in ND. destruct ND as [N1 N2].
  destruct Hx as [<-|Hx], Hy as [<-|Hy]; [reflexivity| | |now apply IH]; exfalso; apply N1.
  - rewrite E. now apply in_map.
  - rewrite <- E. now apply in_map.
Qed.
Lemma nodup_of_map {X Y : Type} (h : X -> Y) (l : list X) : NoDup (map h l) -> NoDup l.
Proof. induction l as [|x l IH]; intros N; [constructor|]. cbn in N. apply NoDup_cons_iff in N. destruct N as [N1 N2]. constructor; [|auto]. intros HI. apply N1. now apply in_map. Qed.
Lemma nodup_map_on {X Y : Type} (h : X -> Y) (l : list X) : NoDup l -> (forall x y, In x l -> In y l -> h x = h y -> x = y) -> NoDup (map h l).
Proof.
  induction l as [|a l IH]; intros ND HI; [constructor|]. apply NoDup_cons_iff in ND. destruct ND as [N1 N2]. cbn. constructor.
  - intros HM. apply in_map_iff in HM. destruct HM as (x & E & Hx). apply N1. now rewrite <- (HI x a (or_intror Hx) (or_introl eq_refl) E).
  - apply IH; [exact N2|]. intros x y Hx Hy. apply HI; now right.
Qed.

Section Relabelled.
  Context {A B T : Type} {K : Weight} (KL : RoundLaws K) (wadd : K -> K -> K) (wzero : K) (WZ : forall x, wadd wzero x = x) (aeqb : A -> A -> bool) (beqb : B -> B -> bool) (teqb : T -> T -> bool)
          (AE : EqbSpec aeqb) (BE : EqbSpec beqb) (TE : EqbSpec teqb).
  Context (f : A -> B) (order : list T -> list T) (OR : forall l, Permutation (order l) l) (g : cfg A T K).
  Notation Ts := (cfg_transitions teqb order g).
  Notation h := (coarse f g).
  Notation Ts' := (cfg_transitions teqb order h).
  Notation img := (image (rlb_ins (ps_map f))).
  Context (l : list (transition (pd_instr (push_state A T)) T K)) (NL : NoDup l) (HL : forall t, In t l <-> merged wadd wzero (ps_eqb aeqb teqb) teqb Ts t).
  Notation ts2 := (map img l).
  Notation tr2 := (merged wadd wzero (ps_eqb beqb teqb) teqb ts2).
  Notation apply := (pdi_apply (ps_eqb beqb teqb)).
  Notation Q := (ps_eqb_spec beqb teqb BE TE).

  Lemma sym_map (x : lettert A T) : ps_map f (sym x) = sym (coarse_letter f x).
  Proof. now destruct x. Qed.
  Lemma image_rule (r : cfg_rule A T K) : img (rule_trans r) = rule_trans (coarse_rule f r).
  Proof.
    unfold image, rule_trans. cbn [t_word t_weight t_ins rlb_ins pi_current pi_new coarse_rule cr_head cr_weight cr_rhs map ps_map]. f_equal. unfold rlb_ins. cbn [pi_current pi_new map ps_map]. f_equal.
    rewrite map_rev, !map_map. f_equal. apply map_ext. intros x. apply sym_map.
  Qed.
  Lemma occurs_coarse x : occurs x (cg_rules h) <-> occurs x (cg_rules g).
  Proof.
    unfold occurs. cbn [cg_rules coarse]. split.
    - intros (r & Hr & Hx). apply in_map_iff in Hr. destruct Hr as (r0 & <- & Hr). exists r0. split; [exact Hr|]. cbn [coarse_rule cr_rhs] in Hx. apply in_map_iff in Hx. destruct Hx as ([n|y] & E & Hx); [discriminate|]. injection E as <-. exact Hx.
    - intros (r & Hr & Hx). exists (coarse_rule f r). split; [now apply in_map|]. cbn [coarse_rule cr_rhs]. apply in_map_iff. exists (Value x). auto.
  Qed.
  Lemma image_In t' : In t' Ts' <-> exists t, In t Ts /\ t' = img t.
  Proof.
    rewrite (Ts_In teqb TE order OR h). split.
    - intros [(r & Hr & ->)|[(x & Hx & ->)|(n & Hn & ->)]].
      + cbn [cg_rules coarse] in Hr. apply in_map_iff in Hr. destruct Hr as (r0 & <- & Hr). exists (rule_trans r0). split; [|symmetry; apply image_rule]. apply (Ts_In teqb TE order OR g). left. eauto.
      + exists (read_trans x). split; [|reflexivity]. apply (Ts_In teqb TE order OR g). right. left. exists x. split; [now apply occurs_coarse|reflexivity].
      + cbn [cg_initial coarse] in Hn. apply in_map_iff in Hn. destruct Hn as (n0 & <- & Hn). exists (init_trans n0). split; [|reflexivity]. apply (Ts_In teqb TE order OR g). right. right. eauto.
    - intros (t & Ht & ->). apply (Ts_In teqb TE order OR g) in Ht. destruct Ht as [(r & Hr & ->)|[(x & Hx & ->)|(n & Hn & ->)]].
      + left. exists (coarse_rule f r). split; [now apply (in_map (coarse_rule f))|apply image_rule].
      + right. left. exists x. split; [now apply occurs_coarse|reflexivity].
      + right. right. exists (f n). split; [now apply (in_map f)|reflexivity].
  Qed.
  (* both have the same words and instructions *)
  Lemma steps_down t : tr2 t -> exists t', In t' Ts' /\ t_word t = t_word t' /\ t_ins t = t_ins t'.
  Proof.
    intros [(t0 & H0 & E1 & E2) _]. apply in_map_iff in H0. destruct H0 as (t1 & <- & H1). apply HL in H1. destruct H1 as [(t2 & H2 & E3 & E4) _].
    exists (img t2). split; [apply image_In; eauto|]. cbn [image t_word t_ins] in *. split; congruence.
  Qed.
  Lemma steps_up t : In t Ts' -> exists t', tr2 t' /\ t_word t = t_word t' /\ t_ins t = t_ins t'.
  Proof.
    intros Ht. apply image_In in Ht. destruct Ht as (t1 & H1 & ->).
    set (m := Trans (t_word t1) (wsum wadd wzero (map t_weight (filter (same_trans (ps_eqb aeqb teqb) teqb t1) Ts))) (t_ins t1)).
    assert (Hm : In m l) by (apply HL; split; [exists t1; auto|reflexivity]).
    destruct (image_merged wadd wzero (ps_eqb beqb teqb) teqb (rlb_ins (ps_map f)) l m Hm) as (t2 & X1 & X2 & X3). exists t2. split; [exact X1|]. cbn [image t_word t_ins m] in *. split; congruence.
  Qed.

  Lemma coarse_stack us s : executes apply [M_CFG.Designated; M_CFG.Initial] us s -> (forall t, In t us -> tr2 t) -> exists r, s = M_CFG.Designated :: r.
  Proof.
    intros X HT. destruct (same_steps_exist _ _ us steps_down HT) as (vs & F & HV).
    destruct (unmerged_rep beqb teqb order h wadd wzero vs HV) as (ws & HW & FW).
    apply (cfg_stack_bottom beqb teqb BE TE order OR h wadd wzero ws [M_CFG.Designated; M_CFG.Initial]); [|exact HW|eauto].
    apply (same_steps_run apply vs ws FW). now apply (same_steps_run apply us vs F).
  Qed.
  Lemma coarse_run word us s : accepting_run apply [M_CFG.Designated; M_CFG.Initial] tr2 (fun s => length s = 1) word us s ->
    s = [M_CFG.Designated] /\ exists n ds, In n (cg_initial h) /\ leftmost (fun r => In r (cg_rules h)) [Label n] ds word /\ same_steps us (init_trans n :: derivation_run ds [Label n]).
  Proof.
    intros (X1 & X2 & X3 & X4). destruct (same_steps_exist _ _ us steps_down X2) as (vs & F & HV).
    assert (AR : accepting_run apply [M_CFG.Designated; M_CFG.Initial] (fun t => In t Ts') (fun s => length s = 1) word vs s).
    { split; [now apply (same_steps_run apply us vs F)|]. split; [exact HV|]. split; [|exact X4]. rewrite <- X3. symmetry. now apply same_steps_word. }
    apply (cfg_runs beqb teqb BE TE order OR h) in AR. destruct AR as (n & ds & Hn & L & -> & ->). split; [reflexivity|]. exists n, ds. auto.
  Qed.
  Lemma coarse_accepts word n ds : In n (cg_initial h) -> leftmost (fun r => In r (cg_rules h)) [Label n] ds word ->
    exists us, accepting_run apply [M_CFG.Designated; M_CFG.Initial] tr2 (fun s => length s = 1) word us [M_CFG.Designated] /\ same_steps (init_trans n :: derivation_run ds [Label n]) us.
  Proof.
    intros Hn L. destruct (proj2 (cfg_runs beqb teqb BE TE order OR h word (init_trans n :: derivation_run ds [Label n]) [M_CFG.Designated])) as (X1 & X2 & X3 & X4); [eauto 10|].
    destruct (same_steps_exist _ _ _ steps_up X2) as (us & F & HU). exists us. split; [|exact F]. split; [now apply (same_steps_run apply _ us F)|]. split; [exact HU|]. split; [|exact X4].
    rewrite <- X3. symmetry. now apply same_steps_word.
  Qed.
  Lemma coarse_language word : (exists us s, accepting_run apply [M_CFG.Designated; M_CFG.Initial] tr2 (fun s => length s = 1) word us s) <-> cfg_language h word.
  Proof.
    split.
    - intros (us & s & AR). destruct (coarse_run word us s AR) as (_ & n & ds & Hn & L & _). exists n. split; [exact Hn|]. eapply lm_derives; eauto.
    - intros (n & Hn & D). apply derives_lm in D. destruct D as [ds L]. destruct (coarse_accepts word n ds Hn L) as (us & AR & _). eauto.
  Qed.
  Lemma coarse_bounded rank word : cfg_no_left_recursion (cg_rules h) rank -> exists b, forall us, partial_run apply [M_CFG.Designated; M_CFG.Initial] tr2 word us -> length us < b.
  Proof.
    intros NR. destruct (all_bounded beqb teqb BE TE order OR h rank NR wadd wzero word) as (b & HB). exists b. intros us (s & rest & X & HT & HW).
    destruct (same_steps_exist _ _ us steps_down HT) as (vs & F & HV). destruct (unmerged_rep beqb teqb order h wadd wzero vs HV) as (ws & HWs & FW).
    pose proof (same_steps_trans _ _ _ F FW) as FF. rewrite (same_steps_length _ _ FF). apply HB. exists s, rest. split; [now apply (same_steps_run apply us ws FF)|]. split; [exact HWs|]. now rewrite <- (same_steps_word _ _ FF).
  Qed.

  (* without coinciding rules the weights are kept, too *)
  Lemma coarse_rule_inj (r r' : cfg_rule A T K) : cfg_distinct h -> In r (cg_rules g) -> In r' (cg_rules g) ->
    f (cr_head r) = f (cr_head r') -> map (coarse_letter f) (cr_rhs r) = map (coarse_letter f) (cr_rhs r') -> r = r'.
  Proof.
    intros [D _] Hr Hr' E1 E2. cbn [cg_rules coarse] in D. rewrite map_map in D. apply (nodup_map_inj _ _ D r r' Hr Hr'). cbn [coarse_rule cr_head cr_rhs]. congruence.
  Qed.
  Lemma fine_distinct : cfg_distinct h -> cfg_distinct g.
  Proof.
    intros D. split.
    - apply nodup_map_on; [|intros r r' Hr Hr' E; apply (coarse_rule_inj r r' D Hr Hr'); congruence]. destruct D as [D _]. cbn [cg_rules coarse] in D. rewrite map_map in D. now apply nodup_of_map in D.
    - destruct D as [_ D]. cbn [cg_initial coarse] in D. now apply nodup_of_map in D.
  Qed.
  Lemma In_fine t : cfg_distinct h -> (In t l <-> In t Ts).
  Proof.
    intros D. rewrite HL. apply (merged_distinct teqb TE (ps_eqb aeqb teqb) (ps_eqb_spec aeqb teqb AE TE) wadd wzero WZ). apply (cfg_transitions_distinct teqb TE order OR g). now apply fine_distinct.
  Qed.
  Lemma distinct_steps t : cfg_distinct h -> (tr2 t <-> In t Ts').
  Proof.
    intros D. rewrite (merged_distinct teqb TE (ps_eqb beqb teqb) Q wadd wzero WZ).
    - rewrite image_In, in_map_iff. split; intros (x & Hx & Hx'); exists x; [split; [now apply (In_fine x D)|now symmetry]|split; [now symmetry|now apply (In_fine x D)]].
    - rewrite map_map. apply nodup_map_on; [exact NL|]. intros x y Hx Hy E. apply (In_fine x D), (Ts_In teqb TE order OR g) in Hx. apply (In_fine y D), (Ts_In teqb TE order OR g) in Hy.
      destruct Hx as [(r & Hr & ->)|[(a & Ha & ->)|(n & Hn & ->)]], Hy as [(r' & Hr' & ->)|[(a' & Ha' & ->)|(n' & Hn' & ->)]]; try (cbn in E; discriminate).
      + rewrite !image_rule in E. cbn [rule_trans t_word t_ins coarse_rule cr_head cr_rhs] in E. f_equal.
        assert (E1 : f (cr_head r) = f (cr_head r')) by congruence.
        assert (E2 : rev (map sym (map (coarse_letter f) (cr_rhs r))) = rev (map sym (map (coarse_letter f) (cr_rhs r')))) by congruence.
        apply (f_equal (@rev _)) in E2. rewrite !rev_involutive in E2. apply map_sym_inj in E2. now apply (coarse_rule_inj r r' D).
      + cbn in E. injection E as ->. reflexivity.
      + cbn in E. destruct D as [_ D]. cbn [cg_initial coarse] in D. assert (EN : f n = f n') by (injection E as EN; exact EN). now rewrite (nodup_map_inj f _ D n n' Hn Hn' EN).
  Qed.
  Lemma distinct_eq us vs : cfg_distinct h -> (forall t, In t us -> In t Ts') -> (forall t, In t vs -> In t Ts') -> same_steps us vs -> us = vs.
  Proof.
    intros D HU HV F. induction F as [|u v us vs [E1 E2] F IH]; [reflexivity|]. f_equal.
    - pose proof (cfg_transitions_distinct teqb TE order OR h D) as ND. apply (nodup_map_inj _ _ ND u v); [apply HU; now left|apply HV; now left|congruence].
    - apply IH; [intros; apply HU; now right|intros; apply HV; now right].
  Qed.
End Relabelled.

(* what the fine grammar derives, the coarse grammar derives *)
Lemma coarse_derives {A B T : Type} {K : Weight} (f : A -> B) (g : cfg A T K) u v : derives (fun r => In r (cg_rules g)) u v ->
  derives (fun r => In r (cg_rules (coarse f g))) (map (coarse_letter f) u) (map (coarse_letter f) v).
Proof.
  induction 1 as [u|u v w (l & r & rule & HR & -> & ->) _ IH]; [constructor|]. eapply der_step; [|exact IH].
  exists (map (coarse_letter f) l), (map (coarse_letter f) r), (coarse_rule f rule). split; [now apply (in_map (coarse_rule f))|]. rewrite !map_app. cbn [map]. auto.
Qed.
Lemma coarse_covers {A B T : Type} {K : Weight} (f : A -> B) (g : cfg A T K) w : cfg_language g w -> cfg_language (coarse f g) w.
Proof.
  intros (s & Hs & D). exists (f s). split; [now apply (in_map f)|]. apply (coarse_derives f) in D. cbn [map coarse_letter] in D. rewrite map_map in D. exact D.
Qed.

(* ---- the text of an equivalence relation ---- *)
Section ClassesText.
  Context {A B : Type} (aeqb : A -> A -> bool) (beqb : B -> B -> bool) (AE : EqbSpec aeqb) (BE : EqbSpec beqb) (ioa : text_io A) (iob : text_io B)
          (set_order : list A -> list A) (SO : forall l, Permutation (set_order l) l) (order : list (B * list A) -> list (B * list A)) (CO : forall l, Permutation (order l) l).
  Notation class := (B * option (list A))%type.
  Definition read (c : class) : eqclass A B := EqClass (fst c) (option_map (hash_set aeqb set_order) (snd c)).
  Lemma distinct_In x l : In x (distinct aeqb l) <-> In x l.
  Proof.
    induction l as [|y l IH]; [reflexivity|]. cbn [distinct]. destruct (memb aeqb y l) eqn:E.
    - apply (P_Agenda.memb_In aeqb AE) in E. rewrite IH. cbn. split; [auto|]. intros [->|HI]; assumption.
    - cbn. now rewrite IH.
  Qed.
  Lemma distinct_NoDup l : NoDup (distinct aeqb l).
  Proof.
    induction l as [|y l IH]; [constructor|]. cbn [distinct]. destruct (memb aeqb y l) eqn:E; [exact IH|]. constructor; [|exact IH]. rewrite distinct_In. intros HI. apply (P_Agenda.memb_In aeqb AE) in HI. congruence.
  Qed.
  Lemma hash_set_In x l : In x (hash_set aeqb set_order l) <-> In x l.
  Proof. unfold hash_set. rewrite <- (distinct_In x l). split; apply Permutation_in; [apply SO|symmetry; apply SO]. Qed.
  Lemma hash_set_NoDup l : NoDup (hash_set aeqb set_order l).
  Proof. unfold hash_set. eapply Permutation_NoDup; [symmetry; apply SO|apply distinct_NoDup]. Qed.

  Lemma class_app t c : class_syntax ioa iob t c -> class_of_text aeqb ioa iob set_order t = FOk (read c).
  Proof.
    intros (h & sp & body & S1 & -> & HT & HB). unfold class_of_text, run_parser, parse_class. destruct c as [label [ms|]]; cbn [fst snd] in *.
    - assert (EB : ends is_space body) by (rewrite <- (app_nil_r body); eapply vec_ends; [| |exact HB]; [reflexivity|discriminate]).
      rewrite (pb _ _ _ _ _ (token_app _ _ _ _ HT)), (pb _ _ _ _ _ (skip_spaces _ _ S1 EB)).
      assert (EP : parse_set aeqb ioa set_order body = M_Nom.Done [] (hash_set aeqb set_order ms)).
      { unfold parse_set. rewrite <- (app_nil_r body) at 1. erewrite pb; [|apply tokens_app; [| | | |exact HB]; [reflexivity|discriminate|discriminate|cbn; tauto]]. reflexivity. }
      erewrite pb; [|rewrite alt_right; [erewrite pb; [|exact EP]; reflexivity|]]; [reflexivity|].
      apply pb_error. destruct HB as (sp' & t & _ & _ & ->). reflexivity.
    - subst body. rewrite (pb _ _ _ _ _ (token_app _ _ _ _ HT)), (pb _ _ _ _ _ (skip_spaces sp «"*"» S1 ltac:(intros a r E; injection E as <- <-; reflexivity))). reflexivity.
  Qed.
  Lemma class_last t c a t' : class_syntax ioa iob t c -> t = t' ++ [a] -> is_white a = false.
  Proof.
    intros (h & sp & body & _ & -> & _ & HB) E. assert (EB : exists b, body = b ++ ["]"%char] \/ body = b ++ ["*"%char]).
    { destruct (snd c); [destruct HB as (sp' & t & _ & _ & ->); eexists («"["» ++ sp' ++ t); left; now rewrite <- !app_assoc|exists []; right; exact HB]. }
    destruct EB as (b & [-> | ->]); rewrite !app_assoc in E; apply app_inj_tail in E; destruct E as [_ <-]; reflexivity.
  Qed.
  Lemma class_nonempty t c : class_syntax ioa iob t c -> t <> [].
  Proof.
    intros (h & sp & body & _ & -> & _ & HB) E. apply app_eq_nil in E. destruct E as [_ E]. apply app_eq_nil in E. destruct E as [_ ->]. destruct (snd c); [destruct HB as (sp' & t & _ & _ & HB); discriminate|discriminate].
  Qed.
  Lemma class_lines_app ls css : Forall2 (class_line ioa iob) ls css -> class_lines aeqb ioa iob set_order ls = FOk (map read (List.concat css)).
  Proof.
    induction 1 as [|l cs ls css HL F IH]; [reflexivity|]. destruct HL as [|w t w' c W1 W2 HC HF].
    - cbn [class_lines List.concat app]. exact IH.
    - cbn [class_lines List.concat app map]. rewrite (trim_app w t w' W1 W2 HF (fun a t' => class_last t c a t' HC) (class_nonempty t c HC)), (class_app t c HC), IH.
      destruct (w ++ t ++ w') eqn:E; [|reflexivity]. exfalso. apply app_eq_nil in E. destruct E as [_ E]. apply app_eq_nil in E. destruct E as [E _]. exact (class_nonempty t c HC E).
  Qed.

  Lemma lines_read cs : Properties_Approx.lines_of (map read cs) = map (fun c => (fst c, hash_set aeqb set_order (snd c))) (listed cs).
  Proof.
    unfold Properties_Approx.lines_of, listed. induction cs as [|[label [ms|]] cs IH]; [reflexivity| |]; cbn [map flat_map read fst snd ec_set ec_label option_map app].
    - now rewrite IH.
    - exact IH.
  Qed.
  Lemma in_class_read cs x label : in_class (Properties_Approx.lines_of (map read cs)) x label <-> in_class (listed cs) x label.
  Proof.
    rewrite lines_read. unfold in_class. split.
    - intros (ms & HM & HX). apply in_map_iff in HM. destruct HM as ([l ms0] & E & HM). cbn [fst snd] in E. injection E as <- <-. exists ms0. split; [exact HM|]. now apply hash_set_In.
    - intros (ms & HM & HX). exists (hash_set aeqb set_order ms). split; [|now apply hash_set_In]. apply in_map_iff. exists (label, ms). auto.
  Qed.
  Lemma classes_text_app text cs default : classes_text ioa iob text cs -> partition_of cs default ->
    exists e, eqrel_of_text aeqb beqb ioa iob set_order order text = FOk e /\ classifies cs default (er_project aeqb e).
  Proof.
    intros (ls & css & TL & F & EC) ((before & after & E0 & HA) & P2 & P3 & P4). unfold eqrel_of_text. rewrite (text_lines_app text ls TL), (class_lines_app ls css F), <- EC.
    assert (ER : map read cs = map read before ++ read (default, None) :: map read after) by (rewrite E0, map_app; reflexivity).
    assert (EL : map fst (Properties_Approx.lines_of (map read cs)) = map fst (listed cs)) by (rewrite lines_read, map_map; reflexivity).
    destruct (C21_from_str A B aeqb beqb AE BE order CO (map read before) (read (default, None)) (map read after)) as [C1 C2].
    - reflexivity.
    - intros c Hc. apply in_map_iff in Hc. destruct Hc as ([l o] & <- & Hc). specialize (HA _ Hc). cbn [snd] in HA. cbn [read snd ec_set]. destruct o; [discriminate|congruence].
    - rewrite <- ER. split; [now rewrite EL|]. intros l ms HM. rewrite lines_read in HM. apply in_map_iff in HM. destruct HM as ([l0 ms0] & E & _). injection E as <- <-. apply hash_set_NoDup.
    - rewrite <- ER in C1, C2. destruct (proj2 C1) as (e & EE).
      { split; [rewrite EL; exact P3|]. intros x l l' H1 H2. apply (P4 x); now apply in_class_read. }
      exists e. rewrite EE. split; [reflexivity|]. destruct (C2 e EE) as [D1 D2]. split.
      + intros x label HI. apply D1. now apply in_class_read.
      + intros x HN. apply D2. intros label HI. apply (HN label). now apply in_class_read.
  Qed.
  Lemma classifies_ext cs default (f f' : A -> B) : disjoint_classes (listed cs) -> classifies cs default f -> classifies cs default f' -> forall x, f x = f' x.
  Proof.
    intros DJ [F1 F2] [G1 G2] x. destruct (existsb (fun c => memb aeqb x (snd c)) (listed cs)) eqn:E.
    - apply existsb_exists in E. destruct E as ([label ms] & HM & HX). apply (P_Agenda.memb_In aeqb AE) in HX. assert (HI : in_class (listed cs) x label) by (exists ms; auto). now rewrite (F1 x label HI), (G1 x label HI).
    - assert (HN : forall label, ~ in_class (listed cs) x label).
      { intros label (ms & HM & HX). assert (X : existsb (fun c => memb aeqb x (snd c)) (listed cs) = true); [|congruence]. apply existsb_exists. exists (label, ms). split; [exact HM|]. now apply (P_Agenda.memb_In aeqb AE). }
      now rewrite (F2 x HN), (G2 x HN).
  Qed.
End ClassesText.
Lemma coarse_ext {A B T : Type} {K : Weight} (f f' : A -> B) (g : cfg A T K) : (forall x, f x = f' x) -> coarse f g = coarse f' g.
Proof.
  intros E. unfold coarse. f_equal; [now apply map_ext|]. apply map_ext. intros r. unfold coarse_rule. rewrite E. f_equal. apply map_ext. intros [n|t]; cbn; [now rewrite E|reflexivity].
Qed.

(* ---- the pushdown automaton for the paths of the tree stacks of a grammar ---- *)
Section Paths.
  Context {N T : Type} {K : Weight} (reqb : prule N T K -> prule N T K -> bool) (RE : EqbSpec reqb).
  Context (f : N -> nat) (g : pmcfg N T K) (OG : ordered_grammar f g) (rank : N -> nat -> nat) (NL : no_left_recursion (pg_rules g) rank).
  Notation rule := (prule N T K).
  Notation apply := (pdi_apply (posstate_eqb reqb)).
  Lemma path_moves i base v s1 : In s1 (apply (tts_ins i) (base ++ [v])) -> exists base1 v1, s1 = base1 ++ [v1] /\ moves i v (length base) v1 (length base1).
  Proof.
    intros HA. apply (pdi_apply_spec _ (peqb_spec reqb RE)) in HA. destruct HA as (rest & E & ->). destruct i as [n a o b|n a b|a o b]; cbn [tts_ins pi_current pi_new rev app] in *.
    - apply app_inj_tail in E. destruct E as [<- <-]. exists (base ++ [v]), b. split; [now rewrite <- app_assoc|]. cbn. rewrite app_length. cbn. repeat split; lia.
    - apply app_inj_tail in E. destruct E as [<- <-]. exists (base ++ [v]), b. split; [now rewrite <- app_assoc|]. cbn. rewrite app_length. cbn. repeat split; lia.
    - change (rest ++ [o; a]) with (rest ++ [o] ++ [a]) in E. rewrite app_assoc in E. apply app_inj_tail in E. destruct E as [-> <-]. exists rest, b. split; [reflexivity|]. cbn. rewrite app_length. cbn. repeat split; lia.
  Qed.
  Lemma path_run (us : list (transition (pd_instr (posstate rule)) T K)) : forall n t base v s, executes apply (base ++ [v]) us s -> (forall u, In u us -> exists t0, is_trans g t0 /\ t_word u = t_word t0 /\ t_ins u = tts_ins (t_ins t0)) ->
    bounded_vd g rank n t v (length base) -> exists base1 v1, s = base1 ++ [v1] /\ bounded_vd g rank (n + length us) (t + length (run_word us)) v1 (length base1).
  Proof.
    induction us as [|u us IH]; intros n t base v s HE HU HB; inversion HE as [|? ? ? s1 ? H1 H2]; subst; cbn [length run_word flat_map].
    - exists base, v. rewrite !Nat.add_0_r. auto.
    - destruct (HU u (or_introl eq_refl)) as (t0 & HT & EW & EI). rewrite EI in H1. destruct (path_moves _ _ _ _ H1) as (base1 & v1 & -> & HM).
      pose proof (bounded_move f g OG rank NL n t v (length base) t0 v1 (length base1) HB HT HM) as HB1. rewrite <- EW in HB1.
      destruct (IH _ _ _ _ _ H2 ltac:(intros; apply HU; now right) HB1) as (base2 & v2 & -> & HB2). exists base2, v2. split; [reflexivity|].
      rewrite app_length. replace (n + S (length us)) with (S n + length us) by lia. now rewrite Nat.add_assoc.
  Qed.
  Lemma path_bound (us : list (transition (pd_instr (posstate rule)) T K)) s m : executes apply [M_FromPmcfg.Initial] us s -> (forall u, In u us -> exists t0, is_trans g t0 /\ t_word u = t_word t0 /\ t_ins u = tts_ins (t_ins t0)) ->
    length (run_word us) <= m -> length us <= 2 * (m + (m + 1) * top g rank) + 2.
  Proof.
    intros HE HU HM. destruct (path_run us 0 0 [] M_FromPmcfg.Initial s HE HU ltac:(cbn; auto)) as (base & v & _ & HB). exact (bounded_total _ _ _ _ _ _ m HB HM).
  Qed.
End Paths.

(* ---- the texts ---- *)
Lemma instruction_text {A : Type} (f g : A -> bytes) i : (forall x, f x = g x) -> debug_pd_instruction f i = replace_text g i.
Proof. intros E. unfold debug_pd_instruction, replace_text, record_text. rewrite !(vec_text f g _ E). generalize (list_text g (pi_current i)) (list_text g (pi_new i)). intros. same_text. Qed.
Lemma symbol_text_eq s x : debug_push_state s x = symbol_text s x.
Proof. destruct x; reflexivity. Qed.
Lemma position_text_eq {K : ZWeight} (s : prule bytes bytes K -> bytes) x : debug_posstate s x = position_text s x.
Proof. destruct x as [| |r i j]; cbn [debug_posstate position_text]; try reflexivity. generalize (s r) (usize_text i) (usize_text j). intros. same_text. Qed.
