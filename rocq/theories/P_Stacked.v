(* Proofs about coarse-to-fine recognition with several strategies. *)
From Verif Require Import Base M_Agenda M_Search M_Util M_Recog M_Automata M_TreeStack M_CSAuto M_CSParse M_Approx M_Stacked
  S_Search S_Util S_Recog S_Automata S_TreeStack S_Approx S_Stacked P_Agenda P_Search P_Util P_Recog P_Automata P_PDA P_TreeStack P_TSA P_CSParse
  Properties_Automata Properties_TreeStack P_Approx.
Arguments Nat.ltb : simpl never. Arguments Nat.eqb : simpl never.

(* ---- what the first call to next of a plain recogniser tells ---- *)
Section RecConv.
  Context {S I T : Type} (a : M_Recog.automaton) (tti : T -> option (au_T a))
          (im : item (au_S a) (au_I a) (au_T a) (au_K a) -> option (item S I T (au_K a)))
          (H : max_heap (item (au_S a) (au_I a) (au_T a) (au_K a) * au_K a) (wi_leb wleb)).
  Notation AG := (heap_agenda item_weight wleb H).
  Notation FF := (fun i => if au_terminal a (fst i) then let? x := im i in Some (Some x) else Some None).
  Lemma search_conv fuel : forall h o k s, filter_map_search FF (search_next_p AG (item_succs a)) fuel h = Some (o, k, s) ->
    exists n os h', search_calls_p AG (item_succs a) n h = Some (os, h') /\
      match o with
      | Some y => opt_all im (filter (fun i => au_terminal a (fst i)) (until_none os)) = Some [y]
      | None => In None os /\ opt_all im (filter (fun i => au_terminal a (fst i)) (until_none os)) = Some []
      end.
  Proof.
    induction fuel as [|fuel IH]; intros h o k s E; [discriminate|]. cbn [filter_map_search] in E.
    destruct (search_next_p AG (item_succs a) h) as [[x h1]|] eqn:EN; [|discriminate]. destruct x as [i|].
    - destruct (au_terminal a (fst i)) eqn:ET.
      + destruct (im i) as [y|] eqn:EI; [|discriminate]. injection E as <- _ _. exists 1, [Some i], h1. cbn [search_calls_p]. rewrite EN. split; [reflexivity|].
        cbn. rewrite ET. cbn. now rewrite EI.
      + destruct (filter_map_search FF (search_next_p AG (item_succs a)) fuel h1) as [[[o1 k1] s1]|] eqn:E1; [|discriminate]. injection E as <- _ _.
        destruct (IH _ _ _ _ E1) as (n & os & h' & C & D). exists (Datatypes.S n), (Some i :: os), h'. cbn [search_calls_p]. rewrite EN, C. split; [reflexivity|].
        cbn [until_none filter]. rewrite ET. destruct o1; [exact D|]. split; [right; tauto|tauto].
    - injection E as <- _ _. exists 1, [None], h1. cbn [search_calls_p]. rewrite EN. split; [reflexivity|]. cbn. auto.
  Qed.
  Lemma rec_next_conv word fuel o s : rec_next a im H fuel (rec_start a tti H word) = Some (o, s) ->
    exists n, match o with
      | Some y => recognise_with a tti im H word n = Some [y]
      | None => recognise_with a tti im H word n = Some [] /\ recognise_ended a H (opt_all tti word) n
      end.
  Proof.
    unfold rec_next, rec_start, filter_map_next. intros E.
    destruct (filter_map_search FF (search_next_p AG (item_succs a)) fuel (heap_collect item_weight wleb H (init_items a (opt_all tti word)))) as [[[o1 k] s1]|] eqn:E1; [|discriminate]. injection E as <- _.
    destruct (search_conv _ _ _ _ _ E1) as (n & os & h' & C & D). exists n. unfold recognise_with, recognise_int, recognise_ended. rewrite C.
    destruct o1; [exact D|]. split; [tauto|]. exists os, h'. tauto.
  Qed.
End RecConv.

(* ---- sums ---- *)
Lemma wsum_ge {K : Weight} (KL : RoundLaws K) (wadd : K -> K -> K) (SD : sum_dominates wadd) ws : forall z w, (w = z \/ In w ws) -> wleb w (fold_left wadd ws z) = true.
Proof.
  destruct (rl_order _ KL) as [O1 O2]. assert (RF : forall x : K, wleb x x = true) by (intros x; destruct (O1 x x); assumption).
  induction ws as [|x ws IH]; intros z w HW; cbn; [destruct HW as [->|[]]; apply RF|].
  destruct HW as [->|[->|HW]]; [| |now apply IH; right]; (eapply O2; [|apply IH; left; reflexivity]); apply SD.
Qed.
Lemma run_weight_le {I1 I2 T : Type} {K : Weight} (KL : RoundLaws K) (us : list (transition I1 T K)) (us2 : list (transition I2 T K)) :
  Forall2 (fun t t2 => wleb (t_weight t) (t_weight t2) = true) us us2 -> wleb (run_weight us) (run_weight us2) = true.
Proof.
  destruct (rl_order _ KL) as [O1 O2]. intros F. unfold run_weight, lprod. assert (R : wleb (wone : K) wone = true) by (destruct (O1 (@wone K) wone); assumption).
  assert (G : forall k1 k2 : K, wleb k1 k2 = true -> wleb (fold_left wmul (map t_weight us) k1) (fold_left wmul (map t_weight us2) k2) = true); [|now apply G]. clear R.
  induction F as [|t t2 us us2 E F IH]; intros k1 k2 R; [exact R|]. cbn [map fold_left]. apply IH.
  eapply O2; [apply (rl_mono _ KL), R|]. now apply (wl_mono_l KL).
Qed.

(* ---- one level over an arbitrary recogniser for the coarser automaton ---- *)
Section Step.
  Context {S1 I1 B T : Type} {K : Weight} (KL : RoundLaws K) (wadd : K -> K -> K) (wzero : K) (beqb : B -> B -> bool) (teqb : T -> T -> bool) (BE : EqbSpec beqb) (TE : EqbSpec teqb)
          (apply1 : I1 -> S1 -> list S1) (initial1 : S1) (final1 : S1 -> Prop) (ins : I1 -> pd_instr B) (R : S1 -> list B -> Prop)
          (HOM : forall i s s' s2, R s s2 -> In s' (apply1 i s) -> exists s2', In s2' (pdi_apply beqb (ins i) s2) /\ R s' s2')
          (FIN : forall s s2, R s s2 -> (length s2 = 1 <-> final1 s))
          (l : list (transition I1 T K)) (m : rtmap (I1 := I1) (I2 := pd_instr B) (T := T) (K := K)) (BK : back (pdi_eqb beqb) teqb ins l m)
          (init2 : list B) (RI : R initial1 init2) (M2 : pda B T K) (HM2 : pda_new wadd wzero beqb teqb (map (image ins) l) init2 = Some M2)
          (heap_order : list (pushdown (transition I1 T K)) -> list (pushdown (transition I1 T K))) (HO : forall l, Permutation (heap_order l) l) ileb (OH : max_heap (item S1 I1 T K) ileb)
          (IW : forall a b, ileb a b = true -> wleb (item_weight a) (item_weight b) = true).
  Context (sub : source (item (list B) (pd_instr B) T K)) (fuel : nat) (word : list T).
  Notation next := (ctf_next (pdi_eqb beqb) teqb apply1 initial1 m heap_order (so_next sub) ileb OH fuel).
  Notation start := (ctf_new ileb OH (so_start sub)).
  Notation acc1 := (accepting_run apply1 initial1 (fun t => In t l) final1 word).
  Notation acc2 := (accepting_run (pdi_apply beqb) init2 (pda_has M2) (fun s => length s = 1) word).

  Lemma image_heavier us us2 : sum_dominates wadd -> (forall t, In t us -> In t l) -> (forall t, In t us2 -> pda_has M2 t) -> image_run ins us us2 -> wleb (run_weight us) (run_weight us2) = true.
  Proof.
    intros SD H1 H2 F. apply (run_weight_le KL). induction F as [|t t2 us us2 [E1 E2] F IH]; [constructor|]. constructor; [|apply IH; intros; [apply H1|apply H2]; now right].
    assert (Ht2 : pda_has M2 t2) by (apply H2; now left). apply (pda_has_merged wadd wzero beqb teqb BE TE _ _ _ t2 HM2) in Ht2. destruct Ht2 as [_ ->].
    unfold wsum. apply (wsum_ge KL wadd SD). right. apply in_map_iff. exists (image ins t). split; [reflexivity|]. apply filter_In. split; [apply in_map, H1; now left|].
    apply (same_trans_iff beqb teqb BE TE). cbn. auto.
  Qed.
  Lemma coarse_best_bounds c us s : sum_dominates wadd -> (forall us2 s2, acc2 us2 s2 -> wleb (run_weight us2) c = true) -> acc1 us s -> wleb (run_weight us) c = true.
  Proof.
    intros SD HB (A1 & A2 & A3 & A4). destruct (gen_image wadd wzero beqb teqb BE TE apply1 initial1 ins R HOM l init2 RI M2 HM2 us s A1 A2) as (us2 & s2 & J1 & J2 & J3 & J4 & J5).
    destruct (rl_order _ KL) as [_ O2]. eapply O2; [apply (image_heavier us us2 SD A2 J2 J1)|]. apply (HB us2 s2). split; [exact J3|]. split; [exact J2|]. split; [congruence|]. now apply (FIN _ _ J4).
  Qed.
  Lemma none_above : (forall us2 s2, ~ acc2 us2 s2) -> forall us s, ~ acc1 us s.
  Proof.
    intros HN us s (A1 & A2 & A3 & A4). destruct (gen_image wadd wzero beqb teqb BE TE apply1 initial1 ins R HOM l init2 RI M2 HM2 us s A1 A2) as (us2 & s2 & J1 & J2 & J3 & J4 & J5).
    apply (HN us2 s2). split; [exact J3|]. split; [exact J2|]. split; [congruence|]. now apply (FIN _ _ J4).
  Qed.

  Lemma step_some cc cr s' : so_next sub (so_start sub) = Some (Some (cc, cr), s') -> acc2 (pd_to_vec cr) (c_storage cc) -> 2 <= fuel ->
    exists outs, gives next start outs /\
      (forall conf r, In (conf, r) outs <-> acc1 (pd_to_vec r) (c_storage conf) /\
                       c_word conf = [] /\ c_weight conf = run_weight (pd_to_vec r) /\ exact_image ins (pd_to_vec r) (pd_to_vec cr)) /\
      nonincreasing item_weight wleb outs /\
      ((forall i s, length (apply1 i s) <= 1) -> NoDup l -> NoDup (map snd outs)).
  Proof.
    intros N1 (X1 & X2 & X3 & X4) L2.
    destruct (ctf_some (pdi_eqb beqb) teqb apply1 initial1 m heap_order _ ileb OH IW _ _ _ _ fuel N1 L2) as (outs & G & P & NI).
    exists outs. split; [exact G|]. split; [|split; [exact NI|]].
    - intros conf r. assert (IFF : In (conf, r) outs <-> In (conf, r) (fine_items (pdi_eqb beqb) teqb apply1 initial1 m heap_order cr)).
      { split; apply Permutation_in; [exact P|symmetry; exact P]. }
      rewrite IFF, (fine_items_spec KL (pdi_eqb beqb) teqb apply1 initial1 m heap_order l (pdi_eqb_spec beqb BE) TE ins HO BK). unfold exact_image, accepting_run.
      split.
      + intros (A1 & A2 & A3 & A4 & A5).
        assert (IR : image_run ins (pd_to_vec r) (pd_to_vec cr)) by (apply exact_is_image; exact A2).
        destruct (hom_executes apply1 (pdi_apply beqb) ins R HOM _ _ _ A5 init2 (pd_to_vec cr) RI IR) as (s2' & Y1 & Y2).
        split; [|auto]. split; [assumption|]. split; [assumption|]. split; [rewrite <- X3; symmetry; now apply image_word with (ins := ins)|]. apply (FIN _ _ Y2). rewrite (exec_det beqb _ _ _ _ Y1 X1). exact X4.
      + intros ((A1 & A2 & A3 & A4) & A5 & A6 & A7). auto.
    - intros D ND. eapply Permutation_NoDup; [apply Permutation_map; symmetry; exact P|].
      exact (fine_items_NoDup (pdi_eqb beqb) teqb apply1 initial1 m heap_order l (pdi_eqb_spec beqb BE) TE ins HO D BK ND cr).
  Qed.
  Lemma step_none s' : so_next sub (so_start sub) = Some (None, s') -> 1 <= fuel -> gives next start [].
  Proof. intros N1 L. exact (ctf_none (pdi_eqb beqb) teqb apply1 initial1 m heap_order _ ileb OH IW _ _ fuel N1 L). Qed.
  (* no answer below, or too little fuel: no answer *)
  Lemma step_stuck : so_next sub (so_start sub) = None \/ fuel = 0 \/ (fuel = 1 /\ exists c s', so_next sub (so_start sub) = Some (Some c, s')) -> next start = None.
  Proof.
    assert (PE : mh_pop OH (mh_empty OH) = None) by apply mh_pop_none, mh_empty_c.
    intros [E|[->|[-> (c & s' & E)]]]; [|reflexivity|].
    - destruct fuel as [|f]; [reflexivity|]. unfold ctf_new. cbn [ctf_next cf_out]. rewrite mh_peek_pop, PE. cbn [option_map]. unfold next_input. cbn [cf_in cf_sub cf_out]. now rewrite E.
    - unfold ctf_new. cbn [ctf_next cf_out]. rewrite mh_peek_pop, PE. cbn [option_map]. unfold next_input. cbn [cf_in cf_sub cf_out]. rewrite E. now destruct c.
  Qed.

  Definition level_facts (outs : list (item S1 I1 T K)) : Prop :=
    (forall n os, run next n start = Some os -> os = map (nth_error outs) (seq 0 n)) /\
    (forall conf r, In (conf, r) outs -> acc1 (pd_to_vec r) (c_storage conf) /\ c_word conf = [] /\ c_weight conf = run_weight (pd_to_vec r)) /\
    ((forall i s, length (apply1 i s) <= 1) -> NoDup l -> NoDup (map snd outs)) /\
    (forall x y, In x outs -> In y outs -> item_weight x = item_weight y) /\
    (forall c s', so_next sub (so_start sub) = Some (Some c, s') -> 2 <= fuel ->
       forall us s, acc1 us s -> (In (Conf [] s (run_weight us), pd_from us) outs <-> exact_image ins us (pd_to_vec (snd c)))) /\
    (sum_dominates wadd -> (forall cc cr s', so_next sub (so_start sub) = Some (Some (cc, cr), s') -> forall us2 s2, acc2 us2 s2 -> wleb (run_weight us2) (c_weight cc) = true) ->
       forall conf r, In (conf, r) outs -> forall us s, acc1 us s -> wleb (run_weight us) (c_weight conf) = true) /\
    ((exists o s', so_next sub (so_start sub) = Some (o, s')) -> 2 <= fuel -> forall n, exists os, run next n start = Some os) /\
    ((exists s', so_next sub (so_start sub) = Some (None, s')) -> outs = []).
  Lemma level_spec : (forall cc cr s', so_next sub (so_start sub) = Some (Some (cc, cr), s') -> acc2 (pd_to_vec cr) (c_storage cc) /\ c_weight cc = run_weight (pd_to_vec cr)) ->
    exists outs, level_facts outs.
  Proof.
    intros OK. unfold level_facts.
    assert (NIL : next start = None -> (forall n os, run next n start = Some os -> os = map (nth_error (@nil (item S1 I1 T K))) (seq 0 n))).
    { intros E [|n] os G; cbn in G; [now injection G as <-|]. rewrite E in G. discriminate. }
    destruct (so_next sub (so_start sub)) as [[[[cc cr]|] s']|] eqn:E.
    - destruct (OK cc cr s' eq_refl) as [A W]. destruct (le_lt_dec 2 fuel) as [L2|L2].
      + destruct (step_some cc cr s' E A L2) as (outs & G & IFF & NI & ND). exists outs.
        assert (WE : forall conf r, In (conf, r) outs -> c_weight conf = run_weight (pd_to_vec cr)).
        { intros conf r HI. apply IFF in HI. destruct HI as (_ & _ & -> & EX). symmetry. apply (exact_weight ins _ _ EX). }
        split; [intros n os R1; rewrite (G n) in R1; congruence|].
        split; [intros conf r HI; apply IFF in HI; tauto|]. split; [exact ND|].
        split; [intros [c1 r1] [c2 r2] H1 H2; unfold item_weight; cbn; rewrite (WE _ _ H1), (WE _ _ H2); reflexivity|].
        split; [|split; [|split]].
        * intros c s2 EC _ us s HA. injection EC as <- _. rewrite IFF. cbn [c_storage c_word c_weight snd]. rewrite pd_to_from. split; [tauto|]. intros X. repeat (split; [solve [auto]|]). exact X.
        * intros SD HB conf r HI us s HA. rewrite (WE _ _ HI), <- W. apply (coarse_best_bounds (c_weight cc) us s SD); [|exact HA]. exact (HB cc cr s' eq_refl).
        * intros _ _ n. rewrite (G n). eauto.
        * intros (s2 & X). discriminate.
      + exists []. split; [apply NIL, step_stuck; destruct fuel as [|[|f]]; [auto| |lia]; right; right; split; [reflexivity|]; eexists; eexists; exact E|].
        split; [intros conf r []|]. split; [constructor|]. split; [intros x y []|]. split; [intros; lia|]. split; [intros _ _ conf r []|]. split; [intros; lia|reflexivity].
    - exists []. split; [destruct fuel as [|f] eqn:EF; [apply NIL; reflexivity|rewrite <- EF; intros n os R1; rewrite (step_none s' E ltac:(lia) n) in R1; congruence]|].
      split; [intros conf r []|]. split; [constructor|]. split; [intros x y []|]. split; [intros; discriminate|]. split; [intros _ _ conf r []|]. split; [|reflexivity].
      intros _ L n. rewrite (step_none s' E ltac:(lia) n). eauto.
    - exists []. split; [apply NIL, step_stuck; now left|].
      split; [intros conf r []|]. split; [constructor|]. split; [intros x y []|]. split; [intros; discriminate|]. split; [intros _ _ conf r []|]. split; [intros (o & s2 & X); discriminate|reflexivity].
  Qed.
End Step.

(* ---- all levels ---- *)
Section Stack.
  Context {T : Type} {K : Weight} (KL : RoundLaws K) (wadd : K -> K -> K) (wzero : K) (teqb : T -> T -> bool) (TE : EqbSpec teqb).
  Context (shuffle : list (transition (pd_instr nat) nat K) -> list (transition (pd_instr nat) nat K)) (SH : forall l, Permutation (shuffle l) l)
          (H : max_heap (item (list nat) (pd_instr nat) nat K * K) (wi_leb wleb)) (fuel : nat).
  Notation AT := (at_coarsest wadd wzero teqb).
  Notation light := (fun Z (Mz : pda Z T K) => forall t, pda_has Mz t -> wleb (t_weight t) wone = true).
  Notation found word n := (fun Z (Mz : pda Z T K) => exists c rest, pda_recognise teqb shuffle Mz H word n = Some (c :: rest)).
  Notation over word n := (fun Z (Mz : pda Z T K) => pda_recognise teqb shuffle Mz H word n = Some [] /\
                             recognise_ended (pda_automaton shuffle Mz) H (opt_all (int_find_key teqb (pa_t Mz)) word) n).
  Notation first src := (so_next src (so_start src)).

  Definition stack_facts {S I : Type} (apply : I -> S -> list S) (init : S) (tr : transition I T K -> Prop) (final : S -> Prop) (word : list T)
             (Llight : Prop) (Lfound Lover : nat -> Prop) (src : source (item S I T K)) : Prop :=
    let acc := accepting_run apply init tr final word in
    (forall conf r s', first src = Some (Some (conf, r), s') ->
       acc (pd_to_vec r) (c_storage conf) /\ c_word conf = [] /\ c_weight conf = run_weight (pd_to_vec r) /\
       (sum_dominates wadd -> Llight -> forall us s, acc us s -> wleb (run_weight us) (c_weight conf) = true)) /\
    (forall n, Lfound n \/ Lover n -> n <= fuel -> 2 <= fuel -> exists o s', first src = Some (o, s')) /\
    (forall n, Lover n -> n <= fuel -> 2 <= fuel -> (exists s', first src = Some (None, s')) /\ forall us s, ~ acc us s).

  (* one level on top of a stack *)
  Lemma stack_step {S1 I1 B : Type} (beqb : B -> B -> bool) (BE : EqbSpec beqb)
          (apply1 : I1 -> S1 -> list S1) (initial1 : S1) (final1 : S1 -> Prop) (ins : I1 -> pd_instr B) (R : S1 -> list B -> Prop)
          (HOM : forall i s s' s2, R s s2 -> In s' (apply1 i s) -> exists s2', In s2' (pdi_apply beqb (ins i) s2) /\ R s' s2')
          (FIN : forall s s2, R s s2 -> (length s2 = 1 <-> final1 s))
          (l : list (transition I1 T K)) (tr1 : transition I1 T K -> Prop) (IL : forall t, In t l <-> tr1 t)
          (m : rtmap (I1 := I1) (I2 := pd_instr B) (T := T) (K := K)) (BK : back (pdi_eqb beqb) teqb ins l m)
          (init2 : list B) (RI : R initial1 init2) (M2 : pda B T K) (HM2 : pda_new wadd wzero beqb teqb (map (image ins) l) init2 = Some M2)
          (heap_order : list (pushdown (transition I1 T K)) -> list (pushdown (transition I1 T K))) (HO : forall l, Permutation (heap_order l) l) ileb (OH : max_heap (item S1 I1 T K) ileb)
          (IW : forall a b, ileb a b = true -> wleb (item_weight a) (item_weight b) = true)
          (sub : source (item (list B) (pd_instr B) T K)) (word : list T) (Llight : Prop) (Lfound Lover : nat -> Prop) :
    stack_facts (pdi_apply beqb) init2 (pda_has M2) (fun s => length s = 1) word Llight Lfound Lover sub ->
    let src := Source _ (ctf_next (pdi_eqb beqb) teqb apply1 initial1 m heap_order (so_next sub) ileb OH fuel) (ctf_new ileb OH (so_start sub)) in
    let acc := accepting_run apply1 initial1 tr1 final1 word in
    stack_facts apply1 initial1 tr1 final1 word Llight Lfound Lover src /\
    exists outs,
      (forall n os, so_run src n = Some os -> os = map (nth_error outs) (seq 0 n)) /\
      enum_sound apply1 initial1 tr1 final1 word outs /\
      ((forall i s, length (apply1 i s) <= 1) -> NoDup l -> NoDup (map snd outs)) /\
      (forall x y, In x outs -> In y outs -> item_weight x = item_weight y) /\
      (forall c, so_run sub 1 = Some [Some c] -> 2 <= fuel -> forall us s, acc us s -> (In (Conf [] s (run_weight us), pd_from us) outs <-> exact_image ins us (pd_to_vec (snd c)))) /\
      (sum_dominates wadd -> Llight -> forall conf r, In (conf, r) outs -> best_run apply1 initial1 tr1 final1 word (pd_to_vec r) (c_storage conf)) /\
      (forall k, Lfound k \/ Lover k -> k <= fuel -> 2 <= fuel -> forall n, exists os, so_run src n = Some os) /\
      (forall k, Lover k -> k <= fuel -> 2 <= fuel -> outs = []).
  Proof.
    intros (F1 & F2 & F3) src acc.
    assert (ACC : forall us s, acc us s <-> accepting_run apply1 initial1 (fun t => In t l) final1 word us s).
    { intros us s. unfold acc, accepting_run. split; intros (X1 & X2 & X3); (split; [assumption|split; [|assumption]]); intros t Ht; now apply IL, X2. }
    destruct (level_spec KL wadd wzero beqb teqb BE TE apply1 initial1 final1 ins R HOM FIN l m BK init2 RI M2 HM2 heap_order HO ileb OH IW sub fuel word) as (outs & G1 & G2 & G3 & G4 & G5 & G6 & G7 & G8).
    { intros cc cr s' E. destruct (F1 cc cr s' E) as (X1 & _ & X3 & _). auto. }
    assert (BEST : sum_dominates wadd -> Llight -> forall conf r, In (conf, r) outs -> forall us s, acc us s -> wleb (run_weight us) (c_weight conf) = true).
    { intros SD LI conf r HI us s HA. apply (G6 SD) with (r := r) (s := s); [|exact HI|now apply ACC]. intros cc cr s' E us2 s2 H2. destruct (F1 cc cr s' E) as (_ & _ & _ & X). exact (X SD LI us2 s2 H2). }
    assert (G2' : forall conf r, In (conf, r) outs -> acc (pd_to_vec r) (c_storage conf) /\ c_word conf = [] /\ c_weight conf = run_weight (pd_to_vec r)).
    { intros conf r HI. destruct (G2 conf r HI) as (X1 & X2). split; [now apply ACC|exact X2]. }
    assert (R1 : forall o s', first src = Some (o, s') -> o = nth_error outs 0).
    { intros o s' E. specialize (G1 1 [o]). cbn in G1. unfold src in E. cbn [Verif.M_Stacked.so_next Verif.M_Stacked.so_start] in E. rewrite E in G1. specialize (G1 eq_refl). cbn in G1. now injection G1 as ->. }
    split; [|exists outs].
    - split; [|split].
      + intros conf r s' E. pose proof (nth_error_In outs 0 (eq_sym (R1 _ _ E))) as HI. destruct (G2' conf r HI) as (X1 & X2 & X3). split; [exact X1|]. split; [exact X2|]. split; [exact X3|].
        intros SD LI us s HA. exact (BEST SD LI conf r HI us s HA).
      + intros n X L1 L2. destruct (G7 (F2 n X L1 L2) L2 1) as [os E]. unfold src. cbn. cbn in E.
        destruct (ctf_next (pdi_eqb beqb) teqb apply1 initial1 m heap_order (so_next sub) ileb OH fuel (ctf_new ileb OH (so_start sub))) as [[o s']|]; [eauto|discriminate].
      + intros n X L1 L2. destruct (F3 n X L1 L2) as [(s2 & E2) NO]. split.
        * destruct (G7 (ex_intro _ None (ex_intro _ s2 E2)) L2 1) as [os E]. unfold src. cbn. cbn in E.
          destruct (ctf_next (pdi_eqb beqb) teqb apply1 initial1 m heap_order (so_next sub) ileb OH fuel (ctf_new ileb OH (so_start sub))) as [[o s']|] eqn:E3; [|discriminate].
          exists s'. repeat f_equal. rewrite (R1 o s' E3), (G8 (ex_intro _ s2 E2)). reflexivity.
        * intros us s HA. apply ACC in HA. revert HA. apply (none_above wadd wzero beqb teqb BE TE apply1 initial1 final1 ins R HOM FIN l init2 RI M2 HM2 word NO).
    - split; [exact G1|]. split; [exact G2'|]. split; [exact G3|]. split; [exact G4|]. split; [|split; [|split]].
      + intros c E L2 us s HA. apply ACC in HA. unfold so_run in E. cbn in E. destruct (first sub) as [[o s']|] eqn:E1; [|discriminate]. injection E as ->. exact (G5 c s' eq_refl L2 us s HA).
      + intros SD LI conf r HI. destruct (G2' conf r HI) as (X1 & X2 & X3). split; [exact X1|]. intros us' s' HA. rewrite <- X3. exact (BEST SD LI conf r HI us' s' HA).
      + intros k X L1 L2. exact (G7 (F2 k X L1 L2) L2).
      + intros k X L1 L2. destruct (F3 k X L1 L2) as [E _]. exact (G8 E).
  Qed.

  Lemma stack_base {A : Type} (aeqb : A -> A -> bool) (AE : EqbSpec aeqb) ts initial M word : pda_new wadd wzero aeqb teqb ts initial = Some M ->
    stack_facts (pdi_apply aeqb) initial (pda_has M) (fun s => length s = 1) word (AT light Coarsest M) (fun n => AT (found word n) Coarsest M) (fun n => AT (over word n) Coarsest M)
      (Source _ (rec_next (pda_automaton shuffle M) (item_un pdi_un_integerise un_list (pa_t M) (pa_a M)) H fuel) (rec_start (pda_automaton shuffle M) (int_find_key teqb (pa_t M)) H word)).
  Proof.
    intros HM. assert (MH : forall t, pda_has M t <-> merged wadd wzero aeqb teqb ts t) by (intros t; apply (pda_has_merged wadd wzero aeqb teqb AE TE ts initial M t HM)).
    assert (ACC : forall us s, accepting_run (pdi_apply aeqb) initial (pda_has M) (fun s => length s = 1) word us s <-> accepting_run (pdi_apply aeqb) initial (merged wadd wzero aeqb teqb ts) (fun s => length s = 1) word us s).
    { intros us s. unfold accepting_run. split; intros (X1 & X2 & X3); (split; [assumption|split; [|assumption]]); intros t Ht; now apply MH, X2. }
    pose proof (fun n => proj1 (C14_pda_recognise A T K wadd wzero aeqb teqb AE TE KL ts initial shuffle SH M HM H word n)) as C.
    split; [|split]; cbn [so_next so_start at_coarsest].
    - intros conf r s' E. destruct (rec_next_conv (pda_automaton shuffle M) (int_find_key teqb (pa_t M)) (item_un pdi_un_integerise un_list (pa_t M) (pa_a M)) H word fuel _ _ E) as [n En]. destruct (C n _ En) as (SO & BF & _). destruct (SO conf r (or_introl eq_refl)) as (X1 & X2 & X3).
      split; [now apply ACC|]. split; [exact X2|]. split; [exact X3|]. intros _ LI us s HA.
      destruct (BF (fun t Ht => LI t (proj2 (MH t) Ht)) [] (conf, r) [] eq_refl) as [_ B]. destruct (wleb (run_weight us) (c_weight conf)) eqn:EW; [reflexivity|].
      destruct (B us s (proj1 (ACC us s) HA) EW).
    - intros n [(c & rest & E)|[E EN]] L1 L2.
      + destruct (rec_next_first (pda_automaton shuffle M) (int_find_key teqb (pa_t M)) (item_un pdi_un_integerise un_list (pa_t M) (pa_a M)) H word n _ _ fuel E L1) as [s' N1]. eauto.
      + destruct (rec_next_empty (pda_automaton shuffle M) (int_find_key teqb (pa_t M)) (item_un pdi_un_integerise un_list (pa_t M) (pa_a M)) H word n fuel E EN L1) as [s' N1]. eauto.
    - intros n [E EN] L1 L2. destruct (rec_next_empty (pda_automaton shuffle M) (int_find_key teqb (pa_t M)) (item_un pdi_un_integerise un_list (pa_t M) (pa_a M)) H word n fuel E EN L1) as [s' N1]. split; [eauto|].
      intros us s HA. destruct (C n _ E) as (_ & _ & EX & _). apply (EX EN us s). now apply ACC.
  Qed.
  Lemma stack_spec {A : Type} (L : levels T K A) : forall (aeqb : A -> A -> bool) (AE : EqbSpec aeqb) ts initial M word, proper_levels L -> pda_new wadd wzero aeqb teqb ts initial = Some M ->
    exists src, pda_stack wadd wzero teqb shuffle H fuel L aeqb M word = Some src /\
      stack_facts (pdi_apply aeqb) initial (pda_has M) (fun s => length s = 1) word (AT light L M) (fun n => AT (found word n) L M) (fun n => AT (over word n) L M) src.
  Proof.
    induction L as [A|A B lv L IH]; intros aeqb AE ts initial M word PL HM.
    - eexists. split; [reflexivity|]. exact (stack_base aeqb AE ts initial M word HM).
    - destruct PL as [(BE & HO & HP & IW) PL]. cbn [pda_stack at_coarsest].
      destruct (rlb_defined wadd wzero aeqb (lv_eqb lv) teqb AE BE TE (lv_map lv) (lv_order lv) ts initial M HO HM) as (M2 & m & l & E & ND & IL & HM2 & BK).
      rewrite E, (proj1 (C41_pda_merges A T K wadd wzero aeqb teqb AE TE ts initial M HM)).
      destruct (IH (lv_eqb lv) BE _ _ M2 word PL HM2) as (sub & ES & F). rewrite ES. eexists. split; [reflexivity|].
      assert (AT1 : forall P : forall Z, pda Z T K -> Prop, (forall M3 m0, Some (M2, m) = Some (M3, m0) -> AT P L M3) <-> AT P L M2).
      { intros P. split; [intros X; exact (X M2 m eq_refl)|]. intros X M3 m0 EE. injection EE as <- _. exact X. }
      assert (IL' : forall t, In t l <-> pda_has M t) by (intros t; rewrite IL; symmetry; apply (pda_has_merged wadd wzero aeqb teqb AE TE ts initial M t HM)).
      assert (FIN : forall s s2, s2 = map (lv_map lv) s -> (length s2 = 1 <-> length s = 1)) by (intros s s2 ->; now rewrite map_length).
      destruct (stack_step (lv_eqb lv) BE (pdi_apply aeqb) initial (fun s => length s = 1) (rlb_ins (lv_map lv)) (fun s s2 => s2 = map (lv_map lv) s)
                 (fun i s s' s2 => rlb_hom aeqb (lv_eqb lv) AE BE (lv_map lv) i s s' s2) FIN l (pda_has M) IL' m (BK KL) (map (lv_map lv) initial) eq_refl M2 HM2
                 (lv_heap_order lv) HP (lv_leb lv) (lv_heap lv) IW sub word _ _ _ F) as [(X1 & X2 & X3) _].
      split; [|split].
      + intros conf r s' E1. destruct (X1 conf r s' E1) as (Y1 & Y2 & Y3 & Y4). split; [exact Y1|]. split; [exact Y2|]. split; [exact Y3|]. intros SD LI. apply (Y4 SD). now apply AT1.
      + intros n X. apply (X2 n). destruct X as [X|X]; [left|right]; now apply AT1.
      + intros n X. apply (X3 n). now apply AT1.
  Qed.
End Stack.
