(* C12, C14, C18: beam search.  What recognise_beam_search guarantees beyond soundness (C11_recognise_beam_sound). *)
From Verif Require Import Base BMap M_Agenda M_Search M_Util M_Recog M_Automata M_CFG M_TreeStack M_Grammar M_FromPmcfg S_Search S_Util S_Recog S_Automata S_CFG
  S_TreeStack S_Grammar S_FromPmcfg P_Agenda P_Search P_Util P_Recog P_Automata P_PDA P_CFG P_TreeStack P_TSA P_Grammar P_GrammarCFG P_Conversion
  P_FromPmcfg P_FromPmcfg2 P_FromPmcfg3 P_FromPmcfg4 P_FromPmcfg5 P_Beam Properties_Recog Properties_Automata Properties_TreeStack Properties_FromPmcfg.

(* C12, any automaton, any width of the beam *)
Theorem C12_beam_search :
  forall (a : automaton), EqbSpec (au_teqb a) -> RoundLaws (au_K a) ->
  forall (M : minmax_heap (AItem a * au_K a) (wi_leb wleb)) (beam : nat) (w : list (au_T a)),
  let reached ts := partial_run (au_apply a) (au_init a) (au_trans a) w ts in
  (forall n outs, recognise_beam_int a M beam (Some w) n = Some outs ->
     (* no run is returned twice *)
     (deterministic a -> NoDup (map snd outs)) /\
     (* with weights at most one: sorted *)
     ((forall t, au_trans a t -> wleb (t_weight t) wone = true) -> nonincreasing item_weight wleb outs) /\
     (* a beam that has room for all runs on prefixes of the word misses nothing *)
     (key_ok a -> deterministic a -> forall runs, (forall ts, reached ts -> In ts runs) -> length runs <= beam -> recognise_beam_ended a M beam (Some w) n ->
        forall ts s, accepting_run (au_apply a) (au_init a) (au_trans a) (fun s => au_terminal a (Conf [] s (run_weight ts)) = true) w ts s ->
        In (Conf [] s (run_weight ts), pd_from ts) outs)) /\
  (* no panic and an end, as for recognise *)
  ((forall ts s rest, executes (au_apply a) (au_init a) ts s -> (forall t, In t ts -> au_trans a t) -> run_word ts ++ rest = w -> au_key a (Conf rest s (run_weight ts)) <> None) ->
     (forall n, exists outs, recognise_beam_int a M beam (Some w) n = Some outs) /\
     forall bound, (forall ts, reached ts -> length ts < bound) -> exists n0, forall n, n0 <= n -> recognise_beam_ended a M beam (Some w) n).
Proof.
  intros a TE KL M beam w reached. split.
  - intros n outs E. split; [intros DT; eapply beam_once; eassumption|]. split; [intros LE; eapply beam_sorted; eassumption|].
    intros KO DT runs HR HL EN ts s (A1 & A2 & A3 & A4).
    assert (HB : forall i, item_inv a w i -> In (pd_to_vec (snd i)) runs) by (intros i (I1 & I2 & I3 & I4); apply HR; do 2 eexists; eauto).
    set (bound := S (list_max (map (@length _) runs))).
    apply (beam_exhaustive a TE KL M beam KO w bound n outs ts s); auto.
    + intros i Hi. apply le_n_S. pose proof (proj1 (list_max_le (map (@length _) runs) _) (le_n _)) as F. rewrite Forall_forall in F. apply F. apply in_map. auto.
    + eapply Nat.le_trans; [|exact HL]. now apply forest_few.
  - intros HK. assert (HN : forall i, item_inv a w i -> au_key a (fst i) <> None).
    { intros i HI. pose proof (inv_the_item a w i HI) as Ei. destruct HI as (I1 & I2 & I3 & I4). rewrite Ei. cbn. apply HK; auto. }
    split.
    + intros n. unfold recognise_beam_int. pose proof (beam_defined a TE KL M beam w n HN) as D. destruct (search_calls_p _ _ _ _) as [[os h]|]; [eauto|congruence].
    + intros bound HB. apply (beam_ends_bounded a TE KL M beam w bound). intros i Hi. split; [auto|]. destruct Hi as (I1 & I2 & I3 & I4). apply HB. do 2 eexists; eauto.
Qed.
Print Assumptions C12_beam_search.

(* C14: the same through the public interface *)
Theorem C14_fsa_beam_search :
  forall (Q T : Type) (K : Weight) (qeqb : Q -> Q -> bool) (teqb : T -> T -> bool), EqbSpec qeqb -> EqbSpec teqb -> RoundLaws K ->
  forall (ts : list (transition (fs_instr Q) T K)) (initial : Q) (finals : list Q) shuffle, (forall l, Permutation (shuffle l) l) ->
  forall H beam (word : list T),
  let M := fsa_new qeqb teqb ts initial finals in
  let ended n := recognise_beam_ended (fsa_automaton shuffle M) H beam (opt_all (int_find_key teqb (fa_t M)) word) n in
  (forall n, exists outs, fsa_recognise_beam teqb shuffle M H beam word n = Some outs /\
    enum_beam (fs_apply qeqb) initial (fun t => In t ts) (fun q => In q finals) word beam (NoDup ts) (ended n) outs) /\
  (forall bound, (forall us, partial_run (fs_apply qeqb) initial (fun t => In t ts) word us -> length us < bound) ->
     exists n0, forall n, n0 <= n -> ended n).
Proof.
  intros Q T K qeqb teqb QE TE KL ts initial finals shuffle SH H beam word M ended. pose proof (fsa_coded qeqb teqb QE TE ts initial finals shuffle SH) as CD. split.
  - intros n. destruct (coded_defined_beam _ _ _ _ _ _ _ _ _ _ _ _ _ CD KL H beam word n) as [outs R]; [intros; discriminate|].
    destruct (coded_enum_beam _ _ _ _ _ _ _ _ _ _ _ _ _ CD KL H beam word n outs R) as (outs' & E1 & E2 & E3 & E4 & E5). exists outs'. split; [exact E1|].
    split; [exact E2|]. split; [intros N; apply E3; now apply fsa_det|]. split; [exact E4|]. intros N. apply E5. now apply fsa_det.
  - intros bound HB. apply (coded_beam_ends _ _ _ _ _ _ _ _ _ _ _ _ _ CD KL H beam word bound). intros us s rest A1 A2 A3 _. split; [discriminate|]. apply HB. exists s, rest. auto.
Qed.
Print Assumptions C14_fsa_beam_search.
Theorem C14_tsa_beam_search :
  forall (A T : Type) (K : Weight) (aeqb : A -> A -> bool) (teqb : T -> T -> bool), EqbSpec aeqb -> EqbSpec teqb -> RoundLaws K ->
  forall (ts : list (transition (ts_instr A) T K)) (initial : tstack A) shuffle, (forall l, Permutation (shuffle l) l) ->
  forall H beam (word : list T),
  let M := tsa_new aeqb teqb ts initial in
  let ended n := recognise_beam_ended (tsa_automaton shuffle M) H beam (opt_all (int_find_key teqb (ta_t M)) word) n in
  (forall n, exists outs, tsa_recognise_beam teqb shuffle M H beam word n = Some outs /\
    enum_beam (tsi_apply aeqb) initial (fun t => In t ts) (fun s => ts_is_at_bottom s = true) word beam (NoDup ts) (ended n) outs) /\
  (forall bound, (forall us, partial_run (tsi_apply aeqb) initial (fun t => In t ts) word us -> length us < bound) ->
     exists n0, forall n, n0 <= n -> ended n).
Proof.
  intros A T K aeqb teqb AE TE KL ts initial shuffle SH H beam word M ended. pose proof (tsa_coded aeqb teqb AE TE ts initial shuffle SH) as CD. split.
  - intros n. destruct (coded_defined_beam _ _ _ _ _ _ _ _ _ _ _ _ _ CD KL H beam word n) as [outs R]; [intros; discriminate|].
    destruct (coded_enum_beam _ _ _ _ _ _ _ _ _ _ _ _ _ CD KL H beam word n outs R) as (outs' & E1 & E2 & E3 & E4 & E5). exists outs'. split; [exact E1|].
    split; [exact E2|]. split; [intros N; apply E3; now apply tsa_det|]. split; [exact E4|]. intros N. apply E5. now apply tsa_det.
  - intros bound HB. apply (coded_beam_ends _ _ _ _ _ _ _ _ _ _ _ _ _ CD KL H beam word bound). intros us s rest A1 A2 A3 _. split; [discriminate|]. apply HB. exists s, rest. auto.
Qed.
Print Assumptions C14_tsa_beam_search.
(* a pushdown automaton panics only if a run on a prefix of the word empties the stack *)
Theorem C14_pda_beam_search :
  forall (A T : Type) (K : Weight) (wadd : K -> K -> K) (wzero : K) (aeqb : A -> A -> bool) (teqb : T -> T -> bool),
  EqbSpec aeqb -> EqbSpec teqb -> RoundLaws K ->
  forall (ts : list (transition (pd_instr A) T K)) (initial : list A) shuffle, (forall l, Permutation (shuffle l) l) ->
  forall M, pda_new wadd wzero aeqb teqb ts initial = Some M ->
  forall H beam (word : list T),
  let tr := merged wadd wzero aeqb teqb ts in let final s := length s = 1 in
  let ended n := recognise_beam_ended (pda_automaton shuffle M) H beam (opt_all (int_find_key teqb (pa_t M)) word) n in
  (forall n outs, pda_recognise_beam teqb shuffle M H beam word n = Some outs -> enum_beam (pdi_apply aeqb) initial tr final word beam True (ended n) outs) /\
  ((forall us s rest, executes (pdi_apply aeqb) initial us s -> (forall t, In t us -> tr t) -> run_word us ++ rest = word -> s <> []) ->
     (forall n, exists outs, pda_recognise_beam teqb shuffle M H beam word n = Some outs) /\
     (forall bound, (forall us, partial_run (pdi_apply aeqb) initial tr word us -> length us < bound) -> exists n0, forall n, n0 <= n -> ended n)).
Proof.
  intros A T K wadd wzero aeqb teqb AE TE KL ts initial shuffle SH M HM H beam word tr final ended. pose proof (pda_coded wadd wzero aeqb teqb AE TE ts initial shuffle SH M HM) as CD.
  pose proof (pda_det wadd wzero aeqb teqb AE TE ts initial shuffle SH M HM) as DT. split.
  - intros n outs E. destruct (recognise_beam_with_int _ _ _ _ _ _ _ _ E) as (o & R). destruct (coded_enum_beam _ _ _ _ _ _ _ _ _ _ _ _ _ CD KL H beam word n o R) as (outs' & E1 & E2 & E3 & E4 & E5).
    unfold pda_recognise_beam in E. replace outs with outs' by congruence. split; [exact E2|]. split; [intros _; now apply E3|]. split; [exact E4|]. intros _. now apply E5.
  - intros NZ.
    assert (KN : forall us s rest, executes (pdi_apply aeqb) initial us s -> (forall t, In t us -> tr t) -> run_word us ++ rest = word -> forall w' k, au_key (pda_automaton shuffle M) (Conf w' (map (P_Automata.enc aeqb (pa_a M)) s) k) <> None).
    { intros us s rest X1 X2 X3 w' k. apply (pda_key_ok (K := K)). cbn. specialize (NZ us s rest X1 X2 X3). destruct s as [|y s]; [congruence|]. intros Z. inversion Z. }
    split.
    + intros n. destruct (coded_defined_beam _ _ _ _ _ _ _ _ _ _ _ _ _ CD KL H beam word n) as [o R]; [intros us s rest X1 X2 X3 X4; eapply KN; eauto|].
      destruct (coded_enum_beam _ _ _ _ _ _ _ _ _ _ _ _ _ CD KL H beam word n o R) as (outs' & E1 & _). exists outs'. exact E1.
    + intros bound HB. apply (coded_beam_ends _ _ _ _ _ _ _ _ _ _ _ _ _ CD KL H beam word bound). intros us s rest A1 A2 A3 _. split; [eapply KN; eauto|]. apply HB. exists s, rest. auto.
Qed.
Print Assumptions C14_pda_beam_search.

(* C18 with a beam: the parses found are derivations of the word, each of them found once (if no rule is listed twice), sorted
   (if no weight exceeds one); without left recursion the search ends; and if the beam has room for all runs on prefixes of the
   word, every derivation is found. *)
Theorem C18_recognise_beam_partial :
  forall (N T : Type) (K : Weight) (neqb : N -> N -> bool) (reqb : prule N T K -> prule N T K -> bool) (teqb : T -> T -> bool),
  EqbSpec neqb -> EqbSpec reqb -> EqbSpec teqb -> RoundLaws K ->
  forall (f : N -> nat) (g : pmcfg N T K), ordered_grammar f g -> (forall r, In r (pg_rules g) -> short_tails r) ->
  forall shuffle, (forall l, Permutation (shuffle l) l) ->
  forall (H : minmax_heap (item (tstack nat) (ts_instr nat) nat K * K) (wi_leb wleb)) (beam : nat) (word : list T),
  let derivation d := exists A, In A (pg_initial g) /\ deriv (fun r => In r (pg_rules g)) A d /\ yield d = Some [word] in
  exists ts M, pmcfg_transitions neqb g = Some ts /\ tsa_from_pmcfg neqb reqb teqb g = Some M /\
  let ended n := recognise_beam_ended (tsa_automaton shuffle M) H beam (opt_all (int_find_key teqb (ta_t M)) word) n in
  (forall n, exists outs, tsa_recognise_beam teqb shuffle M H beam word n = Some outs /\
    (forall conf run, In (conf, run) outs ->
       (word = [] /\ pd_to_vec run = []) \/ exists d, derivation d /\ c_weight conf = read_weight d /\ shows (c_storage conf) d) /\
    ((forall r, In r (pg_rules g) -> wleb (pr_weight r) wone = true) ->
       forall before y after, outs = before ++ y :: after -> forall x, In x before -> wleb (item_weight y) (item_weight x) = true) /\
    (NoDup (pg_rules g) -> forall before x between y after d, outs = before ++ x :: between ++ y :: after ->
       shows (c_storage (fst x)) d -> ~ shows (c_storage (fst y)) d) /\
    (NoDup (pg_rules g) -> ended n -> forall runs, (forall us, partial_run (tsi_apply (posstate_eqb reqb)) (ts_new Initial) (fun t => In t ts) word us -> In us runs) ->
       length runs <= beam -> forall d, derivation d -> exists x, In x outs /\ shows (c_storage (fst x)) d)) /\
  (forall rank, no_left_recursion (pg_rules g) rank -> exists n0, forall n, n0 <= n -> ended n).
Proof.
  intros N T K neqb reqb teqb NE RE TE KL f g OG ST shuffle SH H beam word derivation.
  destruct (C55_runs N T K neqb reqb NE RE KL f g OG) as (ts & ET & H1 & H2).
  assert (HY : forall A d, deriv (fun r => In r (pg_rules g)) A d -> read_tree d = d) by (intros A d; now apply read_tree_short).
  destruct (C14_tsa_beam_search (posstate (prule N T K)) T K (posstate_eqb reqb) teqb (peqb_spec reqb RE) TE KL ts (ts_new Initial) shuffle SH H beam word) as (EB & ENDS).
  exists ts, (tsa_new (posstate_eqb reqb) teqb ts (ts_new Initial)). split; [exact ET|]. split; [unfold tsa_from_pmcfg; now rewrite ET|]. intros ended. split.
  - intros n. destruct (EB n) as (outs & O1 & O2 & O5 & O3 & O4). exists outs. split; [exact O1|]. split; [|split; [|split]].
    + intros conf run HI. destruct (O2 conf run HI) as (HA & _ & W). destruct (H1 _ _ _ HA) as [(-> & E & _)|(A & d & I1 & D & Y & W' & SW)]; [left; auto|].
      right. exists d. split; [exists A; rewrite (HY A d D) in Y; auto|]. split; [etransitivity; [exact W|exact W']|assumption].
    + intros HW. apply O3. intros t Ht. destruct (pmcfg_transitions_spec neqb NE f g OG) as (ts' & ET' & HT). rewrite ET in ET'. injection ET' as <-. apply HT in Ht.
      assert (W1 : wleb (wone : K) wone = true) by (destruct (to_total _ (rl_order _ KL) wone wone); assumption).
      destruct Ht as [(r & Hr & _ & [->| ->])|(r & j & k & b & i & j1 & ri & Hr & _ & _ & Hri & [->| ->])]; cbn; auto. destruct j1; cbn; auto.
    + intros ND before x between y after d E SX SY.
      assert (IX : In x outs) by (rewrite E; apply in_or_app; right; now left).
      assert (IY : In y outs) by (rewrite E; apply in_or_app; right; right; apply in_or_app; right; now left).
      destruct x as [[cxw cxs cxk] rx], y as [[cyw cys cyk] ry]. destruct (O2 _ rx IX) as (AX & _). destruct (O2 _ ry IY) as (AY & _). cbn [fst c_storage] in SX, SY, AX, AY.
      destruct (H1 _ _ _ AX) as [(_ & _ & Es)|(A & d' & I1 & D & Y & _ & (m' & M1' & M2'))].
      * destruct SX as (m & M1 & M2). rewrite Es in M1. cbn in M1. injection M1 as <-. specialize (M2 []). destruct d; discriminate.
      * assert (ED : d = d'). { destruct SX as (m & M1 & M2). rewrite M1 in M1'. injection M1' as <-. apply rule_at_ext. intros a. now rewrite <- M2, M2'. }
        subst d'. destruct (H2 A d word I1 D Y) as (us & s & _ & _ & _ & U).
        destruct (U _ _ AX SX) as [E1 _]. destruct (U _ _ AY SY) as [E2 _].
        assert (ER : rx = ry) by (etransitivity; [symmetry; apply pd_from_to|]; etransitivity; [|apply pd_from_to]; f_equal; exact (eq_trans E1 (eq_sym E2))).
        pose proof (O5 (transitions_once neqb g ts ND ET)) as NO. rewrite E, map_app in NO. cbn [map snd] in NO. rewrite map_app in NO. cbn [map snd] in NO. apply NoDup_remove_2 in NO. apply NO. apply in_or_app. right. apply in_or_app. right. left. now rewrite ER.
    + intros ND EN runs HR HL d (A & I1 & D & Y). rewrite <- (HY A d D) in Y. destruct (H2 A d word I1 D Y) as (us & s & HA & W & SW & _). eexists. split; [exact (O4 (transitions_once neqb g ts ND ET) EN runs HR HL us s HA)|]. exact SW.
  - intros rank NL. destruct (pmcfg_transitions_spec neqb NE f g OG) as (ts' & ET' & HT). rewrite ET in ET'. injection ET' as <-.
    apply (ENDS (S (2 * (length word + (length word + 1) * top g rank) + 2))). intros us (s & rest & A1 & A2 & A3). apply le_n_S. apply (run_bound reqb RE f g OG rank NL us s); [intros u Hu; apply HT; now apply A2|exact A1|]. rewrite <- A3, app_length. apply Nat.le_add_r.
Qed.
Print Assumptions C18_recognise_beam_partial.

(* ---- examples ---- *)
Definition ex_bheap : minmax_heap (item nat (fs_instr nat) nat CostWeight * CostWeight) (wi_leb wleb) := list_minmax _ (wi_TO wleb (rl_order _ cost_laws)).
Definition ex_bt (w : list nat) (k p q : nat) : transition (fs_instr nat) nat CostWeight := Trans (K:=CostWeight) w k (FSI p q).
(* two ways to read a b; the cheaper first step leads to the more expensive run *)
Definition ex_bts : list (transition (fs_instr nat) nat CostWeight) := [ex_bt [0] 1 0 1; ex_bt [0] 2 0 2; ex_bt [1] 5 1 3; ex_bt [1] 1 2 3].
(* the same, but the cheap first step cannot be completed *)
Definition ex_bdead : list (transition (fs_instr nat) nat CostWeight) := [ex_bt [0] 1 0 1; ex_bt [0] 2 0 2; ex_bt [1] 1 2 3].
Definition ex_bruns (ts : list (transition (fs_instr nat) nat CostWeight)) : list (list (transition (fs_instr nat) nat CostWeight)) :=
  [[]; [ex_bt [0] 1 0 1]; [ex_bt [0] 2 0 2]; [ex_bt [0] 1 0 1; ex_bt [1] 5 1 3]; [ex_bt [0] 2 0 2; ex_bt [1] 1 2 3]].
Lemma ex_bpartial us : partial_run (fs_apply Nat.eqb) 0 (fun t => In t ex_bts) [0; 1] us -> In us (ex_bruns ex_bts).
Proof.
  intros (s & rest & E & A & W). destruct us as [|u us]; [now left|]. pose proof (A u (or_introl eq_refl)) as Hu. inversion E as [|? ? ? s1 ? E1 E2]; subst.
  destruct Hu as [<-|[<-|[<-|[<-|[]]]]]; cbn in E1; try contradiction; destruct E1 as [<-|[]]; (destruct us as [|v us]; [cbn; auto|]); pose proof (A v (or_intror (or_introl eq_refl))) as Hv; inversion E2 as [|? ? ? s2 ? F1 F2]; subst;
    destruct Hv as [<-|[<-|[<-|[<-|[]]]]]; cbn in F1; try contradiction; destruct F1 as [<-|[]];
    (destruct us as [|x us]; [cbn; auto 10|]); pose proof (A x (or_intror (or_intror (or_introl eq_refl)))) as Hx; inversion F2 as [|? ? ? s3 ? G1 G2]; subst;
    destruct Hx as [<-|[<-|[<-|[<-|[]]]]]; cbn in G1; contradiction.
Qed.
Example C12_beam_example :
  NoDup ex_bts /\ (forall t, In t ex_bts -> wleb (t_weight t) wone = true) /\
  (forall us, partial_run (fs_apply Nat.eqb) 0 (fun t => In t ex_bts) [0; 1] us -> In us (ex_bruns ex_bts)) /\ length (ex_bruns ex_bts) = 5 /\
  fsa_recognise_beam Nat.eqb (fun l => l) (fsa_new Nat.eqb Nat.eqb ex_bts 0 [3]) ex_bheap 5 [0; 1] 10 =
    Some [(Conf [] 3 (3 : CostWeight), pd_from [ex_bt [0] 2 0 2; ex_bt [1] 1 2 3]); (Conf [] 3 (6 : CostWeight), pd_from [ex_bt [0] 1 0 1; ex_bt [1] 5 1 3])] /\
  fsa_recognise_beam Nat.eqb (fun l => l) (fsa_new Nat.eqb Nat.eqb ex_bts 0 [3]) ex_bheap 1 [0; 1] 10 =
    Some [(Conf [] 3 (6 : CostWeight), pd_from [ex_bt [0] 1 0 1; ex_bt [1] 5 1 3])].
Proof.
  split; [unfold ex_bts, ex_bt; repeat first [apply NoDup_nil | apply NoDup_cons; [cbn; intuition discriminate|]]|]. split; [intros t [<-|[<-|[<-|[<-|[]]]]]; reflexivity|].
  split; [exact ex_bpartial|]. split; [reflexivity|]. split; vm_compute; reflexivity.
Qed.

(* A narrow beam can miss the best run, and it can reject a word of the language. *)
Theorem C12_narrow_beam_refuted :
  (forall n outs, fsa_recognise_beam Nat.eqb (fun l => l) (fsa_new Nat.eqb Nat.eqb ex_bdead 0 [3]) ex_bheap 1 [0; 1] n = Some outs -> outs = []) /\
  accepting_run (fs_apply Nat.eqb) 0 (fun t => In t ex_bdead) (fun q => In q [3]) [0; 1] [ex_bt [0] 2 0 2; ex_bt [1] 1 2 3] 3 /\
  exists outs, fsa_recognise Nat.eqb (fun l => l) (fsa_new Nat.eqb Nat.eqb ex_bdead 0 [3]) ex_fsa_heap [0; 1] 10 = Some outs /\ length outs = 1.
Proof.
  split; [|split].
  - intros n outs E. unfold fsa_recognise_beam, recognise_beam_with in E. destruct (recognise_beam_int _ _ _ _ n) as [o|] eqn:R; [|discriminate].
    assert (o = []); [|subst o; cbn in E; now injection E as <-]. clear E. unfold recognise_beam_int in R. destruct (search_calls_p _ _ _ _) as [[os h]|] eqn:ES; [|discriminate]. injection R as <-.
    destruct n as [|[|n]]; [cbn in ES; injection ES as <- <-; reflexivity|vm_compute in ES; injection ES as <- <-; reflexivity|].
    apply calls_p_total in ES. rewrite calls_S in ES. rewrite calls_S in ES. injection ES as <- _.
    match goal with |- context [search_calls ?A ?s n ?h0] => rewrite (calls_none A s n h0) by (vm_compute; reflexivity) end. destruct n; vm_compute; reflexivity.
  - split; [|split; [|split]].
    + eapply ex_cons; [left; reflexivity|]. eapply ex_cons; [left; reflexivity|]. constructor.
    + intros t [<-|[<-|[]]]; cbn; auto.
    + reflexivity.
    + now left.
  - eexists. split; [vm_compute; reflexivity|reflexivity].
Qed.
Print Assumptions C12_narrow_beam_refuted.
