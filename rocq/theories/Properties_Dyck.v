(* C23: the recogniser for multiple Dyck languages decides them. *)
From Verif Require Import Base BMap M_Agenda M_Search M_Util S_Util P_Util M_Recog S_Search S_Recog P_Agenda P_Search P_Recog M_Automata M_TreeStack S_TreeStack P_Automata P_TreeStack M_CSAuto M_CSParse M_Approx P_Approx M_Dyck S_Dyck P_Dyck Properties_Recog Properties_Util.

Lemma u8_laws : RoundLaws U8Weight.
Proof.
  constructor; cbn; intros; try lia.
  - exact nat_leb_TO.
  - intros a b H1 H2. apply Nat.leb_le in H1, H2. cbn in *. lia.
  - apply Nat.leb_le in H. apply Nat.leb_le. apply Nat.mul_le_mono_r. exact H.
Qed.

Lemma opt_all_id {X} (l : list X) : opt_all (fun t : X => Some t) l = Some l.
Proof. induction l as [|t w IH]; [reflexivity|]. cbn. now rewrite IH. Qed.

Lemma search_fuel {St X Y} (f : X -> option (option Y)) (next : iter St X) : forall fuel s r, filter_map_search f next fuel s = Some r ->
  forall fuel', fuel <= fuel' -> filter_map_search f next fuel' s = Some r.
Proof.
  induction fuel as [|fuel IH]; intros s r E fuel' L; [discriminate|]. destruct fuel' as [|fuel']; [lia|]. cbn in *.
  destruct (next s) as [[[x|] s1]|]; [|assumption|discriminate]. destruct (f x) as [[y|]|]; [assumption| |discriminate].
  destruct (filter_map_search f next fuel s1) as [[[y n] s2]|] eqn:E1; [|discriminate]. rewrite (IH _ _ E1 fuel') by lia. assumption.
Qed.
Lemma md_fuel {T : Type} (cmp : T -> T -> comparison) shuffle H trs word fuel b : md_recognize cmp shuffle H fuel trs word = Some b ->
  forall fuel', fuel <= fuel' -> md_recognize cmp shuffle H fuel' trs word = Some b.
Proof.
  unfold md_recognize, rec_next, filter_map_next. intros E fuel' L.
  destruct (filter_map_search _ _ fuel _) as [[[y n] s2]|] eqn:E1 in E; [|discriminate]. rewrite (search_fuel _ _ _ _ _ E1 fuel' L). exact E.
Qed.

Section Recogniser.
  Context {T : Type} (cmp : T -> T -> comparison) (OL : OrdLaws cmp).
  Notation mtrans := (transition (md_instr T) (bracket T) U8Weight).
  Context (shuffle : list mtrans -> list mtrans) (SH : forall l, Permutation (shuffle l) l)
          (H : max_heap (item (tstack (mdelem T)) (md_instr T) (bracket T) U8Weight * U8Weight) (wi_leb wleb)).

  Lemma run_len cells mode (us : list mtrans) : (forall t, In t us -> In t (md_transitions (up_ins mode) cells)) -> length (run_word us) = length us.
  Proof.
    induction us as [|u us IH]; intros HU; [reflexivity|]. change (run_word (u :: us)) with (t_word u ++ run_word us). rewrite app_length, IH by (intros; apply HU; now right).
    specialize (HU u (or_introl eq_refl)). apply trans_iff in HU. destruct HU as (c & s & _ & _ & [->| ->]); reflexivity.
  Qed.
  Lemma run_prefix cells mode (us : list mtrans) (rest word : list (bracket T)) : (forall t, In t us -> In t (md_transitions (up_ins mode) cells)) ->
    run_word us ++ rest = word -> length us < S (length word).
  Proof. intros HU <-. rewrite app_length, (run_len cells mode us HU). lia. Qed.
  Lemma recognize_gmd (cells : list (list T)) (mode : option (T -> nat)) (word : list (bracket T)) :
    (forall c, In c cells -> NoDup c) ->
    exists b : bool, (b = true <-> gmd cells mode word) /\
      exists F, forall fuel, F <= fuel -> md_recognize cmp shuffle H fuel (md_transitions (up_ins mode) cells) word = Some b.
  Proof.
    intros ND. set (trs := md_transitions (up_ins mode) cells). set (a := md_automaton cmp shuffle trs).
    assert (TE : EqbSpec (au_teqb a)) by exact (brk_spec cmp OL).
    assert (HT : forall c, au_terminal a c = true -> c_word c = []).
    { intros [w s k] E. unfold a in E. cbn [au_terminal md_automaton c_word] in *. rewrite !andb_true_iff in E. destruct E as [[E _] _]. destruct w; [reflexivity|discriminate E]. }
    assert (TR : forall t, au_trans a t <-> In t trs).
    { intros t. unfold au_trans. cbn. split.
      - intros [_ Ht]. eapply Permutation_in; [apply SH|exact Ht].
      - intros Ht. exists tt. eapply Permutation_in; [apply Permutation_sym, SH|exact Ht]. }
    assert (KO : key_ok a).
    { intros t c Ht _. exists tt. split; [reflexivity|]. destruct Ht as [[] Ht]. exact Ht. }
    assert (E0 : @opt_all (bracket T) (au_T a) (fun t : bracket T => Some t) word = Some word).
    { exact (opt_all_id word). }
    destruct (C12_recognise_ends a TE u8_laws H word) as [DEF END]; [intros; discriminate|].
    destruct (END (S (length word))) as [n EN].
    { intros us s (_ & HU & rest & Ew). exact (run_prefix cells mode us rest word (fun t Ht => proj1 (TR t) (HU t Ht)) Ew). }
    destruct (DEF n) as [outs EO].
    destruct (C12_recognise_complete a TE u8_laws HT KO H word n outs EO) as (_ & EX & _). specialize (EX EN).
    assert (ER : recognise_with a (fun t : bracket T => Some t) (fun i => Some i) H word n = Some outs).
    { unfold recognise_with. rewrite E0. exact (eq_trans (f_equal (fun o => match o with Some outs => opt_all (fun i => Some i) outs | None => None end) EO) (opt_all_id outs)). }
    assert (Q : outs <> [] <-> gmd cells mode word).
    { rewrite <- (accepted_gmd_iff cmp OL cells mode ND), (accepted_iff cmp OL). split.
      - intros N. destruct outs as [|[conf run] l]; [easy|]. destruct (proj1 (EX conf run) (or_introl eq_refl)) as [(A1 & A2 & A3 & A4) _].
        exists (pd_to_vec run), (c_storage conf). cbn in A4. rewrite andb_true_iff in A4. repeat split; try tauto. intros t Ht. now apply TR, A2.
      - intros (us & s & A1 & A2 & A3 & A4 & A5) ->. eapply (EX (Conf [] s (run_weight us)) (pd_from us)).
        rewrite pd_to_from. cbn [c_storage fst]. split; [|reflexivity]. repeat split; auto.
        + intros t Ht. now apply TR, A2.
        + cbn. now rewrite A4, A5. }
    destruct outs as [|y r].
    - exists false. split; [split; [discriminate|]; intros G; exfalso; now apply Q in G|]. exists n. intros fuel L.
      destruct (rec_next_empty a (fun t : bracket T => Some t) (fun i => Some i) H word n fuel ER) as [s Es]; [now rewrite E0|assumption|].
      exact (f_equal (fun o => match o with Some (Some _, _) => Some true | Some (None, _) => Some false | None => None end) Es).
    - exists true. split; [split; [intros _; apply Q; discriminate|reflexivity]|]. exists n. intros fuel L.
      destruct (rec_next_first a (fun t : bracket T => Some t) (fun i => Some i) H word n y r fuel ER L) as [s Es].
      exact (f_equal (fun o => match o with Some (Some _, _) => Some true | Some (None, _) => Some false | None => None end) Es).
  Qed.
End Recogniser.

(* C23: for every partition and every word, recognize terminates and returns whether the word is in the multiple Dyck language *)
Theorem C23_recognize :
  forall (T : Type) (cmp : T -> T -> comparison), OrdLaws cmp ->
  forall (cells : list (list T)) p, (forall c, In c cells -> sorted_keys cmp c) -> part_new cmp cells = Some p ->
  forall shuffle, (forall l, Permutation (shuffle l) l) ->
  forall (H : max_heap (item (tstack (mdelem T)) (md_instr T) (bracket T) U8Weight * U8Weight) (wi_leb wleb)) (word : list (bracket T)),
  exists b : bool, (b = true <-> multiple_dyck cells word) /\
    exists F, forall fuel, F <= fuel -> md_recognize cmp shuffle H fuel (md_new cmp p) word = Some b.
Proof.
  intros T cmp OL cells p SC EP shuffle SH H word.
  destruct (C09_partition_cells cmp OL cells p SC EP) as (_ & PC & _).
  assert (CC : forall c, In c (part_collapse cmp p) <-> In c cells /\ c <> []).
  { intros c. split.
    - intros Hc. eapply Permutation_in in Hc; [|exact PC]. apply filter_In in Hc. destruct Hc as [H1 H2]. split; [assumption|]. intros ->. discriminate.
    - intros [H1 H2]. eapply Permutation_in; [apply Permutation_sym; exact PC|]. apply filter_In. split; [assumption|]. now destruct c. }
  destruct (recognize_gmd cmp OL shuffle SH H (part_collapse cmp p) None word) as (b & B1 & B2).
  - intros c Hc. apply CC in Hc. eapply sorted_NoDup; [exact OL|]. now apply SC.
  - exists b. split; [|exact B2]. rewrite B1, <- gmd_plain. split; apply gmd_cells; intros c N Hc; apply CC; auto.
Qed.
Print Assumptions C23_recognize.

(* the same for the sorted variant *)
Theorem C23_recognize_sorted :
  forall (T : Type) (cmp : T -> T -> comparison), OrdLaws cmp ->
  forall (cells : list (list T)) p, (forall c, In c cells -> sorted_keys cmp c) -> part_new cmp cells = Some p ->
  forall shuffle, (forall l, Permutation (shuffle l) l) ->
  forall (H : max_heap (item (tstack (mdelem T)) (md_instr T) (bracket T) U8Weight * U8Weight) (wi_leb wleb)) (sort : T -> nat) (word : list (bracket T)),
  exists b : bool, (b = true <-> sorted_multiple_dyck cells sort word) /\
    exists F, forall fuel, F <= fuel -> md_recognize cmp shuffle H fuel (md_sorted cmp p sort) word = Some b.
Proof.
  intros T cmp OL cells p SC EP shuffle SH H sort word.
  destruct (C09_partition_cells cmp OL cells p SC EP) as (_ & PC & _).
  assert (CC : forall c, In c (part_collapse cmp p) <-> In c cells /\ c <> []).
  { intros c. split.
    - intros Hc. eapply Permutation_in in Hc; [|exact PC]. apply filter_In in Hc. destruct Hc as [H1 H2]. split; [assumption|]. intros ->. discriminate.
    - intros [H1 H2]. eapply Permutation_in; [apply Permutation_sym; exact PC|]. apply filter_In. split; [assumption|]. now destruct c. }
  destruct (recognize_gmd cmp OL shuffle SH H (part_collapse cmp p) (Some sort) word) as (b & B1 & B2).
  - intros c Hc. apply CC in Hc. eapply sorted_NoDup; [exact OL|]. now apply SC.
  - exists b. split; [|exact B2]. rewrite B1, <- gmd_sorted. split; apply gmd_cells; intros c N Hc; apply CC; auto.
Qed.
Print Assumptions C23_recognize_sorted.

(* recognize never returns a wrong answer, however few items it takes from the search *)
Corollary C23_recognize_unique :
  forall (T : Type) (cmp : T -> T -> comparison), OrdLaws cmp ->
  forall (cells : list (list T)) p, (forall c, In c cells -> sorted_keys cmp c) -> part_new cmp cells = Some p ->
  forall shuffle, (forall l, Permutation (shuffle l) l) ->
  forall (H : max_heap (item (tstack (mdelem T)) (md_instr T) (bracket T) U8Weight * U8Weight) (wi_leb wleb)) (word : list (bracket T)) fuel b,
  (md_recognize cmp shuffle H fuel (md_new cmp p) word = Some b -> (b = true <-> multiple_dyck cells word)) /\
  (forall sort, md_recognize cmp shuffle H fuel (md_sorted cmp p sort) word = Some b -> (b = true <-> sorted_multiple_dyck cells sort word)).
Proof.
  intros T cmp OL cells p SC EP shuffle SH H word fuel b. split.
  - intros E. destruct (C23_recognize T cmp OL cells p SC EP shuffle SH H word) as (b' & B1 & F & B2).
    pose proof (md_fuel _ _ _ _ _ _ _ E (F + fuel) ltac:(lia)) as E1. rewrite B2 in E1 by lia. injection E1 as <-. exact B1.
  - intros sort E. destruct (C23_recognize_sorted T cmp OL cells p SC EP shuffle SH H sort word) as (b' & B1 & F & B2).
    pose proof (md_fuel _ _ _ _ _ _ _ E (F + fuel) ltac:(lia)) as E1. rewrite B2 in E1 by lia. injection E1 as <-. exact B1.
Qed.
Print Assumptions C23_recognize_unique.

(* no instruction panics in a storage that is reached from the initial one, whatever instructions lead to it *)
Theorem C23_never_panics :
  forall (T : Type) (cmp : T -> T -> comparison) (us : list (transition (md_instr T) (bracket T) U8Weight)) s (i : md_instr T),
  executes (md_apply cmp) (ts_new MRoot) us s -> md_apply_p cmp i s <> None.
Proof.
  intros T cmp us s i E.
  assert (W : wf s).
  { assert (W0 : wf (ts_new (@MRoot T))) by now constructor. revert W0. induction E as [s0|s0 t ts s1 s' HA _ IH]; intros W; [assumption|]. apply IH. clear IH.
    unfold md_apply in HA. destruct (t_ins t) as [sy cell|pos sy cell|sy]; cbn [md_apply_p] in HA.
    - destruct (ts_push_next s0 _) as [t1|] eqn:P1; [|easy]. cbn in HA. destruct (ts_ups s0) as [l|] eqn:P2; [|easy]. destruct HA as [<-|HA].
      + unfold ts_push_next in P1. destruct (ts_push s0 _ _) eqn:P; [|discriminate]. injection P1 as <-. eapply wf_push; eauto.
      + apply in_flat_map in HA. destruct HA as (t2 & H1 & H2). unfold ts_ups in P2. rewrite (opt_all_In _ _ _ P2) in H1. destruct H1 as (j & _ & U).
        destruct (ts_up s0 j) as [t3|] eqn:U1; [|discriminate]. injection U as ->. apply wf_up in U1; [|assumption].
        unfold md_reenter in H2. destruct (ts_current_symbol t2) as [|[y|] R]; try easy. destruct (set_contains cmp sy R); [|easy]. destruct H2 as [<-|[]]. now apply wf_set.
    - destruct (ts_push_p s0 pos _) as [[t1|t1]|] eqn:P; [| |easy].
      + destruct HA as [<-|[]]. eapply wf_push; [exact W|]. unfold ts_push. rewrite P. reflexivity.
      + destruct (push_spec s0 pos (MNode (Some sy) (set_remove cmp sy cell))) as (_ & Q1 & Q2). unfold ts_push in Q1, Q2. rewrite P in Q1, Q2.
        destruct (child s0 pos) eqn:C; [|now specialize (Q1 eq_refl)]. specialize (Q2 ltac:(discriminate)). injection Q2 as ->.
        destruct (ts_up s0 pos) as [t2|] eqn:U; [|easy]. apply wf_up in U; [|assumption].
        unfold md_reenter in HA. destruct (ts_current_symbol t2) as [|[y|] R]; try easy. destruct (set_contains cmp sy R); [|easy]. destruct HA as [<-|[]]. now apply wf_set.
    - destruct (ts_current_symbol s0) as [|[y|] R]; try easy. destruct (negb (teq cmp sy y)); [easy|].
      destruct (ts_down_p (ts_set s0 (MNode None R))) as [[t1|t1]|] eqn:P; try easy. destruct HA as [<-|[]].
      eapply wf_down; [apply wf_set; exact W|]. unfold ts_down. rewrite P. reflexivity. }
  destruct i as [sy cell|pos sy cell|sy]; cbn [md_apply_p].
  - destruct (push_next_spec s (MNode (Some sy) (set_remove cmp sy cell))) as (j & t' & -> & _). cbn. destruct (ups_defined s) as (l & -> & _). discriminate.
  - destruct (push_spec s pos (MNode (Some sy) (set_remove cmp sy cell))) as (Q0 & Q1 & Q2). unfold ts_push in Q1, Q2.
    destruct (ts_push_p s pos _) as [[t1|t1]|]; [discriminate| |easy].
    destruct (child s pos) eqn:C; [|now specialize (Q1 eq_refl)]. specialize (Q2 ltac:(discriminate)). injection Q2 as ->. rewrite up_spec, C. discriminate.
  - destruct (ts_current_symbol s) as [|[y|] R]; try discriminate. destruct (negb (teq cmp sy y)); [discriminate|].
    pose proof (down_p_wf (ts_set s (MNode None R)) (wf_set _ _ W)) as D. destruct (ts_down_p _) as [[t1|t1]|]; [discriminate|discriminate|easy].
Qed.
Print Assumptions C23_never_panics.

(* ---- concrete cases ---- *)
Definition md_heap : max_heap (item (tstack (mdelem nat)) (md_instr nat) (bracket nat) U8Weight * U8Weight) (wi_leb wleb) := list_heap _ (wi_TO wleb (rl_order _ u8_laws)).
Definition md_part (cells : list (list nat)) := match part_new Nat.compare cells with Some p => p | None => [] end.
Definition nb (s : nat) (v : list (bracket nat)) : list (bracket nat) := Open s :: v ++ [Close s].
(* test in mod.rs: 1 and 2 form a cell, and so do 3 and 4; 1[3[]] 2[4[]] is recognised, 1[3[]] 2[] is not *)
Example C23_recognize_case :
  part_new Nat.compare [[1; 2]; [3; 4]] <> None /\
  md_recognize Nat.compare (fun l => l) md_heap 100 (md_new Nat.compare (md_part [[1; 2]; [3; 4]])) (nb 1 (nb 3 []) ++ nb 2 (nb 4 [])) = Some true /\
  md_recognize Nat.compare (fun l => l) md_heap 100 (md_new Nat.compare (md_part [[1; 2]; [3; 4]])) (nb 1 (nb 3 []) ++ nb 2 []) = Some false.
Proof. split; [discriminate|]. split; vm_compute; reflexivity. Qed.
(* both brackets of the cell have the same sort: recognised once per level only *)
Example C23_recognize_sorted_case :
  md_recognize Nat.compare (fun l => l) md_heap 100 (md_sorted Nat.compare (md_part [[1; 2]]) (fun _ => 0)) (nb 2 [] ++ nb 1 []) = Some true /\
  md_recognize Nat.compare (fun l => l) md_heap 100 (md_sorted Nat.compare (md_part [[1; 2]]) (fun s => s)) (nb 2 [] ++ nb 1 []) = Some false /\
  md_recognize Nat.compare (fun l => l) md_heap 100 (md_sorted Nat.compare (md_part [[1; 2]]) (fun _ => 0)) (nb 2 [] ++ nb 1 [] ++ nb 2 [] ++ nb 1 []) = Some false /\
  md_recognize Nat.compare (fun l => l) md_heap 100 (md_new Nat.compare (md_part [[1; 2]])) (nb 2 [] ++ nb 1 [] ++ nb 2 [] ++ nb 1 []) = Some true.
Proof. repeat split; vm_compute; reflexivity. Qed.

(* The multiple Dyck language is often defined as the class of the empty word under the equivalence generated by the
   cancellations.  The recogniser only cancels: with the cells {1,2,3} and {4,5}, the word 1[4] 1[444] 2[] 2[55] 3[] 3[55] is
   equivalent to the empty word, since inserting 1[] 2[4] 3[5] makes it cancel, but it is not recognised. *)
Definition eq_cells : list (list nat) := [[1; 2; 3]; [4; 5]].
Definition eq_word : list (bracket nat) := nb 1 (nb 4 []) ++ nb 1 (nb 4 [] ++ nb 4 [] ++ nb 4 []) ++ nb 2 [] ++ nb 2 (nb 5 [] ++ nb 5 []) ++ nb 3 [] ++ nb 3 (nb 5 [] ++ nb 5 []).
Definition eq_more : list (bracket nat) := nb 1 [] ++ nb 2 (nb 4 []) ++ nb 3 (nb 5 []) ++ eq_word.
Theorem C23_equivalence_refuted :
  exists p, part_new Nat.compare eq_cells = Some p /\ (forall c, In c eq_cells -> sorted_keys Nat.compare c) /\
    md_equiv eq_cells eq_word [] /\ ~ multiple_dyck eq_cells eq_word /\
    md_recognize Nat.compare (fun l => l) md_heap (300 * 1000) (md_new Nat.compare p) eq_word = Some false.
Proof.
  assert (SC : forall c, In c eq_cells -> sorted_keys Nat.compare c).
  { intros c [<-|[<-|[]]]; cbn; repeat split; intros x Hx; repeat (destruct Hx as [<-|Hx]; [reflexivity|]); easy. }
  assert (V : md_recognize Nat.compare (fun l => l) md_heap (300 * 1000) (md_new Nat.compare (md_part eq_cells)) eq_word = Some false) by (vm_compute; reflexivity).
  exists (md_part eq_cells). split; [reflexivity|]. split; [exact SC|]. split; [|split; [|exact V]].
  - assert (W : forall s v, dyck v -> dyck (nb s v)) by (intros; now apply dyck_wrap).
    assert (D2 : forall u v w, dyck u -> dyck v -> dyck w -> dyck (u ++ nb 4 v ++ w)) by (intros; repeat apply dyck_app; auto).
    (* 4[] 5[] cancels anywhere *)
    assert (C45 : forall u0 u1 u2, dyck u0 -> dyck u1 -> dyck u2 -> md_equiv eq_cells (u0 ++ nb 4 [] ++ u1 ++ nb 5 [] ++ u2) (u0 ++ u1 ++ u2)).
    { intros u0 u1 u2 X0 X1 X2. replace (u0 ++ nb 4 [] ++ u1 ++ nb 5 [] ++ u2) with (u0 ++ flat_map bracketed [(4, [], u1); (5, [], u2)]) by (cbn; now rewrite app_nil_r).
      replace (u0 ++ u1 ++ u2) with (u0 ++ flat_map outside [(4, @nil (bracket nat), u1); (5, [], u2)]) by (cbn; now rewrite app_nil_r).
      apply me_cancel with [4; 5]; cbn; auto; [|apply me_refl]. intros x [<-|[<-|[]]]; cbn; split; auto; constructor. }
    assert (C54 : forall u0 u1 u2, dyck u0 -> dyck u1 -> dyck u2 -> md_equiv eq_cells (u0 ++ nb 5 [] ++ u1 ++ nb 4 [] ++ u2) (u0 ++ u1 ++ u2)).
    { intros u0 u1 u2 X0 X1 X2. replace (u0 ++ nb 5 [] ++ u1 ++ nb 4 [] ++ u2) with (u0 ++ flat_map bracketed [(5, [], u1); (4, [], u2)]) by (cbn; now rewrite app_nil_r).
      replace (u0 ++ u1 ++ u2) with (u0 ++ flat_map outside [(5, @nil (bracket nat), u1); (4, [], u2)]) by (cbn; now rewrite app_nil_r).
      apply me_cancel with [4; 5]; cbn; auto; [constructor| |apply me_refl]. intros x [<-|[<-|[]]]; cbn; split; auto; constructor. }
    assert (C123 : forall v1 v2 v3 u0 u1 u2 u3, dyck v1 -> dyck v2 -> dyck v3 -> dyck u0 -> dyck u1 -> dyck u2 -> dyck u3 -> forall perm : bool,
       md_equiv eq_cells (v1 ++ v2 ++ v3) [] -> (if perm then md_equiv eq_cells (u0 ++ nb 1 v1 ++ u1 ++ nb 2 v2 ++ u2 ++ nb 3 v3 ++ u3) (u0 ++ u1 ++ u2 ++ u3)
         else md_equiv eq_cells (u0 ++ nb 2 v1 ++ u1 ++ nb 1 v2 ++ u2 ++ nb 3 v3 ++ u3) (u0 ++ u1 ++ u2 ++ u3))).
    { intros v1 v2 v3 u0 u1 u2 u3 Y1 Y2 Y3 X0 X1 X2 X3 perm E. destruct perm.
      - replace (u0 ++ nb 1 v1 ++ u1 ++ nb 2 v2 ++ u2 ++ nb 3 v3 ++ u3) with (u0 ++ flat_map bracketed [(1, v1, u1); (2, v2, u2); (3, v3, u3)]).
        2: { unfold nb. cbn. rewrite app_nil_r. repeat (rewrite <- app_assoc; cbn). reflexivity. }
        replace (u0 ++ u1 ++ u2 ++ u3) with (u0 ++ flat_map outside [(1, v1, u1); (2, v2, u2); (3, v3, u3)]) by (cbn; now rewrite app_nil_r).
        apply me_cancel with [1; 2; 3]; cbn; auto; [|now rewrite app_nil_r]. intros x [<-|[<-|[<-|[]]]]; cbn; auto.
      - replace (u0 ++ nb 2 v1 ++ u1 ++ nb 1 v2 ++ u2 ++ nb 3 v3 ++ u3) with (u0 ++ flat_map bracketed [(2, v1, u1); (1, v2, u2); (3, v3, u3)]).
        2: { unfold nb. cbn. rewrite app_nil_r. repeat (rewrite <- app_assoc; cbn). reflexivity. }
        replace (u0 ++ u1 ++ u2 ++ u3) with (u0 ++ flat_map outside [(2, v1, u1); (1, v2, u2); (3, v3, u3)]) by (cbn; now rewrite app_nil_r).
        apply me_cancel with [1; 2; 3]; cbn; auto; [constructor| |now rewrite app_nil_r]. intros x [<-|[<-|[<-|[]]]]; cbn; auto. }
    assert (D0 : dyck (@nil (bracket nat))) by constructor.
    assert (N4 : dyck (nb 4 [])) by auto. assert (N5 : dyck (nb 5 [])) by auto.
    assert (D3 : forall u v : list (bracket nat), dyck u -> dyck v -> dyck (u ++ v)) by (intros; now apply dyck_app).
    assert (E : md_equiv eq_cells eq_more eq_word).
    { apply (C123 [] (nb 4 []) (nb 5 []) [] [] [] eq_word D0 N4 N5 D0 D0 D0 ltac:(unfold eq_word; repeat (apply D3 || apply W); auto) true). apply (C45 [] [] []); auto. }
    apply me_sym in E. eapply me_trans; [exact E|].
    (* 1[] 2[] 3[] *)
    eapply me_trans.
    { apply (C123 [] [] [] [] (nb 2 (nb 4 []) ++ nb 3 (nb 5 []) ++ nb 1 (nb 4 []) ++ nb 1 (nb 4 [] ++ nb 4 [] ++ nb 4 [])) (nb 2 (nb 5 [] ++ nb 5 [])) (nb 3 (nb 5 [] ++ nb 5 []))
        D0 D0 D0 D0 ltac:(repeat (apply D3 || apply W); auto) ltac:(repeat (apply D3 || apply W); auto) ltac:(repeat (apply D3 || apply W); auto) true). apply me_refl. }
    (* 2[4] 1[4] 3[55] *)
    eapply me_trans.
    { apply (C123 (nb 4 []) (nb 4 []) (nb 5 [] ++ nb 5 []) [] (nb 3 (nb 5 [])) (nb 1 (nb 4 [] ++ nb 4 [] ++ nb 4 []) ++ nb 2 (nb 5 [] ++ nb 5 [])) []
        N4 N4 ltac:(auto) D0 ltac:(repeat (apply D3 || apply W); auto) ltac:(repeat (apply D3 || apply W); auto) D0 false).
      eapply me_trans; [apply (C45 (nb 4 []) [] (nb 5 [])); auto|]. apply (C45 [] [] []); auto. }
    (* 3[5] 1[444] 2[55] *)
    set (q := nb 3 (nb 5 []) ++ (nb 1 (nb 4 [] ++ nb 4 [] ++ nb 4 []) ++ nb 2 (nb 5 [] ++ nb 5 [])) ++ []).
    change q with ([] ++ flat_map bracketed [(3, nb 5 [], []); (1, nb 4 [] ++ nb 4 [] ++ nb 4 [], []); (2, nb 5 [] ++ nb 5 [], [])]).
    change (@nil (bracket nat)) with ([] ++ flat_map outside [(3, nb 5 [], []); (1, nb 4 [] ++ nb 4 [] ++ nb 4 [], []); (2, nb 5 [] ++ nb 5 [], [])]) at 5.
    apply me_cancel with [1; 2; 3]; auto.
    + cbn. auto.
    + cbn. apply (Permutation_cons_append [1; 2] 3).
    + intros x [<-|[<-|[<-|[]]]]; cbn [enclosed outside]; (split; [|exact D0]); [exact N5|now repeat apply D3|now repeat apply D3].
    + cbn [flat_map enclosed]. rewrite app_nil_r. eapply me_trans; [apply (C54 [] [] (nb 4 [] ++ nb 4 [] ++ nb 5 [] ++ nb 5 [])); auto|].
      eapply me_trans; [apply (C45 (nb 4 []) [] (nb 5 [])); auto|]. apply (C45 [] [] []); auto.
  - intros M. destruct (C23_recognize_unique nat Nat.compare nat_ord eq_cells (md_part eq_cells) SC eq_refl (fun l => l) (fun l => Permutation_refl l) md_heap eq_word (300 * 1000) false) as [Q _].
    apply (Q V) in M. discriminate.
Qed.
Print Assumptions C23_equivalence_refuted.

