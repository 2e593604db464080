(* C48: coarse-to-fine recognisers with several approximation strategies. *)
From Verif Require Import Base M_Agenda M_Search M_Util M_Recog M_Automata M_TreeStack M_CSAuto M_CSParse M_Chart M_Approx M_Stacked
  S_Search S_Util S_Recog S_Automata S_TreeStack S_Approx S_Stacked P_Agenda P_Util P_Recog P_Automata P_PDA P_TreeStack P_TSA P_Chart P_CSParse P_Approx P_Stacked
  Properties_Automata Properties_TreeStack Properties_Chart Properties_Approx.
Arguments Nat.ltb : simpl never. Arguments Nat.eqb : simpl never.

(* What a recogniser with at least one relabelling returns, whatever the number of strategies: accepting runs of the fine
   automaton on the word, each once, all of the same weight; they are best runs if adding weights never yields less than a
   summand and no transition of the coarsest automaton weighs more than one.  They are exactly the runs whose image, weights
   included, is the first run the recogniser for the remaining strategies returns.  If the search of the coarsest automaton
   finds a run or ends within the fuel, the iterator answers every call; if it ends without one, the answers are None and the
   word has no run.
   Missing for the full claim: that some run is returned when there is one (see C48_lost_refuted). *)
Theorem C48_relabel_stack_partial :
  forall (A B T : Type) (K : Weight) (wadd : K -> K -> K) (wzero : K) (aeqb : A -> A -> bool) (teqb : T -> T -> bool),
  EqbSpec aeqb -> EqbSpec teqb -> RoundLaws K ->
  forall (lv : rlb_level A B T K) (L : levels T K B), proper_level lv -> proper_levels L ->
  forall (ts : list (transition (pd_instr A) T K)) (initial : list A) M, pda_new wadd wzero aeqb teqb ts initial = Some M ->
  forall shuffle, (forall l, Permutation (shuffle l) l) -> forall (H : max_heap (item (list nat) (pd_instr nat) nat K * K) (wi_leb wleb)) (fuel : nat) (word : list T),
  let accepted us s := accepting_run (pdi_apply aeqb) initial (pda_has M) (fun s => length s = 1) word us s in
  let coarsest := fun (P : forall Z, pda Z T K -> Prop) => at_coarsest wadd wzero teqb P (Finer lv L) M in
  let found n := coarsest (fun Z Mz => exists c rest, pda_recognise teqb shuffle Mz H word n = Some (c :: rest)) in
  let over n := coarsest (fun Z Mz => pda_recognise teqb shuffle Mz H word n = Some [] /\
                            recognise_ended (pda_automaton shuffle Mz) H (opt_all (int_find_key teqb (pa_t Mz)) word) n) in
  exists M2 m sub src outs,
    rlb_approximate wadd wzero (lv_eqb lv) teqb (lv_order lv) (lv_map lv) M = Some (M2, m) /\
    pda_stack wadd wzero teqb shuffle H fuel L (lv_eqb lv) M2 word = Some sub /\
    pda_stack wadd wzero teqb shuffle H fuel (Finer lv L) aeqb M word = Some src /\
    (* whatever is answered is this list, then None *)
    (forall n os, so_run src n = Some os -> os = map (nth_error outs) (seq 0 n)) /\
    enum_sound (pdi_apply aeqb) initial (pda_has M) (fun s => length s = 1) word outs /\
    NoDup (map snd outs) /\
    (forall x y, In x outs -> In y outs -> item_weight x = item_weight y) /\
    (sum_dominates wadd -> coarsest (fun Z Mz => forall t, pda_has Mz t -> wleb (t_weight t) wone = true) ->
       forall conf r, In (conf, r) outs -> best_run (pdi_apply aeqb) initial (pda_has M) (fun s => length s = 1) word (pd_to_vec r) (c_storage conf)) /\
    (forall c, so_run sub 1 = Some [Some c] -> 2 <= fuel ->
       forall us s, accepted us s -> (In (Conf [] s (run_weight us), pd_from us) outs <-> exact_image (relabelled (lv_map lv)) us (pd_to_vec (snd c)))) /\
    (forall k, found k \/ over k -> k <= fuel -> 2 <= fuel -> forall n, exists os, so_run src n = Some os) /\
    (forall k, over k -> k <= fuel -> 2 <= fuel -> outs = [] /\ forall us s, ~ accepted us s).
Proof.
  intros A B T K wadd wzero aeqb teqb AE TE KL lv L PV PL ts initial M HM shuffle SH H fuel word accepted coarsest found over.
  destruct PV as (BE & HO & HP & IW).
  destruct (rlb_defined wadd wzero aeqb (lv_eqb lv) teqb AE BE TE (lv_map lv) (lv_order lv) ts initial M HO HM) as (M2 & m & l & E & ND & IL & HM2 & BK).
  destruct (stack_spec KL wadd wzero teqb TE shuffle SH H fuel L (lv_eqb lv) BE _ _ M2 word PL HM2) as (sub & ES & F).
  assert (AT1 : forall P : forall Z, pda Z T K -> Prop, coarsest P <-> at_coarsest wadd wzero teqb P L M2).
  { intros P. unfold coarsest. cbn [at_coarsest]. rewrite E. split; [intros X; exact (X M2 m eq_refl)|]. intros X M3 m0 EE. injection EE as <- _. exact X. }
  assert (IL' : forall t, In t l <-> pda_has M t) by (intros t; rewrite IL; symmetry; apply (pda_has_merged wadd wzero aeqb teqb AE TE ts initial M t HM)).
  assert (FIN : forall s s2, s2 = map (lv_map lv) s -> (length s2 = 1 <-> length s = 1)) by (intros s s2 ->; now rewrite map_length).
  destruct (stack_step KL wadd wzero teqb TE fuel (lv_eqb lv) BE (pdi_apply aeqb) initial (fun s => length s = 1) (rlb_ins (lv_map lv)) (fun s s2 => s2 = map (lv_map lv) s)
             (fun i s s' s2 => rlb_hom aeqb (lv_eqb lv) AE BE (lv_map lv) i s s' s2) FIN l (pda_has M) IL' m (BK KL) (map (lv_map lv) initial) eq_refl M2 HM2
             (lv_heap_order lv) HP (lv_leb lv) (lv_heap lv) IW sub word _ _ _ F) as [(_ & _ & X3) (outs & G1 & G2 & G3 & G4 & G5 & G6 & G7 & G8)].
  eexists M2, m, sub, _, outs. split; [exact E|]. split; [exact ES|].
  split; [cbn [pda_stack]; rewrite E, (proj1 (C41_pda_merges A T K wadd wzero aeqb teqb AE TE ts initial M HM)), ES; reflexivity|].
  split; [exact G1|]. split; [exact G2|]. split; [apply G3; [intros; apply pdi_apply_det|exact ND]|]. split; [exact G4|].
  split; [intros SD LI; apply (G6 SD); now apply AT1|]. split; [exact G5|].
  split; [intros k X; apply (G7 k); destruct X as [X|X]; [left|right]; now apply AT1|].
  intros k X L1 L2. apply AT1 in X. split; [exact (G8 k X L1 L2)|]. exact (proj2 (X3 k X L1 L2)).
Qed.
Print Assumptions C48_relabel_stack_partial.

(* The same for a tree stack automaton that is approximated by a pushdown automaton, which may then be relabelled any number
   of times. *)
Theorem C48_tts_stack_partial :
  forall (A T : Type) (K : Weight) (wadd : K -> K -> K) (wzero : K) (aeqb : A -> A -> bool) (teqb : T -> T -> bool),
  EqbSpec aeqb -> EqbSpec teqb -> RoundLaws K ->
  forall order, (forall l, Permutation (order l) l) -> forall heap_order, (forall l, Permutation (heap_order l) l) ->
  forall ileb (OH : max_heap (item (tstack A) (ts_instr A) T K) ileb), (forall a b, ileb a b = true -> wleb (item_weight a) (item_weight b) = true) ->
  forall L : levels T K A, proper_levels L ->
  forall (ts : list (transition (ts_instr A) T K)) (initial : tstack A), built initial ->
  forall shuffle, (forall l, Permutation (shuffle l) l) -> forall (H : max_heap (item (list nat) (pd_instr nat) nat K * K) (wi_leb wleb)) (fuel : nat) (word : list T),
  let M := tsa_new aeqb teqb ts initial in
  let final (s : tstack A) := ts_is_at_bottom s = true in
  let accepted us s := accepting_run (tsi_apply aeqb) initial (fun t => In t ts) final word us s in
  exists M2 m sub src outs,
    tts_approximate wadd wzero aeqb teqb order M = Some (M2, m) /\
    pda_stack wadd wzero teqb shuffle H fuel L aeqb M2 word = Some sub /\
    tsa_stack wadd wzero teqb shuffle H fuel L aeqb order heap_order ileb OH M word = Some src /\
    let coarsest := fun (P : forall Z, pda Z T K -> Prop) => at_coarsest wadd wzero teqb P L M2 in
    let found n := coarsest (fun Z Mz => exists c rest, pda_recognise teqb shuffle Mz H word n = Some (c :: rest)) in
    let over n := coarsest (fun Z Mz => pda_recognise teqb shuffle Mz H word n = Some [] /\
                              recognise_ended (pda_automaton shuffle Mz) H (opt_all (int_find_key teqb (pa_t Mz)) word) n) in
    (forall n os, so_run src n = Some os -> os = map (nth_error outs) (seq 0 n)) /\
    enum_sound (tsi_apply aeqb) initial (fun t => In t ts) final word outs /\
    (NoDup ts -> NoDup (map snd outs)) /\
    (forall x y, In x outs -> In y outs -> item_weight x = item_weight y) /\
    (sum_dominates wadd -> coarsest (fun Z Mz => forall t, pda_has Mz t -> wleb (t_weight t) wone = true) ->
       forall conf r, In (conf, r) outs -> best_run (tsi_apply aeqb) initial (fun t => In t ts) final word (pd_to_vec r) (c_storage conf)) /\
    (forall c, so_run sub 1 = Some [Some c] -> 2 <= fuel ->
       forall us s, accepted us s -> (In (Conf [] s (run_weight us), pd_from us) outs <-> exact_image path_instr us (pd_to_vec (snd c)))) /\
    (forall k, found k \/ over k -> k <= fuel -> 2 <= fuel -> forall n, exists os, so_run src n = Some os) /\
    (forall k, over k -> k <= fuel -> 2 <= fuel -> outs = [] /\ forall us s, ~ accepted us s).
Proof.
  intros A T K wadd wzero aeqb teqb AE TE KL order HO heap_order HP ileb OH IW L PL ts initial BU shuffle SH H fuel word M final accepted. pose proof (built_wf initial BU) as W.
  destruct (tts_defined wadd wzero aeqb teqb AE TE order ts initial HO W) as (M2 & m & l & E & LP & HM2 & BK).
  assert (IL : forall t, In t l <-> In t ts) by (intros t; split; apply Permutation_in; [|symmetry]; assumption).
  destruct (stack_spec KL wadd wzero teqb TE shuffle SH H fuel L aeqb AE _ _ M2 word PL HM2) as (sub & ES & F).
  assert (FIN : forall (s : tstack A) (s2 : list A), wf s /\ s2 = spine s -> (length s2 = 1 <-> final s)) by (intros s s2 [_ ->]; symmetry; apply spine_bottom).
  destruct (stack_step KL wadd wzero teqb TE fuel aeqb AE (tsi_apply aeqb) initial final tts_ins (fun s s2 => wf s /\ s2 = spine s)
             (tts_hom aeqb AE) FIN l (fun t => In t ts) IL m (BK KL) (spine initial) (conj W eq_refl) M2 HM2
             heap_order HP ileb OH IW sub word _ _ _ F) as [(_ & _ & X3) (outs & G1 & G2 & G3 & G4 & G5 & G6 & G7 & G8)].
  eexists M2, m, sub, _, outs. split; [exact E|]. split; [exact ES|].
  split; [unfold tsa_stack, M; rewrite E, (proj1 (C14_tsa_reads_back A T K aeqb teqb AE TE ts initial)), ES; reflexivity|]. cbv zeta.
  split; [exact G1|]. split; [exact G2|]. split; [intros N; apply G3; [intros; apply tsi_det|eapply Permutation_NoDup; [symmetry; exact LP|assumption]]|]. split; [exact G4|].
  split; [exact G6|]. split; [exact G5|]. split; [exact G7|].
  intros k X L1 L2. split; [exact (G8 k X L1 L2)|]. exact (proj2 (X3 k X L1 L2)).
Qed.
Print Assumptions C48_tts_stack_partial.

(* ---- concrete cases ---- *)
(* costs with their minimum as sum *)
Definition trop_min (x y : TropWeight) : TropWeight := match x, y with Some a, Some b => Some (Nat.min a b) | Some a, None => Some a | None, y => y end.
Lemma trop_min_dominates : sum_dominates (K := TropWeight) trop_min.
Proof.
  intros [a|] [b|]; cbn; split; try reflexivity; apply Nat.leb_le; lia.
Qed.
Definition stack_heap : max_heap (item (list nat) (pd_instr nat) nat TropWeight * TropWeight) (wi_leb wleb) := list_heap _ (wi_TO wleb (rl_order _ (zl_weight _ TropLaws))).
Definition stack_level (f : nat -> nat) : rlb_level nat nat nat TropWeight := Level Nat.eqb f (fun l => l) (fun l => l) by_weight (list_heap _ (by_weight_TO (zl_weight _ TropLaws))).
Lemma stack_level_proper f : proper_level (stack_level f).
Proof. split; [exact nat_eqb_spec|]. split; [intros; reflexivity|]. split; [intros; reflexivity|]. intros a b Hab. exact Hab. Qed.
Definition st_tr (t c : nat) (from to : list nat) : transition (pd_instr nat) nat TropWeight := Trans (K:=TropWeight) [t] (Some c) (Replace from to).
Definition st_pda (ts : list (transition (pd_instr nat) nat TropWeight)) : pda nat nat TropWeight := match pda_new (K:=TropWeight) trop_min wzero Nat.eqb Nat.eqb ts [7] with Some M => M | None => PDA [] [] [] [] end.

(* two runs on [0; 1], at costs 4 and 3 *)
Definition ex_paths : list (transition (pd_instr nat) nat TropWeight) := [st_tr 0 1 [7] [8]; st_tr 0 2 [7] [9]; st_tr 1 3 [8] [6]; st_tr 1 1 [9] [6]].
(* through two relabellings the cheaper one is found, and only that *)
Example C48_example :
  let L := Finer (stack_level (fun a => 2 * a)) (Finer (stack_level (fun a => a + 1)) Coarsest) in
  pda_new (K:=TropWeight) trop_min wzero Nat.eqb Nat.eqb ex_paths [7] = Some (st_pda ex_paths) /\
  proper_levels L /\ sum_dominates (K := TropWeight) trop_min /\
  at_coarsest (K:=TropWeight) trop_min wzero Nat.eqb (fun Z Mz => (forall t, pda_has Mz t -> wleb (t_weight t) wone = true) /\
     exists c rest, pda_recognise Nat.eqb (fun l => l) Mz stack_heap [0;1] 20 = Some (c :: rest)) L (st_pda ex_paths) /\
  match pda_stack (K:=TropWeight) trop_min wzero Nat.eqb (fun l => l) stack_heap 20 L Nat.eqb (st_pda ex_paths) [0;1] with Some src => so_run src 3 | None => None end
    = Some [Some (Conf [] [6] (Some 3 : TropWeight), pd_from [st_tr 0 2 [7] [9]; st_tr 1 1 [9] [6]]); None; None].
Proof.
  cbv zeta. split; [reflexivity|]. split; [repeat (split; [apply stack_level_proper|]); exact I|]. split; [exact trop_min_dominates|]. split.
  - cbn [at_coarsest]. intros M2 m E2 M3 m3 E3. vm_compute in E2. injection E2 as <- <-. vm_compute in E3. injection E3 as <- <-. split.
    + intros t (l & El & Hin). vm_compute in El. injection El as <-. cbn in Hin. repeat (destruct Hin as [<-|Hin]; [reflexivity|]). destruct Hin.
    + do 2 eexists. vm_compute. reflexivity.
  - vm_compute. reflexivity.
Qed.

(* the tree stack automaton for a^n b^n c^n d^n through its pushdown approximation and a relabelling of that *)
Example C48_tts_example :
  let lv : rlb_level nat nat nat CostWeight := Level Nat.eqb (fun a => a + 1) (fun l => l) (fun l => l) by_weight (list_heap _ (by_weight_TO cost_laws)) in
  proper_levels (Finer lv Coarsest) /\ built (ts_new 100) /\
  match tsa_stack (K:=CostWeight) Nat.add 0 Nat.eqb (fun l => l) ex_pda_heap 40 (Finer lv Coarsest) Nat.eqb (fun l => l) (fun l => l) by_weight ex_tsa_out ex_tsa [0;1;2;3] with
  | Some src => match so_run src 2 with Some [Some (c, r); None] => run_word (pd_to_vec r) = [0;1;2;3] /\ length (pd_to_vec r) = 8 | _ => False end
  | None => False
  end.
Proof.
  cbv zeta. split; [split; [|exact I]; split; [exact nat_eqb_spec|]; split; [intros; reflexivity|]; split; [intros; reflexivity|]; intros a b Hab; exact Hab|].
  split; [constructor|]. vm_compute. auto.
Qed.

(* Nothing is returned for a word that has a run, although nothing is merged, adding is taking the better weight and no weight
   exceeds one: the best run of the coarsest automaton has no counterpart in the finer ones.  So the recogniser does not
   return the run that the fine automaton returns by itself. *)
Definition ex_spurious : list (transition (pd_instr nat) nat TropWeight) := [st_tr 0 1 [7] [8]; st_tr 1 3 [8] [6]; st_tr 1 1 [9] [10]].
Definition ex_merge89 (a : nat) : nat := if Nat.eqb a 8 || Nat.eqb a 9 then 5 else a.
Theorem C48_lost_refuted :
  let L := Finer (stack_level (fun a => a)) (Finer (stack_level ex_merge89) Coarsest) in
  let M := st_pda ex_spurious in
  let run := [st_tr 0 1 [7] [8]; st_tr 1 3 [8] [6]] in
  pda_new (K:=TropWeight) trop_min wzero Nat.eqb Nat.eqb ex_spurious [7] = Some M /\
  proper_levels L /\ sum_dominates (K := TropWeight) trop_min /\
  (forall t t', In t ex_spurious -> In t' ex_spurious -> t_word t = t_word t' -> relabelled ex_merge89 (t_ins t) = relabelled ex_merge89 (t_ins t') -> t = t') /\
  accepting_run (pdi_apply Nat.eqb) [7] (pda_has M) (fun s => length s = 1) [0;1] run [6] /\
  pda_recognise Nat.eqb (fun l => l) M stack_heap [0;1] 20 = Some [(Conf [] [6] (Some 4 : TropWeight), pd_from run)] /\
  exists src, pda_stack (K:=TropWeight) trop_min wzero Nat.eqb (fun l => l) stack_heap 20 L Nat.eqb M [0;1] = Some src /\ forall n, so_run src n = Some (repeat None n).
Proof.
  cbv zeta. split; [reflexivity|]. assert (PL : proper_levels (Finer (stack_level (fun a => a)) (Finer (stack_level ex_merge89) Coarsest))) by (repeat (split; [apply stack_level_proper|]); exact I).
  split; [exact PL|]. split; [exact trop_min_dominates|]. split; [|split; [|split]].
  - intros t t' Ht Ht'. destruct Ht as [<-|[<-|[<-|[]]]], Ht' as [<-|[<-|[<-|[]]]]; intros H1 H2; try reflexivity; try discriminate H1; vm_compute in H2; discriminate H2.
  - split; [|split; [|split; reflexivity]].
    + econstructor; [cbn; left; reflexivity|]. econstructor; [cbn; left; reflexivity|]. constructor.
    + intros t Ht. eexists. split; [vm_compute; reflexivity|]. cbn in Ht |- *. tauto.
  - vm_compute. reflexivity.
  - destruct (C48_relabel_stack_partial nat nat nat TropWeight trop_min wzero Nat.eqb Nat.eqb nat_eqb_spec nat_eqb_spec (zl_weight _ TropLaws) (stack_level (fun a => a)) (Finer (stack_level ex_merge89) Coarsest)
                (proj1 PL) (proj2 PL) ex_spurious [7] (st_pda ex_spurious) eq_refl (fun l => l) (fun l => Permutation_refl l) stack_heap 20 [0;1])
      as (M2 & m & sub & src & outs & E1 & E2 & E3 & G1 & G2 & _ & _ & _ & _ & G7 & _).
    exists src. split; [exact E3|].
    assert (TOT : forall n, exists os, so_run src n = Some os).
    { apply (G7 20); [|lia|lia]. left. intros M4 m4 X4 M5 m5 X5. vm_compute in X4. injection X4 as <- <-. vm_compute in X5. injection X5 as <- <-. do 2 eexists. vm_compute. reflexivity. }
    assert (V : match pda_stack (K:=TropWeight) trop_min wzero Nat.eqb (fun l => l) stack_heap 20 (Finer (stack_level (fun a => a)) (Finer (stack_level ex_merge89) Coarsest)) Nat.eqb (st_pda ex_spurious) [0;1]
                with Some src => so_run src 1 | None => None end = Some [None]) by (vm_compute; reflexivity).
    rewrite E3 in V. specialize (G1 1 _ V) as G0. destruct outs as [|o outs]; [|discriminate].
    intros n. destruct (TOT n) as [os E]. rewrite E. f_equal. rewrite (G1 n os E). generalize 0. clear. induction n as [|n IH]; intros a; cbn; [reflexivity|]. rewrite IH. now destruct a.
Qed.
Print Assumptions C48_lost_refuted.
