(* C14, C15, C16, C40, C41: finite state and pushdown automata through their public interface. *)
From Verif Require Import Base M_Agenda M_Search M_Util M_Recog M_Automata M_CFG S_Search S_Util S_Recog S_Automata S_CFG
  P_Agenda P_Search P_Util P_Recog P_Automata P_PDA P_CFG.
Arguments Nat.ltb : simpl never.

Lemma recognise_beam_with_int {S I T} (a : automaton) tti (im : _ -> option (item S I T (au_K a))) H beam word n outs :
  recognise_beam_with a tti im H beam word n = Some outs -> exists o, recognise_beam_int a H beam (opt_all tti word) n = Some o.
Proof. unfold recognise_beam_with. destruct (recognise_beam_int a H beam (opt_all tti word) n); [eauto|discriminate]. Qed.

(* ================= finite state automata ================= *)
Section FSAProps.
  Context {Q T : Type} {K : Weight} (qeqb : Q -> Q -> bool) (teqb : T -> T -> bool) (QE : EqbSpec qeqb) (TE : EqbSpec teqb)
          (KL : RoundLaws K) (ts : list (transition (fs_instr Q) T K)) (initial : Q) (finals : list Q)
          (shuffle : list (transition (fs_instr nat) nat K) -> list (transition (fs_instr nat) nat K))
          (SH : forall l, Permutation (shuffle l) l).
  Notation M := (fsa_new qeqb teqb ts initial finals).

  Lemma fsa_total H word n : exists outs, recognise_int (fsa_automaton shuffle M) H (opt_all (int_find_key teqb (fa_t M)) word) n = Some outs.
  Proof. eapply (coded_defined _ _ _ _ _ _ _ _ _ _ _ _ _ (fsa_coded qeqb teqb QE TE ts initial finals shuffle SH) KL). intros; discriminate. Qed.

  Lemma fs_exec_path us : forall p w q, fs_path ts p w us q <-> executes (fs_apply qeqb) p us q /\ (forall t, In t us -> In t ts) /\ run_word us = w.
  Proof.
    induction us as [|t us IH]; intros p w q.
    - split.
      + intros P. inversion P; subst. split; [constructor|]. split; [intros t []|reflexivity].
      + intros (E & _ & <-). inversion E; subst. constructor.
    - split.
      + intros P. inversion P as [|? q1 w1 v wt ? ? H1 H2]; subst. apply IH in H2. destruct H2 as (E & A & <-). split; [|split].
        * econstructor; [|exact E]. cbn. unfold fs_apply. cbn. replace (qeqb p p) with true by (symmetry; now apply QE). now left.
        * intros t [<-|Ht]; auto.
        * reflexivity.
      + intros (E & A & <-). inversion E as [|? ? ? s1 ? H1 H2]; subst. unfold fs_apply in H1.
        destruct (qeqb (fs_source (t_ins t)) p) eqn:Z; [|destruct H1]. destruct H1 as [<-|[]]. apply QE in Z. subst p.
        destruct t as [tw tk [a b]]. cbn in *. change (run_word (Trans tw tk (FSI a b) :: us)) with (tw ++ run_word us).
        constructor; [apply A; now left|]. apply IH. split; [assumption|]. split; [|reflexivity]. intros; apply A; now right.
  Qed.

  Lemma nonempty_run : (forall t, In t ts -> t_word t <> []) -> forall us : list (transition (fs_instr Q) T K),
    (forall t, In t us -> In t ts) -> length us <= length (run_word us).
  Proof.
    intros NE us A. induction us as [|t us IH]; [cbn; lia|]. unfold run_word in *. cbn. rewrite app_length.
    assert (length (t_word t) <> 0) by (intros Z; apply (NE t); [apply A; now left|now apply length_zero_iff_nil]).
    assert (length us <= length (flat_map t_word us)) by (apply IH; intros; apply A; now right). cbn [length]. lia.
  Qed.
End FSAProps.

(* C14 for finite state automata.  The automaton stores numbers; seen from outside it enumerates the accepting runs over the
   original states, symbols and transitions. *)
Theorem C14_fsa_recognise :
  forall (Q T : Type) (K : Weight) (qeqb : Q -> Q -> bool) (teqb : T -> T -> bool), EqbSpec qeqb -> EqbSpec teqb -> RoundLaws K ->
  forall (ts : list (transition (fs_instr Q) T K)) (initial : Q) (finals : list Q) shuffle, (forall l, Permutation (shuffle l) l) ->
  forall H (word : list T) (n : nat),
  let M := fsa_new qeqb teqb ts initial finals in
  let tr t := In t ts in let final q := In q finals in
  exists outs, fsa_recognise teqb shuffle M H word n = Some outs /\
    enum_sound (fs_apply qeqb) initial tr final word outs /\
    ((forall t, In t ts -> wleb (t_weight t) wone = true) -> enum_best_first (fs_apply qeqb) initial tr final word outs) /\
    (recognise_ended (fsa_automaton shuffle M) H (opt_all (int_find_key teqb (fa_t M)) word) n ->
       enum_exhaustive (fs_apply qeqb) initial tr final word outs) /\
    (NoDup ts -> NoDup (map snd outs)) /\
    ((exists x, In x word /\ forall t, In t ts -> ~ In x (t_word t)) -> outs = []).
Proof.
  intros Q T K qeqb teqb QE TE KL ts initial finals shuffle SH H word n M tr final.
  destruct (fsa_total qeqb teqb QE TE KL ts initial finals shuffle SH H word n) as [outs R].
  destruct (coded_recognise _ _ _ _ _ _ _ _ _ _ _ _ _ (fsa_coded qeqb teqb QE TE ts initial finals shuffle SH) KL H word n outs R)
    as (outs' & E1 & E2 & E3 & E4 & E5 & _).
  exists outs'. split; [exact E1|]. split; [exact E2|]. split; [exact E3|]. split; [exact E4|]. split.
  - intros N. apply E5. now apply fsa_det.
  - intros (x & Hx & Hn). destruct outs' as [|[c r] outs']; [reflexivity|]. exfalso.
    destruct (E2 c r (or_introl eq_refl)) as [(A1 & A2 & A3 & A4) _]. rewrite <- A3 in Hx. unfold run_word in Hx. apply in_flat_map in Hx.
    destruct Hx as (t & Ht & Hx). apply (Hn t); [now apply A2|assumption].
Qed.
Print Assumptions C14_fsa_recognise.

Theorem C14_fsa_recognise_beam :
  forall (Q T : Type) (K : Weight) (qeqb : Q -> Q -> bool) (teqb : T -> T -> bool), EqbSpec qeqb -> EqbSpec teqb -> RoundLaws K ->
  forall (ts : list (transition (fs_instr Q) T K)) (initial : Q) (finals : list Q) shuffle, (forall l, Permutation (shuffle l) l) ->
  forall H beam (word : list T) (n : nat),
  exists outs, fsa_recognise_beam teqb shuffle (fsa_new qeqb teqb ts initial finals) H beam word n = Some outs /\
    enum_sound (fs_apply qeqb) initial (fun t => In t ts) (fun q => In q finals) word outs.
Proof.
  intros Q T K qeqb teqb QE TE KL ts initial finals shuffle SH H beam word n.
  pose proof (fsa_coded qeqb teqb QE TE ts initial finals shuffle SH) as CD.
  destruct (coded_defined_beam _ _ _ _ _ _ _ _ _ _ _ _ _ CD KL H beam word n) as [outs R]; [intros; discriminate|].
  destruct (coded_recognise_beam _ _ _ _ _ _ _ _ _ _ _ _ _ CD KL H beam word n outs R) as (outs' & E1 & E2 & _).
  exists outs'. auto.
Qed.
Print Assumptions C14_fsa_recognise_beam.

(* C14: initial() and list_transitions() give back what the automaton was made of *)
Theorem C14_fsa_reads_back :
  forall (Q T : Type) (K : Weight) (qeqb : Q -> Q -> bool) (teqb : T -> T -> bool), EqbSpec qeqb -> EqbSpec teqb ->
  forall (ts : list (transition (fs_instr Q) T K)) (initial : Q) (finals : list Q),
  fsa_initial (fsa_new qeqb teqb ts initial finals) = Some initial /\
  exists l, fsa_list_transitions (fsa_new qeqb teqb ts initial finals) = Some l /\ Permutation l ts.
Proof.
  intros Q T K qeqb teqb QE TE ts initial finals.
  destruct (fsa_new_spec qeqb teqb QE TE ts initial finals) as (HI & HIe & _ & _ & HT & _).
  split; [unfold fsa_initial; rewrite HIe; now apply enc_In|].
  assert (P : Permutation (flat_map snd (fa_map (fsa_new qeqb teqb ts initial finals)))
                (map (eTrL teqb (fe qeqb) (fa_t (fsa_new qeqb teqb ts initial finals)) (fa_q (fsa_new qeqb teqb ts initial finals))) ts)).
  { clear HI HIe HT. unfold fsa_new. destruct (int_integerise qeqb [] initial) as [q1 init]. destruct (int_list qeqb q1 finals) as [q2 fin].
    pose proof (trs_int_spec teqb TE (fsi_integerise qeqb) fk (fe qeqb) (fsi_LI qeqb QE) (fsi_LE qeqb QE) ts [] q2) as H3.
    destruct (trs_integerise teqb (fsi_integerise qeqb) [] q2 ts) as [[lt lq] ts']. destruct H3 as (_ & _ & _ & C2).
    cbn [fa_q fa_t fa_map]. rewrite <- C2. clear C2.
    assert (PU : forall k (x : transition (fs_instr nat) nat K) m, Permutation (flat_map snd (hm_push k x m)) (x :: flat_map snd m)).
    { clear. intros k x m. induction m as [|[k' v] m IH]; cbn; [reflexivity|]. destruct (Nat.eqb k k'); cbn; [reflexivity|].
      rewrite IH. symmetry. apply Permutation_middle. }
    assert (G : forall l (m : list (nat * list (transition (fs_instr nat) nat K))),
               Permutation (flat_map snd (fold_left (fun m t => hm_push (fs_source (t_ins t)) t m) l m)) (l ++ flat_map snd m)).
    { clear -PU. induction l as [|t l IH]; intros m; cbn [fold_left app]; [reflexivity|]. rewrite IH, PU. symmetry. apply Permutation_middle. }
    rewrite G. cbn. now rewrite app_nil_r. }
  unfold fsa_list_transitions. set (m := fsa_new qeqb teqb ts initial finals) in *. clearbody m.
  apply Permutation_map_inv in P. destruct P as (l & El & Pl). exists l. split; [|now symmetry].
  rewrite El. apply opt_all_id. intros t Ht. apply (tr_un_enc teqb TE fsi_un_integerise fk (fe qeqb) (fsi_LU qeqb QE)).
  apply HT. eapply Permutation_in; [symmetry; exact Pl|exact Ht].
Qed.
Print Assumptions C14_fsa_reads_back.

(* C40 *)
Theorem C40_fsa_language :
  forall (Q T : Type) (K : Weight) (qeqb : Q -> Q -> bool) (teqb : T -> T -> bool), EqbSpec qeqb -> EqbSpec teqb -> RoundLaws K ->
  forall (ts : list (transition (fs_instr Q) T K)) (initial : Q) (finals : list Q) shuffle, (forall l, Permutation (shuffle l) l) ->
  forall H (word : list T),
  let M := fsa_new qeqb teqb ts initial finals in
  (* whatever is returned is a path to a final state labelled with the word *)
  (forall n outs conf run, fsa_recognise teqb shuffle M H word n = Some outs -> In (conf, run) outs ->
     In (c_storage conf) finals /\ fs_path ts initial word (pd_to_vec run) (c_storage conf) /\
     c_weight conf = run_weight (pd_to_vec run)) /\
  (* without empty transitions the enumeration is finite and contains all such paths *)
  ((forall t, In t ts -> t_word t <> []) ->
     exists n outs, fsa_recognise teqb shuffle M H word n = Some outs /\
       forall run q, In q finals -> fs_path ts initial word run q -> In (Conf [] q (run_weight run), pd_from run) outs).
Proof.
  intros Q T K qeqb teqb QE TE KL ts initial finals shuffle SH H word M. split.
  - intros n outs conf run E Hi. destruct (C14_fsa_recognise Q T K qeqb teqb QE TE KL ts initial finals shuffle SH H word n) as (outs' & E' & S & _).
    fold M in E'. rewrite E in E'. injection E' as <-. destruct (S conf run Hi) as ((A1 & A2 & A3 & A4) & B1 & B2).
    split; [assumption|]. split; [|assumption]. apply (fs_exec_path qeqb QE). auto.
  - intros NE. destruct (coded_ends _ _ _ _ _ _ _ _ _ _ _ _ _ (fsa_coded qeqb teqb QE TE ts initial finals shuffle SH) KL H word (S (length word))) as [n EN].
    { intros us s rest E A W _. split; [discriminate|]. rewrite <- W. rewrite app_length.
      pose proof (nonempty_run ts NE us A) as G. cbn in G |- *. lia. }
    destruct (C14_fsa_recognise Q T K qeqb teqb QE TE KL ts initial finals shuffle SH H word n) as (outs & E & _ & _ & EX & _).
    exists n, outs. split; [exact E|]. intros run q Hq P. apply (EX EN run q). apply (fs_exec_path qeqb QE) in P. destruct P as (P1 & P2 & P3).
    repeat split; assumption.
Qed.
Print Assumptions C40_fsa_language.

(* C40: from_transitions makes an automaton without final states; it accepts nothing *)
Theorem C40_from_transitions_accepts_nothing :
  forall (Q T : Type) (K : Weight) (qeqb : Q -> Q -> bool) (teqb : T -> T -> bool), EqbSpec qeqb -> EqbSpec teqb -> RoundLaws K ->
  forall (ts : list (transition (fs_instr Q) T K)) (initial : Q) shuffle, (forall l, Permutation (shuffle l) l) ->
  forall H (word : list T) n, fsa_recognise teqb shuffle (fsa_from_transitions qeqb teqb ts initial) H word n = Some [].
Proof.
  intros Q T K qeqb teqb QE TE KL ts initial shuffle SH H word n.
  destruct (C14_fsa_recognise Q T K qeqb teqb QE TE KL ts initial [] shuffle SH H word n) as (outs & E & S & _).
  unfold fsa_from_transitions. rewrite E. destruct outs as [|[c r] outs]; [reflexivity|]. exfalso.
  destruct (S c r (or_introl eq_refl)) as ((_ & _ & _ & []) & _).
Qed.
Print Assumptions C40_from_transitions_accepts_nothing.

(* b*a with an empty transition, symbols 10 = a, 11 = b *)
Definition ex_fsa_ts : list (transition (fs_instr nat) nat CostWeight) :=
  [Trans (K:=CostWeight) [11] 1 (FSI 0 0); Trans (K:=CostWeight) [10] 2 (FSI 0 5); Trans (K:=CostWeight) [] 1 (FSI 5 7)].
Definition ex_fsa := fsa_new Nat.eqb Nat.eqb ex_fsa_ts 0 [7].
Definition ex_fsa_heap : max_heap (item nat (fs_instr nat) nat CostWeight * CostWeight) (wi_leb wleb) := list_heap _ (wi_TO wleb (rl_order _ cost_laws)).
Example ex_fsa_run :
  fsa_recognise Nat.eqb (fun l => l) ex_fsa ex_fsa_heap [11;10] 10 =
    Some [(Conf [] 7 (4 : CostWeight), pd_from ex_fsa_ts)] /\
  fsa_recognise Nat.eqb (fun l => l) ex_fsa ex_fsa_heap [10;11] 10 = Some [] /\
  fsa_recognise Nat.eqb (fun l => l) ex_fsa ex_fsa_heap [12] 10 = Some [] /\
  fsa_recognise_beam Nat.eqb (fun l => l) ex_fsa (list_minmax _ (wi_TO wleb (rl_order _ cost_laws))) 1 [11;10] 10 =
    Some [(Conf [] 7 (4 : CostWeight), pd_from ex_fsa_ts)] /\
  NoDup ex_fsa_ts /\ (forall t, In t ex_fsa_ts -> wleb (t_weight t) wone = true) /\
  fs_path ex_fsa_ts 0 [11;10] ex_fsa_ts 7.
Proof.
  split; [vm_compute; reflexivity|]. split; [vm_compute; reflexivity|]. split; [vm_compute; reflexivity|]. split; [vm_compute; reflexivity|].
  split; [repeat first [apply NoDup_nil | apply NoDup_cons; [cbn; intuition discriminate|]]|]. split.
  - intros t [<-|[<-|[<-|[]]]]; reflexivity.
  - apply (fs_exec_path Nat.eqb nat_eqb_spec). split; [|split; [auto|reflexivity]]. repeat (econstructor; [cbn; left; reflexivity|]). constructor.
Qed.

(* C40 fails for transitions with the empty word and weight one: the best-first search follows the loop forever and never
   returns the path that is there, whatever the heap. *)
Definition ex_loop : list (transition (fs_instr nat) nat CostWeight) :=
  [Trans (K:=CostWeight) [] 0 (FSI 0 0); Trans (K:=CostWeight) [10] 1 (FSI 0 1)].
Lemma ex_loop_weight d (us : list (transition (fs_instr nat) nat CostWeight)) :
  executes (fs_apply Nat.eqb) 0 us 1 -> (forall t, In t us -> In t ex_loop) ->
  wleb (run_weight (repeat (Trans (K:=CostWeight) [] 0 (FSI 0 0)) d : list (transition (fs_instr nat) nat CostWeight))) (run_weight us) = false.
Proof.
  intros A1 A2.
  assert (G : run_weight (repeat (Trans (K:=CostWeight) [] 0 (FSI 0 0)) d : list (transition (fs_instr nat) nat CostWeight)) = 0) by (induction d as [|d IHd]; [reflexivity|exact IHd]).
  rewrite G. clear G d.
  assert (G : 1 <= (run_weight us : nat)).
  { unfold run_weight. rewrite (lprod_wprod cost_laws). induction us as [|t us IH]; [inversion A1|]. unfold wprod in *. cbn.
    destruct (A2 t (or_introl eq_refl)) as [<-|[<-|[]]]; cbn; [|lia].
    apply IH; [|intros; apply A2; now right]. inversion A1 as [|? ? ? s1 ? X1 X2]; subst. destruct X1 as [<-|[]]. exact X2. }
  cbn in *. destruct (run_weight us); [lia|reflexivity].
Qed.
Theorem C40_epsilon_loop_starves_refuted :
  fs_path ex_loop 0 [10] [Trans (K:=CostWeight) [10] 1 (FSI 0 1)] 1 /\
  forall shuffle, (forall l, Permutation (shuffle l) l) ->
  forall H n, fsa_recognise Nat.eqb shuffle (fsa_new Nat.eqb Nat.eqb ex_loop 0 [1]) H [10] n = Some [].
Proof.
  split; [apply (path_cons ex_loop 0 1 [10] []); [right; now left|constructor]|]. intros shuffle SH H n.
  destruct (C14_fsa_recognise nat nat CostWeight Nat.eqb Nat.eqb nat_eqb_spec nat_eqb_spec cost_laws ex_loop 0 [1] shuffle SH H [10] n)
    as (outs & E & SND & _).
  rewrite E. destruct outs as [|[c r] outs]; [reflexivity|]. exfalso.
  pose proof (fsa_coded Nat.eqb Nat.eqb nat_eqb_spec nat_eqb_spec ex_loop 0 [1] shuffle SH) as CD.
  refine (coded_starves _ _ _ _ _ _ _ _ _ _ _ _ _ CD cost_laws H [10] n _ c r _ E _ (or_introl eq_refl)); [intros t [<-|[<-|[]]]; reflexivity|].
  destruct (SND c r (or_introl eq_refl)) as ((A1 & A2 & A3 & A4) & B1 & B2).
  intros d. exists (repeat (Trans (K:=CostWeight) [] 0 (FSI 0 0)) d), 0, [10]. split; [|split; [|split; [|split]]].
  - induction d as [|d IHd]; cbn; [constructor|]. apply (ex_cons _ 0 _ _ 0); [now left|exact IHd].
  - intros t Ht. apply repeat_spec in Ht. subst t. now left.
  - induction d; cbn; auto.
  - apply repeat_length.
  - destruct A4 as [A4|[]]. rewrite <- A4 in A1. pose proof (ex_loop_weight d _ A1 A2) as W. rewrite <- B2 in W. exact W.
Qed.
Print Assumptions C40_epsilon_loop_starves_refuted.

(* ================= pushdown automata ================= *)
(* C15 *)
Theorem C15_replace :
  forall (A : Type) (aeqb : A -> A -> bool), EqbSpec aeqb ->
  forall (stack current new : list A),    (* a stack is written bottom first, [current] top first *)
  (* the operation succeeds precisely if [current] is on top, and then replaces precisely those symbols *)
  (forall stack', pds_replace aeqb stack current new = Ok stack' <->
     exists rest, stack = rest ++ rev current /\ stack' = rest ++ new) /\
  (* otherwise it hands back the stack unchanged *)
  (forall stack', pds_replace aeqb stack current new = Err stack' <->
     stack' = stack /\ ~ exists rest, stack = rest ++ rev current) /\
  (* and the instruction has that one result, or none *)
  (forall rest, stack = rest ++ rev current -> pdi_apply aeqb (Replace current new) stack = [rest ++ new]) /\
  ((~ exists rest, stack = rest ++ rev current) -> pdi_apply aeqb (Replace current new) stack = []).
Proof.
  intros A aeqb AE stack current new.
  assert (H1 : forall stack', pds_replace aeqb stack current new = Ok stack' <->
     exists rest, stack = rest ++ rev current /\ stack' = rest ++ new) by (intros; now apply pds_replace_spec).
  split; [exact H1|]. split; [|split].
  - intros stack'. split.
    + intros E. destruct (pds_replace_err aeqb AE stack current new (ex_intro _ _ E)) as [E2 N]. split; [congruence|assumption].
    + intros [-> N]. destruct (pds_replace aeqb stack current new) as [p|e] eqn:E.
      * exfalso. apply N. destruct (proj1 (H1 p) eq_refl) as (r & E1 & _). eauto.
      * destruct (pds_replace_err aeqb AE stack current new (ex_intro _ _ E)) as [E2 _]. congruence.
  - intros rest E. unfold pdi_apply. cbn. replace (pds_replace aeqb stack current new) with (@Ok (list A) (list A) (rest ++ new)); [reflexivity|].
    symmetry. apply H1. eauto.
  - intros N. unfold pdi_apply. cbn. destruct (pds_replace aeqb stack current new) as [p|e] eqn:E; [|reflexivity].
    exfalso. apply N. destruct (proj1 (H1 p) eq_refl) as (r & E1 & _). eauto.
Qed.
Print Assumptions C15_replace.
Example ex_replace :
  pdi_apply Nat.eqb (Replace [4;3] [5;6]) [1;2;3;4] = [[1;2;5;6]] /\ pdi_apply Nat.eqb (Replace [3;4] [5;6]) [1;2;3;4] = [].
Proof. split; reflexivity. Qed.

(* C14 for pushdown automata: what recognise yields, whenever it does not panic *)
Theorem C14_pda_recognise :
  forall (A T : Type) (K : Weight) (wadd : K -> K -> K) (wzero : K) (aeqb : A -> A -> bool) (teqb : T -> T -> bool),
  EqbSpec aeqb -> EqbSpec teqb -> RoundLaws K ->
  forall (ts : list (transition (pd_instr A) T K)) (initial : list A) shuffle, (forall l, Permutation (shuffle l) l) ->
  forall M, pda_new wadd wzero aeqb teqb ts initial = Some M ->
  forall H (word : list T) (n : nat),
  let tr := merged wadd wzero aeqb teqb ts in let final s := length s = 1 in
  let known := opt_all (int_find_key teqb (pa_t M)) word in
  (* correct whenever it does not panic *)
  (forall outs, pda_recognise teqb shuffle M H word n = Some outs ->
    enum_sound (pdi_apply aeqb) initial tr final word outs /\
    ((forall t, tr t -> wleb (t_weight t) wone = true) -> enum_best_first (pdi_apply aeqb) initial tr final word outs) /\
    (recognise_ended (pda_automaton shuffle M) H known n -> enum_exhaustive (pdi_apply aeqb) initial tr final word outs) /\
    NoDup (map snd outs) /\
    ((exists x, In x word /\ forall t, In t ts -> ~ In x (t_word t)) -> outs = [])) /\
  (* it panics only if a run on a prefix of the word empties the stack *)
  ((forall us s rest, executes (pdi_apply aeqb) initial us s -> (forall t, In t us -> tr t) -> run_word us ++ rest = word -> s <> []) ->
     exists outs, pda_recognise teqb shuffle M H word n = Some outs).
Proof.
  intros A T K wadd wzero aeqb teqb AE TE KL ts initial shuffle SH M HM H word n tr final known.
  pose proof (pda_coded wadd wzero aeqb teqb AE TE ts initial shuffle SH M HM) as CD. split.
  - intros outs E. assert (R : exists o, recognise_int (pda_automaton shuffle M) H known n = Some o).
    { unfold pda_recognise, recognise_with in E. change (opt_all (int_find_key teqb (pa_t M)) word) with known in E.
      destruct (recognise_int (pda_automaton shuffle M) H known n) as [o|]; [exists o; reflexivity|exfalso; congruence]. }
    destruct R as [o R].
    destruct (coded_recognise _ _ _ _ _ _ _ _ _ _ _ _ _ CD KL H word n o R) as (outs' & E1 & E2 & E3 & E4 & E5 & _).
    assert (outs' = outs) by (unfold pda_recognise in E; congruence). subst outs'.
    split; [exact E2|]. split; [exact E3|]. split; [exact E4|]. split; [apply E5; eapply pda_det; eauto|].
    intros (x & Hx & Hn). destruct outs as [|[c r] outs]; [reflexivity|]. exfalso.
    destruct (E2 c r (or_introl eq_refl)) as [(A1 & A2 & A3 & A4) _]. rewrite <- A3 in Hx. unfold run_word in Hx. apply in_flat_map in Hx.
    destruct Hx as (t & Ht & Hx). destruct (A2 t Ht) as [(t0 & Ht0 & Ew & _) _]. apply (Hn t0); [assumption|now rewrite Ew].
  - intros HN. destruct (coded_defined _ _ _ _ _ _ _ _ _ _ _ _ _ CD KL H word n) as [o R].
    { intros us s rest X1 X2 X3 X4. apply (pda_key_ok (K := K)). cbn. specialize (HN us s rest X1 X2 X3). destruct s as [|y s]; [congruence|]. intros Z. inversion Z. }
    destruct (coded_recognise _ _ _ _ _ _ _ _ _ _ _ _ _ CD KL H word n o R) as (outs' & E1 & _). exists outs'. exact E1.
Qed.
Print Assumptions C14_pda_recognise.

Theorem C14_pda_recognise_beam :
  forall (A T : Type) (K : Weight) (wadd : K -> K -> K) (wzero : K) (aeqb : A -> A -> bool) (teqb : T -> T -> bool),
  EqbSpec aeqb -> EqbSpec teqb -> RoundLaws K ->
  forall (ts : list (transition (pd_instr A) T K)) (initial : list A) shuffle, (forall l, Permutation (shuffle l) l) ->
  forall M, pda_new wadd wzero aeqb teqb ts initial = Some M ->
  forall H beam (word : list T) (n : nat) outs, pda_recognise_beam teqb shuffle M H beam word n = Some outs ->
    enum_sound (pdi_apply aeqb) initial (merged wadd wzero aeqb teqb ts) (fun s => length s = 1) word outs.
Proof.
  intros A T K wadd wzero aeqb teqb AE TE KL ts initial shuffle SH M HM H beam word n outs E.
  pose proof (pda_coded wadd wzero aeqb teqb AE TE ts initial shuffle SH M HM) as CD.
  assert (R : exists o, recognise_beam_int (pda_automaton shuffle M) H beam (opt_all (int_find_key teqb (pa_t M)) word) n = Some o).
  { exact (recognise_beam_with_int _ _ _ _ _ _ _ _ E). }
  destruct R as [o R]. unfold pda_recognise_beam in E.
  destruct (coded_recognise_beam _ _ _ _ _ _ _ _ _ _ _ _ _ CD KL H beam word n o R) as (outs' & E1 & E2 & _).
  replace outs with outs' by congruence. exact E2.
Qed.
Print Assumptions C14_pda_recognise_beam.

(* the constructor panics precisely on instructions that pop nothing *)
Theorem C14_pda_new_defined :
  forall (A T : Type) (K : Weight) (wadd : K -> K -> K) (wzero : K) (aeqb : A -> A -> bool) (teqb : T -> T -> bool),
  EqbSpec aeqb -> EqbSpec teqb ->
  forall (ts : list (transition (pd_instr A) T K)) (initial : list A),
  (exists M, pda_new wadd wzero aeqb teqb ts initial = Some M) <-> forall t, In t ts -> pi_current (t_ins t) <> [].
Proof. intros. now apply pda_new_defined. Qed.
Print Assumptions C14_pda_new_defined.

(* recognise can panic: here on the run that pops the last symbol *)
Definition ex_pop : list (transition (pd_instr nat) nat CostWeight) := [Trans (K:=CostWeight) [0] 1 (Replace [7] [])].
Definition ex_pda_heap : max_heap (item (list nat) (pd_instr nat) nat CostWeight * CostWeight) (wi_leb wleb) := list_heap _ (wi_TO wleb (rl_order _ cost_laws)).
Theorem C14_pda_empty_stack_panics_refuted :
  exists M, pda_new (K:=CostWeight) Nat.add 0 Nat.eqb Nat.eqb ex_pop [7] = Some M /\
            pda_recognise Nat.eqb (fun l => l) M ex_pda_heap [0] 5 = None.
Proof. eexists. split; [vm_compute; reflexivity|vm_compute; reflexivity]. Qed.
Print Assumptions C14_pda_empty_stack_panics_refuted.

(* C41, the constructor: one transition per (word, instruction), carrying the sum of the weights *)
Theorem C41_pda_merges :
  forall (A T : Type) (K : Weight) (wadd : K -> K -> K) (wzero : K) (aeqb : A -> A -> bool) (teqb : T -> T -> bool),
  EqbSpec aeqb -> EqbSpec teqb ->
  forall (ts : list (transition (pd_instr A) T K)) (initial : list A) M, pda_new wadd wzero aeqb teqb ts initial = Some M ->
  pda_initial M = Some initial /\
  exists l, pda_list_transitions M = Some l /\ NoDup l /\
    (* no two coincide up to weight *)
    (forall t t', In t l -> In t' l -> t_word t = t_word t' -> t_ins t = t_ins t' -> t = t') /\
    (* all come from an original transition, with the sum of the weights of all coinciding ones, in the given order *)
    (forall t, In t l -> (exists t0, In t0 ts /\ t_word t0 = t_word t /\ t_ins t0 = t_ins t) /\
                         t_weight t = fold_left wadd (map t_weight (filter (same_trans aeqb teqb t) ts)) wzero) /\
    (* every original transition is represented *)
    (forall t0, In t0 ts -> exists t, In t l /\ t_word t = t_word t0 /\ t_ins t = t_ins t0).
Proof.
  intros A T K wadd wzero aeqb teqb AE TE ts initial M HM.
  destruct (pda_new_spec wadd wzero aeqb teqb AE TE ts initial M HM) as (HI & HIe & HT & NE & HMp).
  split; [unfold pda_initial; rewrite HIe; now apply un_list_enc|].
  assert (KS : NoDup (map fst (pa_map M))).
  { clear -HM. unfold pda_new in HM. destruct (int_list aeqb [] initial) as [a1 init].
    destruct (trs_integerise teqb (pdi_integerise aeqb) [] a1 ts) as [[lt la] ts']. destruct (pda_map wadd wzero ts' []) as [m|] eqn:E; [|discriminate].
    injection HM as <-. cbn [pa_map]. rewrite map_map. cbn [fst].
    assert (G : forall us m0 m1, pda_map wadd wzero us m0 = Some m1 -> NoDup (map fst m0) -> NoDup (map fst m1)).
    { clear. induction us as [|t us IH]; intros m0 m1 E N; cbn in E; [injection E as <-; assumption|].
      destruct (pi_current (t_ins t)) as [|a r]; [discriminate|]. eapply IH; [exact E|]. clear -N.
      assert (F : forall x, In x (map fst (hm_add2 wadd wzero a (t_word t, t_ins t) (t_weight t) m0)) -> x = a \/ In x (map fst m0)).
      { induction m0 as [|[a' v] m0 IH]; cbn; [intuition|]. destruct (Nat.eqb a a'); cbn; [intuition|]. inversion N; subst.
        intros x [<-|Hx]; [auto|]. destruct (IH H2 x Hx); auto. }
      induction m0 as [|[a' v] m0 IH]; cbn; [repeat constructor; tauto|]. cbn in N. inversion N; subst.
      destruct (Nat.eqb a a') eqn:EQ; cbn; [constructor; assumption|]. constructor.
      - intros Hin. assert (F2 : In a' (map fst (hm_add2 wadd wzero a (t_word t, t_ins t) (t_weight t) m0)) -> a' = a \/ In a' (map fst m0)).
        { clear -H2. induction m0 as [|[b v] m0 IH]; cbn; [intuition|]. destruct (Nat.eqb a b); cbn; [intuition|]. inversion H2; subst. intuition. }
        destruct (F2 Hin) as [->|F3]; [rewrite Nat.eqb_refl in EQ; discriminate|contradiction].
      - apply IH; [assumption|]. intros x Hx. clear -Hx H2. induction m0 as [|[b w] m0 IH]; cbn in *; [intuition|]. destruct (Nat.eqb a b); cbn in *; [intuition|].
        inversion H2; subst. intuition. }
    eapply G; [exact E|constructor]. }
  assert (FM : forall k t', In t' (hm_get k (pa_map M)) -> In t' (flat_map snd (pa_map M))).
  { clear. intros k t'. induction (pa_map M) as [|[k' v] m IH]; cbn; [tauto|]. destruct (Nat.eqb k k'); intros H; apply in_or_app; auto. }
  assert (FG : forall t', In t' (flat_map snd (pa_map M)) -> exists k, In t' (hm_get k (pa_map M))).
  { clear -KS. intros t'. induction (pa_map M) as [|[k' v] m IH]; cbn; [tauto|]. cbn in KS. apply NoDup_cons_iff in KS. destruct KS as [H2 H3]. intros H. apply in_app_or in H. destruct H as [H|H].
    - exists k'. now rewrite Nat.eqb_refl.
    - destruct (IH H3 H) as [k Hk]. exists k. destruct (Nat.eqb k k') eqn:E; [|assumption]. apply Nat.eqb_eq in E. subst k'. exfalso. apply H2.
      clear -Hk. induction m as [|[b w] m IH]; cbn in *; [tauto|]. destruct (Nat.eqb k b) eqn:E; [apply Nat.eqb_eq in E; auto|auto]. }
  pose proof (fun k t' => pda_tmap_iff wadd wzero aeqb teqb AE TE ts initial M HM k t') as TI.
  set (eT := eTrL teqb (pe aeqb) (pa_t M) (pa_a M)) in *.
  assert (ND : NoDup (flat_map snd (pa_map M))).
  { assert (Z : forall e, In e (pa_map M) -> snd e = hm_get (fst e) (pa_map M)).
    { clear -KS. induction (pa_map M) as [|[k v] m IH]; intros e He; [destruct He|]. cbn in KS. inversion KS; subst. cbn. destruct He as [<-|He]; cbn; [now rewrite Nat.eqb_refl|].
      destruct (Nat.eqb (fst e) k) eqn:E; [|now apply IH]. apply Nat.eqb_eq in E. exfalso. apply H1. rewrite <- E. now apply in_map. }
    assert (Z2 : forall k t', In t' (hm_get k (pa_map M)) -> on_key k t' = true).
    { intros k t' Hk. apply TI in Hk. destruct Hk as (t & _ & -> & Ok). exact Ok. }
    assert (Z3 : forall k, NoDup (hm_get k (pa_map M))) by (intros k; apply HMp).
    clear -KS Z Z2 Z3. set (get := fun k => hm_get k (pa_map M)) in *.
    assert (Z' : forall e, In e (pa_map M) -> snd e = get (fst e)) by exact Z. clear Z.
    assert (Z2' : forall k t', In t' (get k) -> on_key k t' = true) by exact Z2. clear Z2.
    assert (Z3' : forall k, NoDup (get k)) by exact Z3. clear Z3. clearbody get.
    induction (pa_map M) as [|[k v] m IH]; cbn; [constructor|]. cbn in KS. inversion KS; subst. apply NoDup_app_intro.
    - pose proof (Z' (k, v) (or_introl eq_refl)) as Zv. cbn in Zv. rewrite Zv. apply Z3'.
    - apply IH; [assumption|]. intros; apply Z'; now right.
    - intros t Ht Ht2. pose proof (Z' (k, v) (or_introl eq_refl)) as Zv. cbn in Zv. rewrite Zv in Ht. apply Z2' in Ht. apply in_flat_map in Ht2. destruct Ht2 as (e & He & Ht2).
      rewrite (Z' e (or_intror He)) in Ht2. apply Z2' in Ht2. apply H1. replace k with (fst e); [now apply in_map|].
      unfold on_key in *. destruct (tkey t); [|discriminate]. apply Nat.eqb_eq in Ht, Ht2. congruence. }
  assert (IFF : forall t', In t' (flat_map snd (pa_map M)) <-> exists t, merged wadd wzero aeqb teqb ts t /\ t' = eT t).
  { intros t'. split.
    - intros Hin. destruct (FG t' Hin) as [k Hk]. apply TI in Hk. destruct Hk as (t & H1 & H2 & _). eauto.
    - intros (t & Ht & ->). destruct (eT_on_key wadd wzero aeqb teqb AE TE ts initial M HM t Ht) as (k & Ok & _). apply (FM k). apply TI. eauto. }
  assert (KN : forall t, merged wadd wzero aeqb teqb ts t -> kTr pk (pa_t M) (pa_a M) t) by (intros t Ht; eapply merged_known; eauto).
  assert (UN : forall t, merged wadd wzero aeqb teqb ts t -> tr_un_integerise pdi_un_integerise (pa_t M) (pa_a M) (eT t) = Some t).
  { intros t Ht. apply (tr_un_enc teqb TE pdi_un_integerise pk (pe aeqb) (pdi_LU aeqb AE)). now apply KN. }
  assert (OA : exists l, opt_all (tr_un_integerise pdi_un_integerise (pa_t M) (pa_a M)) (flat_map snd (pa_map M)) = Some l /\
                map eT l = flat_map snd (pa_map M) /\ forall t, In t l -> merged wadd wzero aeqb teqb ts t).
  { assert (IN : forall t', In t' (flat_map snd (pa_map M)) -> exists t, merged wadd wzero aeqb teqb ts t /\ t' = eT t) by (intros t' Ht'; now apply IFF).
    clear -IN UN. induction (flat_map snd (pa_map M)) as [|t' r IH]; [exists []; split; [reflexivity|]; split; [reflexivity|intros t []]|].
    destruct (IN t' (or_introl eq_refl)) as (t & Ht & ->). destruct IH as (l & E1 & E2 & E3); [intros; apply IN; now right|].
    exists (t :: l). cbn. rewrite (UN t Ht), E1, E2. split; [reflexivity|]. split; [reflexivity|]. intros u [<-|Hu]; auto. }
  destruct OA as (l & E1 & E2 & E3).
  assert (INL : forall t, In t l <-> merged wadd wzero aeqb teqb ts t).
  { intros t. split; [apply E3|]. intros Ht. assert (Hin : In (eT t) (flat_map snd (pa_map M))) by (apply IFF; eauto).
    rewrite <- E2 in Hin. apply in_map_iff in Hin. destruct Hin as (u & Eu & Hu).
    apply (eTrL_inj teqb TE pdi_un_integerise pk (pe aeqb) (pdi_LU aeqb AE)) in Eu; [now subst|auto|auto]. }
  assert (MU : forall t t', merged wadd wzero aeqb teqb ts t -> merged wadd wzero aeqb teqb ts t' -> t_word t = t_word t' -> t_ins t = t_ins t' -> t = t').
  { intros [w k i] [w' k' i'] [_ W1] [_ W2] Ew Ei. cbn in *. subst w' i'. f_equal. rewrite W1, W2. reflexivity. }
  exists l. split; [exact E1|]. split; [rewrite <- E2 in ND; eapply NoDup_map_inv; exact ND|]. split; [|split].
  - intros t t' H1 H2. apply INL in H1, H2. now apply MU.
  - intros t Ht. apply INL in Ht. exact Ht.
  - intros t0 H0. exists (Trans (t_word t0) (wsum wadd wzero (map t_weight (filter (same_trans aeqb teqb t0) ts))) (t_ins t0)).
    split; [|auto]. apply INL. split; [exists t0; auto|]. reflexivity.
Qed.
Print Assumptions C41_pda_merges.

(* the representative applies where the original did: executing depends on word and instruction only *)
Definition ex_dup : list (transition (pd_instr nat) nat CostWeight) :=
  [Trans (K:=CostWeight) [0] 1 (Replace [7] [7;8]); Trans (K:=CostWeight) [1] 2 (Replace [8] []); Trans (K:=CostWeight) [0] 3 (Replace [7] [7;8])].
Example ex_pda :
  exists M, pda_new (K:=CostWeight) Nat.add 0 Nat.eqb Nat.eqb ex_dup [7] = Some M /\
    pda_list_transitions M = Some [Trans (K:=CostWeight) [0] 4 (Replace [7] [7;8]); Trans (K:=CostWeight) [1] 2 (Replace [8] [])] /\
    pda_recognise Nat.eqb (fun l => l) M ex_pda_heap [0;1] 5 =
      Some [(Conf [] [7] (6 : CostWeight), pd_from [Trans (K:=CostWeight) [0] 4 (Replace [7] [7;8]); Trans (K:=CostWeight) [1] 2 (Replace [8] [])])] /\
    pda_recognise Nat.eqb (fun l => l) M ex_pda_heap [0;1;1] 5 = Some [].
Proof. eexists. split; [vm_compute; reflexivity|]. repeat split; vm_compute; reflexivity. Qed.
