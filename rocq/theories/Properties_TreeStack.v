(* C17: tree stacks; C14 for tree stack automata. *)
From Verif Require Import Base BMap M_Agenda M_Search M_Util M_Recog M_Automata M_TreeStack S_Search S_Util S_Recog S_TreeStack
  P_Agenda P_Search P_Util P_Recog P_Automata P_TreeStack P_TSA.
Arguments Nat.ltb : simpl never.

(* C17: on every tree stack built with the public functions, the operations move a pointer in a finite tree.
   [node t addr] is the value at an address (None: vacant), [pointer t] the current address.  No operation panics. *)
Theorem C17_zipper : forall (A : Type) (t : tstack A), built t ->
  node t (pointer t) = Some (ts_current_symbol t) /\
  (ts_is_at_bottom t = true <-> pointer t = []) /\
  (forall a : A, pointer (ts_new a) = [] /\ forall addr, node (ts_new a) addr = match addr with [] => Some a | _ => None end) /\
  (forall a, pointer (ts_set t a) = pointer t /\ forall addr, node (ts_set t a) addr = put (node t) (pointer t) a addr) /\
  (forall n a, match ts_push_p t n a with
     | Some (Ok t') => node t (pointer t ++ [n]) = None /\ pointer t' = pointer t ++ [n] /\
                       forall addr, node t' addr = put (node t) (pointer t ++ [n]) a addr
     | Some (Err t') => node t (pointer t ++ [n]) <> None /\ t' = t
     | None => False
     end) /\
  (forall n, match ts_up t n with
     | Ok t' => node t (pointer t ++ [n]) <> None /\ pointer t' = pointer t ++ [n] /\ forall addr, node t' addr = node t addr
     | Err t' => node t (pointer t ++ [n]) = None /\ t' = t
     end) /\
  match ts_down_p t with
  | Some (Ok t') => (exists n, pointer t = pointer t' ++ [n]) /\ forall addr, node t' addr = node t addr
  | Some (Err t') => pointer t = [] /\ t' = t
  | None => False
  end.
Proof.
  intros A t B. pose proof (built_wf t B) as W.
  split; [apply node_here|]. split.
  { unfold ts_is_at_bottom. rewrite pointer_eq. destruct (ts_parent t) as [[n p]|]; [|tauto]. split; [discriminate|]. now destruct (pointer p). }
  split. { intros a. split; [reflexivity|]. intros [|[|n] r]; reflexivity. }
  split; [intros a; split; [apply set_pointer|apply set_node]|]. split.
  { intros n a. destruct (push_spec t n a) as (P & _). unfold ts_push in *. destruct (ts_push_p t n a) as [[t'|t']|] eqn:E; [| |congruence].
    - assert (E' : ts_push t n a = Ok t') by (unfold ts_push; now rewrite E). split.
      + rewrite node_child. apply push_ok in E'. destruct E' as [-> _]. reflexivity.
      + split; [eapply push_pointer; eauto|eapply push_node; eauto].
    - assert (E' : ts_push t n a = Err t') by (unfold ts_push; now rewrite E). apply push_err in E'. destruct E' as [C ->]. split; [|reflexivity].
      rewrite node_child. destruct (child t n); [discriminate|congruence]. }
  split.
  { intros n. destruct (ts_up t n) as [t'|t'] eqn:E.
    - split; [|split; [eapply up_pointer; eauto|eapply up_node; eauto]]. rewrite node_child. rewrite up_spec in E. destruct (child t n); discriminate.
    - rewrite node_child. rewrite up_spec in E. destruct (child t n); [discriminate|]. injection E as <-. split; reflexivity. }
  pose proof (down_p_wf t W) as P. destruct (ts_down_p t) as [[t'|t']|] eqn:E; [| |congruence].
  - assert (E' : ts_down t = Ok t') by (unfold ts_down; now rewrite E). split; [|now apply down_node].
    destruct (down_pointer t t' W E') as [-> N]. exists (last (pointer t) 0). now apply app_removelast_last.
  - assert (E' : ts_down t = Err t') by (unfold ts_down; now rewrite E). rewrite down_spec in E' by assumption. rewrite pointer_eq.
    destruct (ts_parent t) as [[n p]|]; [discriminate|]. injection E' as <-. auto.
Qed.
Print Assumptions C17_zipper.

(* C17: down undoes up exactly, up undoes down, and down after push leaves the pushed leaf behind *)
Theorem C17_inverse : forall (A : Type) (t : tstack A), built t ->
  (forall n t', ts_up t n = Ok t' -> ts_down t' = Ok t) /\
  (forall t' n, ts_down t = Ok t' -> pointer t = pointer t' ++ [n] -> ts_up t' n = Ok t) /\
  (forall n a t', ts_push t n a = Ok t' -> exists p, ts_down t' = Ok p /\ pointer p = pointer t /\
     forall addr, node p addr = put (node t) (pointer t ++ [n]) a addr).
Proof.
  intros A t B. pose proof (built_wf t B) as W. split; [|split].
  - intros n t' E. pose proof (wf_up t t' n W E) as W'. pose proof (up_pointer _ _ _ E) as HP. pose proof (up_node _ _ _ E) as HN.
    pose proof (down_spec t' W') as D. rewrite up_spec in E. destruct (child t n) as [c|] eqn:C; [|discriminate].
    assert (CH : nth_error (ts_children t) n = Some (Some c)) by (unfold child in C; destruct (nth_error (ts_children t) n) as [[c'|]|]; congruence).
    injection E as <-. cbn [ts_parent ts_value ts_children] in D. rewrite D. f_equal.
    assert (WS : wf_sub c) by (apply (wf_children t W); eapply nth_error_In; eauto).
    rewrite set_nth_twice. destruct WS as [cv cc _]. cbn [ts_value ts_children]. rewrite set_nth_same by assumption. now destruct t.
  - intros t' n D HP. rewrite down_spec in D by assumption. destruct t as [[[m p]|] v ch]; cbn [ts_parent ts_value ts_children] in D; [|discriminate].
    injection D as <-. assert (NE : nth_error (ts_children p) m = Some None) by (inversion W; assumption).
    assert (m < length (ts_children p)) by (apply nth_error_Some; congruence).
    assert (PE : pointer (TStack (ts_parent p) (ts_value p) (set_nth m (Some (TStack None v ch)) (ts_children p))) = pointer p) by (rewrite (pointer_eq p), pointer_eq; reflexivity).
    rewrite PE in HP. cbn [pointer] in HP. apply app_inv_head in HP. injection HP as ->.
    rewrite up_spec. unfold child. cbn [ts_children ts_parent ts_value]. rewrite nth_error_set_nth, Nat.eqb_refl.
    destruct (Nat.ltb_spec n (length (ts_children p))); [|lia]. cbn [ts_value ts_children]. rewrite set_nth_twice, set_nth_same by assumption. now destruct p.
  - intros n a t' E. pose proof (wf_push t t' n a W E) as W'. pose proof (down_spec t' W') as D.
    assert (E2 := E). apply push_ok in E2. destruct E2 as [_ E2]. rewrite E2 in D. cbn [ts_parent] in D. rewrite E2 in W'. 
    eexists. rewrite E2. split; [exact D|]. split.
    { pose proof (down_pointer _ _ W' D) as [-> _]. rewrite <- E2. rewrite (push_pointer _ _ _ _ E). apply removelast_last. }
    intros addr. rewrite (down_node _ _ W' D), <- E2. eapply push_node; eauto.
Qed.
Print Assumptions C17_inverse.

(* C17: push_next pushes at the least vacant index; ups goes to every occupied child, in order; all inspects the subtree
   at the pointer; map acts on every node *)
Theorem C17_derived : forall (A : Type) (t : tstack A), built t ->
  (forall a, exists i t', ts_push_next t a = Some t' /\ node t (pointer t ++ [i]) = None /\
     (forall j, j < i -> node t (pointer t ++ [j]) <> None) /\ pointer t' = pointer t ++ [i] /\
     forall addr, node t' addr = put (node t) (pointer t ++ [i]) a addr) /\
  (exists is l, ts_ups t = Some l /\ (forall i, In i is <-> node t (pointer t ++ [i]) <> None) /\ sorted_keys Nat.compare is /\
     Forall2 (fun i t' => pointer t' = pointer t ++ [i] /\ forall addr, node t' addr = node t addr) is l) /\
  (forall p, ts_all p t = true <-> forall r a, node t (pointer t ++ r) = Some a -> p a = true) /\
  (forall (B : Type) (f : A -> B), pointer (ts_map f t) = pointer t /\ forall addr, node (ts_map f t) addr = option_map f (node t addr)).
Proof.
  intros A t B. pose proof (built_wf t B) as W. split; [|split; [|split]].
  - intros a. destruct (push_next_spec t a) as (i & t' & E1 & E2 & C1 & C2). exists i, t'. split; [assumption|]. split; [now rewrite node_child, C1|].
    split; [|split; [eapply push_pointer; eauto|eapply push_node; eauto]]. intros j Hj. rewrite node_child. specialize (C2 j Hj). destruct (child t j); [discriminate|congruence].
  - destruct (ups_defined t) as (l & E & F). exists (occupied 0 (ts_children t)), l. split; [assumption|]. split.
    { intros i. rewrite occupied_child, node_child. destruct (child t i); cbn; split; congruence. }
    split; [apply occupied_sorted|]. clear -F. induction F as [|i t' is l E _ IH]; constructor; auto. split; [eapply up_pointer; eauto|eapply up_node; eauto].
  - intros p. rewrite all_spec. split; intros H r a; [rewrite node_sub|rewrite <- node_sub]; apply H.
  - intros B' f. split; [apply map_pointer|apply map_node].
Qed.
Print Assumptions C17_derived.

(* C17: to_tree returns the tree as a map from addresses, in lexicographic order, and the pointer *)
Theorem C17_to_tree : forall (A : Type) (t : tstack A), built t ->
  snd (ts_to_tree t) = pointer t /\ sorted_keys addr_cmp (map fst (fst (ts_to_tree t))) /\
  forall addr a, In (addr, a) (fst (ts_to_tree t)) <-> node t addr = Some a.
Proof.
  intros A t B. destruct (to_tree_spec t (built_wf t B)) as (H1 & H2 & H3). split; [assumption|]. split; [assumption|].
  intros addr a. rewrite <- H3. unfold gt_get. symmetry. now apply (bm_get_In addr_cmp addr_ord).
Qed.
Print Assumptions C17_to_tree.

(* C17: the instructions of a tree stack automaton are these moves, guarded by the values they name *)
Theorem C17_instructions : forall (A : Type) (eqb : A -> A -> bool), EqbSpec eqb -> forall (t t' : tstack A), built t ->
  (forall n c o v, In t' (tsi_apply eqb (IUp n c o v) t) <->
     node t (pointer t) = Some c /\ exists u, ts_up t n = Ok u /\ node t (pointer t ++ [n]) = Some o /\ t' = ts_set u v) /\
  (forall n c v, In t' (tsi_apply eqb (IPush n c v) t) <->
     node t (pointer t) = Some c /\ node t (pointer t ++ [n]) = None /\ ts_push t n v = Ok t') /\
  (forall c o v, In t' (tsi_apply eqb (IDown c o v) t) <->
     node t (pointer t) = Some c /\ exists u, ts_down t = Ok u /\ node t (pointer u) = Some o /\ t' = ts_set u v) /\
  (forall i, In t' (tsi_apply eqb i t) -> built t' /\ tsi_apply eqb i t = [t']).
Proof.
  intros A eqb E t t' B. pose proof (built_wf t B) as W.
  assert (EQ : forall x y : A, eqb x y = true <-> Some x = Some y) by (intros x y; rewrite (E x y); split; congruence).
  assert (HV : forall c, eqb (ts_value t) c = true <-> node t (pointer t) = Some c) by (intros c; rewrite node_here; apply EQ).
  split; [|split; [|split]].
  - intros n c o v. cbn [tsi_apply]. unfold ts_current_symbol. rewrite <- HV. destruct (eqb (ts_value t) c); [|cbn; intuition discriminate].
    destruct (ts_up t n) as [u|u] eqn:U.
    + assert (NV : eqb (ts_value u) o = true <-> node t (pointer t ++ [n]) = Some o).
      { rewrite <- (up_node _ _ _ U), <- (up_pointer _ _ _ U), node_here. apply EQ. }
      destruct (eqb (ts_value u) o); cbn; split.
      * intros [<-|[]]. split; [reflexivity|]. exists u. rewrite <- NV. auto.
      * intros (_ & u' & Eu & _ & ->). injection Eu as <-. now left.
      * tauto.
      * intros (_ & u' & Eu & G & _). apply NV in G. discriminate.
    + cbn. split; [tauto|]. intros (_ & u' & G & _). discriminate.
  - intros n c v. cbn [tsi_apply]. unfold ts_current_symbol. rewrite <- HV. destruct (eqb (ts_value t) c); [|cbn; intuition discriminate].
    rewrite node_child. destruct (ts_push t n v) as [u|u] eqn:U; cbn.
    + apply push_ok in U. destruct U as [-> _]. split; [intros [->|[]]; auto|]. intros (_ & _ & G). left. congruence.
    + split; [tauto|]. intros (_ & _ & G). discriminate.
  - intros c o v. cbn [tsi_apply]. unfold ts_current_symbol. rewrite <- HV. destruct (eqb (ts_value t) c); [|cbn; intuition discriminate].
    destruct (ts_down t) as [u|u] eqn:U.
    + assert (NV : eqb (ts_value u) o = true <-> node t (pointer u) = Some o).
      { rewrite <- (down_node _ _ W U), node_here. apply EQ. }
      destruct (eqb (ts_value u) o); cbn; split.
      * intros [<-|[]]. split; [reflexivity|]. exists u. rewrite <- NV. auto.
      * intros (_ & u' & Eu & _ & ->). injection Eu as <-. now left.
      * tauto.
      * intros (_ & u' & Eu & G & _). injection Eu as <-. apply NV in G. discriminate.
    + cbn. split; [tauto|]. intros (_ & u' & G & _). discriminate.
  - intros i H. split.
    + destruct i as [n c o v|n c v|c o v]; cbn [tsi_apply] in H; unfold ts_current_symbol in H; (destruct (eqb (ts_value t) c); [|destruct H]).
      * destruct (ts_up t n) as [u|u] eqn:U; [|destruct H]. destruct (eqb (ts_value u) o); [|destruct H]. destruct H as [<-|[]]. apply b_set. eapply b_up; eauto.
      * destruct (ts_push t n v) as [u|u] eqn:U; [|destruct H]. destruct H as [<-|[]]. eapply b_push; eauto.
      * destruct (ts_down t) as [u|u] eqn:U; [|destruct H]. destruct (eqb (ts_value u) o); [|destruct H]. destruct H as [<-|[]]. apply b_set. eapply b_down; eauto.
    + pose proof (tsi_det eqb i t) as D. destruct (tsi_apply eqb i t) as [|x [|y l]]; cbn in *; [tauto| |lia]. destruct H as [->|[]]. reflexivity.
Qed.
Print Assumptions C17_instructions.

(* the history of tree_stack.rs:333-360 *)
Definition ok_of {A} (r : result (tstack A) (tstack A)) : tstack A := match r with Ok t => t | Err t => t end.
Definition ex_ts1 : tstack nat := ok_of (ts_push (ts_new 0) 1 11).
Definition ex_ts2 : tstack nat := ok_of (ts_down ex_ts1).
Definition ex_ts : tstack nat := ok_of (ts_push ex_ts2 3 13).
Example C17_example : built ex_ts /\ ts_to_tree ex_ts = ([([], 0); ([1], 11); ([3], 13)], [3]) /\
  ts_down ex_ts <> Err ex_ts /\ ts_push_next ex_ts 5 <> None.
Proof.
  split; [|split; [reflexivity|split; discriminate]].
  apply (b_push ex_ts2 3 13); [|left; reflexivity]. apply (b_down ex_ts1); [|left; reflexivity].
  apply (b_push (ts_new 0) 1 11); [|left; reflexivity]. apply b_new.
Qed.

(* ================= C14 for tree stack automata ================= *)
Theorem C14_tsa_recognise :
  forall (A T : Type) (K : Weight) (aeqb : A -> A -> bool) (teqb : T -> T -> bool), EqbSpec aeqb -> EqbSpec teqb -> RoundLaws K ->
  forall (ts : list (transition (ts_instr A) T K)) (initial : tstack A) shuffle, (forall l, Permutation (shuffle l) l) ->
  forall H (word : list T) (n : nat),
  let M := tsa_new aeqb teqb ts initial in
  let tr t := In t ts in let final s := ts_is_at_bottom s = true in
  exists outs, tsa_recognise teqb shuffle M H word n = Some outs /\
    enum_sound (tsi_apply aeqb) initial tr final word outs /\
    ((forall t, In t ts -> wleb (t_weight t) wone = true) -> enum_best_first (tsi_apply aeqb) initial tr final word outs) /\
    (recognise_ended (tsa_automaton shuffle M) H (opt_all (int_find_key teqb (ta_t M)) word) n ->
       enum_exhaustive (tsi_apply aeqb) initial tr final word outs) /\
    (NoDup ts -> NoDup (map snd outs)) /\
    ((exists x, In x word /\ forall t, In t ts -> ~ In x (t_word t)) -> outs = []).
Proof.
  intros A T K aeqb teqb AE TE KL ts initial shuffle SH H word n M tr final.
  pose proof (tsa_coded aeqb teqb AE TE ts initial shuffle SH) as CD.
  destruct (coded_defined _ _ _ _ _ _ _ _ _ _ _ _ _ CD KL H word n) as [outs R]; [intros; discriminate|].
  destruct (coded_recognise _ _ _ _ _ _ _ _ _ _ _ _ _ CD KL H word n outs R) as (outs' & E1 & E2 & E3 & E4 & E5 & _).
  exists outs'. split; [exact E1|]. split; [exact E2|]. split; [exact E3|]. split; [exact E4|]. split.
  - intros N. apply E5. now apply tsa_det.
  - intros (x & Hx & Hn). destruct outs' as [|[c r] outs']; [reflexivity|]. exfalso.
    destruct (E2 c r (or_introl eq_refl)) as [(A1 & A2 & A3 & A4) _]. rewrite <- A3 in Hx. unfold run_word in Hx. apply in_flat_map in Hx.
    destruct Hx as (t & Ht & Hx). apply (Hn t); [now apply A2|assumption].
Qed.
Print Assumptions C14_tsa_recognise.

Theorem C14_tsa_recognise_beam :
  forall (A T : Type) (K : Weight) (aeqb : A -> A -> bool) (teqb : T -> T -> bool), EqbSpec aeqb -> EqbSpec teqb -> RoundLaws K ->
  forall (ts : list (transition (ts_instr A) T K)) (initial : tstack A) shuffle, (forall l, Permutation (shuffle l) l) ->
  forall H beam (word : list T) (n : nat),
  exists outs, tsa_recognise_beam teqb shuffle (tsa_new aeqb teqb ts initial) H beam word n = Some outs /\
    enum_sound (tsi_apply aeqb) initial (fun t => In t ts) (fun s => ts_is_at_bottom s = true) word outs.
Proof.
  intros A T K aeqb teqb AE TE KL ts initial shuffle SH H beam word n.
  pose proof (tsa_coded aeqb teqb AE TE ts initial shuffle SH) as CD.
  destruct (coded_defined_beam _ _ _ _ _ _ _ _ _ _ _ _ _ CD KL H beam word n) as [outs R]; [intros; discriminate|].
  destruct (coded_recognise_beam _ _ _ _ _ _ _ _ _ _ _ _ _ CD KL H beam word n outs R) as (outs' & E1 & E2 & _).
  exists outs'. auto.
Qed.
Print Assumptions C14_tsa_recognise_beam.

Theorem C14_tsa_reads_back :
  forall (A T : Type) (K : Weight) (aeqb : A -> A -> bool) (teqb : T -> T -> bool), EqbSpec aeqb -> EqbSpec teqb ->
  forall (ts : list (transition (ts_instr A) T K)) (initial : tstack A),
  tsa_initial (tsa_new aeqb teqb ts initial) = Some initial /\
  exists l, tsa_list_transitions (tsa_new aeqb teqb ts initial) = Some l /\ Permutation l ts.
Proof.
  intros A T K aeqb teqb AE TE ts initial.
  destruct (tsa_new_spec aeqb teqb AE TE ts initial) as (HI & HIe & HT & _).
  split; [unfold tsa_initial; rewrite HIe; now apply ts_un_enc|].
  assert (P : Permutation (flat_map snd (ta_map (tsa_new aeqb teqb ts initial)))
                (map (eTrL teqb (te aeqb) (ta_t (tsa_new aeqb teqb ts initial)) (ta_a (tsa_new aeqb teqb ts initial))) ts)).
  { clear HI HIe HT. unfold tsa_new. destruct (ts_map_st (int_integerise aeqb) [] initial) as [a1 init].
    pose proof (trs_int_spec teqb TE (tsi_integerise aeqb) tk (te aeqb) (tsi_LI aeqb AE) (tsi_LE aeqb AE) ts [] a1) as H3.
    destruct (trs_integerise teqb (tsi_integerise aeqb) [] a1 ts) as [[lt lq] ts']. destruct H3 as (_ & _ & _ & C2).
    cbn [ta_a ta_t ta_map]. rewrite <- C2. clear C2.
    assert (PU : forall k (x : transition (ts_instr nat) nat K) m, Permutation (flat_map snd (hm_push k x m)) (x :: flat_map snd m)).
    { clear. intros k x m. induction m as [|[k' v] m IH]; cbn; [reflexivity|]. destruct (Nat.eqb k k'); cbn; [reflexivity|].
      rewrite IH. symmetry. apply Permutation_middle. }
    assert (G : forall l (m : list (nat * list (transition (ts_instr nat) nat K))),
               Permutation (flat_map snd (fold_left (fun m t => hm_push (tsi_current (t_ins t)) t m) l m)) (l ++ flat_map snd m)).
    { clear -PU. induction l as [|t l IH]; intros m; cbn [fold_left app]; [reflexivity|]. rewrite IH, PU. symmetry. apply Permutation_middle. }
    rewrite G. cbn. now rewrite app_nil_r. }
  unfold tsa_list_transitions. set (m := tsa_new aeqb teqb ts initial) in *. clearbody m.
  apply Permutation_map_inv in P. destruct P as (l & El & Pl). exists l. split; [|now symmetry].
  rewrite El. apply opt_all_id. intros t Ht. apply (tr_un_enc teqb TE tsi_un_integerise tk (te aeqb) (tsi_LU aeqb AE)).
  apply HT. eapply Permutation_in; [symmetry; exact Pl|exact Ht].
Qed.
Print Assumptions C14_tsa_reads_back.

(* {a^n b^n c^n d^n | n >= 1}, symbols 100.. for the tree stack, 0..3 for a..d *)
Definition ex_tsa_ts : list (transition (ts_instr nat) nat CostWeight) :=
  [Trans (K:=CostWeight) [0] 1 (IPush 1 100 101); Trans (K:=CostWeight) [0] 1 (IPush 1 101 101);
   Trans (K:=CostWeight) [1] 0 (IPush 1 101 102); Trans (K:=CostWeight) [] 0 (IDown 102 101 103);
   Trans (K:=CostWeight) [1] 0 (IDown 103 101 103); Trans (K:=CostWeight) [] 0 (IDown 103 100 104);
   Trans (K:=CostWeight) [2] 0 (IUp 1 104 103 105); Trans (K:=CostWeight) [2] 0 (IUp 1 105 103 105);
   Trans (K:=CostWeight) [] 0 (IUp 1 105 102 106); Trans (K:=CostWeight) [] 0 (IDown 106 105 107);
   Trans (K:=CostWeight) [3] 0 (IDown 107 105 107); Trans (K:=CostWeight) [3] 0 (IDown 107 104 108)].
Definition ex_tsa := tsa_new Nat.eqb Nat.eqb ex_tsa_ts (ts_new 100).
Definition ex_tsa_heap : max_heap (item (tstack nat) (ts_instr nat) nat CostWeight * CostWeight) (wi_leb wleb) := list_heap _ (wi_TO wleb (rl_order _ cost_laws)).
Example ex_tsa_run :
  option_map (map (fun i => (c_weight (K:=CostWeight) (fst i) : nat))) (tsa_recognise Nat.eqb (fun l => l) ex_tsa ex_tsa_heap [0;0;1;1;2;2;3;3] 30) = Some [2] /\
  tsa_recognise Nat.eqb (fun l => l) ex_tsa ex_tsa_heap [0;0;1;1;2;3;3] 30 = Some [] /\
  NoDup ex_tsa_ts /\ (forall t, In t ex_tsa_ts -> wleb (t_weight t) wone = true).
Proof.
  split; [vm_compute; reflexivity|]. split; [vm_compute; reflexivity|].
  split; [repeat first [apply NoDup_nil | apply NoDup_cons; [cbn; intuition discriminate|]]|].
  intros t Ht. repeat (destruct Ht as [<-|Ht]; [reflexivity|]). destruct Ht.
Qed.
