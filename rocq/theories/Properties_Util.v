(* C08-C10, C22: VecMultiMap, Partition, Pushdown, Dyck recogniser. *)
From Verif Require Import Base BMap M_Util S_Util P_Agenda P_Util.

(* C08.  Every history of operations on a new multi map runs without panic or out-of-bounds access; each read returns
   the list the abstract map has at that moment; the conversion to a vector of size n returns the abstract map's first
   n lists, and Into<Vec<_>> returns all lists up to the last non-empty one. *)
Theorem C08_vecmultimap {T : Type} (ops : list (vmm_op T)) :
  exists reads m, vmm_run vmm_new ops = Some (reads, m) /\
    mm_reads_all (fun _ => []) ops reads /\
    (forall n, length (vmm_into_vec_with_size n m) = n /\
       forall i, i < n -> nth_error (vmm_into_vec_with_size n m) i = Some (mm_run (fun _ => []) ops i)) /\
    (forall i, nth i (vmm_into_vec m) [] = mm_run (fun _ => []) ops i) /\
    (vmm_into_vec m = [] \/ last (vmm_into_vec m) [] <> []).
Proof.
  destruct (run_abs ops (@vmm_new T)) as (rs & m & E & R & Ab). exists rs, m.
  assert (Z : forall j, absm (@vmm_new T) j = []) by (intros [|]; reflexivity).
  assert (Ab' : forall j, nth j m [] = mm_run (fun _ => []) ops j)
    by (intros j; rewrite <- (mm_run_ext ops _ _ Z j); apply Ab).
  split; [assumption|]. split; [eapply mm_reads_all_ext; eauto|]. split.
  - intros n. unfold vmm_into_vec_with_size. split; [apply resize_length|]. intros i Hi.
    rewrite (nth_error_nth' _ []) by now rewrite resize_length. f_equal. rewrite nth_resize.
    destruct (Nat.ltb_spec i n); [|lia]. apply Ab'.
  - destruct (into_vec_spec m) as [H1 H2]. split; [|assumption]. intros i. now rewrite H1.
Qed.
Print Assumptions C08_vecmultimap.

(* the adapter works on an existing vector: same statement for every start state *)
Theorem C08_adapter {T : Type} (v : list (list T)) (ops : list (vmm_op T)) :
  exists reads m, vmm_run v ops = Some (reads, m) /\
    mm_reads_all (fun i => nth i v []) ops reads /\
    (forall i, nth i m [] = mm_run (fun i => nth i v []) ops i) /\
    (forall i, vmm_index i m = (if Nat.ltb i (length m) then Some (mm_run (fun i => nth i v []) ops i) else None)).
Proof.
  destruct (run_abs ops v) as (rs & m & E & R & Ab). exists rs, m. repeat split; auto.
  intros i. unfold vmm_index, vmm_get_or_fail. destruct (Nat.ltb_spec i (length m)).
  - rewrite (nth_error_nth' _ []) by assumption. f_equal. apply Ab.
  - now apply nth_error_None.
Qed.
Print Assumptions C08_adapter.

Example C08_example :
  vmm_run vmm_new [PushTo 2 7; Get 1; GetOrFail 5; PushTo 2 8; GetMut 0 (fun v => 1 :: v)]
    = Some ([None; Some []; None; None; None], [[1]; []; [7; 8]]).
Proof. reflexivity. Qed.

(* C09.  Cells are sets (strictly increasing lists for the order of the symbols). *)
Theorem C09_partition_new {T : Type} (cmp : T -> T -> comparison) (OL : OrdLaws cmp) (cells : list (list T)) :
  (forall c, In c cells -> sorted_keys cmp c) ->
  (part_new cmp cells <> None <-> disjoint_cells cells).
Proof. apply part_new_iff. assumption. Qed.
Print Assumptions C09_partition_new.

Theorem C09_partition_cells {T : Type} (cmp : T -> T -> comparison) (OL : OrdLaws cmp) (cells : list (list T)) p :
  (forall c, In c cells -> sorted_keys cmp c) -> part_new cmp cells = Some p ->
  (forall s c, part_get_cell cmp s p = Some c <-> In c cells /\ In s c) /\
  Permutation (part_collapse cmp p) (filter (fun c => negb (Nat.eqb (length c) 0)) cells) /\
  (forall s, In s (part_alphabet p) <-> exists c, In c cells /\ In s c) /\ NoDup (part_alphabet p).
Proof.
  intros SC E. destruct (part_alphabet_spec cmp OL cells p SC E) as [H1 H2]. repeat split.
  - apply (proj1 (part_get_spec cmp OL cells p SC E s c) H).
  - apply (proj1 (part_get_spec cmp OL cells p SC E s c) H).
  - apply (part_get_spec cmp OL cells p SC E s c).
  - now apply part_collapse_spec.
  - apply H2.
  - apply H2.
  - eapply sorted_NoDup; eauto.
Qed.
Print Assumptions C09_partition_cells.

(* collapse and new are inverse: the collapsed cells build a partition with the same lookup *)
Theorem C09_partition_collapse_new {T : Type} (cmp : T -> T -> comparison) (OL : OrdLaws cmp) (cells : list (list T)) p :
  (forall c, In c cells -> sorted_keys cmp c) -> part_new cmp cells = Some p ->
  exists p', part_new cmp (part_collapse cmp p) = Some p' /\ forall s, part_get_cell cmp s p' = part_get_cell cmp s p.
Proof.
  intros SC E. pose proof (part_collapse_spec cmp OL cells p SC E) as P.
  assert (HI : forall c, In c (part_collapse cmp p) -> In c cells /\ c <> []).
  { intros c Hc. eapply Permutation_in in Hc; [|exact P]. apply filter_In in Hc. destruct Hc as [H1 H2]. split; [assumption|].
    intros ->. discriminate. }
  assert (SC' : forall c, In c (part_collapse cmp p) -> sorted_keys cmp c) by (intros c Hc; apply SC; now apply HI).
  assert (N : NoDup (part_collapse cmp p)).
  { destruct (collapse_loop_spec cmp OL cells SC (proj1 (part_new_iff cmp OL cells SC) ltac:(congruence)) p []) as [N _]; [| |exact N].
    - intros s c Hs. apply (part_get_spec cmp OL cells p SC E). unfold part_get_cell. apply bm_get_In; auto.
      apply (part_alphabet_spec cmp OL cells p SC E).
    - intros ? ? ? ? ? ? []. }
  assert (D : disjoint_cells cells) by (apply (part_new_iff cmp OL); [assumption|congruence]).
  assert (D' : disjoint_cells (part_collapse cmp p)).
  { intros i j a b x Ha Hb Hx Hx'.
    assert (a = b).
    { assert (Ia : In a cells) by (apply HI; eapply nth_error_In; eauto).
      assert (Ib : In b cells) by (apply HI; eapply nth_error_In; eauto).
      apply In_nth_error in Ia, Ib. destruct Ia as [k Hk], Ib as [l Hl].
      assert (k = l) by (eapply D; eauto). congruence. }
    subst b. eapply (proj1 (NoDup_nth_error _)); eauto; [apply nth_error_Some; congruence|congruence]. }
  destruct (part_new cmp (part_collapse cmp p)) as [p'|] eqn:E'.
  2:{ apply (part_new_iff cmp OL _ SC') in D'. contradiction. }
  exists p'. split; [reflexivity|]. intros s.
  assert (G : forall c, part_get_cell cmp s p' = Some c <-> part_get_cell cmp s p = Some c).
  { intros c. rewrite (part_get_spec cmp OL _ p' SC' E'), (part_get_spec cmp OL _ p SC E). split.
    - intros [H1 H2]. split; [now apply HI|assumption].
    - intros [H1 H2]. split; [|assumption]. eapply Permutation_in; [symmetry; exact P|]. apply filter_In. split; [assumption|].
      destruct c; [destruct H2|reflexivity]. }
  destruct (part_get_cell cmp s p') as [c|] eqn:Q; [symmetry; now apply G|].
  destruct (part_get_cell cmp s p) as [c|] eqn:Q2; [|reflexivity]. pose proof (proj2 (G c) eq_refl). congruence.
Qed.
Print Assumptions C09_partition_collapse_new.

Example C09_example :
  (exists p, part_new Nat.compare [[3; 4]; []; [1; 9]] = Some p /\ part_collapse Nat.compare p = [[1; 9]; [3; 4]] /\
     part_get_cell Nat.compare 9 p = Some [1; 9] /\ part_get_cell Nat.compare 2 p = None) /\
  part_new Nat.compare [[3; 4]; [4; 5]] = None.
Proof. split; [eexists; repeat split; reflexivity|reflexivity]. Qed.

(* C10.  The operations act on the list of elements (top first) as the stack operations do. *)
Theorem C10_pushdown_stack {A : Type} (p : pushdown A) (a : A) :
  elements (@pd_new A) = [] /\
  elements (pd_push p a) = a :: elements p /\
  pd_peek p = hd_error (elements p) /\
  (pd_is_empty p = true <-> elements p = []) /\
  match pd_pop p with
  | Ok (q, v) => elements p = v :: elements q
  | Err q => elements p = [] /\ q = p
  end /\
  match pd_set p a with
  | Ok q => exists v, elements p = v :: tl (elements q) /\ elements q = a :: tl (elements q)
  | Err q => elements p = [] /\ q = p
  end /\
  pd_iter p = rev (elements p) /\
  (forall q, elements p = elements q -> p = q).
Proof.
  repeat split; try reflexivity.
  - now destruct p.
  - destruct p; [reflexivity|discriminate].
  - destruct p; [reflexivity|discriminate].
  - destruct p; cbn; auto.
  - destruct p; cbn; [auto|]. eexists. split; reflexivity.
  - apply pd_to_vec_elements.
  - apply elements_inj.
Qed.
Print Assumptions C10_pushdown_stack.

(* conversions from and to vectors (bottom first) are inverse, equality is equality of the elements, map is elementwise
   and runs a stateful function from top to bottom *)
Theorem C10_pushdown_conversions {A : Type} (p : pushdown A) (v : list A) :
  pd_from (pd_to_vec p) = p /\ pd_to_vec (pd_from v) = v /\ pd_to_vec p = rev (elements p) /\
  (forall eqb, EqbSpec eqb -> forall q, pd_eqb eqb p q = true <-> elements p = elements q) /\
  (forall B (f : A -> B), elements (snd (pd_map (fun (u : unit) a => (u, f a)) tt p)) = map f (elements p)).
Proof.
  repeat split.
  - apply pd_from_to.
  - apply pd_to_from.
  - apply pd_to_vec_elements.
  - intros G. apply (pd_eqb_spec eqb H) in G. now subst.
  - intros G. apply elements_inj in G. subst. apply (pd_eqb_spec eqb H). reflexivity.
  - intros B f. apply pd_map_pure.
Qed.
Print Assumptions C10_pushdown_conversions.

(* integerising a pushdown and reading it back (with the integeriser grown by any later integerisations) is the identity;
   the integeriser only grows *)
Theorem C10_pushdown_integerise {A : Type} (eqb : A -> A -> bool) (known later : list A) (p : pushdown A) :
  EqbSpec eqb ->
  pd_un_integerise (fst (pd_integerise eqb known p) ++ later) (snd (pd_integerise eqb known p)) = Some p /\
  exists new, fst (pd_integerise eqb known p) = known ++ new.
Proof. intros E. destruct (pd_integerise_spec eqb E p known) as [H1 H2]. auto. Qed.
Print Assumptions C10_pushdown_integerise.

Example C10_example :
  let p := pd_from [5; 6; 5] in
  pd_peek p = Some 5 /\ pd_pop p = Ok (pd_from [5; 6], 5) /\ pd_set p 9 = Ok (pd_from [5; 6; 9]) /\
  pd_integerise Nat.eqb [6] p = ([6; 5], pd_from [1; 0; 1]).
Proof. repeat split. Qed.

(* C22 *)
Theorem C22_dyck {A : Type} (eqb : A -> A -> bool) (w : list (bracket A)) :
  EqbSpec eqb -> (dyck_recognize eqb w = true <-> dyck w).
Proof. intros E. now apply dyck_iff. Qed.
Print Assumptions C22_dyck.

Example C22_example :
  dyck [Open 1; Open 2; Close 2; Close 1; Open 3; Close 3] /\ ~ dyck [Open 1; Open 2; Close 1; Close 2] /\ ~ dyck [Open 1].
Proof. repeat split; [|intros H|intros H]; apply (C22_dyck Nat.eqb) in H || apply (C22_dyck Nat.eqb); try apply nat_eqb_spec; try discriminate; reflexivity. Qed.
