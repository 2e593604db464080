(* C07: emptying a UniqueHeap. *)
From Verif Require Import Base M_Agenda S_Heaps P_Agenda P_Heaps M_Drain.
From Coq Require Import Sorting.Sorted.

Lemma sorted_unique {X} (R : X -> X -> Prop) (anti : forall a b, R a b -> R b a -> a = b) : forall l l', StronglySorted R l -> StronglySorted R l' -> Permutation l l' -> l = l'.
Proof.
  induction l as [|x l IH]; intros l' S1 S2 P; [apply Permutation_nil in P; now subst|]. destruct l' as [|y l']; [apply Permutation_sym, Permutation_nil in P; discriminate|].
  inversion S1 as [|? ? A1 B1]; subst. inversion S2 as [|? ? A2 B2]; subst. rewrite Forall_forall in B1, B2.
  assert (E : x = y).
  { assert (I1 : In x (y :: l')) by (eapply Permutation_in; [exact P|now left]). assert (I2 : In y (x :: l)) by (eapply Permutation_in; [symmetry; exact P|now left]).
    destruct I1 as [->|I1]; [reflexivity|]. destruct I2 as [->|I2]; [reflexivity|]. apply anti; auto. }
  subst y. f_equal. apply IH; auto. now apply Permutation_cons_inv in P.
Qed.
Lemma sorted_snoc {X} (R : X -> X -> Prop) l x : StronglySorted R l -> Forall (fun y => R y x) l -> StronglySorted R (l ++ [x]).
Proof.
  induction l as [|y l IH]; intros S1 F; cbn [app]; [repeat constructor|]. inversion S1; inversion F; subst. constructor; [auto|]. apply Forall_app. split; [assumption|]. now repeat constructor.
Qed.
Definition swap {A B : Type} (p : A * B) : B * A := (snd p, fst p).
Lemma drain_sorted {It Wt} (eqb : It -> It -> bool) {leb} (H : max_heap (Wt * It) leb) : forall n h, length (uh_items H h) <= n ->
  Permutation (map swap (uh_drain eqb H n h)) (uh_items H h) /\ StronglySorted (fun p q => leb p q = true) (rev (map swap (uh_drain eqb H n h))).
Proof.
  induction n as [|n IH]; intros h L.
  - destruct (uh_items H h) eqn:E; [|cbn in L; lia]. cbn. split; constructor.
  - cbn [uh_drain]. unfold uh_pop. unfold uh_items in *. destruct (mh_pop H (uh_heap H h)) as [[[w i] h']|] eqn:P.
    + apply (mh_pop_some H) in P. destruct P as [P M]. destruct (IH (UniqueHeap H h' (uh_remove eqb i (uh_current H h)))) as [P1 S1]; [cbn; apply Permutation_length in P; cbn in P; lia|].
      cbn [uh_heap] in P1. cbn [map rev]. split; [rewrite P; constructor; exact P1|]. apply sorted_snoc; [exact S1|]. apply Forall_forall. intros q Hq. apply M. rewrite P. right. rewrite <- P1. now apply in_rev in Hq.
    + apply (mh_pop_none H) in P. rewrite P. cbn. split; constructor.
Qed.

(* C07: a heap that has been built by Default, from an iterator or from distinct elements, and then changed by any pushes
   and pops, is emptied by as many calls of pop as it has elements; they return each element it holds exactly once, from
   the greatest weight to the smallest and from the greatest element to the smallest among equal weights; into_sorted_vec
   returns the same pairs in the opposite order. *)
Theorem C07_drain :
  forall (It Wt : Type) (eqb : It -> It -> bool), EqbSpec eqb ->
  forall (la : Wt -> Wt -> bool) (lb : It -> It -> bool),
    (forall a b, la a b = true -> la b a = true -> a = b) -> (forall a b, lb a b = true -> lb b a = true -> a = b) ->
  forall (H : max_heap (Wt * It) (lex_leb la lb)) (isv : mh_T H -> list (Wt * It)), sorts H isv ->
  forall h0 : unique_heap H,
    (h0 = uh_default H \/ (exists l, h0 = uh_from_iter eqb H l) \/ (exists v, NoDup (map snd v) /\ h0 = uh_from_vec eqb H v)) ->
  forall (ops : list (uh_op It Wt)) (n : nat),
    let h := uh_run eqb H h0 ops in
    uh_len H h <= n ->
    let popped := uh_drain eqb H n h in
    length popped = uh_len H h /\ NoDup (map fst popped) /\
    (forall i w, In (i, w) popped <-> In (w, i) (uh_items H h)) /\
    StronglySorted (fun p q => la (snd q) (snd p) = true /\ (snd p = snd q -> lb (fst q) (fst p) = true)) popped /\
    uh_into_sorted_vec H isv h = rev (map (fun p => (snd p, fst p)) popped).
Proof.
  intros It Wt eqb E la lb AA AB H isv SV h0 B ops n h L popped.
  assert (Inv : uh_inv H h).
  { apply uh_inv_run; [assumption|]. destruct B as [->|[[l ->]|(v & N & ->)]].
    - apply uh_inv_default.
    - rewrite uh_from_iter_pushes. apply uh_inv_run; [assumption|apply uh_inv_default].
    - now apply uh_from_vec_inv. }
  assert (LE : uh_len H h = length (uh_items H h)) by apply (mh_len_c H). rewrite LE in *.
  destruct (drain_sorted eqb H n h L) as [P S0]. fold popped in P, S0.
  assert (SN : map snd (map swap popped) = map fst popped) by (rewrite map_map; reflexivity).
  split; [rewrite <- (map_length swap popped); apply Permutation_length; exact P|]. split; [rewrite <- SN; eapply Permutation_NoDup; [apply Permutation_map; symmetry; exact P|apply Inv]|]. split; [|split].
  - intros i w. split; intros Q.
    + rewrite <- P. now apply (in_map swap) in Q.
    + rewrite <- P in Q. apply in_map_iff in Q. destruct Q as ([i' w'] & [= -> ->] & Q). exact Q.
  - clear -S0. induction popped as [|p l IH]; [constructor|]. cbn [map rev] in S0. assert (S1 : StronglySorted (fun p q => lex_leb la lb p q = true) (rev (map swap l)) /\ forall q, In q (rev (map swap l)) -> lex_leb la lb q (swap p) = true).
    { clear IH. induction (rev (map swap l)) as [|y r IH]; [split; [constructor|intros q []]|]. cbn [app] in S0. inversion S0 as [|? ? A C]; subst. destruct (IH A) as [I1 I2]. apply Forall_app in C. destruct C as [C1 C2]. split; [constructor; assumption|]. intros q [<-|Hq]; [inversion C2; assumption|auto]. }
    destruct S1 as [S1 S2]. constructor; [auto|]. apply Forall_forall. intros q Hq. assert (Q : lex_leb la lb (swap q) (swap p) = true) by (apply S2; rewrite <- in_rev; now apply in_map). unfold lex_leb, swap in Q. cbn [fst snd] in Q.
    destruct (la (snd q) (snd p)) eqn:L1; [|discriminate]. split; [reflexivity|]. intros EQ. rewrite EQ in L1, Q. now rewrite L1 in Q.
  - apply (sorted_unique (fun p q => lex_leb la lb p q = true)); [|apply SV|exact S0|].
    + intros [w1 i1] [w2 i2]. unfold lex_leb. cbn [fst snd]. destruct (la w1 w2) eqn:L1; [|discriminate]. destruct (la w2 w1) eqn:L2; [|intros _; discriminate]. intros L3 L4. f_equal; auto.
    + unfold uh_into_sorted_vec. rewrite (proj1 (SV (uh_heap H h))), <- Permutation_rev. symmetry. exact P.
Qed.
Print Assumptions C07_drain.

(* the example of the documentation, with one more push; insertion sort as into_sorted_vec *)
Fixpoint insert_sorted (x : nat * nat) (l : list (nat * nat)) : list (nat * nat) :=
  match l with [] => [x] | y :: l => if lex_leb Nat.leb Nat.leb x y then x :: y :: l else y :: insert_sorted x l end.
Definition nat_pair_heap := list_heap _ (lex_TO Nat.leb Nat.leb nat_leb_TO nat_leb_TO).
Definition insertion_sort (h : mh_T nat_pair_heap) : list (nat * nat) := fold_right insert_sorted [] (mh_content nat_pair_heap h).
Lemma insertion_sorts : sorts nat_pair_heap insertion_sort.
Proof.
  pose proof (lex_TO Nat.leb Nat.leb nat_leb_TO nat_leb_TO) as [TT TR]. intros h. unfold insertion_sort.
  assert (IP : forall x l, Permutation (insert_sorted x l) (x :: l)). { induction l as [|y l IH]; cbn; [reflexivity|]. destruct (lex_leb Nat.leb Nat.leb x y); [reflexivity|]. rewrite IH. constructor. }
  induction (mh_content nat_pair_heap h) as [|x l [P S0]]; cbn [fold_right]; [split; constructor|]. split; [rewrite IP; now constructor|].
  clear P. induction (fold_right insert_sorted [] l) as [|y r IH]; cbn [insert_sorted]; [repeat constructor|]. inversion S0 as [|? ? A C]; subst. rewrite Forall_forall in C. destruct (lex_leb Nat.leb Nat.leb x y) eqn:L.
  - constructor; [exact S0|]. apply Forall_forall. intros z [<-|Hz]; [exact L|]. eapply TR; [exact L|auto].
  - constructor; [auto|]. apply Forall_forall. intros z Hz. rewrite (IP x r) in Hz. destruct Hz as [<-|Hz]; [destruct (TT x y); congruence|auto].
Qed.
Example C07_drain_ex :
  let h := uh_run Nat.eqb nat_pair_heap (uh_from_iter Nat.eqb nat_pair_heap [(3, 10); (1, 1); (2, 5); (3, 12)]) [UPush 4 5; UPush 1 9] in
  sorts nat_pair_heap insertion_sort /\ uh_len nat_pair_heap h = 4 /\ uh_drain Nat.eqb nat_pair_heap 4 h = [(3, 10); (4, 5); (2, 5); (1, 1)] /\
  uh_into_sorted_vec nat_pair_heap insertion_sort h = [(1, 1); (5, 2); (5, 4); (10, 3)].
Proof. cbn zeta. split; [exact insertion_sorts|]. repeat split; vm_compute; reflexivity. Qed.

(* C07, what From<Vec> does: whatever the vector, with repeated elements or not, emptying the heap returns every pair of
   the vector as often as it is there, sorted; so an element is returned once for each of its occurrences *)
Theorem C07_from_vec_drain :
  forall (It Wt : Type) (eqb : It -> It -> bool) (la : Wt -> Wt -> bool) (lb : It -> It -> bool) (H : max_heap (Wt * It) (lex_leb la lb)) (v : list (Wt * It)) (n : nat),
    length v <= n ->
    let popped := map (fun p => (snd p, fst p)) (uh_drain eqb H n (uh_from_vec eqb H v)) in
    Permutation popped v /\ StronglySorted (fun p q => lex_leb la lb q p = true) popped.
Proof.
  intros It Wt eqb la lb H v n L popped. assert (P0 : Permutation (uh_items H (uh_from_vec eqb H v)) v) by apply (mh_of_list_c H).
  destruct (drain_sorted eqb H n (uh_from_vec eqb H v)) as [P S0]; [rewrite P0; exact L|]. change (map swap (uh_drain eqb H n (uh_from_vec eqb H v))) with popped in P, S0. split; [now rewrite P|].
  clear -S0. induction popped as [|p l IH]; [constructor|]. cbn [rev] in S0. assert (S1 : StronglySorted (fun p q => lex_leb la lb p q = true) (rev l) /\ forall q, In q (rev l) -> lex_leb la lb q p = true).
  { clear IH. induction (rev l) as [|y r IH]; [split; [constructor|intros q []]|]. cbn [app] in S0. inversion S0 as [|? ? A C]; subst. destruct (IH A) as [I1 I2]. apply Forall_app in C. destruct C as [C1 C2]. split; [constructor; assumption|]. intros q [<-|Hq]; [inversion C2; assumption|auto]. }
  destruct S1 as [S1 S2]. constructor; [auto|]. apply Forall_forall. intros q Hq. apply S2. now rewrite <- in_rev.
Qed.
Print Assumptions C07_from_vec_drain.
Example C07_from_vec_drain_ex : uh_drain Nat.eqb nat_pair_heap 3 (uh_from_vec Nat.eqb nat_pair_heap [(1, 7); (2, 7); (2, 5)]) = [(7, 2); (5, 2); (7, 1)].
Proof. vm_compute. reflexivity. Qed.
