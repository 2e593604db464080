(* C52, C53: the orders of configurations, transitions, run histories and items, their equality and hash, and Reverse. *)
From Verif Require Import Base BMap M_Agenda M_Search M_Util M_Recog M_Automata M_Order S_Util S_Order P_Util P_Agenda P_Order.

(* ---- C52 ---- *)
(* Configurations, transitions and items are totally ordered when their components are, and partial_cmp agrees with cmp. *)
Theorem C52_total_orders :
  forall (S T I : Type) (K : Weight) wc tc sc ic,
    @OrdLaws (wt K) wc -> @OrdLaws T tc -> @OrdLaws S sc -> @OrdLaws I ic ->
    OrdLaws (@conf_cmp S T K wc tc sc) /\ OrdLaws (@tr_cmp T I K wc tc ic) /\ OrdLaws (@item_cmp S T I K wc tc sc ic) /\
    forall wp tp sp ip,
      (forall x y, wp x y = Some (wc x y)) -> (forall x y, tp x y = Some (tc x y)) ->
      (forall x y, sp x y = Some (sc x y)) -> (forall x y, ip x y = Some (ic x y)) ->
      (forall a b, conf_pcmp wp tp sp a b = Some (conf_cmp wc tc sc a b)) /\
      (forall a b, tr_pcmp wp tp ip a b = Some (tr_cmp wc tc ic a b)) /\
      (forall a b, item_pcmp wp tp sp ip a b = Some (item_cmp wc tc sc ic a b)).
Proof.
  intros S T I K wc tc sc ic WO TO SO IO. split; [now apply conf_ord|]. split; [now apply tr_ord|]. split; [now apply item_ord|].
  intros wp tp sp ip WP TP SP IP. repeat split; intros a b; [now apply conf_pcmp_some|now apply tr_pcmp_some|now apply item_pcmp_some].
Qed.
Print Assumptions C52_total_orders.

(* Which configuration, and which transition, is the greater one. *)
Theorem C52_greater :
  forall (S T I : Type) (K : Weight) wc tc sc ic,
    @OrdLaws (wt K) wc -> @OrdLaws T tc -> @OrdLaws S sc -> @OrdLaws I ic ->
    (forall a b : configuration S T K, conf_cmp wc tc sc a b = Gt <->
       before (fun x y => wc x y = Lt) (word_less (fun x y => tc x y = Lt)) (fun x y => sc x y = Lt) a b) /\
    (forall a b : transition I T K, tr_cmp wc tc ic a b = Gt <->
       tr_greater (fun x y => wc x y = Lt) (word_less (fun x y => tc x y = Lt)) (fun x y => ic x y = Lt) a b) /\
    (forall a b : item S I T K, item_cmp wc tc sc ic a b = Gt <->
       conf_cmp wc tc sc (fst a) (fst b) = Gt \/
       (fst a = fst b /\ word_less (fun x y => tr_greater (fun x y => wc x y = Lt) (word_less (fun x y => tc x y = Lt)) (fun x y => ic x y = Lt) y x)
                                   (elements (snd b)) (elements (snd a)))).
Proof.
  intros S T I K wc tc sc ic WO TO SO IO.
  assert (TR : forall a b : transition I T K, tr_cmp wc tc ic a b = Gt <->
       tr_greater (fun x y => wc x y = Lt) (word_less (fun x y => tc x y = Lt)) (fun x y => ic x y = Lt) a b).
  { intros a b. unfold tr_cmp, tr_greater. rewrite !then_gt, (cmp_gt_lt wc WO), (cmp_gt_lt _ (lex_ord tc TO)), (cmp_gt_lt ic IO), (lex_lt tc TO), (ol_eq _ WO), (ol_eq _ (lex_ord tc TO)). reflexivity. }
  split; [|split; [exact TR|]].
  - intros a b. unfold conf_cmp, before.
    rewrite !then_gt, (cmp_gt_lt wc WO), (cmp_gt_lt _ (lex_ord tc TO)), (cmp_gt_lt sc SO), (lex_lt tc TO), (ol_eq _ WO), (ol_eq _ (lex_ord tc TO)), Nat.compare_gt_iff, Nat.compare_eq_iff.
    intuition auto.
  - intros [c1 r1] [c2 r2]. unfold item_cmp. cbn [fst snd]. pose proof (tr_ord (T:=T) (I:=I) wc tc ic WO TO IO) as TRO.
    rewrite then_gt, (ol_eq _ (conf_ord wc tc sc WO TO SO)), pd_lex, (cmp_gt_lt _ (lex_ord _ TRO)), (lex_lt _ TRO).
    assert (E : forall u v, word_less (fun x y => tr_cmp wc tc ic x y = Lt) u v <-> word_less (fun x y : transition I T K => tr_greater (fun x y => wc x y = Lt) (word_less (fun x y => tc x y = Lt)) (fun x y => ic x y = Lt) y x) u v).
    { intros u v. unfold word_less. split; (intros [H|(p & x & y & u' & v' & E1 & E2 & L)]; [now left|]); right; exists p, x, y, u', v'; (split; [exact E1|split; [exact E2|]]).
      - apply TR. now apply (cmp_gt_lt _ TRO).
      - apply TR in L. now apply (cmp_gt_lt _ TRO). }
    now rewrite E.
Qed.
Print Assumptions C52_greater.

(* The order of items is one a heap can use, and the greatest item has the greatest weight; of two items of the same weight, one with no longer rest. *)
Theorem C52_heap_order :
  forall (S T I : Type) (K : Weight) wc tc sc ic,
    @OrdLaws (wt K) wc -> @OrdLaws T tc -> @OrdLaws S sc -> @OrdLaws I ic ->
    let ile (a b : item S I T K) := match item_cmp wc tc sc ic a b with Gt => false | _ => true end in
    TotalOrder ile /\ Antisym ile /\
    forall (H : max_heap (item S I T K) ile) h x h', mh_pop H h = Some (x, h') ->
      forall y, In y (mh_content H h) ->
        wc (item_weight y) (item_weight x) = Lt \/
        (item_weight y = item_weight x /\ length (c_word (fst x)) <= length (c_word (fst y))).
Proof.
  intros S T I K wc tc sc ic WO TO SO IO ile. pose proof (item_ord wc tc sc ic WO TO SO IO) as O.
  assert (TT : TotalOrder ile).
  { split; unfold ile.
    - intros a b. rewrite (ol_opp _ O a b). destruct (item_cmp wc tc sc ic a b); auto.
    - intros a b c. destruct (item_cmp wc tc sc ic a b) eqn:E1; [|intros _|discriminate].
      + apply (ol_eq _ O) in E1. now subst.
      + destruct (item_cmp wc tc sc ic b c) eqn:E2; [|intros _|discriminate]; [apply (ol_eq _ O) in E2; subst; now rewrite E1|]. now rewrite (ol_trans _ O _ _ _ E1 E2). }
  split; [exact TT|]. split.
  - intros a b. unfold ile. rewrite (ol_opp _ O a b). destruct (item_cmp wc tc sc ic a b) eqn:E; [intros _ _; now apply (ol_eq _ O)|intros _ X; discriminate X|intros X; discriminate X].
  - intros H h x h' P y Hy. destruct (mh_pop_some H _ _ _ P) as [_ M]. specialize (M y Hy). unfold ile, item_cmp, conf_cmp in M. unfold item_weight.
    destruct (wc (c_weight (fst y)) (c_weight (fst x))) eqn:E; cbn in M; [|now left|discriminate].
    right. split; [now apply (ol_eq _ WO)|]. destruct (Nat.compare (length (c_word (fst x))) (length (c_word (fst y)))) eqn:L; cbn in M; [apply Nat.compare_eq_iff in L; lia|apply Nat.compare_lt_iff in L; lia|discriminate].
Qed.
Print Assumptions C52_heap_order.

(* Equality is equality of everything but the weights, equal values have equal hashes, and values that compare as Equal are equal. *)
Theorem C52_equality :
  forall (S T I : Type) (K : Weight) (teqb : T -> T -> bool) (seqb : S -> S -> bool) (ieqb : I -> I -> bool),
    EqbSpec teqb -> EqbSpec seqb -> EqbSpec ieqb ->
    (forall a b : configuration S T K, conf_eqb teqb seqb a b = true <-> c_word a = c_word b /\ c_storage a = c_storage b) /\
    (forall a b : transition I T K, tr_eqb teqb ieqb a b = true <-> t_word a = t_word b /\ t_ins a = t_ins b) /\
    (forall a b : item S I T K, item_eqb teqb seqb ieqb a b = true <->
       c_word (fst a) = c_word (fst b) /\ c_storage (fst a) = c_storage (fst b) /\
       map (fun t => (t_word t, t_ins t)) (elements (snd a)) = map (fun t => (t_word t, t_ins t)) (elements (snd b))) /\
    (forall (X : Type) (hw : list T -> X) (hs : S -> X) (hi : I -> X),
       (forall a b : configuration S T K, conf_eqb teqb seqb a b = true -> conf_hash hw hs a = conf_hash hw hs b) /\
       (forall a b : transition I T K, tr_eqb teqb ieqb a b = true -> tr_hash hw hi a = tr_hash hw hi b)) /\
    (forall wc tc sc ic, @OrdLaws (wt K) wc -> @OrdLaws T tc -> @OrdLaws S sc -> @OrdLaws I ic ->
       (forall a b : configuration S T K, conf_cmp wc tc sc a b = Eq <-> conf_eqb teqb seqb a b = true /\ c_weight a = c_weight b) /\
       (forall a b : transition I T K, tr_cmp wc tc ic a b = Eq <-> tr_eqb teqb ieqb a b = true /\ t_weight a = t_weight b) /\
       (forall a b : item S I T K, item_cmp wc tc sc ic a b = Eq -> item_eqb teqb seqb ieqb a b = true)).
Proof.
  intros S T I K teqb seqb ieqb TE SE IE. unfold EqbSpec in TE, SE, IE.
  assert (LE : forall a b, list_eqb teqb a b = true <-> a = b).
  { induction a as [|x a IH]; intros [|y b]; cbn; try (split; congruence). rewrite andb_true_iff, TE, IH. split; [intros [-> ->]; reflexivity|]. intros E. now injection E. }
  assert (CE : forall a b : configuration S T K, conf_eqb teqb seqb a b = true <-> c_word a = c_word b /\ c_storage a = c_storage b) by (intros a b; unfold conf_eqb; rewrite andb_true_iff, LE, SE; reflexivity).
  assert (XE : forall a b : transition I T K, tr_eqb teqb ieqb a b = true <-> t_word a = t_word b /\ t_ins a = t_ins b) by (intros a b; unfold tr_eqb; rewrite andb_true_iff, LE, IE; reflexivity).
  assert (PE : forall p q : pushdown (transition I T K), pd_eqb (tr_eqb teqb ieqb) p q = true <-> map (fun t => (t_word t, t_ins t)) (elements p) = map (fun t => (t_word t, t_ins t)) (elements q)).
  { induction p as [|x p IH]; intros [|y q]; cbn; try (split; congruence). rewrite andb_true_iff, XE, IH. split; [intros [[-> ->] ->]; reflexivity|]. intros E. injection E. auto. }
  assert (ITE : forall a b : item S I T K, item_eqb teqb seqb ieqb a b = true <->
       c_word (fst a) = c_word (fst b) /\ c_storage (fst a) = c_storage (fst b) /\
       map (fun t => (t_word t, t_ins t)) (elements (snd a)) = map (fun t => (t_word t, t_ins t)) (elements (snd b))) by (intros a b; unfold item_eqb; rewrite andb_true_iff, CE, PE; tauto).
  split; [exact CE|]. split; [exact XE|]. split; [exact ITE|]. split.
  - intros X hw hs hi. split; intros a b E; [apply CE in E|apply XE in E]; destruct E as [E1 E2]; unfold conf_hash, tr_hash; now rewrite E1, E2.
  - intros wc tc sc ic WO TO SO IO. split; [|split].
    + intros a b. rewrite (ol_eq _ (conf_ord wc tc sc WO TO SO)), CE. split; [intros ->; auto|]. destruct a, b; cbn. intros [[-> ->] ->]. reflexivity.
    + intros a b. rewrite (ol_eq _ (tr_ord wc tc ic WO TO IO)), XE. split; [intros ->; auto|]. destruct a, b; cbn. intros [[-> ->] ->]. reflexivity.
    + intros a b E. apply (ol_eq _ (item_ord wc tc sc ic WO TO SO IO)) in E. subst. apply ITE. auto.
Qed.
Print Assumptions C52_equality.

(* The full contract of Ord asks that equal values compare as Equal: two configurations that differ in their weights only are equal and do not. *)
Theorem C52_equal_compares_equal_refuted :
  let K := mkWeight nat Nat.mul 1 Nat.leb in
  let a : configuration nat nat K := Conf [3] 4 (2 : K) in let b : configuration nat nat K := Conf [3] 4 (5 : K) in
  let t : transition nat nat K := Trans [3] (2 : K) 4 in let u : transition nat nat K := Trans [3] (5 : K) 4 in
  conf_eqb Nat.eqb Nat.eqb a b = true /\ conf_cmp (K:=K) Nat.compare Nat.compare Nat.compare a b = Lt /\
  tr_eqb Nat.eqb Nat.eqb t u = true /\ tr_cmp (K:=K) Nat.compare Nat.compare Nat.compare t u = Lt.
Proof. vm_compute. auto. Qed.
Print Assumptions C52_equal_compares_equal_refuted.

(* Where weights can be incomparable, partial_cmp has cycles: it falls through to the lengths. *)
Theorem C52_partial_order_refuted :
  let K := mkWeight (option nat) (fun x _ => x) None (fun _ _ => true) in
  let wp (x y : option nat) := match x, y with Some x, Some y => Some (Nat.compare x y) | None, None => Some Eq | _, _ => None end in
  let tp (x y : nat) := Some (Nat.compare x y) in
  (forall x y z, wp x y = Some Lt -> wp y z = Some Lt -> wp x z = Some Lt) /\
  let a : configuration nat nat K := Conf [] 0 (Some 1 : K) in let b : configuration nat nat K := Conf [7] 0 (None : K) in let c : configuration nat nat K := Conf [7; 7] 0 (Some 2 : K) in
  conf_pcmp (K:=K) wp tp tp a b = Some Gt /\ conf_pcmp (K:=K) wp tp tp b c = Some Gt /\ conf_pcmp (K:=K) wp tp tp a c = Some Lt.
Proof.
  cbn zeta. split; [|vm_compute; auto]. intros [x|] [y|] [z|]; try discriminate. intros E1 E2. injection E1 as E1. injection E2 as E2. f_equal. exact (ol_trans _ nat_ord _ _ _ E1 E2).
Qed.
Print Assumptions C52_partial_order_refuted.

(* the greater one: by weight; at the same weight the shorter rest; then the greater rest; then the storage *)
Example C52_example :
  let K := mkWeight nat Nat.mul 1 Nat.leb in
  let cmp := @conf_cmp nat nat K Nat.compare Nat.compare Nat.compare in
  cmp (Conf [9; 9; 9] 0 (3 : K)) (Conf [] 0 (2 : K)) = Gt /\ cmp (Conf [1] 0 (3 : K)) (Conf [9; 9] 9 (3 : K)) = Gt /\
  cmp (Conf [2; 1] 0 (3 : K)) (Conf [1; 9] 9 (3 : K)) = Gt /\ cmp (Conf [2; 1] 1 (3 : K)) (Conf [2; 1] 0 (3 : K)) = Gt /\
  @item_cmp nat nat nat K Nat.compare Nat.compare Nat.compare Nat.compare (Conf [] 1 (3 : K), Cons (Trans [1] (2 : K) 5) Empty) (Conf [] 1 (3 : K), Empty) = Gt /\
  OrdLaws Nat.compare.
Proof. vm_compute. repeat split; try apply nat_ord. Qed.

(* ---- C53 ---- *)
(* Reverse turns the order around and nothing else: reversed twice it is the order itself, total orders stay total. *)
Theorem C53_reversed_order :
  forall (W : Type) (c : W -> W -> comparison) (p : W -> W -> option comparison),
    (forall a b, rev_cmp c (rev_from a) (rev_from b) = Lt <-> c b a = Lt) /\
    (forall a b, rev_cmp (rev_cmp c) (rev_from (rev_from a)) (rev_from (rev_from b)) = c a b) /\
    (OrdLaws c -> OrdLaws (rev_cmp c)) /\
    (forall a b, rev_pcmp p (rev_from a) (rev_from b) = p b a) /\
    ((forall a b, p a b = Some (c a b)) -> forall a b, rev_pcmp p a b = Some (rev_cmp c a b)) /\
    (forall a, rev_unwrap (rev_from a) = a :> W) /\ (forall a : reversed W, rev_from (rev_unwrap a) = a).
Proof.
  intros W c p. split; [reflexivity|]. split; [reflexivity|]. split; [|split; [reflexivity|split; [|split; [reflexivity|now intros [a]]]]].
  - intros O. apply (inj_ord (@rev_unwrap W)  (fun x y => c y x)); [now apply flip_ord|]. intros [a] [b] E. cbn in E. now subst.
  - intros E [a] [b]. apply E.
Qed.
Print Assumptions C53_reversed_order.

(* A max-heap of reversed values gives back exactly what it holds, smallest first. *)
Theorem C53_heap_drains_ascending :
  forall (W : Type) (c : W -> W -> comparison), OrdLaws c ->
  forall (H : max_heap (reversed W) (fun a b => match rev_cmp c a b with Gt => false | _ => true end)) (l : list W),
    let out := map rev_unwrap (drain H (length l) (mh_of_list H (map rev_from l))) in
    Permutation out l /\ ascending (fun x y => c x y = Lt) out.
Proof.
  intros W c O H l. cbn zeta. set (h := mh_of_list H (map rev_from l)). pose proof (mh_of_list_c H (map rev_from l)) as P. fold h in P.
  destruct (drain_spec _ H (length l) h) as [P1 A1]. { rewrite (Permutation_length P), map_length. lia. }
  split.
  - transitivity (map rev_unwrap (map (@rev_from W) l)); [apply Permutation_map; now rewrite P1|]. rewrite map_map. rewrite map_id. reflexivity.
  - unfold ascending. clear P P1. induction A1 as [|x r F A IH]; cbn; [constructor|]. constructor; [|exact IH].
    apply Forall_forall. intros y Hy. apply in_map_iff in Hy. destruct Hy as (z & <- & Hz). rewrite Forall_forall in F. specialize (F z Hz). cbn in F. unfold rev_cmp in F.
    intros L. rewrite (ol_opp _ O), L in F. discriminate.
Qed.
Print Assumptions C53_heap_drains_ascending.

(* Everything else is passed on to the value inside: constants, operations, text, factors. *)
Theorem C53_passed_on :
  forall (W B E : Type) (op : W -> W -> W) (z : W) (is_zero : W -> bool) (display : W -> B) (from_str : B -> result W E) (factorize : W -> nat -> list W),
    (forall a b, rev_unwrap (rev_op op (rev_from a) (rev_from b)) = op a b) /\
    rev_unwrap (rev_const z) = z /\ (forall a, rev_is_zero is_zero (rev_from a) = is_zero a) /\
    ((forall a, is_zero a = true <-> a = z) -> forall a, rev_is_zero is_zero a = true <-> a = rev_const z) /\
    (forall s, rev_from_str from_str s = match from_str s with Ok w => Ok (rev_from w) | Err e => Err e end) /\
    ((forall a, from_str (display a) = Ok a) -> forall a, rev_from_str from_str (rev_display display a) = Ok a) /\
    (forall a n, map rev_unwrap (rev_factorize factorize (rev_from a) n) = factorize a n) /\
    ((forall a n, 0 < n -> length (factorize a n) = n /\ fold_right op z (factorize a n) = a) ->
     forall a n, 0 < n -> length (rev_factorize factorize a n) = n /\ fold_right (rev_op op) (rev_const z) (rev_factorize factorize a n) = a).
Proof.
  intros W B E op z is_zero display from_str factorize.
  split; [reflexivity|]. split; [reflexivity|]. split; [reflexivity|]. split; [|split; [|split; [|split]]].
  - intros H [a]. unfold rev_is_zero. cbn. rewrite H. unfold rev_const. split; congruence.
  - reflexivity.
  - intros H [a]. unfold rev_from_str, rev_display. cbn. now rewrite H.
  - intros a n. unfold rev_factorize. rewrite map_map. cbn. apply map_id.
  - intros H [a] n Hn. destruct (H a n Hn) as [H1 H2]. unfold rev_factorize. cbn. split; [now rewrite map_length|].
    transitivity (Reverse (fold_right op z (factorize a n))); [|now rewrite H2]. clear. induction (factorize a n) as [|x l IH]; cbn; [reflexivity|]. now rewrite IH.
Qed.
Print Assumptions C53_passed_on.

(* a heap of reversed costs; reversed tropical weights multiply as before *)
Example C53_example :
  let rle (a b : reversed nat) := match rev_cmp Nat.compare a b with Gt => false | _ => true end in
  TotalOrder rle /\ forall TO : TotalOrder rle,
  map rev_unwrap (drain (list_heap rle TO) 5 (mh_of_list (list_heap rle TO) (map rev_from [4; 1; 3; 1; 2]))) = [1; 1; 2; 3; 4] /\
  rev_op Nat.add (rev_from 2) (rev_from 3) = rev_from 5 /\ rev_cmp Nat.compare (rev_from 2) (rev_from 3) = Gt.
Proof.
  intros rle. split; [|intros TO; vm_compute; auto]. unfold rle, rev_cmp. split.
  - intros [a] [b]. cbn. rewrite (Nat.compare_antisym a b). destruct (Nat.compare a b); auto.
  - intros [a] [b] [c]. cbn. destruct (Nat.compare_spec b a), (Nat.compare_spec c b), (Nat.compare_spec c a); intros; try reflexivity; try discriminate; lia.
Qed.
