(* C60: the test of derivations of the approximation for consistency. *)
From Verif Require Import Base BMap M_Util M_Grammar M_Chart M_CSAuto M_TreeStack M_ToDeriv M_Cow S_Cow M_Consistent S_Consistent P_Consistent.

(* C60: the test ends without a panic for every tree, and it succeeds exactly if no two nodes that the same path of
   successors leads to hold different rules *)
Theorem C60_is_consistent :
  forall c : cow, exists b, is_consistent c = Some b /\ (b = true <-> consistent c).
Proof. exact is_consistent_spec. Qed.
Print Assumptions C60_is_consistent.

(* C60, "the check implemented in csparsing::toderiv": reading the bracket word of a tree gives the tree back; if the tree
   passes the test, then toderiv turns the word into the tree that holds at each path the rule that the nodes there share,
   and nothing else; if it fails, then toderiv gives up *)
Theorem C60_toderiv :
  forall {N T W : Type} (rules : list (prule N T W)) (c : cow) (k : nat), (forall a r, node_at c a r -> r < length rules) ->
    cow_new (cow_word c k) = Some c /\
    (is_consistent c = Some true -> exists tree, toderiv rules (cow_word c k) = Some (Some tree) /\ forall a x, gt_get a tree = Some x <-> exists r, node_at c a r /\ nth_error rules r = Some x) /\
    (is_consistent c = Some false -> toderiv rules (cow_word c k) = Some None).
Proof.
  intros N T W rules c k HR. split; [apply cow_new_word|]. destruct (is_consistent_spec c) as (b & E & H). rewrite E. destruct (toderiv_cow rules c k HR) as [[A B]|[A B]]; split; intros [= ->].
  - exact B.
  - apply H in A. discriminate.
  - destruct A. now apply H.
  - exact B.
Qed.
Print Assumptions C60_toderiv.

(* the two components of the first successor agree in the first tree but not in the second; there, the difference is one
   level further down in the third *)
Example C60_ex :
  let rules : list (prule nat nat nat) := [PRule 0 [1; 2] [[Var 0 0; Var 1 0; Var 0 1]] 1; PRule 1 [2] [[Var 0 0]; [Var 0 1]] 1; PRule 1 [] [[Tm 7]] 1; PRule 1 [] [[Tm 8]] 1] in
  let good := Cow 0 [(0, 0, Cow 1 [(0, 0, Cow 2 [])]); (1, 0, Cow 3 []); (0, 1, Cow 1 [(0, 1, Cow 2 [])])] in
  let bad := Cow 0 [(0, 0, Cow 2 []); (1, 0, Cow 3 []); (0, 1, Cow 3 [])] in
  let deep := Cow 0 [(0, 0, Cow 1 [(0, 0, Cow 2 [])]); (1, 0, Cow 3 []); (0, 1, Cow 1 [(0, 1, Cow 3 [])])] in
  (forall c, In c [good; bad; deep] -> forall a r, node_at c a r -> r < length rules) /\
  is_consistent good = Some true /\ is_consistent bad = Some false /\ is_consistent deep = Some false /\
  (exists tree, toderiv rules (cow_word good 0) = Some (Some tree) /\ map fst tree = [[]; [0]; [0; 0]; [1]]) /\
  toderiv rules (cow_word bad 0) = Some None /\ toderiv rules (cow_word deep 0) = Some None.
Proof.
  cbn zeta. split; [|repeat split; try (vm_compute; reflexivity); eexists; split; vm_compute; reflexivity].
  intros c Hc a r N0. assert (X : In (a, r) (cvisits c [])) by (apply cvisits_spec; now exists a). clear N0.
  repeat (destruct Hc as [<-|Hc]; [vm_compute in X; repeat (destruct X as [X|X]; [injection X as _ <-; cbn; lia|]); destruct X|]). destruct Hc.
Qed.

(* C60: a word of a tree with numbers of rules that do not exist makes toderiv panic exactly if the tree passes the test *)
Theorem C60_toderiv_panics :
  forall {N T W : Type} (rules : list (prule N T W)) (c : cow) (k : nat),
    toderiv rules (cow_word c k) = None <-> is_consistent c = Some true /\ exists a r, node_at c a r /\ length rules <= r.
Proof. exact @toderiv_cow_panics. Qed.
Print Assumptions C60_toderiv_panics.
Example C60_panics_ex :
  let rules : list (prule nat nat nat) := [PRule 0 [1; 1] [[Var 0 0; Var 1 0]] 1] in
  toderiv rules (cow_word (Cow 0 [(0, 0, Cow 1 []); (1, 0, Cow 0 [])]) 0) = None /\ toderiv rules (cow_word (Cow 0 [(0, 0, Cow 1 []); (0, 1, Cow 0 [])]) 0) = Some None.
Proof. split; reflexivity. Qed.
