(* is_consistent and toderiv make the same test. *)
From Verif Require Import Base BMap M_Util P_Util M_Recog M_TreeStack M_Grammar M_Chart M_CSAuto M_RuleMask M_ToDeriv M_Cow S_Cow P_Recog P_Automata P_TreeStack P_Conversion P_CSAuto P_ToDeriv P_Cow M_Consistent S_Consistent.
Arguments Nat.ltb : simpl never. Arguments Nat.eqb : simpl never. Arguments Nat.leb : simpl never.

Fixpoint cow_ind2 (P : cow -> Prop) (H : forall r ss, Forall (fun s => P (snd s)) ss -> P (Cow r ss)) (c : cow) : P c :=
  match c with
  | Cow r ss => H r ss ((fix go (ss : list (nat * nat * cow)) : Forall (fun s => P (snd s)) ss :=
      match ss with [] => Forall_nil _ | s :: ss => Forall_cons s (cow_ind2 P H (snd s)) (go ss) end) ss)
  end.

Lemma all_p_spec {X} (f : X -> option bool) (P : X -> Prop) l : (forall x, In x l -> exists b, f x = Some b /\ (b = true <-> P x)) ->
  exists b, all_p f l = Some b /\ (b = true <-> forall x, In x l -> P x).
Proof.
  induction l as [|x l IH]; intros H; cbn [all_p].
  - exists true. split; [reflexivity|]. split; [intros _ x []|reflexivity].
  - destruct (H x (or_introl eq_refl)) as ([] & E & Hb); rewrite E.
    + destruct IH as (b & E' & Hb'); [intros y Hy; apply H; now right|]. exists b. split; [exact E'|]. rewrite Hb'. split.
      * intros A y [<-|Hy]; [now apply Hb|auto].
      * intros A y Hy. apply A. now right.
    + exists false. split; [reflexivity|]. split; [discriminate|]. intros A. apply Hb. apply A. now left.
Qed.
Lemma same_content_spec trees : same_content trees = true <-> forall t t', In t trees -> In t' trees -> cow_content t = cow_content t'.
Proof.
  destruct trees as [|t0 ts]; cbn [same_content]; [split; [intros _ t t' []|reflexivity]|]. rewrite forallb_forall. split.
  - intros H. assert (G : forall t, In t (t0 :: ts) -> cow_content t = cow_content t0). { intros t [<-|Ht]; [reflexivity|]. apply Nat.eqb_eq, H, Ht. }
    intros t t' Ht Ht'. now rewrite (G t Ht), (G t' Ht').
  - intros H t Ht. apply Nat.eqb_eq. apply H; [now right|now left].
Qed.
Lemma push_one ss : forall m : list (list cow), exists m', fold_p (fun m (e : nat * nat * cow) => let '(i, _, s) := e in vmm_push_to i s m) ss m = Some m' /\
  forall i s, In s (nth i m' []) <-> In s (nth i m []) \/ exists j, In (i, j, s) ss.
Proof.
  induction ss as [|[[i j] s] ss IH]; intros m; cbn [fold_p].
  - exists m. split; [reflexivity|]. intros i s. split; [tauto|]. intros [A|(j & [])]. exact A.
  - destruct (push_total i s m) as (m1 & E1). rewrite E1. destruct (IH m1) as (m' & E & H). exists m'. split; [exact E|]. intros i' s'. rewrite H, (In_push _ i' _ _ _ s' E1). split.
    + intros [[A|[-> ->]]|(j' & A)]; [tauto|right; exists j; now left|right; exists j'; now right].
    + intros [A|(j' & [[= -> -> ->]|A])]; [tauto|tauto|right; now exists j'].
Qed.
Lemma successors_spec trees : exists g, successors_per_fst trees = Some g /\ forall i s, In s (nth i g []) <-> exists t j, In t trees /\ In (i, j, s) (cow_successors t).
Proof.
  unfold successors_per_fst. assert (G : forall m, exists g, fold_p (fun m t => fold_p (fun m (e : nat * nat * cow) => let '(i, _, s) := e in vmm_push_to i s m) (cow_successors t) m) trees m = Some g /\
    forall i s, In s (nth i g []) <-> In s (nth i m []) \/ exists t j, In t trees /\ In (i, j, s) (cow_successors t)).
  { induction trees as [|t trees IH]; intros m; cbn [fold_p].
    - exists m. split; [reflexivity|]. intros i s. split; [tauto|]. intros [A|(t & j & [] & _)]. exact A.
    - destruct (push_one (cow_successors t) m) as (m1 & E1 & H1). rewrite E1. destruct (IH m1) as (g & E & H). exists g. split; [exact E|]. intros i s. rewrite H, H1. split.
      + intros [[A|(j & A)]|(t' & j & A & B)]; [tauto|right; exists t, j; split; [now left|exact A]|right; exists t', j; split; [now right|exact B]].
      + intros [A|(t' & j & [<-|A] & B)]; [tauto|left; right; now exists j|right; now exists t', j]. }
  destruct (G vmm_new) as (g & E & H). exists g. split; [exact E|]. intros i s. rewrite H. split; [intros [A|A]; [destruct i; destruct A|exact A]|tauto].
Qed.
Lemma height_successor t i j s : In (i, j, s) (cow_successors t) -> cow_height s < cow_height t.
Proof.
  destruct t as [c ss]. cbn [cow_successors cow_height]. intros H. apply Nat.lt_succ_r. induction ss as [|x ss IH]; [destruct H|]. cbn [map fold_right]. destruct H as [->|H]; [cbn [snd]; lia|]. specialize (IH H). lia.
Qed.
Lemma vec_spec : forall fuel trees, 0 < fuel -> (forall t, In t trees -> cow_height t < fuel) ->
  exists b, is_consistent_vec fuel trees = Some b /\
    (b = true <-> forall a r r' t t', In t trees -> In t' trees -> node_at t a r -> node_at t' a r' -> r = r').
Proof.
  induction fuel as [|fuel IH]; intros trees HF HH; [lia|]. cbn [is_consistent_vec]. destruct (same_content trees) eqn:ES.
  - rewrite same_content_spec in ES. destruct (successors_spec trees) as (g & E & HG). rewrite E.
    assert (W : exists b, all_p (is_consistent_vec fuel) g = Some b /\ (b = true <-> forall ts, In ts g -> forall a r r' t t', In t ts -> In t' ts -> node_at t a r -> node_at t' a r' -> r = r')).
    { apply all_p_spec. intros ts Hts. apply IH.
      - destruct trees as [|t trees]; [injection E as <-; destruct Hts|]. specialize (HH t (or_introl eq_refl)). destruct t as [c ss]. cbn [cow_height] in HH. lia.
      - intros t Ht. apply (In_nth _ _ []) in Hts. destruct Hts as (i & _ & <-). apply HG in Ht. destruct Ht as (t0 & j & H0 & H1). apply height_successor in H1. specialize (HH t0 H0). lia. }
    destruct W as (b & EB & HB). exists b. split; [exact EB|]. rewrite HB. split.
    + intros A a r r' t t' Ht Ht' N1 N2. destruct N1 as [r ss|r0 ss i j s a r Hin N1].
      * inversion N2; subst. exact (ES _ _ Ht Ht').
      * inversion N2 as [|r1 ss' i' j' s' a' r1' Hin' N2']; subst. assert (I1 : In s (nth i g [])) by (apply HG; exists (Cow r0 ss), j; auto). assert (I2 : In s' (nth i g [])) by (apply HG; exists (Cow r1 ss'), j'; auto).
        destruct (Nat.lt_ge_cases i (length g)) as [L|L]; [|rewrite nth_overflow in I1 by exact L; destruct I1]. exact (A _ (nth_In _ _ L) _ _ _ _ _ I1 I2 N1 N2').
    + intros A ts Hts a r r' t t' Ht Ht' N1 N2. apply (In_nth _ _ []) in Hts. destruct Hts as (i & _ & <-). apply HG in Ht, Ht'. destruct Ht as ([c1 s1] & j1 & P1 & Q1), Ht' as ([c2 s2] & j2 & P2 & Q2).
      exact (A (i :: a) r r' _ _ P1 P2 (node_below _ _ _ _ _ _ _ Q1 N1) (node_below _ _ _ _ _ _ _ Q2 N2)).
  - exists false. split; [reflexivity|]. split; [discriminate|]. intros A. rewrite <- ES. apply same_content_spec. intros [c1 s1] [c2 s2] H1 H2. exact (A [] c1 c2 _ _ H1 H2 (node_root _ _) (node_root _ _)).
Qed.
Lemma is_consistent_spec c : exists b, is_consistent c = Some b /\ (b = true <-> consistent c).
Proof.
  destruct (vec_spec (S (cow_height c)) [c]) as (b & E & H); [lia|intros t [<-|[]]; lia|]. exists b. split; [exact E|]. rewrite H. split.
  - intros A a r r' N1 N2. exact (A a r r' c c (or_introl eq_refl) (or_introl eq_refl) N1 N2).
  - intros A a r r' t t' [<-|[]] [<-|[]] N1 N2. exact (A a r r' N1 N2).
Qed.

(* ---- toderiv ---- *)
Fixpoint cvisits (c : cow) (p : list nat) : list (list nat * nat) :=
  match c with Cow r ss => (p, r) :: concat (map (fun s => cvisits (snd s) (p ++ [fst (fst s)])) ss) end.
Lemma cvisits_spec c : forall p q r, In (q, r) (cvisits c p) <-> exists a, q = p ++ a /\ node_at c a r.
Proof.
  induction c as [r0 ss IH] using cow_ind2. intros p q r. rewrite Forall_forall in IH. cbn [cvisits]. split.
  - intros [[= <- <-]|H]; [exists []; rewrite app_nil_r; split; [reflexivity|constructor]|]. apply in_concat in H. destruct H as (l & Hl & Hq). apply in_map_iff in Hl. destruct Hl as ([[i j] s] & <- & Hs). apply (IH _ Hs) in Hq. destruct Hq as (a & -> & N1). cbn [fst snd] in *.
    exists (i :: a). rewrite <- app_assoc. split; [reflexivity|]. econstructor; eassumption.
  - intros (a & -> & N1). inversion N1 as [|? ? i j s a' ? Hs N2]; subst; [left; now rewrite app_nil_r|]. right. apply in_concat. exists (cvisits s (p ++ [i])). split; [apply in_map_iff; now exists (i, j, s)|]. apply (IH _ Hs). exists a'. rewrite <- app_assoc. split; [reflexivity|exact N2].
Qed.
Lemma toderiv_loop_cow c : forall k p rest tree, toderiv_loop (cow_word c k ++ rest) p tree = let? tree' := insert_visits (cvisits c p) tree in toderiv_loop rest p tree'.
Proof.
  induction c as [r ss IH] using cow_ind2. intros k p rest tree.
  assert (G : forall ss', Forall (fun s => forall k p rest tree, toderiv_loop (cow_word (snd s) k ++ rest) p tree = let? tree' := insert_visits (cvisits (snd s) p) tree in toderiv_loop rest p tree') ss' -> forall tree rest,
    toderiv_loop (concat (map (fun s => Open (BVar r (fst (fst s)) (snd (fst s))) :: cow_word (snd s) (snd (fst s)) ++ [Close (BVar r (fst (fst s)) (snd (fst s)))]) ss') ++ rest) p tree =
    let? tree' := insert_visits (concat (map (fun s => cvisits (snd s) (p ++ [fst (fst s)])) ss')) tree in toderiv_loop rest p tree').
  { induction ss' as [|s ss' IHs]; intros F tree' rest'; [reflexivity|]. inversion F as [|? ? F1 F2]; subst. cbn [map concat]. rewrite insert_visits_app. cbn [app toderiv_loop]. rewrite <- !app_assoc, F1. destruct (insert_visits (cvisits (snd s) (p ++ [fst (fst s)])) tree') as [tree''|]; [|reflexivity].
    cbn [app toderiv_loop]. rewrite removelast_last. apply (IHs F2). }
  assert (B : forall tree, toderiv_loop ((match ss with [] => [Open Terminal; Close Terminal] | _ => concat (map (fun s => Open (BVar r (fst (fst s)) (snd (fst s))) :: cow_word (snd s) (snd (fst s)) ++ [Close (BVar r (fst (fst s)) (snd (fst s)))]) ss) end ++ [Close (BComp r k)]) ++ rest) p tree =
    let? tree' := insert_visits (concat (map (fun s => cvisits (snd s) (p ++ [fst (fst s)])) ss)) tree in toderiv_loop rest p tree').
  { intros tree'. rewrite <- app_assoc. destruct ss as [|s ss]; [reflexivity|]. rewrite (G _ IH). reflexivity. }
  cbn [cow_word cvisits insert_visits]. cbn [app toderiv_loop]. destruct (gt_get p tree) as [r'|]; [destruct (Nat.eqb r' r); [apply B|reflexivity]|apply B].
Qed.
Lemma toderiv_cow {N T W} (rules : list (prule N T W)) c k : (forall a r, node_at c a r -> r < length rules) ->
  (consistent c /\ exists tree, toderiv rules (cow_word c k) = Some (Some tree) /\ forall a x, gt_get a tree = Some x <-> exists r, node_at c a r /\ nth_error rules r = Some x) \/
  (~ consistent c /\ toderiv rules (cow_word c k) = Some None).
Proof.
  intros VL. unfold toderiv. assert (E : toderiv_loop (cow_word c k) [] [] = insert_visits (cvisits c []) []). { pose proof (toderiv_loop_cow c k [] [] []) as L. rewrite app_nil_r in L. rewrite L. destruct (insert_visits (cvisits c []) []); reflexivity. }
  assert (V : forall a r, In (a, r) (cvisits c []) <-> node_at c a r). { intros a r. rewrite cvisits_spec. cbn [app]. split; [intros (x & -> & A); exact A|intros A; now exists a]. }
  rewrite E. pose proof (insert_visits_spec (cvisits c []) [] I) as S0. destruct (insert_visits (cvisits c []) []) as [t0|].
  - destruct S0 as (S0 & I1 & I2). left. split; [intros a r r' A B; apply V, I2 in A; apply V, I2 in B; congruence|].
    assert (OK : exists tree, opt_all (fun e => option_map (pair (fst e)) (nth_error rules (snd e))) t0 = Some tree).
    { apply opt_all_total. intros [p i] Hin. cbn [fst snd]. apply (bm_get_In addr_cmp addr_ord p i t0 S0) in Hin. change (gt_get p t0 = Some i) in Hin. apply I1 in Hin. destruct Hin as [Hin|[_ Hin]]; [discriminate|]. apply V, VL in Hin. destruct (nth_error rules i) eqn:En; [discriminate|]. apply nth_error_None in En. lia. }
    destruct OK as (tree & ET). rewrite ET. cbn [option_map]. exists tree. split; [reflexivity|].
    assert (TT : map fst tree = map fst t0 /\ forall p r, In (p, r) tree <-> exists i, In (p, i) t0 /\ nth_error rules i = Some r).
    { clear -ET. revert tree ET. induction t0 as [|[p i] t0 IH]; intros tree ET; cbn in ET; [injection ET as <-; split; [reflexivity|]; intros p r; split; [intros []|intros (i & [] & _)]|]. destruct (nth_error rules i) as [r|] eqn:En; [|discriminate]. cbn in ET. destruct (opt_all _ t0) as [tree0|] eqn:E0; [|discriminate]. injection ET as <-. destruct (IH tree0 eq_refl) as [T1 T2]. split; [cbn; now f_equal|].
      intros p0 r0. cbn [In]. rewrite T2. split; [intros [[= <- <-]|(i0 & A & B)]; [exists i; auto|exists i0; auto]|intros (i0 & [[= <- <-]|Q] & B); [left; congruence|right; eauto]]. }
    destruct TT as [T1 T2]. assert (ST : gs tree) by (unfold gs; rewrite T1; exact S0).
    intros p r. unfold gt_get. rewrite (bm_get_In addr_cmp addr_ord p r tree ST), T2. split; intros (i & Hv & Hr); exists i; (split; [|exact Hr]).
    + apply (bm_get_In addr_cmp addr_ord p i t0 S0) in Hv. change (gt_get p t0 = Some i) in Hv. apply I1 in Hv. destruct Hv as [Hv|[_ Hv]]; [discriminate|]. now apply V.
    + apply (bm_get_In addr_cmp addr_ord p i t0 S0). apply I2. now apply V.
  - destruct S0 as (p & i & j & Q1 & Q2 & [Q3|Q3]); [discriminate|]. right. split; [|reflexivity]. intros F. destruct (Q2 (F p i j (proj1 (V _ _) Q1) (proj1 (V _ _) Q3))).
Qed.

(* ---- reading the tree back ---- *)
Lemma new_loop_cow c : forall k l pos rest, cow_loop (cow_word c k ++ rest) (l, Cow 0 []) pos = cow_loop rest (l, c) pos.
Proof.
  induction c as [r ss IH] using cow_ind2. intros k l pos rest.
  assert (G : forall ss', Forall (fun s => forall k l pos rest, cow_loop (cow_word (snd s) k ++ rest) (l, Cow 0 []) pos = cow_loop rest (l, snd s) pos) ss' -> forall ss0 rest,
    cow_loop (concat (map (fun s => Open (BVar r (fst (fst s)) (snd (fst s))) :: cow_word (snd s) (snd (fst s)) ++ [Close (BVar r (fst (fst s)) (snd (fst s)))]) ss') ++ rest) (l, Cow r ss0) pos =
    cow_loop rest (l, Cow r (ss0 ++ ss')) pos).
  { induction ss' as [|[[i j] s] ss' IHs]; intros F ss0 rest'; [now rewrite app_nil_r|]. inversion F as [|? ? F1 F2]; subst. cbn [map concat fst snd]. cbn [app cow_loop]. rewrite <- !app_assoc, F1. cbn [app cow_loop close_frame fst snd]. rewrite (IHs F2), <- app_assoc. reflexivity. }
  cbn [cow_word]. cbn [app cow_loop fst snd cow_successors]. rewrite <- app_assoc. destruct ss as [|s ss]; [reflexivity|]. rewrite (G _ IH). reflexivity.
Qed.
Lemma cow_new_word c k : cow_new (cow_word c k) = Some c.
Proof. unfold cow_new. rewrite <- (app_nil_r (cow_word c k)), new_loop_cow. reflexivity. Qed.

(* ---- numbers of rules that do not exist ---- *)
Lemma toderiv_cow_panics {N T W} (rules : list (prule N T W)) c k :
  toderiv rules (cow_word c k) = None <-> is_consistent c = Some true /\ exists a r, node_at c a r /\ length rules <= r.
Proof.
  destruct (is_consistent_spec c) as (b & EB & HB). rewrite EB.
  unfold toderiv. assert (E : toderiv_loop (cow_word c k) [] [] = insert_visits (cvisits c []) []). { pose proof (toderiv_loop_cow c k [] [] []) as L. rewrite app_nil_r in L. rewrite L. destruct (insert_visits (cvisits c []) []); reflexivity. }
  assert (V : forall a r, In (a, r) (cvisits c []) <-> node_at c a r). { intros a r. rewrite cvisits_spec. cbn [app]. split; [intros (x & -> & A); exact A|intros A; now exists a]. }
  rewrite E. pose proof (insert_visits_spec (cvisits c []) [] I) as S0. destruct (insert_visits (cvisits c []) []) as [t0|].
  - destruct S0 as (S0 & I1 & I2). assert (CC : consistent c) by (intros a r r' A B; apply V, I2 in A; apply V, I2 in B; congruence). apply HB in CC. subst b.
    assert (IN : forall p i, In (p, i) t0 <-> node_at c p i). { intros p i. rewrite <- (bm_get_In addr_cmp addr_ord p i t0 S0), <- V. change (gt_get p t0 = Some i <-> In (p, i) (cvisits c [])). split; [|apply I2]. intros Q. apply I1 in Q. destruct Q as [Q|[_ Q]]; [discriminate|exact Q]. }
    transitivity (opt_all (fun e => option_map (pair (fst e)) (nth_error rules (snd e))) t0 = None); [destruct (opt_all (fun e => option_map (pair (fst e)) (nth_error rules (snd e))) t0) as [x|]; cbn [option_map]; split; intros Q; first [discriminate|reflexivity]|]. rewrite opt_all_None. split.
    + intros ([p i] & Hin & Q). split; [reflexivity|]. exists p, i. split; [now apply IN|]. cbn [fst snd] in Q. apply nth_error_None. destruct (nth_error rules i); [discriminate|reflexivity].
    + intros (_ & p & i & Hn & L). exists (p, i). split; [now apply IN|]. cbn [fst snd]. apply nth_error_None in L. now rewrite L.
  - destruct S0 as (p & i & j & Q1 & Q2 & [Q3|Q3]); [discriminate|]. split; [discriminate|]. intros ([= ->] & _). destruct (Q2 (proj1 HB eq_refl p i j (proj1 (V _ _) Q1) (proj1 (V _ _) Q3))).
Qed.
