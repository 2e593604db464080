(* Proofs about the NEGRA export. *)
From Verif Require Import Base BMap M_Util M_Recog M_Automata M_CFG M_TreeStack M_Grammar M_Negra
  S_Recog S_Grammar S_Negra P_Recog P_Automata P_TreeStack P_Grammar P_GrammarCFG P_Conversion P_Separate.

(* ---- relabelling the terminals of a derivation ---- *)
Section Tmap.
  Context {N T U W : Type}.
  Definition vmap (f : T -> U) (x : vart T) : vart U := match x with Var i j => Var i j | Tm t => Tm (f t) end.
  Fixpoint dmap (f : T -> U) (d : dtree N T W) : dtree N U W :=
    match d with DNode r ts => DNode (PRule (pr_head r) (pr_tail r) (map (map (vmap f)) (pr_comp r)) (pr_weight r)) (map (dmap f) ts) end.
  Lemma opt_all_map_gen {X X' Y Y'} (F : X -> option Y) (F' : X' -> option Y') (g : X -> X') (h : Y -> Y') l :
    (forall x, In x l -> F' (g x) = option_map h (F x)) -> opt_all F' (map g l) = option_map (map h) (opt_all F l).
  Proof.
    induction l as [|x l IH]; intros H; cbn; [reflexivity|]. rewrite (H x (or_introl eq_refl)), IH by (intros; apply H; now right). destruct (F x); cbn; [|reflexivity]. destruct (opt_all F l); reflexivity.
  Qed.
  Lemma yield_dmap f d : yield (dmap f d) = option_map (map (map f)) (yield d).
  Proof.
    induction d as [r ts IH] using dtree_ind2. rewrite Forall_forall in IH. cbn [dmap]. rewrite !yield_eq. cbn [pr_comp]. apply opt_all_map_gen. intros c _.
    assert (E : opt_all (sval (map (dmap f) ts)) (map (vmap f) c) = option_map (map (map f)) (opt_all (sval ts) c)).
    { apply opt_all_map_gen. intros [i j|t] _; cbn; [|reflexivity]. rewrite !nth_error_map. destruct (nth_error ts i) as [d|] eqn:Ed; cbn; [|reflexivity]. rewrite (IH d (nth_error_In _ _ Ed)).
      destruct (yield d) as [y|]; cbn; [|reflexivity]. apply nth_error_map. }
    rewrite E. destruct (opt_all (sval ts) c); cbn; [|reflexivity]. now rewrite concat_map.
  Qed.
End Tmap.

(* ---- every terminal with its identifier ---- *)
Section Tag.
  Context {N T W : Type}.
  Notation tg := (term_id * T)%type.
  Fixpoint tag_component (addr : list nat) (pos : nat) (c : list (vart T)) : list (vart tg) :=
    match c with [] => [] | Var i j :: c => Var i j :: tag_component addr (S pos) c | Tm t :: c => Tm ((addr, pos), t) :: tag_component addr (S pos) c end.
  Fixpoint tag_composition (addr : list nat) (pos : nat) (cs : composition T) : composition tg :=
    match cs with [] => [] | c :: cs => tag_component addr pos c :: tag_composition addr (pos + length c) cs end.
  Fixpoint tagged (addr : list nat) (d : dtree N T W) : dtree N tg W :=
    match d with
    | DNode r ts =>
        DNode (PRule (pr_head r) (pr_tail r) (tag_composition addr 0 (pr_comp r)) (pr_weight r))
          ((fix go (i : nat) (ts : list (dtree N T W)) := match ts with [] => [] | t :: ts => tagged (addr ++ [i]) t :: go (S i) ts end) 0 ts)
    end.
  Definition tag_children (addr : list nat) := fix go (i : nat) (ts : list (dtree N T W)) := match ts with [] => [] | t :: ts => tagged (addr ++ [i]) t :: go (S i) ts end.
  Definition loc_children (addr : list nat) := fix go (i : nat) (ts : list (dtree N T W)) := match ts with [] => [] | t :: ts => located (addr ++ [i]) t :: go (S i) ts end.
  Lemma tag_children_nth addr ts : forall i k, nth_error (tag_children addr i ts) k = option_map (tagged (addr ++ [i + k])) (nth_error ts k).
  Proof. induction ts as [|t ts IH]; intros i [|k]; cbn; try reflexivity; [now rewrite Nat.add_0_r|]. rewrite IH. do 4 f_equal. lia. Qed.

  Lemma tag_component_map {U} (g : tg -> U) addr c : forall pos (h : T -> U), (forall p t, g ((addr, p), t) = h t) -> map (vmap g) (tag_component addr pos c) = map (vmap h) c.
  Proof. induction c as [|[i j|t] c IH]; intros pos h H; cbn; [reflexivity| |]; rewrite (IH _ h) by assumption; [reflexivity|]. now rewrite H. Qed.
  Lemma tag_composition_map {U} (g : tg -> U) addr cs : forall pos (h : T -> U), (forall p t, g ((addr, p), t) = h t) -> map (map (vmap g)) (tag_composition addr pos cs) = map (map (vmap h)) cs.
  Proof. induction cs as [|c cs IH]; intros pos h H; cbn; [reflexivity|]. now rewrite (IH _ h), (tag_component_map g addr c pos h). Qed.
  Lemma dmap_located d : forall addr, dmap (fun x : tg => (fst (fst x), snd x)) (tagged addr d) = located addr d.
  Proof.
    induction d as [r ts IH] using dtree_ind2. intros addr. rewrite Forall_forall in IH. cbn [dmap tagged located pr_comp pr_head pr_tail pr_weight].
    rewrite (tag_composition_map _ addr (pr_comp r) 0 (fun t => (addr, t))) by reflexivity. f_equal. fold (tag_children addr) (loc_children addr).
    revert IH. generalize 0. induction ts as [|t ts IHt]; intros i IH; cbn; [reflexivity|]. rewrite IH by now left. f_equal. apply IHt. intros; apply IH; now right.
  Qed.
  Lemma dmap_untag d : forall addr, dmap (@snd term_id T) (tagged addr d) = d.
  Proof.
    induction d as [r ts IH] using dtree_ind2. intros addr. rewrite Forall_forall in IH. cbn [dmap tagged pr_comp pr_head pr_tail pr_weight].
    rewrite (tag_composition_map _ addr (pr_comp r) 0 (fun t => t)) by reflexivity.
    assert (E : map (map (vmap (fun t : T => t))) (pr_comp r) = pr_comp r) by (rewrite <- (map_id (pr_comp r)) at 2; apply map_ext; intros c; rewrite <- (map_id c) at 2; apply map_ext; intros [i j|t]; reflexivity).
    rewrite E. f_equal; [destruct r; reflexivity|]. fold (tag_children addr).
    revert IH. generalize 0. induction ts as [|t ts IHt]; intros i IH; cbn; [reflexivity|]. rewrite IH by now left. f_equal. apply IHt. intros; apply IH; now right.
  Qed.
  Lemma id_component_spec addr c : forall pos, exists tm, id_component addr pos c = (map (vmap fst) (tag_component addr pos c), tm, pos + length c) /\
    forall x, In x tm <-> In (Tm x) (tag_component addr pos c).
  Proof.
    induction c as [|[i j|t] c IH]; intros pos; cbn [id_component].
    - exists []. cbn. rewrite Nat.add_0_r. split; [reflexivity|]. tauto.
    - destruct (IH (S pos)) as (tm & -> & H). exists tm. split; [cbn; do 2 f_equal; lia|]. intros x. rewrite H. cbn. split; [now right|intros [E|]; [discriminate|assumption]].
    - destruct (IH (S pos)) as (tm & -> & H). eexists. split; [cbn; do 2 f_equal; lia|]. intros x. cbn. rewrite H. split; (intros [E|]; [left|now right]); [subst; reflexivity|injection E; auto].
  Qed.
  Lemma id_composition_spec addr cs : forall pos, exists tm, id_composition addr pos cs = (map (map (vmap fst)) (tag_composition addr pos cs), tm) /\
    forall x, In x tm <-> In (Tm x) (concat (tag_composition addr pos cs)).
  Proof.
    induction cs as [|c cs IH]; intros pos; cbn [id_composition]; [exists []; split; [reflexivity|cbn; tauto]|].
    destruct (id_component_spec addr c pos) as (tm1 & -> & H1). destruct (IH (pos + length c)) as (tm2 & -> & H2). eexists. split; [reflexivity|]. intros x. cbn. rewrite !in_app_iff, H1, H2. tauto.
  Qed.
  Lemma tag_component_pos addr c : forall pos a p t, In (Tm ((a, p), t)) (tag_component addr pos c) -> a = addr /\ exists k, p = pos + k /\ nth_error c k = Some (Tm t).
  Proof.
    induction c as [|[i j|t] c IH]; intros pos a p t'; cbn; [intros []| |].
    - intros [E|H]; [discriminate|]. destruct (IH _ _ _ _ H) as (-> & k & -> & Hk). split; [reflexivity|]. exists (S k). split; [lia|assumption].
    - intros [E|H]; [injection E as <- <- <-; split; [reflexivity|]; exists 0; cbn; auto|]. destruct (IH _ _ _ _ H) as (-> & k & -> & Hk). split; [reflexivity|]. exists (S k). split; [lia|assumption].
  Qed.
  Lemma tag_composition_pos addr cs : forall pos a p t, In (Tm ((a, p), t)) (concat (tag_composition addr pos cs)) -> a = addr /\ exists k, p = pos + k /\ nth_error (concat cs) k = Some (Tm t).
  Proof.
    induction cs as [|c cs IH]; intros pos a p t; cbn; [intros []|]. rewrite in_app_iff. intros [H|H].
    - apply tag_component_pos in H. destruct H as (-> & k & -> & Hk). split; [reflexivity|]. exists k. split; [reflexivity|]. rewrite nth_error_app1; [assumption|]. apply nth_error_Some. congruence.
    - apply IH in H. destruct H as (-> & k & -> & Hk). split; [reflexivity|]. exists (length c + k). split; [lia|]. rewrite nth_error_app2 by lia. now replace (length c + k - length c) with k by lia.
  Qed.
  Lemma rule_at_tagged k : forall addr d, rule_at (tagged addr d) k = option_map (fun r => PRule (pr_head r) (pr_tail r) (tag_composition (addr ++ k) 0 (pr_comp r)) (pr_weight r)) (rule_at d k).
  Proof.
    induction k as [|i k IH]; intros addr [r ts]; cbn [rule_at tagged d_children d_rule].
    - rewrite app_nil_r. reflexivity.
    - fold (tag_children addr). rewrite tag_children_nth. destruct (nth_error ts i) as [c|]; cbn [option_map]; [|reflexivity]. rewrite IH, <- app_assoc. reflexivity.
  Qed.
  Lemma rule_at_dmap {U} (f : T -> U) k : forall d : dtree N T W, rule_at (dmap f d) k = option_map (fun r => PRule (pr_head r) (pr_tail r) (map (map (vmap f)) (pr_comp r)) (pr_weight r)) (rule_at d k).
  Proof.
    induction k as [|i k IH]; intros [r ts]; cbn [rule_at dmap d_children d_rule]; [reflexivity|]. rewrite nth_error_map. destruct (nth_error ts i) as [c|]; cbn [option_map]; [|reflexivity]. apply IH.
  Qed.

  (* identify_terminals *)
  Lemma identify_gen (m : gorn (composition T)) : forall a b, sorted_keys addr_cmp (map fst m) -> gsorted a ->
    let r := fold_left (fun acc e => let '(cs, tm) := id_composition (fst e) 0 (snd e) in (gt_insert (fst e) cs (fst acc), snd acc ++ tm)) m (a, b) in
    gsorted (fst r) /\ (forall k, gt_get k (fst r) = match gt_get k m with Some cs => Some (map (map (vmap fst)) (tag_composition k 0 cs)) | None => gt_get k a end) /\
    forall x, In x (snd r) <-> In x b \/ exists e, In e m /\ In (Tm x) (concat (tag_composition (fst e) 0 (snd e))).
  Proof.
    induction m as [|[k0 cs0] m IH]; intros a b SK SA; cbn [fold_left fst snd].
    - split; [assumption|]. split; [reflexivity|]. intros x. split; [now left|intros [H|(e & [] & _)]; assumption].
    - destruct (id_composition_spec k0 cs0 0) as (tm & -> & HTM). cbn [map sorted_keys fst] in SK. destruct SK as [S1 S2].
      destruct (IH (gt_insert k0 (map (map (vmap fst)) (tag_composition k0 0 cs0)) a) (b ++ tm) S2 (gt_insert_sorted _ _ _ SA)) as (H1 & H2 & H3). split; [assumption|]. split.
      + intros k. cbn [fst snd]. rewrite H2. assert (G0 : gt_get k ((k0, cs0) :: m) = match addr_cmp k k0 with Eq => Some cs0 | _ => gt_get k m end) by reflexivity. rewrite G0.
        assert (GI : gt_get k (gt_insert k0 (map (map (vmap fst)) (tag_composition k0 0 cs0)) a) = match addr_cmp k k0 with Eq => Some (map (map (vmap fst)) (tag_composition k0 0 cs0)) | _ => gt_get k a end)
          by (apply (bm_get_insert addr_cmp addr_ord); assumption).
        transitivity (match gt_get k m with Some cs => Some (map (map (vmap fst)) (tag_composition k 0 cs)) | None => match addr_cmp k k0 with Eq => Some (map (map (vmap fst)) (tag_composition k0 0 cs0)) | _ => gt_get k a end end);
          [destruct (gt_get k m); [reflexivity|exact GI]|].
        destruct (addr_cmp k k0) eqn:C; [|reflexivity|reflexivity]. apply (ol_eq addr_cmp addr_ord) in C. subst k.
        assert (NI : gt_get k0 m = None).
        { apply (bm_get_None addr_cmp addr_ord). intros Hin. specialize (S1 _ Hin). rewrite (cmp_refl addr_cmp addr_ord) in S1. discriminate. }
        rewrite NI. reflexivity.
      + intros x. rewrite H3, in_app_iff, HTM. split.
        * intros [[H|H]|(e & He & H)]; [now left|right; exists (k0, cs0); split; [now left|assumption]|right; exists e; split; [now right|assumption]].
        * intros [H|(e & [<-|He] & H)]; [now left; left|left; now right|right; eauto].
  Qed.
End Tag.

Lemma tid_eqb_spec : EqbSpec tid_eqb.
Proof.
  intros [a i] [b j]. unfold tid_eqb. cbn. rewrite Bool.andb_true_iff, Nat.eqb_eq. rewrite (list_eqb_spec a b). split; [intros [-> ->]; reflexivity|intros E; injection E; auto].
Qed.
Lemma tm_get_in {T} k (v : T) l : In (k, v) l -> (forall v', In (k, v') l -> v' = v) -> tm_get k l = Some v.
Proof.
  induction l as [|[k' v'] l IH]; intros H F; [destruct H|]. cbn. destruct (tid_eqb k k') eqn:E.
  - apply tid_eqb_spec in E. subst k'. f_equal. apply F. now left.
  - destruct H as [H|H]; [injection H as -> ->; rewrite (proj2 (tid_eqb_spec k k) eq_refl) in E; discriminate|]. apply IH; [assumption|]. intros; apply F; now right.
Qed.

(* ---- the whole front end: evaluation gives the identified leaves ---- *)
Section Front.
  Context {N T W : Type} (d : dtree N T W) (m : gorn (prule N T W)) (S0 : gsorted m) (HM : forall addr, gt_get addr m = rule_at d addr).
  Definition ident := identify_terminals (fst (to_term m)).
  Definition tags : option (list (list (term_id * T))) := yield (tagged [] d).
  Lemma ident_get k : gt_get k (fst ident) = option_map (fun r => map (map (vmap fst)) (tag_composition k 0 (pr_comp r))) (rule_at d k).
  Proof.
    destruct (to_term_gen m [] [] S0 I I) as (A1 & _ & A2). cbn zeta in A1, A2.
    destruct (identify_gen (fst (to_term m)) [] [] A1 I) as (_ & H & _). etransitivity; [apply H|].
    rewrite (proj1 (to_term_spec m k S0)), HM. now destruct (rule_at d k).
  Qed.
  Lemma ident_tm x : In x (snd ident) <-> exists r, rule_at d (fst (fst x)) = Some r /\ In (Tm x) (concat (tag_composition (fst (fst x)) 0 (pr_comp r))).
  Proof.
    destruct (to_term_gen m [] [] S0 I I) as (A1 & _ & A2). cbn zeta in A1, A2.
    destruct (identify_gen (fst (to_term m)) [] [] A1 I) as (_ & _ & H). etransitivity; [apply H|]. clear H.
    assert (G : forall a cs, In (a, cs) (fst (to_term m)) <-> exists r, rule_at d a = Some r /\ cs = pr_comp r).
    { intros a cs. etransitivity; [symmetry; apply (bm_get_In addr_cmp addr_ord); exact A1|]. change (gt_get a (fst (to_term m)) = Some cs <-> exists r, rule_at d a = Some r /\ cs = pr_comp r).
      rewrite (proj1 (to_term_spec m a S0)), HM. destruct (rule_at d a) as [r|]; cbn.
      - split; [intros E; injection E as <-; eauto|intros (r' & E & ->); congruence].
      - split; [discriminate|intros (r' & E & _); discriminate]. }
    split.
    - intros [[]|((a & cs) & He & Hx)]. apply G in He. destruct He as (r & Hr & ->). cbn [fst snd] in Hx. destruct x as [[a' p] t].
      pose proof (tag_composition_pos _ _ _ _ _ _ Hx) as (-> & _). cbn. eauto.
    - intros (r & Hr & Hx). right. exists (fst (fst x), pr_comp r). split; [apply G; eauto|assumption].
  Qed.
  Lemma tagged_in x y : tags = Some y -> In x (concat y) -> exists r, rule_at d (fst (fst x)) = Some r /\ In (Tm x) (concat (tag_composition (fst (fst x)) 0 (pr_comp r))).
  Proof.
    assert (GEN : forall (dd : dtree N (term_id * T) W) yy, yield dd = Some yy -> In x (concat yy) -> exists k r, rule_at dd k = Some r /\ In (Tm x) (concat (pr_comp r))).
    { induction dd as [r ts IH] using dtree_ind2. intros yy HY Hx. rewrite Forall_forall in IH. rewrite yield_eq in HY. apply in_concat in Hx. destruct Hx as (s & Hs & Hx).
      apply opt_all_Some in HY. destruct (F2_in_r _ _ _ HY s Hs) as (c & Hc & Ec). destruct (opt_all (sval ts) c) as [vs|] eqn:Ev; [|discriminate]. cbn in Ec. injection Ec as <-.
      apply in_concat in Hx. destruct Hx as (v & Hv & Hx). apply opt_all_Some in Ev. destruct (F2_in_r _ _ _ Ev v Hv) as (z & Hz & Ez). destruct z as [i j|t].
      - cbn in Ez. rewrite nth_error_map in Ez. destruct (nth_error ts i) as [c'|] eqn:Ec'; [|discriminate]. cbn in Ez. destruct (yield c') as [yc|] eqn:Yc; [|discriminate].
        destruct (IH c' (nth_error_In _ _ Ec') yc Yc) as (k & r' & Hr' & H'); [apply in_concat; exists v; split; [eapply nth_error_In; eauto|assumption]|].
        exists (i :: k), r'. split; [cbn; now rewrite Ec'|assumption].
      - cbn in Ez. injection Ez as <-. destruct Hx as [->|[]]. exists [], r. split; [reflexivity|]. apply in_concat. eauto. }
    intros HY Hx. destruct (GEN _ _ HY Hx) as (k & r' & Hr' & H'). rewrite rule_at_tagged in Hr'. cbn [app] in Hr'. destruct (rule_at d k) as [r|] eqn:Er; [|discriminate]. injection Hr' as <-. cbn [pr_comp] in H'.
    destruct x as [[a p] t]. pose proof (tag_composition_pos _ _ _ _ _ _ H') as (-> & _). cbn. eauto.
  Qed.
  Lemma tm_get_tag x y : tags = Some y -> In x (concat y) -> tm_get (fst x) (snd ident) = Some (snd x).
  Proof.
    intros HY Hx. destruct (tagged_in x y HY Hx) as (r & Hr & H). apply tm_get_in.
    - rewrite <- surjective_pairing. apply ident_tm. eauto.
    - intros v' H'. apply ident_tm in H'. destruct H' as (r' & Hr' & H'). cbn [fst] in Hr', H'. rewrite Hr in Hr'. injection Hr' as <-. destruct x as [[a p] t]. cbn [fst snd] in *.
      destruct (tag_composition_pos _ _ _ _ _ _ H) as (_ & k1 & E1 & N1). destruct (tag_composition_pos _ _ _ _ _ _ H') as (_ & k2 & E2 & N2). replace k2 with k1 in N2 by lia. congruence.
  Qed.
  Lemma evaluate_ident : evaluate (fst ident) = option_map (map (map (fun x => Tm (fst x)))) tags.
  Proof.
    unfold evaluate. rewrite (evaluate_pos_spec (fst ident) (dmap fst (tagged [] d))).
    - rewrite yield_dmap. unfold tags. destruct (yield (tagged [] d)) as [y|]; cbn; [|reflexivity]. rewrite map_map. f_equal. apply map_ext. intros c. now rewrite map_map.
    - intros k. cbn [app]. rewrite ident_get, rule_at_dmap, rule_at_tagged. cbn [app]. destruct (rule_at d k); reflexivity.
    - cbn. lia.
  Qed.
  Lemma leaves_tags : leaves d = option_map (fun y => map (fun x => (fst (fst x), snd x)) (concat y)) tags.
  Proof. unfold leaves. rewrite <- dmap_located, yield_dmap. unfold tags. destruct (yield (tagged [] d)) as [y|]; cbn; [|reflexivity]. now rewrite concat_map. Qed.
  Lemma yield_leaves : option_map (@concat T) (yield d) = option_map (map snd) (leaves d).
  Proof.
    rewrite leaves_tags. rewrite <- (dmap_untag d []) at 1. rewrite yield_dmap. unfold tags. destruct (yield (tagged [] d)) as [y|]; cbn; [|reflexivity]. rewrite <- concat_map, map_map. reflexivity.
  Qed.
End Front.

(* ---- numbering ---- *)
Lemma F2_impl {X Y} (P Q : X -> Y -> Prop) l1 l2 : (forall x y, P x y -> Q x y) -> Forall2 P l1 l2 -> Forall2 Q l1 l2.
Proof. intros H F. induction F; constructor; auto. Qed.
Definition nonroot (a : list nat) : bool := match a with [] => false | _ => true end.
Lemma has_number_app A B a n : has_number A a n -> has_number (A ++ B) a n.
Proof. intros [H|(k & H & ->)]; [now left|]. right. exists k. split; [|reflexivity]. rewrite nth_error_app1; [assumption|]. apply nth_error_Some. congruence. Qed.

Section Numbers.
  Context {N T W : Type} (d : dtree N T W) (heads : gorn N) (HH : forall a, gt_get a heads = option_map pr_head (rule_at d a)).
  Definition inv (ord pend : list (list nat)) (s : nstate) : Prop :=
    NoDup ord /\ gsorted (ns_numbers s) /\ (forall a, In a ord <-> exists n, gt_get a (ns_numbers s) = Some n) /\
    (forall a n, gt_get a (ns_numbers s) = Some n -> has_number (filter nonroot ord) a n) /\
    ns_counter s = 500 + length (filter nonroot ord) /\
    Forall2 (fun a q => fst q = a /\ has_number (filter nonroot ord) a (snd q)) pend (ns_queue s).
  Lemma rule_number a ord pend s n s' : inv ord pend s -> get_rule_number a s = (n, s') ->
    exists ex, inv (ord ++ ex) (pend ++ ex) s' /\ has_number (filter nonroot (ord ++ ex)) a n /\ In a (ord ++ ex) /\ (forall x, In x ex -> x = a).
  Proof.
    intros (I1 & I2 & I3 & I4 & I5 & I6). unfold get_rule_number. destruct (gt_get a (ns_numbers s)) as [n0|] eqn:E.
    - intros H. injection H as <- <-. exists []. rewrite !app_nil_r. split; [unfold inv; auto 10|]. split; [eauto|]. split; [apply I3; eauto|intros x []].
    - set (nc := match a with [] => (0, ns_counter s) | _ => _ end). destruct nc as [n1 c1] eqn:Enc. intros H. injection H as <- <-. exists [a].
      assert (NI : ~ In a ord) by (intros H; apply I3 in H; destruct H; congruence).
      assert (FN : filter nonroot (ord ++ [a]) = filter nonroot ord ++ (if nonroot a then [a] else [])) by (rewrite filter_app; reflexivity).
      assert (HN : has_number (filter nonroot (ord ++ [a])) a n1 /\ c1 = 500 + length (filter nonroot (ord ++ [a]))).
      { rewrite FN. unfold nc in Enc. destruct a as [|i a]; injection Enc as <- <-; cbn [nonroot].
        - rewrite app_nil_r. split; [left; auto|assumption].
        - split; [right; exists (length (filter nonroot ord)); split; [rewrite nth_error_app2, Nat.sub_diag by lia; reflexivity|assumption]|]. rewrite app_length. cbn. lia. }
      destruct HN as [HN HC]. split; [|split; [assumption|split; [apply in_or_app; right; now left|intros x [<-|[]]; reflexivity]]].
      unfold inv. cbn [ns_numbers ns_counter ns_queue]. split; [apply NoDup_app_intro; [assumption|repeat constructor; intros []|intros x Hx [<-|[]]; contradiction]|].
      split; [now apply gt_insert_sorted|]. split.
      { intros b. rewrite in_app_iff, gt_get_insert by assumption. destruct (list_eq_dec Nat.eq_dec b a) as [->|NE]; [split; [eauto|intros _; right; now left]|].
        rewrite I3. split; [intros [H|[H|[]]]; [assumption|congruence]|now left]. }
      split.
      { intros b k. rewrite gt_get_insert by assumption. destruct (list_eq_dec Nat.eq_dec b a) as [->|NE]; [intros H; injection H as <-; assumption|]. intros H. rewrite FN. apply has_number_app. eauto. }
      split; [assumption|]. apply Forall2_app.
      + revert I6. apply F2_impl. intros x q [H1 H2]. split; [assumption|]. rewrite FN. now apply has_number_app.
      + constructor; [split; [reflexivity|assumption]|constructor].
  Qed.

  Lemma word_line_app A B a w l : word_line d A a w l -> word_line d (A ++ B) a w l.
  Proof. intros (r & p & i & n & H1 & H2 & H3 & H4). exists r, p, i, n. eauto using has_number_app. Qed.
  Lemma word_lines_app A B ls ws xs : word_lines d A ls ws xs -> word_lines d (A ++ B) ls ws xs.
  Proof. induction 1; constructor; eauto using word_line_app. Qed.
  Lemma node_line_app A B a (l : ncol T * N * nat) : node_line d A a l -> node_line d (A ++ B) a l.
  Proof. intros (r & p & i & n & m & H1 & H2 & H3 & H4 & H5). exists r, p, i, n, m. eauto 10 using has_number_app. Qed.
  Lemma parent_last a p : parent a = Some p -> exists i, a = p ++ [i].
  Proof. destruct a as [|x a]; cbn [parent]; [discriminate|]. intros H. injection H as <-. exists (last (x :: a) 0). now apply app_removelast_last. Qed.
  Lemma parent_snoc p i : parent (p ++ [i]) = Some p.
  Proof. destruct (p ++ [i]) eqn:E; [destruct p; discriminate|]. cbn [parent]. rewrite <- E, removelast_last. reflexivity. Qed.

  Context (tm : list (term_id * T)).
  Lemma negra_words_ok (l : list (term_id * T)) : forall mode ord pend s, inv ord pend s ->
    (forall x, In x l -> tm_get (fst x) tm = Some (snd x) /\ (exists r, rule_at d (fst (fst x)) = Some r) /\ fst (fst x) <> []) ->
    (forall ws, mode = FromPos ws -> length l <= length ws) ->
    exists lines s' ex, negra_words heads tm mode (map (fun x => Tm (fst x)) l) s = Some (lines, s') /\ inv (ord ++ ex) (pend ++ ex) s' /\
      word_lines d (filter nonroot (ord ++ ex)) (map (fun x => fst (fst x)) l) (mode_words mode (map snd l)) lines /\
      (forall x, In x l -> exists p i, fst (fst x) = p ++ [i] /\ In p (ord ++ ex)) /\
      (forall p, In p ex -> exists x i, In x l /\ fst (fst x) = p ++ [i]).
  Proof.
    induction l as [|x l IH]; intros mode ord pend s HI HL HW.
    - exists [], s, []. rewrite !app_nil_r. cbn [map negra_words]. split; [reflexivity|]. split; [assumption|]. split; [|split; [intros x []|intros p []]]. destruct mode as [ws|]; constructor.
    - destruct (HL x (or_introl eq_refl)) as (H1 & (r & H2) & H3). cbn [map negra_words]. destruct (parent (fst (fst x))) as [p|] eqn:EP; [|destruct (fst (fst x)); [congruence|discriminate]].
      destruct (parent_last _ _ EP) as (i & Ei). rewrite HH, H2. cbn [option_map]. destruct (get_rule_number p s) as [n s1] eqn:EG. destruct (rule_number p ord pend s n s1 HI EG) as (ex1 & HI1 & HN & HIn & Hex).
      assert (MW : exists w mode', (match mode with FromPos [] => None | FromPos (w :: ws) => Some (w, FromPos ws) | Default => option_map (fun w => (w, Default)) (tm_get (fst x) tm) end) = Some (w, mode') /\
        (forall own, mode_words mode (snd x :: own) = w :: mode_words mode' own) /\ (forall ws, mode' = FromPos ws -> length l <= length ws)).
      { destruct mode as [[|w ws]|].
        - specialize (HW [] eq_refl). cbn in HW. lia.
        - exists w, (FromPos ws). split; [reflexivity|]. split; [reflexivity|]. intros ws' E. injection E as <-. specialize (HW _ eq_refl). cbn in HW. lia.
        - exists (snd x), Default. rewrite H1. split; [reflexivity|]. split; [reflexivity|]. intros ws' E. discriminate. }
      destruct MW as (w & mode' & -> & MW & HW'). destruct (IH mode' (ord ++ ex1) (pend ++ ex1) s1 HI1 (fun y Hy => HL y (or_intror Hy)) HW') as (lines & s' & ex2 & E & HI2 & HWL & HP & HE).
      rewrite E. cbn [option_map fst snd]. eexists _, s', (ex1 ++ ex2). split; [reflexivity|]. rewrite !app_assoc. split; [assumption|]. split.
      + rewrite MW. constructor; [|assumption]. exists r, p, i, n. split; [assumption|]. split; [assumption|]. split; [|reflexivity]. rewrite filter_app. now apply has_number_app.
      + split.
        * intros y [<-|Hy]; [exists p, i; split; [assumption|apply in_or_app; now left]|]. destruct (HP y Hy) as (p' & i' & E' & H'). exists p', i'. auto.
        * intros q Hq. apply in_app_iff in Hq. destruct Hq as [Hq|Hq]; [apply Hex in Hq; subst q; exists x, i; split; [now left|assumption]|].
          destruct (HE q Hq) as (y & j & Hy & E'). exists y, j. split; [now right|assumption].
  Qed.
  Lemma negra_words_short (l : list (term_id * T)) : forall ws s, length ws < length l -> negra_words heads tm (FromPos ws) (map (fun x => Tm (fst x)) l) s = None.
  Proof.
    induction l as [|x l IH]; intros ws s H; cbn in H; [lia|]. cbn [map negra_words]. destruct ws as [|w ws]; [reflexivity|]. destruct (gt_get (fst (fst x)) heads); [|reflexivity]. destruct (parent (fst (fst x))); [|reflexivity].
    destruct (get_rule_number l0 s) as [n1 s1]. rewrite IH; [reflexivity|]. cbn in H. lia.
  Qed.
  Lemma negra_words_root (l : list (term_id * T)) x : In x l -> fst (fst x) = [] -> forall mode s, negra_words heads tm mode (map (fun x => Tm (fst x)) l) s = None.
  Proof.
    intros Hx E. induction l as [|y l IH]; intros mode s; [destruct Hx|]. cbn [map negra_words]. destruct (match mode with FromPos _ => _ | Default => _ end) as [[w mode']|]; [|reflexivity].
    destruct (gt_get (fst (fst y)) heads); [|reflexivity]. destruct (parent (fst (fst y))) as [p|] eqn:EP; [|reflexivity]. destruct (get_rule_number p s) as [n' s1].
    destruct Hx as [->|Hx]; [rewrite E in EP; discriminate|]. rewrite IH by assumption. reflexivity.
  Qed.

  (* U: a finite set of existing addresses closed under taking parents *)
  Context (U : list (list nat)) (HU : forall p i, In (p ++ [i]) U -> In p U) (HU' : forall p, In p U -> exists r, rule_at d p = Some r).
  Lemma negra_nodes_ok fuel : forall ord pend s, inv ord pend s -> incl ord U -> incl pend U -> length U + length pend <= length ord + fuel ->
    exists lines ex, negra_nodes (T:=T) fuel heads s = Some lines /\ NoDup (ord ++ ex) /\ incl ex U /\
      Forall2 (node_line d (filter nonroot (ord ++ ex))) (filter nonroot (pend ++ ex)) lines /\
      (forall p i, In (p ++ [i]) (pend ++ ex) -> In p (ord ++ ex)) /\
      (forall P : list nat -> Prop, (forall p i, P (p ++ [i]) -> P p) -> (forall p, In p pend -> P p) -> forall p, In p ex -> P p).
  Proof.
    induction fuel as [|fuel IH]; intros ord pend s HI IO IP HF.
    - pose proof HI as (ND & _ & _ & _ & _ & HQ). pose proof (NoDup_incl_length ND IO) as HL. destruct pend as [|a pend]; [|cbn in HF; lia]. inversion HQ as [HQ'|]. exists [], []. rewrite !app_nil_r. cbn.
      rewrite <- H. split; [reflexivity|]. split; [assumption|]. split; [intros x []|]. split; [constructor|]. split; [intros p i []|intros P _ _ p []].
    - pose proof HI as (ND & I2 & I3 & I4 & I5 & HQ). destruct pend as [|a pend].
      + inversion HQ. exists [], []. rewrite !app_nil_r. cbn. rewrite <- H. split; [reflexivity|]. split; [assumption|]. split; [intros x []|]. split; [constructor|]. split; [intros p i []|intros P _ _ p []].
      + inversion HQ as [|a0 [a' n] pe0 qs [E1 HN] HQ' Ea Eq]. subst a0 pe0. cbn [fst snd] in E1, HN. subst a'. cbn [negra_nodes]. rewrite <- Eq. cbn [ns_numbers ns_counter].
        assert (HI0 : inv ord pend (NState qs (ns_numbers s) (ns_counter s))) by (repeat split; cbn; auto; apply I3).
        destruct (parent a) as [p|] eqn:EP.
        * destruct (parent_last _ _ EP) as (i & ->). destruct (get_rule_number p _) as [pn s1] eqn:EG. destruct (rule_number p ord pend _ pn s1 HI0 EG) as (ex1 & HI1 & HNp & HIn & Hex).
          assert (Up : In p U) by (apply (HU p i), IP; now left). assert (I1 : incl ex1 U) by (intros x Hx; apply Hex in Hx; now subst x).
          destruct (HU' (p ++ [i])) as (r & Hr); [apply IP; now left|]. rewrite HH, Hr. cbn [option_map].
          destruct (IH (ord ++ ex1) (pend ++ ex1) s1 HI1) as (lines & ex2 & E & ND2 & I2' & F2 & HP & HC).
          -- apply incl_app; assumption.
          -- apply incl_app; [intros x Hx; apply IP; now right|assumption].
          -- rewrite !app_length. cbn in HF. lia.
          -- rewrite E. cbn [option_map]. eexists _, (ex1 ++ ex2). split; [reflexivity|]. rewrite !app_assoc. split; [assumption|]. split; [apply incl_app; assumption|]. split.
             ++ rewrite <- !app_assoc in *. cbn [app]. assert (EF : filter nonroot ((p ++ [i]) :: pend ++ ex1 ++ ex2) = (p ++ [i]) :: filter nonroot (pend ++ ex1 ++ ex2)) by (cbn; destruct p; reflexivity). rewrite EF.
                constructor; [|assumption].
                exists r, p, i, pn, n. split; [assumption|]. split; [reflexivity|]. split; [rewrite filter_app; now apply has_number_app|]. split; [|reflexivity]. rewrite app_assoc, filter_app. now apply has_number_app.
             ++ rewrite <- !app_assoc in *. split.
                ** intros q j. cbn [app]. intros [Hq|Hq]; [|now apply HP in Hq]. apply app_inj_tail in Hq. destruct Hq as [<- _]. rewrite app_assoc. apply in_or_app. now left.
                ** intros P HPc HPp q Hq. apply in_app_iff in Hq. assert (PA : P p) by (apply (HPc p i), HPp; now left).
                   destruct Hq as [Hq|Hq]; [apply Hex in Hq; now subst q|]. revert q Hq. apply HC; [assumption|]. intros q Hq. apply in_app_iff in Hq. destruct Hq as [Hq|Hq]; [apply HPp; now right|apply Hex in Hq; now subst q].
        * destruct a as [|]; [|discriminate]. destruct (IH ord pend _ HI0 IO) as (lines & ex & E & ND2 & I2' & F2 & HP & HC); [intros x Hx; apply IP; now right|cbn in HF; lia|].
          exists lines, ex. split; [assumption|]. split; [assumption|]. split; [assumption|]. split; [exact F2|]. split.
          -- intros q j [Hq|Hq]; [destruct q; discriminate|]. eapply HP; eassumption.
          -- intros P HPc HPp. apply HC; [assumption|]. intros; apply HPp; now right.
  Qed.
End Numbers.

(* ---- putting it together ---- *)
Lemma rule_at_prefix {N T W} a : forall (d : dtree N T W) b r, rule_at d (a ++ b) = Some r -> exists r', rule_at d a = Some r'.
Proof. induction a as [|i a IH]; intros [r0 ts] b r; cbn; [eauto|]. destruct (nth_error ts i) as [c|]; [apply IH|discriminate]. Qed.
Fixpoint prefixes (a : list nat) : list (list nat) := [] :: match a with [] => [] | i :: a => map (cons i) (prefixes a) end.
Lemma in_prefixes a : forall p, In p (prefixes a) <-> exists c, a = p ++ c.
Proof.
  induction a as [|i a IH]; intros p; cbn.
  - split; [intros [<-|[]]; exists []; reflexivity|]. intros ([|] & E); destruct p; try discriminate; now left.
  - split.
    + intros [<-|H]; [exists (i :: a); reflexivity|]. apply in_map_iff in H. destruct H as (q & <- & Hq). apply IH in Hq. destruct Hq as (c & ->). exists c. reflexivity.
    + intros (c & E). destruct p as [|j p]; [now left|]. injection E as <- ->. right. apply in_map, IH. eauto.
Qed.

Section Negra.
  Context {N T W : Type} (d : dtree N T W) (m : gorn (prule N T W)) (S0 : gsorted m) (HM : forall addr, gt_get addr m = rule_at d addr).
  Lemma heads_get a : gt_get a (snd (to_term m)) = option_map pr_head (rule_at d a).
  Proof. now rewrite (proj2 (to_term_spec m a S0)), HM. Qed.
  Lemma vector_eq fuel mode : to_negra_vector fuel m mode = match tags d with None => None | Some y =>
    match negra_words (snd (to_term m)) (snd (ident m)) mode (map (fun x => Tm (fst x)) (concat y)) (NState [] [] 500) with None => None | Some (lines, s) => option_map (app lines) (negra_nodes fuel (snd (to_term m)) s) end end.
  Proof.
    unfold to_negra_vector. pose proof (evaluate_ident d m S0 HM) as HE. unfold ident in *. destruct (to_term m) as [tmap heads]. cbn [fst snd] in *. destruct (identify_terminals tmap) as [idm tm]. cbn [fst snd] in *. rewrite HE.
    destruct (tags d) as [y|]; cbn [option_map]; [|reflexivity]. rewrite <- concat_map. reflexivity.
  Qed.
  Lemma vector_ok ls mode : leaves d = Some ls -> (forall x, In x ls -> fst x <> []) -> (forall ws, mode = FromPos ws -> length ls <= length ws) ->
    exists fuel0 lines, (forall fuel, fuel0 <= fuel -> to_negra_vector fuel m mode = Some lines) /\ negra_export d (map fst ls) (mode_words mode (map snd ls)) lines.
  Proof.
    intros HL HR HW. rewrite leaves_tags in HL. pose proof vector_eq as VE. destruct (tags d) as [y|] eqn:EY; [|discriminate]. cbn [option_map] in HL. injection HL as <-. set (l := concat y) in *.
    assert (I0 : inv [] [] (NState [] [] 500)).
    { unfold inv. cbn. split; [constructor|]. split; [exact I|]. split; [intros a; split; [intros []|intros (n & E); discriminate]|]. split; [intros a n E; discriminate|]. split; [reflexivity|constructor]. }
    destruct (negra_words_ok d (snd (to_term m)) heads_get (snd (ident m)) l mode [] [] _ I0) as (wl & s' & ex & EW & HI & HWL & HP & HE).
    { intros x Hx. split; [eapply tm_get_tag; eassumption|]. split; [destruct (tagged_in d x y EY Hx) as (r & Hr & _); eauto|]. apply (HR (fst (fst x), snd x)). apply in_map_iff. eauto. }
    { intros ws E. specialize (HW ws E). now rewrite map_length in HW. }
    cbn [app] in *. set (U := flat_map (fun x => prefixes (fst (fst x))) l).
    assert (INU : forall p, In p U <-> exists x c, In x l /\ fst (fst x) = p ++ c).
    { intros p. unfold U. rewrite in_flat_map. split; [intros (x & Hx & Hp); apply in_prefixes in Hp; destruct Hp as (c & Hc); eauto|intros (x & c & Hx & Hc); exists x; split; [assumption|apply in_prefixes; eauto]]. }
    assert (U1 : forall p i, In (p ++ [i]) U -> In p U).
    { intros p i Hp. apply INU in Hp. destruct Hp as (x & c & Hx & Hc). apply INU. exists x, (i :: c). split; [assumption|]. now rewrite <- app_assoc in Hc. }
    assert (U2 : forall p, In p U -> exists r, rule_at d p = Some r).
    { intros p Hp. apply INU in Hp. destruct Hp as (x & c & Hx & Hc). destruct (tagged_in d x y EY Hx) as (r & Hr & _). rewrite Hc in Hr. eapply rule_at_prefix; eauto. }
    assert (U3 : incl ex U).
    { intros p Hp. destruct (HE p Hp) as (x & i & Hx & E). apply INU. eauto. }
    assert (NF : forall fuel, length U <= fuel -> exists nl ex2, negra_nodes (T:=T) fuel (snd (to_term m)) s' = Some nl /\ NoDup (ex ++ ex2) /\ incl ex2 U /\
      Forall2 (node_line d (filter nonroot (ex ++ ex2))) (filter nonroot (ex ++ ex2)) nl /\
      (forall p i, In (p ++ [i]) (ex ++ ex2) -> In p (ex ++ ex2)) /\
      (forall P : list nat -> Prop, (forall p i, P (p ++ [i]) -> P p) -> (forall p, In p ex -> P p) -> forall p, In p ex2 -> P p)).
    { intros fuel HF. apply (negra_nodes_ok d (snd (to_term m)) heads_get U U1 U2 fuel ex ex s' HI U3 U3). lia. }
    assert (MONO : forall f heads (s : nstate) (r : list nline), negra_nodes (N:=N) (T:=T) f heads s = Some r -> forall f', f <= f' -> negra_nodes f' heads s = Some r).
    { clear. induction f as [|f IH]; intros heads [q nm c] r H f' Hf.
      - destruct q as [|x q]; [|discriminate]. destruct f'; exact H.
      - destruct f' as [|f']; [lia|]. destruct q as [|[a n] q]; [exact H|]. cbn [negra_nodes ns_queue ns_numbers ns_counter] in *. destruct (parent a) as [p|]; [|apply IH; [assumption|lia]].
        destruct (get_rule_number p _) as [pn s1]. destruct (gt_get a heads); [|discriminate]. destruct (negra_nodes f heads s1) as [r1|] eqn:E1; [|discriminate]. rewrite (IH _ _ _ E1 f') by lia. assumption. }
    destruct (NF (length U) (le_n _)) as (nl & ex2 & EN & ND & IU & F2 & HCl & HCP).
    exists (length U), (wl ++ nl). split.
    - intros fuel HF. rewrite VE, EW. rewrite (MONO _ _ _ _ EN fuel HF). reflexivity.
    - exists (filter nonroot (ex ++ ex2)), wl, nl. split; [now apply NoDup_filter|]. split; [|split; [|split; [assumption|reflexivity]]].
      + intros a. rewrite filter_In. assert (NR : nonroot a = true <-> a <> []) by (destruct a; cbn; split; congruence). rewrite NR.
        assert (PX : forall p, In p (ex ++ ex2) -> exists b, In b (map fst (map (fun x : term_id * T => (fst (fst x), snd x)) l)) /\ above p b).
        { set (P := fun p => exists b, In b (map fst (map (fun x : term_id * T => (fst (fst x), snd x)) l)) /\ above p b).
          assert (P1 : forall p i, P (p ++ [i]) -> P p). { intros p i (b & Hb & c & Hc & ->). exists ((p ++ [i]) ++ c). split; [assumption|]. exists (i :: c). split; [discriminate|]. now rewrite <- app_assoc. }
          assert (P2 : forall p, In p ex -> P p). { intros p Hp. destruct (HE p Hp) as (x & i & Hx & E). exists (p ++ [i]). split; [rewrite map_map; apply in_map_iff; exists x; auto|]. exists [i]. split; [discriminate|reflexivity]. }
          intros p Hp. apply in_app_iff in Hp. destruct Hp as [Hp|Hp]; [now apply P2|]. now apply (HCP P). }
        split; [intros [H1 H2]; split; [assumption|now apply PX]|]. intros [H1 (b & Hb & c & Hc & Eb)]. split; [|assumption].
        rewrite map_map in Hb. apply in_map_iff in Hb. destruct Hb as (x & Ex & Hx). cbn [fst] in Ex. destruct (HP x Hx) as (p & i & E0 & Hp). assert (E : a ++ c = p ++ [i]) by (rewrite <- Eb; etransitivity; [symmetry; exact Ex|exact E0]). clear E0 Eb.
        destruct c as [|c0 cr] using rev_ind; [congruence|]. rewrite app_assoc in E. apply app_inj_tail in E. destruct E as [<- _].
        assert (UPW : forall c, In (a ++ c) (ex ++ ex2) -> In a (ex ++ ex2)).
        { intros c'. induction c' as [|z c' IHc] using rev_ind; [now rewrite app_nil_r|]. rewrite app_assoc. intros H. apply HCl in H. auto. }
        eapply UPW. apply in_or_app. left. exact Hp.
      + rewrite filter_app. apply word_lines_app. rewrite !map_map. cbn [fst snd]. exact HWL.
  Qed.
  Lemma vector_panics mode : (leaves d = None \/ exists ls, leaves d = Some ls /\ ((exists x, In x ls /\ fst x = []) \/ exists ws, mode = FromPos ws /\ length ws < length ls)) ->
    forall fuel, to_negra_vector fuel m mode = None.
  Proof.
    intros H fuel. rewrite vector_eq. rewrite leaves_tags in H. destruct (tags d) as [y|]; [|reflexivity]. cbn [option_map] in H. destruct H as [H|(ls & E & H)]; [discriminate|]. injection E as <-.
    destruct H as [(x & Hx & E)|(ws & -> & HL)].
    - apply in_map_iff in Hx. destruct Hx as (x' & <- & Hx'). rewrite (negra_words_root _ _ _ x' Hx' E). reflexivity.
    - rewrite negra_words_short; [reflexivity|]. now rewrite map_length in HL.
  Qed.
End Negra.
