(* Proofs about separate_terminal_rules and meets_negra_criteria. *)
From Verif Require Import Base BMap M_Util M_Recog M_Automata M_CFG M_TreeStack M_Grammar M_Negra
  S_Recog S_Grammar P_Automata P_TreeStack P_Grammar P_GrammarCFG P_Conversion.

(* ---- meets_negra_criteria ---- *)
Definition only_vars {T} (l : list (vart T)) : Prop := forall x, In x l -> exists i j, x = Var i j.
Lemma negra_symbols_tf {T} (l : list (vart T)) n : negra_symbols n true l = true <-> l = [].
Proof. destruct l as [|[i j|t] l]; cbn; [tauto| |]; rewrite ?orb_true_r; split; discriminate. Qed.
Lemma negra_symbols_ft {T} (l : list (vart T)) : negra_symbols true false l = true <-> only_vars l.
Proof.
  induction l as [|[i j|t] l IH]; cbn.
  - split; [intros _ x []|reflexivity].
  - rewrite IH. split; [intros H x [<-|Hx]; eauto|intros H x Hx; apply H; now right].
  - split; [discriminate|]. intros H. destruct (H (Tm t)) as (i & j & E); [now left|discriminate].
Qed.
Lemma negra_symbols_spec {T} (l : list (vart T)) : negra_symbols false false l = true <-> only_vars l \/ exists t, l = [Tm t].
Proof.
  destruct l as [|[i j|t] l]; cbn.
  - split; [intros _; left; intros x []|reflexivity].
  - rewrite negra_symbols_ft. split.
    + intros H. left. intros x [<-|Hx]; eauto.
    + intros [H|(t & E)]; [intros x Hx; apply H; now right|discriminate].
  - rewrite negra_symbols_tf. split.
    + intros ->. right. eauto.
    + intros [H|(t' & E)]; [|injection E; auto]. destruct (H (Tm t)) as (i & j & E); [now left|discriminate].
Qed.

(* ---- inserting a list of entries ---- *)
Lemma fold_insert {V} (es : list (list nat * V)) : forall m, gsorted m ->
  let r := fold_left (fun m e => gt_insert (fst e) (snd e) m) es m in
  gsorted r /\ (forall k v, gt_get k r = Some v -> In (k, v) es \/ gt_get k m = Some v) /\
  (forall k, (exists v, In (k, v) es) \/ gt_get k m <> None -> gt_get k r <> None).
Proof.
  induction es as [|[k0 v0] es IH]; intros m S0; cbn [fold_left fst snd].
  - split; [assumption|]. split; [auto|]. intros k [(v & [])|H]; assumption.
  - destruct (IH (gt_insert k0 v0 m) (gt_insert_sorted _ _ _ S0)) as (H1 & H2 & H3). split; [assumption|]. split.
    + intros k v H. destruct (H2 k v H) as [H'|H']; [left; now right|]. rewrite gt_get_insert in H' by assumption. destruct (list_eq_dec Nat.eq_dec k k0) as [->|NE]; [injection H' as ->; left; now left|now right].
    + intros k H. apply H3. destruct H as [(v & [E|H])|H]; [|left; eauto|].
      * injection E as -> ->. right. rewrite gt_get_insert by assumption. destruct (list_eq_dec Nat.eq_dec k k); congruence.
      * right. rewrite gt_get_insert by assumption. destruct (list_eq_dec Nat.eq_dec k k0); congruence.
Qed.

Section Sep.
  Context {HT W : Type} (heqb : HT -> HT -> bool) (HE : EqbSpec heqb) (ext : HT -> HT -> HT).
  Notation rule := (prule HT HT W).
  Notation index_of := (index_of heqb).

  Lemma index_of_app t l l' k : index_of t l = Some k -> index_of t (l ++ l') = Some k.
  Proof.
    revert k. induction l as [|x l IH]; intros k; cbn; [discriminate|]. destruct (heqb t x); [auto|]. destruct (index_of t l) as [k'|]; [|discriminate]. intros H. now rewrite (IH k' eq_refl).
  Qed.
  Lemma index_of_new t l : index_of t l = None -> index_of t (l ++ [t]) = Some (length l).
  Proof.
    induction l as [|x l IH]; cbn; [now rewrite (proj2 (HE t t) eq_refl)|]. destruct (heqb t x); [discriminate|]. destruct (index_of t l); [discriminate|]. intros _. now rewrite IH.
  Qed.
  Lemma index_of_nth t l k : index_of t l = Some k -> nth_error l k = Some t.
  Proof.
    revert k. induction l as [|x l IH]; intros k; cbn; [discriminate|]. destruct (heqb t x) eqn:Ex; [intros H; injection H as <-; apply HE in Ex; cbn; congruence|].
    destruct (index_of t l) as [k'|]; [|discriminate]. intros H. injection H as <-. cbn. now apply IH.
  Qed.

  Definition see (s : list HT) (x : vart HT) : list HT :=
    match x with Var _ _ => s | Tm t => match index_of t s with Some _ => s | None => s ++ [t] end end.
  Definition flag (fo : bool * bool) (x : vart HT) : bool * bool :=
    match x with Var _ _ => (false, snd fo) | Tm _ => (false, fst fo) end.
  Definition repl (L : list HT) (n : nat) (x : vart HT) : vart HT :=
    match x with Var i j => Var i j | Tm t => match index_of t L with Some k => Var (n + k) 0 | None => Var 0 0 end end.

  Lemma see_ext l : forall s, exists s', fold_left see l s = s ++ s'.
  Proof.
    induction l as [|x l IH]; intros s; cbn; [exists []; now rewrite app_nil_r|]. destruct (IH (see s x)) as (s' & ->).
    destruct x as [i j|t]; cbn; [eauto|]. destruct (index_of t s); [eauto|]. rewrite <- app_assoc. eauto.
  Qed.
  Lemma see_has l : forall s t, In (Tm t) l -> exists k, index_of t (fold_left see l s) = Some k.
  Proof.
    induction l as [|x l IH]; intros s t; [intros []|]. intros [->|H]; [|now apply IH]. cbn [fold_left]. destruct (see_ext l (see s (Tm t))) as (s' & ->). cbn [see].
    destruct (index_of t s) as [k|] eqn:E; [exists k; now apply index_of_app|]. exists (length s). now apply index_of_app, index_of_new.
  Qed.
  Lemma repl_ext n l l' s x : In x l -> repl (fold_left see l' (fold_left see l s)) n x = repl (fold_left see l s) n x.
  Proof.
    intros Hx. destruct x as [i j|t]; [reflexivity|]. cbn. destruct (see_has l s t Hx) as (k & Ek). destruct (see_ext l' (fold_left see l s)) as (s' & ->). rewrite (index_of_app _ _ _ _ Ek), Ek. reflexivity.
  Qed.
  Lemma sep_component_spec n c : forall s f o, sep_component heqb n (s, f, o) c =
    (map (repl (fold_left see c s) n) c, (fold_left see c s, fst (fold_left flag c (f, o)), snd (fold_left flag c (f, o)))).
  Proof.
    induction c as [|x c IH]; intros s f o; cbn [sep_component]; [reflexivity|].
    assert (E : sep_symbol heqb n (s, f, o) x = (repl (see s x) n x, (see s x, fst (flag (f, o) x), snd (flag (f, o) x)))).
    { destruct x as [i j|t]; cbn; [reflexivity|]. destruct (index_of t s) as [k|] eqn:Ek; [now rewrite Ek|]. now rewrite index_of_new. }
    rewrite E, IH. cbn [map fold_left]. rewrite <- surjective_pairing. f_equal. f_equal. symmetry. apply (repl_ext n [x] c s x). now left.
  Qed.
  Lemma sep_composition_spec n cs : forall s f o, sep_composition heqb n (s, f, o) cs =
    (map (map (repl (fold_left see (concat cs) s) n)) cs, (fold_left see (concat cs) s, fst (fold_left flag (concat cs) (f, o)), snd (fold_left flag (concat cs) (f, o)))).
  Proof.
    induction cs as [|c cs IH]; intros s f o; cbn [sep_composition]; [reflexivity|]. rewrite sep_component_spec, IH. cbn [map concat]. rewrite !fold_left_app, <- surjective_pairing. f_equal. f_equal.
    apply map_ext_in. intros x Hx. symmetry. now apply repl_ext.
  Qed.

  Lemma flag_vars l : forall o, only_vars l -> fold_left flag l (false, o) = (false, o).
  Proof.
    induction l as [|x l IH]; intros o H; [reflexivity|]. destruct (H x (or_introl eq_refl)) as (i & j & ->). cbn. apply IH. intros y Hy. apply H. now right.
  Qed.
  Lemma flag_false l : forall o, snd (fold_left flag l (false, o)) = true <-> o = true /\ only_vars l.
  Proof.
    induction l as [|x l IH]; intros o; cbn [fold_left]; [split; [intros H; split; [exact H|intros x []]|tauto]|]. destruct x as [i j|t]; cbn [flag fst snd]; rewrite IH.
    - split; intros [H1 H2]; (split; [assumption|]); [intros x [<-|Hx]; eauto|intros x Hx; apply H2; now right].
    - split; [intros [H _]; discriminate|]. intros [_ H]. destruct (H (Tm t)) as (i & j & E); [now left|discriminate].
  Qed.
  (* contains_only_one_terminal: the first symbol is the only terminal *)
  Lemma only_spec l : snd (fold_left flag l (true, false)) = true <-> exists t l', l = Tm t :: l' /\ only_vars l'.
  Proof.
    destruct l as [|[i j|t] l]; cbn [fold_left flag fst snd].
    - split; [discriminate|]. intros (t & l' & E & _). discriminate.
    - rewrite flag_false. split; [intros [H _]; discriminate|]. intros (t & l' & E & _). discriminate.
    - rewrite flag_false. split; [intros [_ H]; eauto|]. intros (t' & l' & E & H). injection E as <- <-. auto.
  Qed.
  Lemma repl_vars n l : only_vars l -> forall s, map (repl s n) l = l.
  Proof. induction l as [|x l IH]; intros H s; [reflexivity|]. destruct (H x (or_introl eq_refl)) as (i & j & ->). cbn. rewrite IH; [reflexivity|]. intros y Hy. apply H. now right. Qed.
  Lemma repl_only_vars n cs s : only_vars (concat (map (map (repl s n)) cs)).
  Proof.
    intros x Hx. apply in_concat in Hx. destruct Hx as (c & Hc & Hx). apply in_map_iff in Hc. destruct Hc as (c0 & <- & _). apply in_map_iff in Hx. destruct Hx as ([i j|t] & <- & _); cbn; [eauto|]. destruct (index_of t s); eauto.
  Qed.

  (* ---- the loop that looks for a new name ---- *)
  Lemma fresh_head_new fuel old o : forall t x, fresh_head heqb ext fuel old o t = Some x -> ~ In x old.
  Proof.
    induction fuel as [|fuel IH]; intros t x; cbn; [discriminate|]. destruct (memb heqb t old) eqn:M; [apply IH|]. intros H. injection H as <-. intros Hin.
    apply (memb_In _ HE) in Hin. congruence.
  Qed.

  (* ---- one rule ---- *)
  Context (fuel : nat) (old : list HT).
  Lemma sep_rule_spec (r : rule) x : sep_rule heqb ext fuel old r = Some x ->
    (x = (r, []) /\ exists t l, concat (pr_comp r) = Tm t :: l /\ only_vars l) \/
    exists L names, length L = length names /\ (forall y, In y names -> ~ In y old) /\ (forall t, In (Tm t) (concat (pr_comp r)) -> exists k, index_of t L = Some k) /\
      x = (PRule (pr_head r) (pr_tail r ++ names) (map (map (repl L (length (pr_tail r)))) (pr_comp r)) (pr_weight r),
           map (fun p => PRule (snd p) [] [[Tm (fst p)]] (pr_weight r)) (combine L names)) /\
      ~ exists t l, concat (pr_comp r) = Tm t :: l /\ only_vars l.
  Proof.
    unfold sep_rule. rewrite sep_composition_spec. set (L := fold_left see (concat (pr_comp r)) []). destruct (snd (fold_left flag (concat (pr_comp r)) (true, false))) eqn:EF.
    - intros H. injection H as <-. left. split; [reflexivity|]. now apply only_spec.
    - destruct (opt_all _ L) as [names|] eqn:O; [|discriminate]. intros H. injection H as <-. right. exists L, names. apply opt_all_Some in O.
      split; [eapply F2_length; eauto|]. split; [intros y Hy; destruct (F2_in_r _ _ _ O y Hy) as (t & _ & Ht); eapply fresh_head_new; eauto|].
      split; [intros t Ht; now apply see_has|]. split; [reflexivity|]. intros H. apply only_spec in H. congruence.
  Qed.

  (* ---- the tree ---- *)
  Definition sep_of (r : rule) : rule * list rule := match sep_rule heqb ext fuel old r with Some x => x | None => (r, []) end.
  Fixpoint sepT (d : dtree HT HT W) : dtree HT HT W :=
    match d with DNode r ts => DNode (fst (sep_of r)) (map sepT ts ++ map (fun c => DNode c []) (snd (sep_of r))) end.
  Definition any (r : rule) : Prop := True.

  Lemma rule_at_sepT k : forall d A v, deriv any A d ->
    rule_at (sepT d) k = Some v <->
    (exists r, rule_at d k = Some r /\ v = fst (sep_of r)) \/
    (exists a r i, k = a ++ [length (pr_tail r) + i] /\ rule_at d a = Some r /\ nth_error (snd (sep_of r)) i = Some v).
  Proof.
    induction k as [|i k IH]; intros [r ts] A v HD.
    - cbn. split; [intros H; injection H as <-; left; eauto|]. intros [(r' & E & ->)|(a & r' & i & E & _)]; [congruence|]. destruct a; discriminate.
    - apply deriv_inv in HD. destruct HD as (_ & _ & F2). pose proof (F2_length _ _ _ F2) as L. cbn [rule_at sepT d_children].
      destruct (Nat.lt_ge_cases i (length ts)) as [Hi|Hi].
      + rewrite nth_error_app1 by (rewrite map_length; assumption). rewrite nth_error_map. destruct (nth_error ts i) as [c|] eqn:Ec; [|apply nth_error_None in Ec; lia]. cbn [option_map].
        pose proof (F2_nth _ _ _ F2 i) as G. rewrite Ec in G. destruct (nth_error (pr_tail r) i) as [B|]; [|destruct G]. rewrite (IH c B v G). split.
        * intros [H|(a & r' & j & -> & H1 & H2)]; [now left|]. right. exists (i :: a), r', j. cbn. rewrite Ec. auto.
        * intros [H|(a & r' & j & E & H1 & H2)]; [now left|]. destruct a as [|i' a]; [injection E as -> ->; cbn in H1; injection H1 as <-; lia|].
          injection E as <- ->. cbn in H1. rewrite Ec in H1. right. exists a, r', j. auto.
      + rewrite nth_error_app2 by (rewrite map_length; assumption). rewrite map_length, nth_error_map. assert (EN : nth_error ts i = None) by (apply nth_error_None; lia). rewrite EN. split.
        * destruct (nth_error (snd (sep_of r)) (i - length ts)) as [c|] eqn:Ec; [|discriminate]. cbn. destruct k as [|j k]; [|destruct j; discriminate]. intros H. injection H as <-.
          right. exists [], r, (i - length ts). cbn. split; [f_equal; lia|auto].
        * intros [(r' & E & _)|(a & r' & j & E & H1 & H2)]; [discriminate|]. destruct a as [|i' a].
          -- injection E as -> ->. cbn in H1. injection H1 as <-. replace (length (pr_tail r) + j - length ts) with j by lia. rewrite H2. reflexivity.
          -- injection E as -> ->. cbn in H1. rewrite EN in H1. discriminate.
  Qed.

  Lemma sepT_yield d : forall y, yield d = Some y -> (forall r, In r (d_rules d) -> sep_rule heqb ext fuel old r <> None) ->
    (forall A, deriv any A d -> yield (sepT d) = Some y).
  Proof.
    induction d as [r ts IH] using dtree_ind2. intros y HY HS A HD. apply deriv_inv in HD. destruct HD as (_ & _ & F2). pose proof (F2_length _ _ _ F2) as L. rewrite Forall_forall in IH.
    rewrite yield_eq in HY. cbn [sepT]. rewrite yield_eq. set (ts' := map sepT ts ++ _).
    assert (SV : forall i j v, sval ts (Var i j) = Some v -> sval ts' (Var i j) = Some v).
    { intros i j v H. cbn [sval] in *. rewrite nth_error_map in *. destruct (nth_error ts i) as [d|] eqn:Ed; [|discriminate]. cbn [option_map] in H. destruct (yield d) as [yd|] eqn:Yd; [|discriminate].
      unfold ts'. rewrite nth_error_app1 by (rewrite map_length; apply nth_error_Some; congruence). rewrite nth_error_map, Ed. cbn [option_map].
      pose proof (F2_nth _ _ _ F2 i) as G. rewrite Ed in G. destruct (nth_error (pr_tail r) i) as [B|] eqn:EB; [|destruct G].
      rewrite (IH d (nth_error_In _ _ Ed) yd Yd) with (A := B); [assumption| |exact G]. intros r' Hr'. apply HS. cbn. right. apply in_flat_map. exists d. split; [eapply nth_error_In; eauto|assumption]. }
    unfold sep_of. destruct (sep_rule heqb ext fuel old r) as [x|] eqn:Ex; [|destruct (HS r (or_introl eq_refl) Ex)].
    assert (GEN : forall phi, (forall z v, In z (concat (pr_comp r)) -> sval ts z = Some v -> sval ts' (phi z) = Some v) ->
       opt_all (fun c => option_map (@concat HT) (opt_all (sval ts') c)) (map (map phi) (pr_comp r)) = Some y).
    { intros phi HP. clear -HY HP. revert y HY HP. induction (pr_comp r) as [|c cs IHc]; intros y HY HP; cbn [opt_all map] in *; [assumption|].
      destruct (opt_all (sval ts) c) as [vc|] eqn:Ec; [|discriminate]. cbn [option_map] in HY. destruct (opt_all _ cs) as [ycs|] eqn:Ecs; [|discriminate].
      rewrite (IHc ycs eq_refl) by (intros; apply HP; [apply in_or_app; now right|assumption]).
      assert (EC : opt_all (sval ts') (map phi c) = Some vc).
      { assert (HPc : forall z v, In z c -> sval ts z = Some v -> sval ts' (phi z) = Some v) by (intros; apply HP; [apply in_or_app; now left|assumption]). clear -Ec HPc. revert vc Ec HPc.
        induction c as [|z c IH]; intros vc Ec HPc; cbn [opt_all map] in *; [assumption|]. destruct (sval ts z) as [v|] eqn:Ez; [|discriminate]. destruct (opt_all (sval ts) c) as [vs|]; [|discriminate].
        rewrite (HPc z v (or_introl eq_refl) Ez), (IH vs eq_refl) by (intros; apply HPc; [now right|assumption]). assumption. }
      rewrite EC. assumption. }
    destruct (sep_rule_spec r x Ex) as [(-> & _)|(Lt & names & LL & _ & HI & -> & _)].
    - cbn [fst snd]. specialize (GEN (fun z => z)). rewrite (map_ext (map (fun z => z)) (fun c => c) (map_id (A:=vart HT))), map_id in GEN. apply GEN.
      intros [i j|t] v _ Hv; [now apply SV|exact Hv].
    - cbn [fst snd pr_comp]. apply GEN. intros [i j|t] v Hz Hv; cbn [repl]; [now apply SV|]. destruct (HI t Hz) as (k & Ek). rewrite Ek. cbn in Hv. injection Hv as <-.
      cbn [sval]. rewrite nth_error_map. unfold ts', sep_of. rewrite Ex. cbn [snd]. rewrite nth_error_app2 by (rewrite map_length; lia). rewrite map_length. replace (length (pr_tail r) + k - length ts) with k by lia.
      rewrite !nth_error_map. apply index_of_nth in Ek. destruct (nth_error_len Lt names k t LL Ek) as (nm & En). rewrite (combine_nth_error _ _ _ _ _ Ek En). reflexivity.
  Qed.
  Lemma sepT_deriv d : (forall r, In r (d_rules d) -> sep_rule heqb ext fuel old r <> None) -> forall A, deriv any A d -> deriv any A (sepT d).
  Proof.
    induction d as [r ts IH] using dtree_ind2. intros HS A HD. apply deriv_inv in HD. destruct HD as (-> & _ & F2). rewrite Forall_forall in IH. cbn [sepT].
    assert (F2' : Forall2 (deriv any) (pr_tail r) (map sepT ts)).
    { assert (HSc : forall d, In d ts -> forall r, In r (d_rules d) -> sep_rule heqb ext fuel old r <> None) by (intros d Hd r' Hr'; apply HS; cbn; right; apply in_flat_map; eauto).
      clear HS. revert IH HSc F2. generalize (pr_tail r). induction ts as [|t ts IHt]; intros tl IH HSc F2; inversion F2; subst; constructor.
      - apply IH; [now left|apply HSc; now left|assumption].
      - apply IHt; [intros; apply IH; [now right|assumption|assumption]|intros; eapply HSc; [right; eassumption|assumption]|assumption]. }
    unfold sep_of. destruct (sep_rule heqb ext fuel old r) as [x|] eqn:Ex; [|destruct (HS r (or_introl eq_refl) Ex)].
    destruct (sep_rule_spec r x Ex) as [(-> & _)|(Lt & names & LL & _ & HI & -> & _)]; cbn [fst snd map].
    - rewrite app_nil_r. constructor; [exact I|assumption].
    - match goal with |- deriv _ _ (DNode ?r' ?l) => change (pr_head r) with (pr_head r'); constructor; [exact I|]; cbn [pr_tail] end.
      apply Forall2_app; [assumption|]. clear -LL. revert names LL. induction Lt as [|t Lt IH]; intros [|nm names] LL; try discriminate; cbn; constructor; [|apply IH; now injection LL].
      match goal with |- deriv _ _ (DNode ?r' ?l) => change nm with (pr_head r') at 1; constructor; [exact I|constructor] end.
  Qed.
End Sep.

Section SepMap.
  Context {HT W : Type} (heqb : HT -> HT -> bool) (HE : EqbSpec heqb) (ext : HT -> HT -> HT).
  Notation rule := (prule HT HT W).
  Context (d : dtree HT HT W) (A : HT) (HD : deriv any A d) (m : gorn rule) (S0 : gsorted m) (HM : forall addr, gt_get addr m = rule_at d addr).
  Context (fuel : nat) (m' : gorn rule) (HS : separate heqb ext fuel m = Some m').
  Definition olds := map (fun e => pr_head (snd e)) m.
  Lemma in_map_tree a r : In (a, r) m <-> rule_at d a = Some r.
  Proof. rewrite <- HM. unfold gt_get. symmetry. now apply (bm_get_In addr_cmp addr_ord). Qed.
  Lemma d_rules_at (d0 : dtree HT HT W) : forall r, In r (d_rules d0) <-> exists a, rule_at d0 a = Some r.
  Proof.
    induction d0 as [r0 ts IH] using dtree_ind2. intros r. rewrite Forall_forall in IH. cbn [d_rules In]. rewrite in_flat_map. split.
    - intros [<-|(t & Ht & Hr)]; [exists []; reflexivity|]. apply IH in Hr; [|assumption]. destruct Hr as (a & Ha). apply In_nth_error in Ht. destruct Ht as (i & Hi). exists (i :: a). cbn. now rewrite Hi.
    - intros ([|i a] & H); cbn in H; [left; congruence|]. destruct (nth_error ts i) as [t|] eqn:Et; [|discriminate]. right. exists t. split; [eapply nth_error_In; eauto|]. apply IH; [eapply nth_error_In; eauto|eauto].
  Qed.
  Lemma sep_defined r : In r (d_rules d) -> sep_rule heqb ext fuel olds r <> None.
  Proof.
    intros Hr. apply d_rules_at in Hr. destruct Hr as (a & Ha). apply in_map_tree in Ha. unfold separate in HS. destruct (opt_all _ m) as [xs|] eqn:O in HS; [|discriminate].
    apply opt_all_Some in O. destruct (F2_in_l _ _ _ O (a, r) Ha) as (x & _ & Hx). cbn in Hx. unfold olds. destruct (sep_rule _ _ _ _ r); [discriminate|discriminate].
  Qed.
  Lemma sep_entries_in (e : list nat * rule) x k v : In (k, v) (sep_entries e x) <->
    (exists i, k = fst e ++ [length (pr_tail (snd e)) + i] /\ nth_error (snd x) i = Some v) \/ (k = fst e /\ v = fst x).
  Proof.
    unfold sep_entries. rewrite in_app_iff. cbn [In]. assert (G : In (k, v) (combine (map (fun k => fst e ++ [k]) (seq (length (pr_tail (snd e))) (length (snd x)))) (snd x)) <->
      exists i, k = fst e ++ [length (pr_tail (snd e)) + i] /\ nth_error (snd x) i = Some v).
    { generalize (length (pr_tail (snd e))). induction (snd x) as [|y l IH]; intros n; cbn.
      - split; [intros []|]. intros ([|i] & _ & H); discriminate.
      - rewrite IH. split.
        + intros [E|(i & -> & H)]; [injection E as <- <-; exists 0; rewrite Nat.add_0_r; auto|]. exists (S i). split; [do 2 f_equal; lia|exact H].
        + intros ([|i] & -> & H); cbn in H; [injection H as ->; left; now rewrite Nat.add_0_r|]. right. exists i. split; [do 2 f_equal; lia|exact H]. }
    rewrite G. split; (intros [H|H]; [now left|right]); [destruct H as [E|[]]; injection E as <- <-; auto|left; destruct H; congruence].
  Qed.
  Lemma separate_tree : gsorted m' /\ forall k, gt_get k m' = rule_at (sepT heqb ext fuel olds d) k.
  Proof.
    pose proof sep_defined as SD. unfold separate in HS. destruct (opt_all _ m) as [xs|] eqn:O in HS; [|discriminate]. cbn in HS.
    pose proof (fold_insert (concat xs) [] I) as FI. cbn zeta in FI. assert (EM : m' = fold_left (fun m e => gt_insert (fst e) (snd e) m) (concat xs) []) by congruence. rewrite <- EM in FI. destruct FI as (F1 & F3 & F4).
    split; [assumption|]. assert (EN : forall k v, In (k, v) (concat xs) <-> rule_at (sepT heqb ext fuel olds d) k = Some v).
    { intros k v. rewrite (rule_at_sepT heqb ext fuel olds k d A v HD). apply opt_all_Some in O. rewrite in_concat. split.
      - intros (es & Hes & Hkv). destruct (F2_in_r _ _ _ O es Hes) as ([a r] & Ha & Hx). cbn [snd] in Hx. fold olds in Hx. destruct (sep_rule heqb ext fuel olds r) as [x|] eqn:Ex; [|discriminate]. injection Hx as <-.
        apply sep_entries_in in Hkv. cbn [fst snd] in Hkv. apply in_map_tree in Ha. assert (SO : sep_of heqb ext fuel olds r = x) by (unfold sep_of; now rewrite Ex).
        destruct Hkv as [(i & -> & H)|(-> & ->)]; [right; exists a, r, i; rewrite SO; auto|left; exists r; rewrite SO; auto].
      - assert (GEN : forall a r, rule_at d a = Some r -> exists es, In es xs /\ es = sep_entries (a, r) (sep_of heqb ext fuel olds r)).
        { intros a r Ha. assert (Hr : In r (d_rules d)) by (apply d_rules_at; eauto). apply in_map_tree in Ha. destruct (F2_in_l _ _ _ O (a, r) Ha) as (es & Hes & Hx). cbn [snd] in Hx. fold olds in Hx.
          unfold sep_of. specialize (SD r Hr). destruct (sep_rule heqb ext fuel olds r) as [x|]; [|congruence]. injection Hx as <-. eauto. }
        intros [(r & Ha & ->)|(a & r & i & -> & Ha & H)]; destruct (GEN _ _ Ha) as (es & Hes & ->); (eexists; split; [exact Hes|]); apply sep_entries_in; cbn [fst snd]; eauto. }
    intros k. destruct (gt_get k m') as [v|] eqn:Ek.
    - destruct (F3 k v Ek) as [H|H]; [|discriminate]. apply EN in H. congruence.
    - destruct (rule_at (sepT heqb ext fuel olds d) k) as [v|] eqn:Er; [|reflexivity]. apply EN in Er. exfalso. apply (F4 k); eauto.
  Qed.
  Lemma separate_criteria : meets_negra_criteria m' = true <->
    forall a r, rule_at d a = Some r -> ~ exists t x l, concat (pr_comp r) = Tm t :: x :: l /\ only_vars (x :: l).
  Proof.
    destruct separate_tree as (SS & ST). unfold meets_negra_criteria. rewrite forallb_forall. split.
    - intros H a r Ha (t & x & l & E & OV). assert (G : gt_get a m' = Some (fst (sep_of heqb ext fuel olds r))) by (rewrite ST; apply (rule_at_sepT heqb ext fuel olds a d A _ HD); left; eauto).
      unfold gt_get in G. apply (bm_get_In addr_cmp addr_ord) in G; [|exact SS]. specialize (H _ G). cbn [snd] in H. unfold sep_of in H.
      assert (Hr : In r (d_rules d)) by (apply d_rules_at; eauto). apply sep_defined in Hr. destruct (sep_rule heqb ext fuel olds r) as [y|] eqn:Ey; [|congruence].
      destruct (sep_rule_spec heqb HE ext fuel olds r y Ey) as [(-> & _)|(L & names & _ & _ & _ & _ & NO)]; [|apply NO; eauto]. cbn [fst] in H. rewrite E in H. apply negra_symbols_spec in H.
      destruct H as [H|(t' & H)]; [|discriminate]. destruct (H (Tm t)) as (i & j & E'); [now left|discriminate].
    - intros H [k v] Hin. cbn [snd]. apply (bm_get_In addr_cmp addr_ord) in Hin; [|exact SS]. fold (gt_get k m') in Hin. rewrite ST in Hin. apply (rule_at_sepT heqb ext fuel olds k d A _ HD) in Hin. apply negra_symbols_spec.
      assert (GEN : forall a r, rule_at d a = Some r -> exists x, sep_rule heqb ext fuel olds r = Some x /\ sep_of heqb ext fuel olds r = x).
      { intros a r Ha. assert (Hr : In r (d_rules d)) by (apply d_rules_at; eauto). apply sep_defined in Hr. unfold sep_of. destruct (sep_rule heqb ext fuel olds r); [eauto|congruence]. }
      destruct Hin as [(r & Ha & ->)|(a & r & i & -> & Ha & Hi)]; destruct (GEN _ _ Ha) as (x & Ex & SO); rewrite SO in *;
        destruct (sep_rule_spec heqb HE ext fuel olds r x Ex) as [(-> & t & l & E & OV)|(L & names & _ & _ & _ & -> & NO)].
      + cbn [fst]. rewrite E. right. destruct l as [|y l]; [eauto|]. exfalso. apply (H _ _ Ha). eauto.
      + cbn [fst pr_comp]. left. apply repl_only_vars.
      + cbn in Hi. destruct i; discriminate.
      + cbn [snd] in Hi. rewrite nth_error_map in Hi. destruct (nth_error (combine L names) i) as [p|]; [|discriminate]. cbn in Hi. injection Hi as <-. cbn. right. eauto.
  Qed.
End SepMap.
