(* The text of a configuration that holds a derivation, and how to read it. *)
From Verif Require Import M_Nom Base BMap M_Util M_Recog M_TreeStack M_Grammar M_Chart M_FromPmcfg M_Text M_Command M_TsaCommand M_ConfText
  S_Grammar P_TreeStack P_Grammar P_Text P_AutText P_Command S_ConfText P_ConfText.

Lemma unlines_app a b : unlines (a ++ b) = unlines a ++ unlines b.
Proof. unfold unlines. now rewrite map_app, concat_app. Qed.
Lemma unlines_cons l ls : unlines (l :: ls) = l ++ newline ++ unlines ls.
Proof. unfold unlines. cbn. now rewrite <- app_assoc. Qed.
Lemma bars_indent n : «" "» ++ bars n = indent n.
Proof. unfold indent. f_equal. induction n as [|n IH]; [reflexivity|]. cbn [bars repeat List.concat]. now rewrite IH. Qed.
Lemma indent_length n : length (indent n) = 2 * n + 1.
Proof.
  assert (G : length (List.concat (repeat «"| "» n)) = 2 * n) by (induction n as [|n IH]; [reflexivity|]; cbn [repeat List.concat]; rewrite app_length, IH; cbn; lia).
  unfold indent. rewrite app_length, G. cbn. lia.
Qed.

Section Text.
  Context {N T W : Type} (show : prule N T W -> bytes).
  Notation tree := (dtree N T W).
  Fixpoint all_lines (depth i : nat) (l : list tree) : list bytes :=
    match l with [] => [] | t :: l => node_lines show depth i t ++ all_lines depth (S i) l end.
  Definition rule_line (depth child : nat) (r : prule N T W) : bytes :=
    indent depth ++ «"+-"» ++ usize_text child ++ «": ("» ++ show r ++ «", "» ++ usize_text (length (pr_comp r) - 1) ++ «", "» ++
         usize_text (length (variables [last (pr_comp r) []])) ++ «")"».
  Lemma node_lines_eq depth child r ts : node_lines show depth child (DNode r ts) = (indent depth ++ «"|"») :: rule_line depth child r :: all_lines (S depth) 0 ts.
  Proof. cbn [node_lines]. do 2 f_equal. generalize 0. induction ts as [|t ts IH]; intros i; [reflexivity|]. cbn [all_lines]. now rewrite <- IH. Qed.

  Notation texts es := (List.concat (map (entry_text (posstate_text show) []) (map (fun e => (fst e, at_end (snd e))) es))).
  Lemma texts_app a b : texts (a ++ b) = texts a ++ texts b.
  Proof. now rewrite !map_app, concat_app. Qed.
  Lemma entry_rule a i (r : prule N T W) : entry_text (posstate_text show) [] (a ++ [i], at_end r) = unlines [indent (length a) ++ «"|"»; rule_line (length a) i r].
  Proof.
    unfold entry_text. rewrite rev_app_distr. cbn [rev app]. rewrite app_length. cbn [length]. replace (length a + 1 - 1) with (length a) by lia.
    assert (E : list_eqb (a ++ [i]) [] = false) by (destruct a; reflexivity). rewrite E. rewrite !unlines_cons. unfold rule_line. rewrite <- bars_indent. unfold unlines. cbn [map List.concat]. rewrite app_nil_r.
    cbn [posstate_text at_end]. rewrite <- !app_assoc. reflexivity.
  Qed.
  Lemma pre_text d : forall a i, texts (pre (a ++ [i]) d) = unlines (node_lines show (length a) i d).
  Proof.
    induction d as [r ts IH] using dtree_ind2. rewrite Forall_forall in IH. intros a i. rewrite pre_eq, node_lines_eq. cbn [map List.concat fst snd]. rewrite entry_rule.
    change ((indent (length a) ++ «"|"») :: rule_line (length a) i r :: all_lines (S (length a)) 0 ts) with ([indent (length a) ++ «"|"»; rule_line (length a) i r] ++ all_lines (S (length a)) 0 ts). rewrite unlines_app. f_equal.
    replace (S (length a)) with (length (a ++ [i])) by (rewrite app_length; cbn; lia). generalize (a ++ [i]) as b. intros b. generalize 0. induction ts as [|t ts IHt]; intros j; [reflexivity|]. cbn [pre_all all_lines].
    rewrite texts_app, unlines_app. rewrite (IH t (or_introl eq_refl)). f_equal. apply IHt. intros t' Ht'. apply IH. now right.
  Qed.
  Lemma holds_text s d : holds_tree s d -> tree_stack_text (posstate_text show) s = unlines ([«" "»; «"*@"»] ++ node_lines show 0 0 d).
  Proof.
    intros HT. unfold tree_stack_text. rewrite (holds_entries s d HT). rewrite unlines_app. cbn [map List.concat]. f_equal. exact (pre_text d [] 0).
  Qed.
End Text.

Lemma conf_text {K : ZWeight} (iow : text_io K) (c : configuration (tstack (posstate (prule bytes bytes K))) bytes K) d :
  c_word c = [] -> holds_tree (c_storage c) d -> parse_text iow c = shown_tree (pmcfg_rule_text string_io string_io iow) (to_text iow) (c_weight c) d.
Proof.
  intros EW HT. unfold parse_text, configuration_text, shown_tree, shown_lines. rewrite EW, (holds_text _ _ d HT). rewrite !unlines_app, !unlines_cons. unfold unlines. cbn [map List.concat spaces]. repeat (rewrite <- !app_assoc || rewrite app_nil_r || rewrite app_nil_l). cbn. repeat (rewrite <- !app_assoc || rewrite app_nil_r). reflexivity.
Qed.

(* ---- reading the text ---- *)
Lemma cons_inj {X} (a b : X) l m : a :: l = b :: m -> a = b /\ l = m.
Proof. intros E. now injection E. Qed.
Lemma cut_line (a b x y : bytes) : ~ In "010"%char a -> ~ In "010"%char b -> a ++ newline ++ x = b ++ newline ++ y -> a = b /\ x = y.
Proof.
  revert b. induction a as [|c a IH]; intros [|c' b] NA NB E; cbn in E.
  - injection E as ->. auto.
  - injection E as <- _. elim NB. now left.
  - injection E as -> _. elim NA. now left.
  - injection E as -> E. destruct (IH b) as [-> ->]; auto; intros HI; [apply NA|apply NB]; now right.
Qed.
Lemma unlines_inj (a : list bytes) : forall b, (forall l, In l a -> ~ In "010"%char l) -> (forall l, In l b -> ~ In "010"%char l) -> unlines a = unlines b -> a = b.
Proof.
  assert (NZ : forall l ls, unlines (l :: ls) <> []) by (intros l ls; rewrite unlines_cons; destruct l; discriminate).
  induction a as [|l a IH]; intros [|l' b] HA HB E; [reflexivity|symmetry in E; now apply NZ in E|now apply NZ in E|]. rewrite !unlines_cons in E.
  apply cut_line in E; [|apply HA; now left|apply HB; now left]. destruct E as [-> E]. f_equal. apply IH; auto; intros x Hx; [apply HA|apply HB]; now right.
Qed.
Lemma cut_comma (x y a b : bytes) : ~ In ","%char a -> ~ In ","%char b -> x ++ «", "» ++ a = y ++ «", "» ++ b -> x = y.
Proof.
  intros NA NB E. apply (f_equal (@rev ascii)) in E. rewrite !rev_app_distr, <- !app_assoc in E. cbn [rev app] in E.
  assert (G : forall p q u v : bytes, ~ In ","%char p -> ~ In ","%char q -> p ++ " "%char :: ","%char :: u = q ++ " "%char :: ","%char :: v -> u = v).
  { induction p as [|c p IH]; intros [|c' q] u v NP NQ Eq; cbn in Eq.
    - now injection Eq.
    - injection Eq as <- Eq. destruct q as [|c' q]; cbn in Eq; [|injection Eq as <- _; elim NQ; right; now left]. discriminate.
    - injection Eq as -> Eq. destruct p as [|c p]; cbn in Eq; [|injection Eq as -> _; elim NP; right; now left]. discriminate.
    - injection Eq as -> Eq. apply (IH q); auto; intros HI; [apply NP|apply NQ]; now right. }
  apply G in E; [|rewrite <- in_rev; assumption|rewrite <- in_rev; assumption]. rewrite <- (rev_involutive x), E. apply rev_involutive.
Qed.

Section Read.
  Context {N T W : Type} (show : prule N T W -> bytes) (one_line : prule N T W -> Prop)
    (OL : forall r, one_line r -> ~ In "010"%char (show r)) (INJ : forall r r', one_line r -> one_line r' -> show r = show r' -> r = r').
  Notation tree := (dtree N T W).
  Lemma rule_line_inj depth child r r' : one_line r -> one_line r' -> rule_line show depth child r = rule_line show depth child r' -> r = r'.
  Proof.
    intros H1 H2 E. apply INJ; auto. unfold rule_line in E. do 4 apply app_inv_head in E.
    assert (ND : forall n, ~ In ","%char (usize_text n)) by (intros n C; apply uint_text_digits in C; discriminate).
    assert (NP : forall n, ~ In ","%char (usize_text n ++ «")"»)) by (intros n C; apply in_app_iff in C; destruct C as [C|[C|[]]]; [exact (ND n C)|discriminate]).
    assert (X : forall r, show r ++ «", "» ++ usize_text (length (pr_comp r) - 1) ++ «", "» ++ usize_text (length (variables [last (pr_comp r) []])) ++ «")"» =
                  (show r ++ «", "» ++ usize_text (length (pr_comp r) - 1)) ++ «", "» ++ usize_text (length (variables [last (pr_comp r) []])) ++ «")"») by (intros; now rewrite <- !app_assoc).
    rewrite !X in E. apply cut_comma in E; [|apply NP|apply NP]. apply cut_comma in E; [exact E|apply ND|apply ND].
  Qed.
  (* what follows the lines of the children is not deeper *)
  Definition shallow (depth : nat) (rest : list bytes) : Prop := match rest with [] => True | l :: _ => length l <= 2 * depth + 2 end.
  Lemma lines_inj d : forall depth child d' rest rest', (forall r, In r (d_rules d) -> one_line r) -> (forall r, In r (d_rules d') -> one_line r) -> shallow depth rest -> shallow depth rest' ->
    node_lines show depth child d ++ rest = node_lines show depth child d' ++ rest' -> d = d' /\ rest = rest'.
  Proof.
    induction d as [r ts IH] using dtree_ind2. rewrite Forall_forall in IH. intros depth child [r' ts'] rest rest' O1 O2 S1 S2 E. rewrite !node_lines_eq in E. cbn [app] in E. apply cons_inj in E. destruct E as [_ E]. apply cons_inj in E. destruct E as [E1 E2].
    apply rule_line_inj in E1; [|apply O1; now left|apply O2; now left]. subst r'. cbn [d_rules] in O1, O2.
    enough (G : ts = ts' /\ rest = rest') by (destruct G as [-> ->]; auto).
    assert (HR : (forall t, In t ts -> forall r, In r (d_rules t) -> one_line r) /\ (forall t, In t ts' -> forall r, In r (d_rules t) -> one_line r)) by (split; intros t Ht q Hq; [apply O1|apply O2]; right; apply in_flat_map; eauto).
    destruct HR as [R1 R2]. clear O1 O2. revert E2. generalize 0. revert ts' R2. induction ts as [|t ts IHt]; intros [|t' ts'] R2 i E2; cbn [all_lines app] in E2.
    - auto.
    - exfalso. destruct t' as [q qs]. rewrite node_lines_eq in E2. cbn [app] in E2. rewrite E2 in S1. cbn [shallow] in S1. rewrite app_length, indent_length in S1. cbn in S1. lia.
    - exfalso. destruct t as [q qs]. rewrite node_lines_eq in E2. cbn [app] in E2. rewrite <- E2 in S2. cbn [shallow] in S2. rewrite app_length, indent_length in S2. cbn in S2. lia.
    - rewrite <- !app_assoc in E2.
      assert (SH : forall l j rr, shallow depth rr -> shallow (S depth) (all_lines show (S depth) j l ++ rr)).
      { intros [|[q qs] l] j rr HS; cbn [all_lines app]; [destruct rr; cbn in *; [exact I|lia]|]. rewrite node_lines_eq. cbn [app shallow]. rewrite app_length, indent_length. cbn. lia. }
      destruct (IH t (or_introl eq_refl) (S depth) i t' _ _ (R1 t (or_introl eq_refl)) (R2 t' (or_introl eq_refl)) (SH ts (S i) rest S1) (SH ts' (S i) rest' S2) E2) as [-> E3].
      destruct (IHt (fun x Hx => IH x (or_intror Hx)) (fun x Hx => R1 x (or_intror Hx)) ts' (fun x Hx => R2 x (or_intror Hx)) (S i) E3) as [-> ->]. auto.
  Qed.
  Lemma node_lines_clean d : forall depth child, (forall r, In r (d_rules d) -> one_line r) -> forall l, In l (node_lines show depth child d) -> ~ In "010"%char l.
  Proof.
    assert (NI : forall depth, ~ In "010"%char (indent depth)).
    { intros depth. unfold indent. rewrite in_app_iff. intros [[C|[]]|C]; [discriminate|]. apply in_concat in C. destruct C as (x & Hx & C). apply repeat_spec in Hx. subst x. cbn in C. intuition discriminate. }
    induction d as [r ts IH] using dtree_ind2. rewrite Forall_forall in IH. intros depth child O l. rewrite node_lines_eq. intros [<-|[<-|Hl]].
    - rewrite in_app_iff. intros [C|[C|[]]]; [exact (NI _ C)|discriminate].
    - unfold rule_line. rewrite !in_app_iff.
      assert (D : forall n, ~ In "010"%char (usize_text n)) by (intros n; apply usize_label).
      intros [C|[C|[C|[C|[C|[C|[C|[C|[C|C]]]]]]]]]; [exact (NI _ C)|cbn in C; intuition discriminate|exact (D _ C)|cbn in C; intuition discriminate|exact (OL r (O r (or_introl eq_refl)) C)|cbn in C; intuition discriminate|exact (D _ C)|cbn in C; intuition discriminate|exact (D _ C)|cbn in C; intuition discriminate].
    - assert (R1 : forall t, In t ts -> forall r, In r (d_rules t) -> one_line r) by (intros t Ht q Hq; apply O; cbn; right; apply in_flat_map; eauto). clear O. revert Hl. generalize 0.
      induction ts as [|t ts IHt]; intros i; cbn [all_lines]; [intros []|]. rewrite in_app_iff. intros [Hl|Hl].
      + apply (IH t (or_introl eq_refl) (S depth) i (R1 t (or_introl eq_refl)) l Hl).
      + apply (IHt (fun x Hx => IH x (or_intror Hx)) (fun x Hx => R1 x (or_intror Hx)) (S i) Hl).
  Qed.
  Lemma shown_inj (show_w : W -> bytes) w w' d d' : ~ In "010"%char (show_w w) -> ~ In "010"%char (show_w w') -> (forall r, In r (d_rules d) -> one_line r) -> (forall r, In r (d_rules d') -> one_line r) ->
    shown_tree show show_w w d = shown_tree show show_w w' d' -> d = d' /\ show_w w = show_w w'.
  Proof.
    intros NW NW' O1 O2 E. assert (CL : forall w d, ~ In "010"%char (show_w w) -> (forall r, In r (d_rules d) -> one_line r) -> forall l, In l (shown_lines show show_w w d) -> ~ In "010"%char l).
    { intros w0 d0 HW HO l Hl. unfold shown_lines in Hl. rewrite !in_app_iff in Hl. destruct Hl as [Hl|[Hl|[<-|[]]]]; [|exact (node_lines_clean d0 0 0 HO l Hl)|intros []].
      cbn [In] in Hl. destruct Hl as [<-|[<-|[<-|[<-|[<-|[]]]]]]; cbn; intuition discriminate. }
    apply unlines_inj in E; [|now apply CL|now apply CL]. unfold shown_lines in E. cbn [app] in E. apply cons_inj in E. destruct E as [_ E]. apply cons_inj in E. destruct E as [_ E]. apply cons_inj in E. destruct E as [EW E]. apply app_inv_head in EW. apply cons_inj in E. destruct E as [_ E]. apply cons_inj in E. destruct E as [_ EN].
    destruct (lines_inj d 0 0 d' [[]] [[]] O1 O2) as [-> _]; [cbn; lia|cbn; lia|exact EN|]. auto.
  Qed.
End Read.
