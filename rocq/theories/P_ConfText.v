(* The storage at the end of a run holds the derivation, each rule at its end. *)
From Verif Require Import M_Nom Base BMap M_Agenda M_Search M_Util M_Recog M_Automata M_CFG M_TreeStack M_Grammar M_FromPmcfg
  S_Recog S_TreeStack S_Grammar S_FromPmcfg P_Agenda P_Search P_Util P_Recog P_Automata P_TreeStack P_TSA P_Grammar P_GrammarCFG P_Conversion
  P_FromPmcfg P_FromPmcfg2 P_FromPmcfg3 P_FromPmcfg4 P_FromPmcfg5 Properties_TreeStack Properties_FromPmcfg S_ConfText.

Section End.
  Context {N T : Type} {K : Weight} (neqb : N -> N -> bool) (reqb : prule N T K -> prule N T K -> bool) (NE : EqbSpec neqb) (RE : EqbSpec reqb) (KL : RoundLaws K)
    (f : N -> nat) (g : pmcfg N T K) (OG : ordered_grammar f g).
  Notation R := (fun r => In r (pg_rules g)).

  Lemma nv_last (r : prule N T K) : pr_comp r <> [] -> nv r (length (pr_comp r) - 1) = length (variables [last (pr_comp r) []]).
  Proof.
    intros NZ. unfold nv. rewrite variables_one. destruct (exists_last NZ) as (l & c & E). rewrite E, last_last, app_length. cbn [length]. replace (length l + 1 - 1) with (length l) by lia.
    rewrite nth_error_app2 by lia. now rewrite Nat.sub_diag.
  Qed.
  Lemma Enc_at y d m : Enc y d m -> forall A, deriv R A d -> S m = f A -> forall a, sub y a = option_map at_end (rule_at d a).
  Proof.
    induction 1 as [r ts m ch ds ms B1 B2 B3 IH]. intros A HD HM a. apply deriv_inv in HD. destruct HD as (-> & Hr & F2). pose proof OG as (FO & OR & DT & _).
    destruct (OR r Hr) as (LC & M & NZ). destruct a as [|i a].
    - cbn [sub rule_at d_rule option_map ts_value]. unfold at_end. rewrite <- (nv_last r NZ), (FO r Hr), <- HM. cbn. now rewrite Nat.sub_0_r.
    - rewrite HM, <- (FO r Hr), before_all in B1, B2.
      assert (D : forall i d, nth_error ts i = Some d -> exists B, nth_error (pr_tail r) i = Some B /\ deriv R B d /\ f B <> 0).
      { intros i0 d E. pose proof (F2_nth _ _ _ F2 i0) as Di. rewrite E in Di. destruct (nth_error (pr_tail r) i0) as [B|] eqn:HB; [|destruct Di]. exists B. split; [reflexivity|]. split; [assumption|].
        destruct (DT r B Hr (nth_error_In _ _ HB)) as (r' & H1 & H2). destruct (OR r' H1) as (_ & _ & NE'). rewrite <- H2, <- (FO r' H1). destruct (pr_comp r'); [congruence|discriminate]. }
      cbn [sub rule_at ts_children d_children]. destruct (chl ch i) as [y|] eqn:C.
      + destruct (B2 i y C) as [E1 E2]. unfold chl in C. destruct (nth_error ch i) as [[c|]|] eqn:EC; try discriminate. injection C as ->. rewrite E1. destruct (D i _ E1) as (B & HB & HDB & _).
        apply (IH i y) with (A := B); [unfold chl; now rewrite EC|assumption|]. rewrite (monotone_seq f r LC M i), HB, seq_length in E2. congruence.
      + pose proof C as C'. unfold chl in C. assert (EN : nth_error ts i = None).
        { destruct (nth_error ts i) as [d|] eqn:E; [|reflexivity]. destruct (D i d E) as (B & HB & _ & NZB). specialize (B1 i C'). rewrite (monotone_seq f r LC M i), HB in B1. destruct (f B); [congruence|discriminate]. }
        rewrite EN. destruct (nth_error ch i) as [[c|]|]; [discriminate|reflexivity|reflexivity].
  Qed.
  (* the storage that shows a derivation at the end of a run holds it *)
  Lemma run_holds ts w us s d : pmcfg_transitions neqb g = Some ts -> tsa_run reqb ts w us s -> us <> [] -> shows s d -> holds_tree s d.
  Proof.
    intros ET HA NU SW. destruct (C55_runs N T K neqb reqb NE RE KL f g OG) as (ts' & ET' & H1 & H2). rewrite ET in ET'. injection ET' as <-.
    destruct (H1 w us s HA) as [(_ & -> & _)|(A & d' & HI & HD & HY & _ & SW')]; [congruence|].
    assert (d' = d). { destruct SW as (m & M1 & M2), SW' as (m' & M1' & M2'). rewrite M1 in M1'. injection M1' as <-. apply rule_at_ext. intros a. now rewrite <- M2', M2. } subst d'.
    destruct (H2 A d w HI HD HY) as (us0 & s0 & _ & _ & _ & U).
    destruct (pmcfg_transitions_spec neqb NE f g OG) as (ts' & ET' & HT). rewrite ET in ET'. injection ET' as <-.
    pose proof OG as (FO & _ & _ & FA). destruct (tyield_yield f g OG d A HD) as [Y LY]. rewrite Y in HY. injection HY as HY.
    assert (HR : In (d_rule d) (pg_rules g) /\ pr_head (d_rule d) = A) by (inversion HD; subst; auto). destruct HR as [HR HH].
    assert (L1 : length (pr_comp (d_rule d)) = 1) by (rewrite (FO _ HR), HH; auto).
    destruct (Go_complete f g OG d A HD 0 ltac:(lia) []) as (us1 & ch' & G & EC & W & _); [intros i; rewrite before_0; now destruct i|].
    set (y := TStack None (Position (d_rule d) 0 (nv (d_rule d) 0)) ch').
    assert (EN : Enc y d 0) by (destruct d as [r ds]; now apply Enc_EK).
    assert (TR : Tree y d) by (apply (Enc_Tree f g OG _ d 0) with (A := A); [assumption|assumption|now rewrite (FA A HI)]).
    destruct (Go_accepting reqb RE g (d_rule d) us1 ch' HR ltac:(now rewrite HH) G) as (E1 & E2 & E3).
    assert (RUN : tsa_run reqb ts w (ipush (d_rule d) :: us1 ++ [idown (d_rule d)]) (TStack None M_FromPmcfg.Designated [Some y])).
    { split; [exact E1|]. split; [intros t Ht; apply HT; now apply E2|]. split; [|exact E3]. unfold run_word. cbn [flat_map ipush t_word app]. rewrite flat_map_app. cbn. rewrite app_nil_r. unfold run_word in W. now rewrite W, HY. }
    destruct (U _ _ RUN (Tree_shows _ _ TR)) as [_ <-]. destruct (U _ _ HA SW) as [_ ->].
    assert (WF : wf (TStack None M_FromPmcfg.Designated [Some y])) by (constructor; intros c [E|[]]; injection E as <-; eapply Tree_wf; eauto).
    destruct (to_tree_spec _ WF) as (GP & _ & GG). split; [exact GP|]. intros addr. rewrite GG. destruct addr as [|[|i] a]; [reflexivity| |destruct i; reflexivity].
    transitivity (sub y a); [reflexivity|]. apply (Enc_at y d 0 EN A HD). now rewrite (FA A HI).
  Qed.
End End.

(* ---- sorted maps ---- *)
Lemma to_tree_sorted {A} (t : tstack A) : gsorted (fst (ts_to_tree t)).
Proof.
  assert (IA : forall (h : list nat -> list nat) (src : gorn A) dst, gsorted dst -> gsorted (gt_insert_all h src dst)).
  { intros h src. induction src as [|e src IH]; intros dst Hd; [exact Hd|]. unfold gt_insert_all. cbn [fold_left]. apply IH. now apply gt_insert_sorted. }
  destruct t as [par v ch]. rewrite to_tree_eq.
  assert (G : forall curr l i (m : gorn A), gsorted m -> gsorted (tree_children curr i l m)).
  { intros curr l. induction l as [|[c|] l IH]; intros i m Hm; cbn [tree_children]; [exact Hm| |now apply IH]. apply IH. now apply IA. }
  destruct par as [[num p]|]; [destruct (ts_to_tree p) as [pm pp]|]; cbn [fst]; apply G; apply gt_insert_sorted; [apply IA|]; exact I.
Qed.
Lemma gsorted_ext {A} (m m' : gorn A) : gsorted m -> gsorted m' -> (forall a, gt_get a m = gt_get a m') -> m = m'.
Proof.
  intros S1 S2 E. assert (KI : forall (t : gorn A) x, gsorted t -> In x (map fst t) <-> exists v, gt_get x t = Some v).
  { intros t x St. split.
    - intros Hx. apply in_map_iff in Hx. destruct Hx as ([k v] & <- & Hin). exists v. now apply (bm_get_In addr_cmp addr_ord).
    - intros (v & Hv). apply (bm_get_In addr_cmp addr_ord) in Hv; [|exact St]. apply in_map_iff. exists (x, v). auto. }
  assert (EK : map fst m = map fst m').
  { apply (sorted_ext addr_cmp addr_ord); [exact S1|exact S2|]. intros x. rewrite (KI m x S1), (KI m' x S2). split; intros (v & Hv); exists v; congruence. }
  revert m' S1 S2 E EK. induction m as [|[k v] m IH]; intros [|[k' v'] m'] S1 S2 E EK; try discriminate; [reflexivity|]. cbn in EK. injection EK as <- EK.
  assert (V : v = v'). { specialize (E k). unfold gt_get in E. cbn [bm_get] in E. rewrite (cmp_refl addr_cmp addr_ord) in E. now injection E. } subst v'. f_equal.
  destruct S1 as [A1 S1], S2 as [A2 S2]. apply IH; auto; clear IH. intros a. specialize (E a). unfold gt_get in *. cbn [bm_get] in E. destruct (addr_cmp a k) eqn:C; try exact E.
  apply (ol_eq _ addr_ord) in C. subst a. transitivity (@None A); [|symmetry]; apply (bm_get_None addr_cmp addr_ord); intros Hin; [apply A1 in Hin|apply A2 in Hin]; rewrite (cmp_refl addr_cmp addr_ord) in Hin; discriminate.
Qed.
Lemma sorted_keys_app (l l' : list (list nat)) : sorted_keys addr_cmp l -> sorted_keys addr_cmp l' -> (forall x y, In x l -> In y l' -> addr_cmp x y = Lt) -> sorted_keys addr_cmp (l ++ l').
Proof.
  induction l as [|x l IH]; intros S1 S2 HL; [exact S2|]. destruct S1 as [A1 S1]. cbn [app]. split.
  - intros y Hy. apply in_app_iff in Hy. destruct Hy as [Hy|Hy]; [now apply A1|apply HL; [now left|exact Hy]].
  - apply IH; auto. intros a b Ha Hb. apply HL; [now right|exact Hb].
Qed.
Lemma addr_cmp_app a x y : addr_cmp (a ++ x) (a ++ y) = addr_cmp x y.
Proof. induction a as [|n a IH]; [reflexivity|]. cbn. unfold addr_cmp in *. rewrite Nat.compare_refl. exact IH. Qed.

(* ---- a derivation in preorder ---- *)
Section Pre.
  Context {N T W : Type}.
  Notation tree := (dtree N T W).
  Fixpoint pre (a : list nat) (d : tree) : list (list nat * prule N T W) :=
    match d with
    | DNode r ts => (a, r) :: (fix children (i : nat) (l : list tree) : list (list nat * prule N T W) :=
                                 match l with [] => [] | t :: l => pre (a ++ [i]) t ++ children (S i) l end) 0 ts
    end.
  Fixpoint pre_all (a : list nat) (i : nat) (l : list tree) : list (list nat * prule N T W) :=
    match l with [] => [] | t :: l => pre (a ++ [i]) t ++ pre_all a (S i) l end.
  Lemma pre_eq a r ts : pre a (DNode r ts) = (a, r) :: pre_all a 0 ts.
  Proof. cbn [pre]. f_equal. generalize 0. induction ts as [|t ts IH]; intros i; [reflexivity|]. cbn [pre_all]. now rewrite <- IH. Qed.

  Lemma pre_in d : forall a k r, In (k, r) (pre a d) <-> exists b, k = a ++ b /\ rule_at d b = Some r.
  Proof.
    induction d as [r0 ts IH] using dtree_ind2. rewrite Forall_forall in IH. intros a k r. rewrite pre_eq. cbn [In].
    assert (G : forall l i, (forall t, In t l -> In t ts) -> In (k, r) (pre_all a i l) <-> exists n b t, nth_error l n = Some t /\ k = a ++ (i + n) :: b /\ rule_at t b = Some r).
    { induction l as [|t l IHl]; intros i HL; cbn [pre_all].
      - split; [intros []|]. intros (n & b & t & E & _). now destruct n.
      - rewrite in_app_iff, IHl by (intros; apply HL; now right). rewrite (IH t (HL t (or_introl eq_refl))). split.
        + intros [(b & -> & E)|(n & b & t' & E1 & -> & E2)].
          * exists 0, b, t. rewrite Nat.add_0_r, <- app_assoc. auto.
          * exists (S n), b, t'. rewrite Nat.add_succ_r. auto.
        + intros ([|n] & b & t' & E1 & -> & E2); cbn in E1.
          * injection E1 as <-. left. exists b. rewrite Nat.add_0_r, <- app_assoc. auto.
          * right. exists n, b, t'. rewrite Nat.add_succ_r. auto. }
    rewrite (G ts 0) by auto. split.
    - intros [E|(n & b & t & E1 & -> & E2)].
      + injection E as -> ->. exists []. rewrite app_nil_r. auto.
      + exists (n :: b). split; [reflexivity|]. cbn. now rewrite E1.
    - intros ([|n b] & -> & E); cbn in E; [left; injection E as ->; now rewrite app_nil_r|]. right. destruct (nth_error ts n) as [t|] eqn:Et; [|discriminate]. exists n, b, t. auto.
  Qed.
  Lemma pre_sorted d : forall a, sorted_keys addr_cmp (map fst (pre a d)).
  Proof.
    induction d as [r0 ts IH] using dtree_ind2. rewrite Forall_forall in IH. intros a. rewrite pre_eq. cbn [map fst]. split.
    - intros x Hx. apply in_map_iff in Hx. destruct Hx as ([k r] & <- & Hin). cbn [fst].
      assert (HI : In (k, r) (pre a (DNode r0 ts)) /\ k <> a).
      { split; [rewrite pre_eq; now right|]. revert Hin. generalize 0. induction ts as [|t ts IHt]; intros i; cbn [pre_all]; [intros []|]. rewrite in_app_iff. intros [Hin|Hin].
        - apply pre_in in Hin. destruct Hin as (b & -> & _). rewrite <- app_assoc. intros E. rewrite <- (app_nil_r a) in E at 2. apply app_inv_head in E. discriminate.
        - apply (IHt (fun t' Ht' => IH t' (or_intror Ht')) (S i) Hin). }
      destruct HI as [HI NK]. apply pre_in in HI. destruct HI as (b & -> & _). destruct b as [|n b]; [rewrite app_nil_r in NK; congruence|]. rewrite <- (app_nil_r a) at 1. rewrite addr_cmp_app. reflexivity.
    - generalize 0. induction ts as [|t ts IHt]; intros i; cbn [pre_all]; [exact I|]. rewrite map_app. apply sorted_keys_app.
      + apply IH. now left.
      + apply IHt. intros t' Ht'. apply IH. now right.
      + intros x y Hx Hy. apply in_map_iff in Hx, Hy. destruct Hx as ([k r] & <- & Hin), Hy as ([k' r'] & <- & Hin'). cbn [fst]. apply pre_in in Hin. destruct Hin as (b & -> & _).
        assert (G : forall l j, In (k', r') (pre_all a j l) -> exists n b, j <= n /\ k' = a ++ n :: b).
        { induction l as [|u l IHl]; intros j; cbn [pre_all]; [intros []|]. rewrite in_app_iff. intros [HI|HI].
          - apply pre_in in HI. destruct HI as (b' & -> & _). exists j, b'. rewrite <- app_assoc. auto.
          - destruct (IHl _ HI) as (n & b' & L & ->). exists n, b'. split; [lia|reflexivity]. }
        destruct (G ts (S i) Hin') as (n & b' & L & ->). rewrite <- app_assoc, addr_cmp_app. cbn. unfold addr_cmp. cbn. replace (Nat.compare i n) with Lt; [reflexivity|]. symmetry. apply Nat.compare_lt_iff. lia.
  Qed.
  (* the entries of the tree stack *)
  Lemma holds_entries (s : tstack (posstate (prule N T W))) d : holds_tree s d ->
    ts_to_tree s = (([], M_FromPmcfg.Designated) :: map (fun e => (fst e, at_end (snd e))) (pre [0] d), []).
  Proof.
    intros (HP & HG). pose proof (to_tree_sorted s) as S1. destruct (ts_to_tree s) as [m p] eqn:E. cbn [fst snd] in *. subst p. f_equal.
    assert (EK : map fst (map (fun e : list nat * prule N T W => (fst e, at_end (snd e))) (pre [0] d)) = map fst (pre [0] d)) by (rewrite map_map; apply map_ext; reflexivity).
    assert (S2 : gsorted (([], M_FromPmcfg.Designated) :: map (fun e => (fst e, at_end (snd e))) (pre [0] d))).
    { split; [|change (gsorted (map (fun e => (fst e, at_end (snd e))) (pre [0] d))); unfold gsorted; rewrite EK; apply pre_sorted].
      intros x Hx. fold (map (@fst (list nat) (posstate (prule N T W)))) in Hx. rewrite EK in Hx. apply in_map_iff in Hx. destruct Hx as ([k r] & <- & Hin). apply pre_in in Hin. destruct Hin as (b & -> & _). reflexivity. }
    apply gsorted_ext; [exact S1|exact S2|]. intros a. rewrite HG.
    assert (X : forall v, gt_get a (([], M_FromPmcfg.Designated) :: map (fun e => (fst e, at_end (snd e))) (pre [0] d)) = Some v <->
              match a with [] => Some M_FromPmcfg.Designated | 0 :: b => option_map at_end (rule_at d b) | _ => None end = Some v).
    { intros v. unfold gt_get. rewrite (bm_get_In addr_cmp addr_ord) by exact S2. cbn [In]. rewrite in_map_iff. split.
      - intros [E1|([k r] & E1 & Hin)]; [injection E1 as <- <-; reflexivity|]. cbn in E1. injection E1 as <- <-. apply pre_in in Hin. destruct Hin as (b & -> & Hb). cbn. now rewrite Hb.
      - destruct a as [|[|n] b]; [intros E1; injection E1 as <-; now left| |discriminate]. destruct (rule_at d b) as [r|] eqn:Er; [|discriminate]. cbn. intros E1. injection E1 as <-. right. exists (0 :: b, r). split; [reflexivity|]. apply pre_in. exists b. auto. }
    match goal with |- ?L = ?Q => destruct L as [v|] eqn:EL; [symmetry; now apply X|destruct Q as [v|] eqn:EQ; [|reflexivity]] end. exfalso. pose proof (proj1 (X v) eq_refl). discriminate.
  Qed.
End Pre.
