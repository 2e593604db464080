(* Derivations of the approximation as trees, and merging them. *)
From Verif Require Import Base BMap M_Util P_Util M_Recog M_Automata M_TreeStack M_Grammar M_Chart M_CSAuto S_Grammar S_CS P_Recog P_Automata P_TreeStack P_Grammar P_GrammarCFG P_Conversion P_CSAuto M_ToDeriv S_RuleMask P_ToDeriv M_Cow S_Cow.
Arguments Nat.ltb : simpl never. Arguments Nat.eqb : simpl never. Arguments Nat.leb : simpl never.

Lemma fold_p_app {X Y} (f : Y -> X -> option Y) l : forall l' s, fold_p f (l ++ l') s = let? s := fold_p f l s in fold_p f l' s.
Proof. induction l as [|x l IH]; intros l' s; cbn; [reflexivity|]. destruct (f s x); [apply IH|reflexivity]. Qed.

(* ---- the renumbering ---- *)
Lemma NoDup_app_disj {X} (l l' : list X) : NoDup (l ++ l') -> forall x, In x l -> ~ In x l'.
Proof. induction l as [|y l IH]; intros ND x Hx; [destruct Hx|]. cbn in ND. inversion ND as [|? ? N1 N2]; subst. destruct Hx as [->|Hx]; [intros H; apply N1, in_or_app; now right|now apply IH]. Qed.
Lemma NoDup_app_r {X} (l l' : list X) : NoDup (l ++ l') -> NoDup l'.
Proof. induction l as [|y l IH]; intros ND; [exact ND|]. cbn in ND. inversion ND; subst. auto. Qed.
Definition re_of (keys : list (nat * nat)) : nt_reindex := combine keys (seq 0 (length keys)).
Lemma re_of_snoc keys k : re_of (keys ++ [k]) = re_of keys ++ [(k, length keys)].
Proof. unfold re_of. rewrite app_length. cbn [length]. rewrite Nat.add_1_r, seq_S, combine_app' by now rewrite seq_length. reflexivity. Qed.
Lemma re_get_from keys k : forall b, NoDup keys -> forall x, option_map snd (find (fun e => Nat.eqb (fst k) (fst (fst e)) && Nat.eqb (snd k) (snd (fst e))) (combine keys (seq b (length keys)))) = Some x <-> exists m, x = b + m /\ nth_error keys m = Some k.
Proof.
  destruct k as [a1 a2]. induction keys as [|[b1 b2] keys IH]; intros b ND x; cbn [length seq combine find fst snd].
  - split; [discriminate|]. intros ([|m] & _ & E); discriminate.
  - inversion ND as [|? ? N1 N2]; subst. destruct (Nat.eqb a1 b1 && Nat.eqb a2 b2) eqn:E.
    + apply andb_true_iff in E. destruct E as [E1 E2]. apply Nat.eqb_eq in E1, E2. subst. cbn. split; [intros [= <-]; exists 0; split; [lia|reflexivity]|]. intros ([|m] & -> & Em); [f_equal; lia|]. cbn in Em. apply nth_error_In in Em. contradiction.
    + rewrite (IH (S b) N2). split.
      * intros (m & -> & Em). exists (S m). split; [lia|exact Em].
      * intros ([|m] & -> & Em); [|exists m; split; [lia|exact Em]]. cbn in Em. injection Em as <- <-. now rewrite !Nat.eqb_refl in E.
Qed.
Lemma re_get_of keys k x : NoDup keys -> re_get k (re_of keys) = Some x <-> nth_error keys x = Some k.
Proof. intros ND. unfold re_get, re_of. rewrite (re_get_from keys k 0 ND). split; [intros (m & -> & E); exact E|intros E; exists x; auto]. Qed.
Lemma re_get_none keys k : NoDup keys -> re_get k (re_of keys) = None <-> ~ In k keys.
Proof.
  intros ND. split.
  - intros E Hin. apply In_nth_error in Hin. destruct Hin as (m & Em). apply (re_get_of _ _ _ ND) in Em. congruence.
  - intros NI. destruct (re_get k (re_of keys)) as [x|] eqn:E; [|reflexivity]. apply (re_get_of _ _ _ ND), nth_error_In in E. contradiction.
Qed.

Section C.
  Context {N T : Type} {K : ZWeight} (rules : list (prule N T K)).
  Notation rule := (prule N T K). Notation kderiv := (kderiv rules). Notation comp_of := (comp_of rules). Notation kword := (kword rules).
  Fixpoint cow_of (t : ktree) : cow := match t with KNode i k kts => Cow i (combine (flat_map as_var (comp_of i k)) (map cow_of kts)) end.

  (* ---- reading the word ---- *)
  Section Small.
    Context (AR : forall r, In r rules -> length (pr_tail r) <= 256) (FR : forall r, In r rules -> length (pr_comp r) <= 256).
    Lemma kderiv_comp kt A k u : kderiv kt A k u -> k < 256.
    Proof. destruct kt as [i k0 kts]. cbn. intros (-> & r & c & Ei & _ & Ek & _). assert (k < length (pr_comp r)) by (apply nth_error_Some; congruence). specialize (FR r (nth_error_In _ _ Ei)). lia. Qed.
    Lemma loop_cow : forall kt A k u, kderiv kt A k u -> forall rest l c0 s pos,
      cow_loop (kword kt ++ rest) (l, Cow c0 s) pos = cow_loop rest (l, Cow (cow_content (cow_of kt)) (s ++ cow_successors (cow_of kt))) pos.
    Proof.
      induction kt as [i k0 kts IH] using ktree_ind2. intros A k u D rest l c0 s pos. cbn [P_ToDeriv.kderiv] in D. destruct D as (-> & r & c & Ei & <- & Ek & D).
      cbn [cow_of cow_content cow_successors]. rewrite (comp_of_nth rules _ _ _ _ Ei Ek). destruct D as [(t & -> & -> & ->)|(us & -> & F)].
      - cbn [P_ToDeriv.kword]. rewrite (comp_of_nth rules _ _ _ _ Ei Ek). unfold wrapb. cbn. now rewrite app_nil_r.
      - rewrite (body_vars rules i k kts c (comp_of_nth rules _ _ _ _ Ei Ek)) by (intros t; eapply F3_var; exact F). unfold wrapb. cbn [app cow_loop fst snd cow_successors]. rewrite <- app_assoc. cbn [app].
        assert (SUB : forall x, In x c -> In x c) by auto. clear Ek. revert c us F s SUB. induction kts as [|kt kts IHk]; intros [|x c] [|u us] F s SUB; cbn in F; try contradiction; try (destruct x; contradiction).
        + cbn. now rewrite app_nil_r.
        + destruct x as [i1 j1|t1]; [|contradiction]. destruct F as [(B & HB & D) F]. inversion IH as [|? ? IH1 IH2]; subst. unfold kbody. cbn [map combine concat fst snd flat_map app as_var]. unfold wrapb at 1. cbn [app var_bracket cow_loop].
          assert (L1 : i1 < 256). { assert (i1 < length (pr_tail r)) by (apply nth_error_Some; congruence). specialize (AR r (nth_error_In _ _ Ei)). lia. }
          rewrite (u8_small i1) by exact L1. rewrite (u8_small j1) by (eapply kderiv_comp; exact D).
          rewrite <- !app_assoc. rewrite (IH1 _ _ _ D). cbn [app cow_loop close_frame]. replace (Cow (cow_content (cow_of kt)) (cow_successors (cow_of kt))) with (cow_of kt) by (destruct kt; reflexivity).
          etransitivity; [|etransitivity; [apply (IHk IH2 c us F (s ++ [(i1, j1, cow_of kt)]) (fun _ h => h))|]]; [reflexivity|]. rewrite <- app_assoc. reflexivity.
    Qed.
    Lemma cow_new_kword kt A k u : kderiv kt A k u -> cow_new (kword kt) = Some (cow_of kt).
    Proof. intros D. unfold cow_new. rewrite <- (app_nil_r (kword kt)), (loop_cow _ _ _ _ D). cbn [cow_loop cow_close snd app]. now destruct kt. Qed.
  End Small.

  (* ---- merging ---- *)
  Definition item := (nat * nat * rule)%type.
  Definition item_ok (x : item) : Prop := let '(j, rid, r) := x in
    nth_error rules rid = Some r /\ exists c, nth_error (pr_comp r) j = Some c /\ forall i l, In (Var i l) c -> i < length (pr_tail r).
  Definition tl_ok (keys : list (nat * nat)) (tail : list N) : Prop :=
    Forall2 (fun k B => exists r, nth_error rules (fst k) = Some r /\ nth_error (pr_tail r) (snd k) = Some B) keys tail.
  Definition uses (rs : list item) (k : nat * nat) : Prop :=
    exists j r c l, In (j, fst k, r) rs /\ nth_error (pr_comp r) j = Some c /\ In (Var (snd k) l) c.
  Lemma tl_ok_len keys tail : tl_ok keys tail -> length keys = length tail.
  Proof. induction 1; cbn; congruence. Qed.
  Lemma merge_vars_spec rid (r : rule) : nth_error rules rid = Some r -> forall c keys tail, (forall i l, In (Var i l) c -> i < length (pr_tail r)) -> NoDup keys -> tl_ok keys tail ->
    exists keys' tail', fold_p (merge_var rid r) c (re_of keys, tail) = Some (re_of keys', tail') /\ NoDup keys' /\ tl_ok keys' tail' /\
      forall k, In k keys' <-> In k keys \/ exists l, fst k = rid /\ In (Var (snd k) l) c.
  Proof.
    intros Er. induction c as [|x c IH]; intros keys tail HV ND TL.
    - exists keys, tail. cbn. split; [reflexivity|]. split; [exact ND|]. split; [exact TL|]. intros k. split; [auto|]. intros [H|(l & _ & [])]. exact H.
    - cbn [fold_p]. destruct x as [i l|t].
      + unfold merge_var at 1. destruct (re_get (rid, i) (re_of keys)) as [x|] eqn:E.
        * destruct (IH keys tail) as (keys' & tail' & E' & ND' & TL' & HK); [intros; eapply HV; right; eassumption|exact ND|exact TL|]. exists keys', tail'. split; [exact E'|]. split; [exact ND'|]. split; [exact TL'|]. intros k. rewrite HK. apply (re_get_of _ _ _ ND), nth_error_In in E. split.
          -- intros [H|(l' & H1 & H2)]; [auto|]. right. exists l'. split; [exact H1|now right].
          -- intros [H|(l' & H1 & [H2|H2])]; [auto| |right; exists l'; auto]. left. injection H2 as H2 _. destruct k as [k1 k2]. cbn in *. now subst.
        * assert (Li : i < length (pr_tail r)) by (eapply HV; left; reflexivity). destruct (nth_error (pr_tail r) i) as [B|] eqn:EB; [|apply nth_error_None in EB; lia]. rewrite <- (tl_ok_len _ _ TL), <- re_of_snoc. apply (re_get_none _ _ ND) in E.
          destruct (IH (keys ++ [(rid, i)]) (tail ++ [B])) as (keys' & tail' & E' & ND' & TL' & HK); [intros; eapply HV; right; eassumption| | |].
          -- apply NoDup_rev in ND. rewrite <- (rev_involutive (keys ++ _)). apply NoDup_rev. rewrite rev_app_distr. cbn. constructor; [now rewrite <- in_rev|exact ND].
          -- apply Forall2_app; [exact TL|]. constructor; [|constructor]. exists r. auto.
          -- exists keys', tail'. split; [exact E'|]. split; [exact ND'|]. split; [exact TL'|]. intros k. rewrite HK, in_app_iff. cbn [In]. destruct k as [k1 k2]. cbn [fst snd]. split.
             ++ intros [[H|[[= <- <-]|[]]]|(l' & H1 & H2)]; [auto|right; exists l; auto|right; exists l'; auto].
             ++ intros [H|(l' & -> & [H2|H2])]; [auto| |right; exists l'; auto]. injection H2 as -> _. auto.
      + unfold merge_var at 1. destruct (IH keys tail) as (keys' & tail' & E' & ND' & TL' & HK); [intros; eapply HV; right; eassumption|exact ND|exact TL|]. exists keys', tail'. split; [exact E'|]. split; [exact ND'|]. split; [exact TL'|]. intros k. rewrite HK. split.
        * intros [H|(l' & H1 & H2)]; [auto|]. right. exists l'. split; [exact H1|now right].
        * intros [H|(l' & H1 & [H2|H2])]; [auto|discriminate|right; exists l'; auto].
  Qed.
  Definition fan_of (rs : list item) (f : nat) : nat := fold_left (fun m x => Nat.max m (fst (fst x) + 1)) rs f.
  Lemma merge_first_spec : forall rs keys tail f, (forall x, In x rs -> item_ok x) -> NoDup keys -> tl_ok keys tail ->
    exists keys' tail', fold_p merge_first rs (re_of keys, tail, f) = Some (re_of keys', tail', fan_of rs f) /\ NoDup keys' /\ tl_ok keys' tail' /\
      forall k, In k keys' <-> In k keys \/ uses rs k.
  Proof.
    induction rs as [|[[j rid] r] rs IH]; intros keys tail f OK ND TL.
    - exists keys, tail. cbn. split; [reflexivity|]. split; [exact ND|]. split; [exact TL|]. intros k. split; [auto|]. intros [H|(? & ? & ? & ? & [] & _)]. exact H.
    - destruct (OK _ (or_introl eq_refl)) as (Er & c & Ec & HV). cbn [fold_p]. unfold merge_first at 1. rewrite Ec.
      destruct (merge_vars_spec rid r Er c keys tail HV ND TL) as (keys1 & tail1 & E1 & ND1 & TL1 & HK1). rewrite E1.
      destruct (IH keys1 tail1 (Nat.max f (j + 1))) as (keys2 & tail2 & E2 & ND2 & TL2 & HK2); [intros; apply OK; now right|exact ND1|exact TL1|]. exists keys2, tail2. rewrite E2. split; [reflexivity|]. split; [exact ND2|]. split; [exact TL2|].
      intros [k1 k2]. rewrite HK2, HK1. unfold uses. cbn [fst snd In]. split.
      + intros [[H|(l & H1 & H2)]|(j' & r' & c' & l & H1 & H2 & H3)]; [auto| |].
        * right. exists j, r, c, l. subst. auto.
        * right. exists j', r', c', l. auto.
      + intros [H|(j' & r' & c' & l & [H1|H1] & H2 & H3)]; [auto| |].
        * injection H1 as -> -> ->. left. right. exists l. split; [reflexivity|]. congruence.
        * right. exists j', r', c', l. auto.
  Qed.
  Lemma fan_of_ge rs : forall f, f <= fan_of rs f /\ forall x, In x rs -> fst (fst x) < fan_of rs f.
  Proof.
    induction rs as [|y rs IH]; intros f; cbn; [split; [lia|tauto]|]. destruct (IH (Nat.max f (fst (fst y) + 1))) as [H1 H2]. unfold fan_of in *. split; [lia|]. intros x [<-|H]; [lia|auto].
  Qed.
  Lemma fan_of_le rs m : forall f, f <= m -> (forall x, In x rs -> fst (fst x) < m) -> fan_of rs f <= m.
  Proof. induction rs as [|y rs IH]; intros f Hf H; cbn; [exact Hf|]. apply IH; [|intros; apply H; now right]. specialize (H y (or_introl eq_refl)). lia. Qed.

  (* the successor number i of rule number o *)
  Definition ren (keys : list (nat * nat)) (o i : nat) : nat := match re_get (o, i) (re_of keys) with Some x => x | None => 0 end.
  Lemma ren_nth keys o i : NoDup keys -> In (o, i) keys -> nth_error keys (ren keys o i) = Some (o, i).
  Proof. intros ND Hin. unfold ren. destruct (re_get (o, i) (re_of keys)) as [x|] eqn:E; [now apply (re_get_of _ _ _ ND)|]. apply (re_get_none _ _ ND) in E. contradiction. Qed.
  Lemma rename_all keys o c : NoDup keys -> (forall i l, In (Var i l) c -> In (o, i) keys) -> opt_all (rename_var (T := T) (re_of keys) o) c = Some (map (rename_succ (ren keys o)) c).
  Proof.
    intros ND. induction c as [|x c IH]; intros HV; [reflexivity|]. cbn [opt_all map]. rewrite IH by (intros; eapply HV; right; eassumption). destruct x as [i l|t]; [|reflexivity]. cbn [rename_var rename_succ].
    pose proof (proj2 (re_get_of keys (o, i) _ ND) (ren_nth keys o i ND (HV i l (or_introl eq_refl)))) as E. now rewrite E.
  Qed.
  Lemma update_length {X} i (f : list X -> list X) : forall m, length (update i f m) = length m.
  Proof. induction i as [|i IH]; intros [|v m]; cbn; auto. Qed.
  Lemma nth_error_update {X} i (f : list X -> list X) : forall m k, nth_error (update i f m) k = if Nat.eqb k i then option_map f (nth_error m k) else nth_error m k.
  Proof.
    induction i as [|i IH]; intros [|v m] [|k]; cbn [update nth_error].
    all: try reflexivity; try (match goal with |- context [Nat.eqb ?a ?b] => destruct (Nat.eqb a b) end; reflexivity).
    rewrite IH. change (Nat.eqb (S k) (S i)) with (Nat.eqb k i). reflexivity.
  Qed.
  Lemma merge_second_spec keys : NoDup keys -> forall rs (comp : composition T), (forall x, In x rs -> item_ok x) -> (forall k, uses rs k -> In k keys) -> NoDup (map (fun x => fst (fst x)) rs) ->
    (forall x, In x rs -> nth_error comp (fst (fst x)) = Some []) ->
    exists comp', fold_p (merge_second (re_of keys)) rs comp = Some comp' /\ length comp' = length comp /\
      (forall j o r c, In (j, o, r) rs -> nth_error (pr_comp r) j = Some c -> nth_error comp' j = Some (map (rename_succ (ren keys o)) c)) /\
      (forall j, ~ In j (map (fun x => fst (fst x)) rs) -> nth_error comp' j = nth_error comp j).
  Proof.
    intros ND. induction rs as [|[[j o] r] rs IH]; intros comp OK HU NJ HC.
    - exists comp. cbn. split; [reflexivity|]. split; [reflexivity|]. split; [tauto|reflexivity].
    - destruct (OK _ (or_introl eq_refl)) as (Er & c & Ec & HV). cbn [fold_p]. unfold merge_second at 1. rewrite Ec. rewrite (rename_all keys o c ND).
      2: { intros i l Hin. apply HU. exists j, r, c, l. cbn. auto. }
      pose proof (HC _ (or_introl eq_refl)) as Cj. cbn [fst] in Cj. assert (Lj : j < length comp) by (apply nth_error_Some; congruence). rewrite (proj2 (Nat.ltb_lt _ _) Lj). cbn [map fst] in NJ. inversion NJ as [|? ? NJ1 NJ2]; subst.
      set (comp1 := update j (fun old => old ++ map (rename_succ (ren keys o)) c) comp).
      destruct (IH comp1) as (comp' & E & LE & H1 & H2); [intros; apply OK; now right| |exact NJ2| |].
      + intros k (j' & r' & c' & l & A1 & A2 & A3). apply HU. exists j', r', c', l. split; [now right|auto].
      + intros x Hx. unfold comp1. rewrite nth_error_update. destruct (Nat.eqb_spec (fst (fst x)) j) as [E|E]; [|apply HC; now right]. exfalso. apply NJ1. rewrite <- E. now apply (in_map (fun x => fst (fst x))).
      + exists comp'. split; [exact E|]. split; [rewrite LE; apply update_length|]. split.
        * intros j' o' r' c' [Hin|Hin] Ec'; [|now apply (H1 j' o' r' c')]. injection Hin as <- <- <-. rewrite (H2 j NJ1). unfold comp1. rewrite nth_error_update, Nat.eqb_refl, Cj. cbn. congruence.
        * intros j' Hj'. cbn [map fst In] in Hj'. rewrite H2 by tauto. unfold comp1. rewrite nth_error_update. destruct (Nat.eqb_spec j' j) as [E'|E']; [subst; tauto|reflexivity].
  Qed.
  Lemma repeat_nil_nth {X} j n : j < n -> nth_error (repeat ([] : list X) n) j = Some [].
  Proof. revert j. induction n as [|n IH]; intros [|j] L; try lia; [reflexivity|]. apply IH. lia. Qed.
  Lemma merge_rules_spec A rs : (forall x, In x rs -> item_ok x) -> NoDup (map (fun x => fst (fst x)) rs) ->
    exists keys tail comp, merge_rules A rs = Some (re_of keys, PRule A tail comp wzero) /\ NoDup keys /\ tl_ok keys tail /\ (forall k, In k keys <-> uses rs k) /\
      length comp = fan_of rs 0 /\
      (forall j o r c, In (j, o, r) rs -> nth_error (pr_comp r) j = Some c -> nth_error comp j = Some (map (rename_succ (ren keys o)) c)) /\
      (forall j, j < length comp -> ~ In j (map (fun x => fst (fst x)) rs) -> nth_error comp j = Some []).
  Proof.
    intros OK NJ. destruct (merge_first_spec rs [] [] 0 OK (NoDup_nil _) (Forall2_nil _)) as (keys & tail & E & ND & TL & HK).
    destruct (merge_second_spec keys ND rs (repeat [] (fan_of rs 0)) OK) as (comp & E2 & LC & H1 & H2).
    - intros k Hk. apply HK. now right.
    - exact NJ.
    - intros x Hx. apply repeat_nil_nth. now apply fan_of_ge.
    - exists keys, tail, comp. unfold merge_rules. match goal with |- context [fold_p merge_first rs ?x] => assert (E0 : fold_p merge_first rs x = Some (re_of keys, tail, fan_of rs 0)) by exact E end. rewrite E0, E2. rewrite repeat_length in LC. split; [reflexivity|]. split; [exact ND|]. split; [exact TL|]. split; [|split; [exact LC|split; [exact H1|]]].
      + intros k. rewrite HK. cbn. tauto.
      + intros j Lj Hj. rewrite (H2 j Hj). apply repeat_nil_nth. lia.
  Qed.

  (* ---- children ---- *)
  Lemma push_nth {X} i (v : X) m m' j : vmm_push_to i v m = Some m' -> nth j m' [] = nth j m [] ++ (if Nat.eqb j i then [v] else []).
  Proof.
    unfold vmm_push_to. destruct (Nat.ltb i (length (vmm_pad_to i m))) eqn:E; [|discriminate]. intros [= <-]. apply Nat.ltb_lt in E.
    rewrite nth_update by assumption. destruct (Nat.eqb j i) eqn:EJ; rewrite pad_abs; [apply Nat.eqb_eq in EJ; now subst|now rewrite app_nil_r].
  Qed.
  Definition child (re : nt_reindex) (idx o : nat) (e : nat * nat * cow) : list (nat * cow) :=
    let '(i, j, s) := e in match re_get (o, i) re with Some x => if Nat.eqb idx x then [(j, s)] else [] | None => [] end.
  Lemma collect_one re o : forall ss m, (forall i j s, In (i, j, s) ss -> re_get (o, i) re <> None) ->
    exists m', fold_p (fun m e => let '(i, j, s) := e in let? index := re_get (o, i) re in vmm_push_to index (j, s) m) ss m = Some m' /\
      forall idx, nth idx m' [] = nth idx m [] ++ flat_map (child re idx o) ss.
  Proof.
    induction ss as [|[[i j] s] ss IH]; intros m HR; cbn [fold_p flat_map].
    - exists m. split; [reflexivity|]. intros idx. now rewrite app_nil_r.
    - destruct (re_get (o, i) re) as [x|] eqn:E; [|exfalso; eapply HR; [left; reflexivity|exact E]]. destruct (push_total x (j, s) m) as (m1 & E1). rewrite E1.
      destruct (IH m1) as (m' & E' & H); [intros; eapply HR; right; eassumption|]. exists m'. split; [exact E'|]. intros idx. rewrite H, (push_nth _ _ _ _ idx E1). cbn [child]. rewrite E, <- app_assoc. reflexivity.
  Qed.
  Lemma collect_spec re trees : (forall t i j s, In t trees -> In (i, j, s) (cow_successors t) -> re_get (cow_content t, i) re <> None) ->
    exists groups, collect_children trees re = Some groups /\ forall idx, nth idx groups [] = flat_map (fun t => flat_map (child re idx (cow_content t)) (cow_successors t)) trees.
  Proof.
    unfold collect_children. assert (G : forall m, (forall t i j s, In t trees -> In (i, j, s) (cow_successors t) -> re_get (cow_content t, i) re <> None) ->
      exists groups, fold_p (fun m t => fold_p (fun m e => let '(i, j, s) := e in let? index := re_get (cow_content t, i) re in vmm_push_to index (j, s) m) (cow_successors t) m) trees m = Some groups /\
        forall idx, nth idx groups [] = nth idx m [] ++ flat_map (fun t => flat_map (child re idx (cow_content t)) (cow_successors t)) trees).
    { induction trees as [|t trees IH]; intros m HR; cbn [fold_p flat_map].
      - exists m. split; [reflexivity|]. intros idx. now rewrite app_nil_r.
      - destruct (collect_one re (cow_content t) (cow_successors t) m) as (m1 & E1 & H1); [intros i j s Hin; eapply HR; [left; reflexivity|exact Hin]|]. rewrite E1. destruct (IH m1) as (g & E & H); [intros; eapply HR; [right|]; eassumption|]. exists g. split; [exact E|]. intros idx. rewrite H, H1, <- app_assoc. reflexivity. }
    intros HR. destruct (G [] HR) as (g & E & H). exists g. split; [exact E|]. intros idx. rewrite H. destruct idx; reflexivity.
  Qed.

  (* ---- component trees ---- *)
  Definition kroot (t : ktree) : nat := match t with KNode i _ _ => i end.
  Definition kchildren (t : ktree) : list (nat * nat * ktree) := match t with KNode i k kts => combine (flat_map as_var (comp_of i k)) kts end.
  Fixpoint kyield (t : ktree) : list T := match t with KNode i k kts => match comp_of i k with [Tm t] => [t] | _ => concat (map kyield kts) end end.
  Definition cowc (e : nat * nat * ktree) : nat * nat * cow := (fst e, cow_of (snd e)).
  Lemma cow_content_of kt : cow_content (cow_of kt) = kroot kt.
  Proof. now destruct kt. Qed.
  Lemma combine_map_r {X Y Z} (g : Y -> Z) (l1 : list X) : forall l2, combine l1 (map g l2) = map (fun e => (fst e, g (snd e))) (combine l1 l2).
  Proof. induction l1 as [|x l1 IH]; intros [|y l2]; cbn; [reflexivity..|]. now rewrite IH. Qed.
  Lemma cow_successors_of kt : cow_successors (cow_of kt) = map cowc (kchildren kt).
  Proof. destruct kt as [i k kts]. cbn [cow_of cow_successors kchildren]. apply combine_map_r. Qed.
  Lemma kderiv_yield : forall kt A k u, kderiv kt A k u -> u = kyield kt.
  Proof.
    induction kt as [i k0 kts IH] using ktree_ind2. intros A k u D. cbn [P_ToDeriv.kderiv] in D. destruct D as (-> & r & c & Ei & <- & Ek & D). cbn [kyield]. rewrite (comp_of_nth rules _ _ _ _ Ei Ek). destruct D as [(t & -> & -> & ->)|(us & -> & F)]; [reflexivity|].
    assert (E : us = map kyield kts).
    { clear Ek. revert c us F. induction kts as [|kt kts IHk]; intros [|x c] [|u us] F; cbn in F; try contradiction; try (destruct x; contradiction); [reflexivity|]. destruct x as [i1 j1|]; [|contradiction]. destruct F as [(B & _ & D) F]. inversion IH as [|? ? I1 I2]; subst. cbn. now rewrite <- (I1 _ _ _ D), <- (IHk I2 c us F). }
    subst us. destruct c as [|[i1 j1|t1] [|x c]]; try reflexivity. exfalso. apply (F3_var _ _ _ _ t1 F). now left.
  Qed.
  Lemma kheight_child i k kts kt : In kt kts -> kheight kt < kheight (KNode i k kts).
  Proof. intros Hin. cbn [kheight]. pose proof (list_max_le (map kheight kts) (list_max (map kheight kts))) as [LM _]. specialize (LM (le_n _)). rewrite Forall_forall in LM. specialize (LM _ (in_map _ _ _ Hin)). lia. Qed.
  Definition sub_ok (kt : ktree) (r : rule) (x : vart T) (kt' : ktree) : Prop :=
    exists i l B, x = Var i l /\ In (i, l, kt') (kchildren kt) /\ nth_error (pr_tail r) i = Some B /\ kderiv kt' B l (kyield kt') /\ kheight kt' < kheight kt.
  Lemma kderiv_parts kt A j u : kderiv kt A j u -> exists r c, nth_error rules (kroot kt) = Some r /\ pr_head r = A /\ nth_error (pr_comp r) j = Some c /\
    map fst (kchildren kt) = flat_map as_var c /\
    ((exists t, c = [Tm t] /\ u = [t]) \/ exists kts, Forall2 (sub_ok kt r) c kts /\ u = concat (map kyield kts)).
  Proof.
    destruct kt as [i k kts]. intros D. pose proof (kderiv_yield _ _ _ _ D) as Y. cbn [P_ToDeriv.kderiv] in D. destruct D as (-> & r & c & Ei & HA & Ek & D). exists r, c. split; [exact Ei|]. split; [exact HA|]. split; [exact Ek|]. cbn [kchildren]. rewrite (comp_of_nth rules _ _ _ _ Ei Ek).
    destruct D as [(t & -> & -> & ->)|(us & -> & F)]; [split; [reflexivity|left; eauto]|]. split.
    - clear Ei Ek Y. revert kts us F. induction c as [|v c IHc]; intros [|kt ch] [|u us] F; cbn in F; try contradiction; try (destruct v; contradiction); [reflexivity|]. destruct v as [i1 j1|t]; [|contradiction]. destruct F as [_ F]. cbn [flat_map as_var app combine map fst]. now rewrite (IHc ch us F).
    - right. exists kts. assert (F2 : forall c' kts' us', F3 r (map kderiv kts') c' us' -> (forall e, In e (combine (flat_map as_var c') kts') -> In e (kchildren (KNode i j kts))) -> incl kts' kts -> Forall2 (sub_ok (KNode i j kts) r) c' kts' /\ us' = map kyield kts').
      { induction c' as [|v c' IHc]; intros [|kt ch] [|u us'] F' HI HK; cbn in F'; try contradiction; try (destruct v; contradiction); [split; [constructor|reflexivity]|]. destruct v as [i1 j1|t]; [|contradiction]. destruct F' as [(B & HB & D) F']. cbn [flat_map as_var app combine] in HI. pose proof (kderiv_yield _ _ _ _ D) as Yk.
        destruct (IHc ch us' F') as [I1 I2]; [intros e He; apply HI; now right|intros e He; apply HK; now right|]. split; [constructor; [|exact I1]|cbn; congruence]. exists i1, j1, B. split; [reflexivity|]. split; [apply HI; now left|]. split; [exact HB|]. split; [congruence|]. apply kheight_child, HK. now left. }
      destruct (F2 c kts us F) as [H1 H2]; [|intros e He; exact He|split; [exact H1|congruence]]. cbn [kchildren]. rewrite (comp_of_nth rules _ _ _ _ Ei Ek). auto.
  Qed.

  (* ---- groups ---- *)
  Definition kchild (keys : list (nat * nat)) (idx o : nat) (e : nat * nat * ktree) : list (nat * ktree) :=
    match re_get (o, fst (fst e)) (re_of keys) with Some x => if Nat.eqb idx x then [(snd (fst e), snd e)] else [] | None => [] end.
  Definition group (keys : list (nat * nat)) (G : list (nat * ktree)) (idx : nat) : list (nat * ktree) :=
    flat_map (fun g => flat_map (kchild keys idx (kroot (snd g))) (kchildren (snd g))) G.
  Definition cowg (g : nat * ktree) : nat * cow := (fst g, cow_of (snd g)).
  Lemma flat_map_map {X Y Z} (h : Y -> list Z) (g : X -> Y) l : flat_map h (map g l) = flat_map (fun x => h (g x)) l.
  Proof. induction l as [|x l IH]; cbn; [reflexivity|now rewrite IH]. Qed.
  Lemma map_flat_map {X Y Z} (h : X -> list Y) (g : Y -> Z) l : map g (flat_map h l) = flat_map (fun x => map g (h x)) l.
  Proof. induction l as [|x l IH]; cbn; [reflexivity|now rewrite map_app, IH]. Qed.
  Lemma flat_map_ext' {X Y} (h h' : X -> list Y) l : (forall x, In x l -> h x = h' x) -> flat_map h l = flat_map h' l.
  Proof. induction l as [|x l IH]; intros HH; cbn; [reflexivity|]. rewrite (HH x) by now left. rewrite IH; [reflexivity|]. intros; apply HH; now right. Qed.
  Lemma group_cows keys G idx : flat_map (fun t => flat_map (child (re_of keys) idx (cow_content t)) (cow_successors t)) (map snd (map cowg G)) = map cowg (group keys G idx).
  Proof.
    unfold group. rewrite map_map, flat_map_map, map_flat_map. apply flat_map_ext'. intros [j kt] _. cbn [snd cowg]. rewrite cow_content_of, cow_successors_of, flat_map_map, map_flat_map. apply flat_map_ext'. intros [[i l] kt'] _. cbn [cowc child fst snd kchild]. unfold kchild. cbn [fst snd].
    destruct (re_get (kroot kt, i) (re_of keys)) as [x|]; [|reflexivity]. now destruct (Nat.eqb idx x).
  Qed.
  Lemma in_group keys G idx l kt' : NoDup keys -> In (l, kt') (group keys G idx) <-> exists j kt i, In (j, kt) G /\ In (i, l, kt') (kchildren kt) /\ nth_error keys idx = Some (kroot kt, i).
  Proof.
    intros ND. unfold group. rewrite in_flat_map. split.
    - intros ([j kt] & HG & H2). apply in_flat_map in H2. destruct H2 as ([[i l'] kt2] & H2 & H3). cbn [snd] in *. unfold kchild in H3. cbn [fst snd] in H3. destruct (re_get (kroot kt, i) (re_of keys)) as [x|] eqn:E; [|destruct H3]. destruct (Nat.eqb_spec idx x) as [->|]; [|destruct H3]. destruct H3 as [[= -> ->]|[]]. exists j, kt, i. split; [exact HG|]. split; [exact H2|]. now apply (re_get_of _ _ _ ND).
    - intros (j & kt & i & HG & H2 & H3). exists (j, kt). split; [exact HG|]. apply in_flat_map. exists (i, l, kt'). split; [exact H2|]. unfold kchild. cbn [fst snd]. apply (re_get_of _ _ _ ND) in H3. rewrite H3, Nat.eqb_refl. now left.
  Qed.
  Lemma NoDup_flat_map {X Y} (h : X -> list Y) l : NoDup l -> (forall x, In x l -> NoDup (h x)) -> (forall x x' y, In x l -> In x' l -> In y (h x) -> In y (h x') -> x = x') -> NoDup (flat_map h l).
  Proof.
    induction l as [|x l IH]; intros ND HN HD; cbn; [constructor|]. inversion ND as [|? ? N1 N2]; subst. apply NoDup_app_intro.
    - apply HN. now left.
    - apply IH; [exact N2|intros; apply HN; now right|]. intros x1 x2 y H1 H2 H3 H4. apply (HD x1 x2 y); [now right|now right|exact H3|exact H4].
    - intros y Hy H2. apply in_flat_map in H2. destruct H2 as (x' & Hx' & Hy'). assert (x = x') as <- by (apply (HD x x' y); [now left|now right|exact Hy|exact Hy']). contradiction.
  Qed.

  Context (LIN : forall r, In r rules -> NoDup (variables (pr_comp r))).
  Lemma variables_flat (cs : composition T) : variables cs = flat_map (flat_map as_var) cs.
  Proof. unfold variables. induction cs as [|c cs IH]; cbn; [reflexivity|now rewrite flat_map_app, IH]. Qed.
  Lemma var_unique (cs : composition T) : NoDup (variables cs) -> forall k k' c c' v, nth_error cs k = Some c -> nth_error cs k' = Some c' -> In v (flat_map as_var c) -> In v (flat_map as_var c') -> k = k'.
  Proof.
    rewrite variables_flat. induction cs as [|c0 cs IH]; intros ND [|k] [|k'] c c' v E E' H H'; cbn in E, E', ND; try discriminate; try reflexivity.
    - injection E as <-. exfalso. apply (NoDup_app_disj _ _ ND v H). apply in_flat_map. exists c'. split; [eapply nth_error_In; exact E'|exact H'].
    - injection E' as <-. exfalso. apply (NoDup_app_disj _ _ ND v H'). apply in_flat_map. exists c. split; [eapply nth_error_In; exact E|exact H].
    - f_equal. eapply IH; try eassumption. eapply NoDup_app_r. exact ND.
  Qed.
  Lemma comp_nodup (cs : composition T) k c : NoDup (variables cs) -> nth_error cs k = Some c -> NoDup (flat_map as_var c).
  Proof.
    rewrite variables_flat. revert k. induction cs as [|c0 cs IH]; intros [|k] ND E; cbn in *; try discriminate; [injection E as <-; eapply NoDup_app_l; exact ND|]. eapply IH; [eapply NoDup_app_r; exact ND|exact E].
  Qed.
  Lemma as_var_in (c : list (vart T)) i l : In (i, l) (flat_map as_var c) <-> In (Var i l) c.
  Proof. rewrite in_flat_map. split; [intros ([i' l'|t] & H1 & H2); cbn in H2; [|contradiction]; destruct H2 as [H2|[]]; injection H2 as -> ->; exact H1|intros H; exists (Var i l); split; [exact H|now left]]. Qed.

  Definition gok (A : N) (n : nat) (G : list (nat * ktree)) : Prop :=
    G <> [] /\ NoDup (map fst G) /\ forall j kt, In (j, kt) G -> kderiv kt A j (kyield kt) /\ kheight kt <= n.
  Lemma gnodup G : NoDup (map fst G) -> NoDup (G : list (nat * ktree)).
  Proof. apply NoDup_map_inv. Qed.
  Lemma fst_unique (G : list (nat * ktree)) j kt kt' : NoDup (map fst G) -> In (j, kt) G -> In (j, kt') G -> kt = kt'.
  Proof.
    induction G as [|[j0 k0] G IH]; intros ND H H'; [destruct H|]. cbn in ND. inversion ND as [|? ? N1 N2]; subst. destruct H as [H|H], H' as [H'|H'].
    - congruence.
    - injection H as -> ->. exfalso. apply N1. apply (in_map fst) in H'. exact H'.
    - injection H' as -> ->. exfalso. apply N1. apply (in_map fst) in H. exact H.
    - auto.
  Qed.
  Lemma group_nodup A n G keys idx : gok A n G -> NoDup keys -> NoDup (map fst (group keys G idx)).
  Proof.
    intros (_ & NJ & OK) ND. unfold group. rewrite map_flat_map.
    assert (CH : forall j kt, In (j, kt) G -> exists r c, nth_error rules (kroot kt) = Some r /\ nth_error (pr_comp r) j = Some c /\ map fst (kchildren kt) = flat_map as_var c).
    { intros j kt Hin. destruct (OK j kt Hin) as [D _]. destruct (kderiv_parts _ _ _ _ D) as (r & c & Er & _ & Ec & Ev & _). eauto. }
    assert (KC : forall j kt l, In (j, kt) G -> In l (map fst (flat_map (kchild keys idx (kroot kt)) (kchildren kt))) -> exists i, nth_error keys idx = Some (kroot kt, i) /\ In (i, l) (map fst (kchildren kt))).
    { intros j kt l _ Hin. rewrite map_flat_map in Hin. apply in_flat_map in Hin. destruct Hin as ([[i l'] kt'] & H1 & H2). unfold kchild in H2. cbn [fst snd] in H2. destruct (re_get (kroot kt, i) (re_of keys)) as [x|] eqn:E; [|destruct H2]. destruct (Nat.eqb_spec idx x) as [->|]; [|destruct H2]. destruct H2 as [<-|[]]. exists i. split; [now apply (re_get_of _ _ _ ND)|]. apply (in_map fst) in H1. exact H1. }
    apply NoDup_flat_map.
    - apply gnodup. exact NJ.
    - intros [j kt] Hin. cbn [snd]. destruct (CH j kt Hin) as (r & c & Er & Ec & Ev). pose proof (comp_nodup _ _ _ (LIN r (nth_error_In _ _ Er)) Ec) as NV. rewrite <- Ev in NV. clear -NV ND.
      induction (kchildren kt) as [|[[i l] kt'] es IH]; cbn [flat_map map]; [constructor|]. cbn [map fst] in NV. inversion NV as [|? ? N1 N2]; subst. rewrite map_app. apply NoDup_app_intro; [unfold kchild; cbn [fst snd]; destruct (re_get _ _) as [x|]; [destruct (Nat.eqb idx x); cbn; repeat constructor; auto|constructor]|now apply IH|].
      intros y Hy H2. rewrite map_flat_map in H2. apply in_flat_map in H2. destruct H2 as ([[i' l'] kt2] & H3 & H4). unfold kchild in Hy, H4. cbn [fst snd] in Hy, H4.
      destruct (re_get (kroot kt, i) (re_of keys)) as [x|] eqn:E; [|destruct Hy]. destruct (Nat.eqb_spec idx x) as [->|]; [|destruct Hy]. destruct Hy as [<-|[]].
      destruct (re_get (kroot kt, i') (re_of keys)) as [x'|] eqn:E'; [|destruct H4]. destruct (Nat.eqb_spec x x') as [->|]; [|destruct H4]. destruct H4 as [H4|[]]. cbn in H4. subst l'. apply (re_get_of _ _ _ ND) in E, E'. rewrite E in E'. injection E' as <-. apply N1. apply (in_map fst) in H3. exact H3.
    - intros [j kt] [j' kt'] l Hin Hin' H1 H2. cbn [snd] in H1, H2. destruct (KC _ _ _ Hin H1) as (i & K1 & V1). destruct (KC _ _ _ Hin' H2) as (i' & K2 & V2). rewrite K1 in K2. injection K2 as RT <-.
      destruct (CH j kt Hin) as (r & c & Er & Ec & Ev). destruct (CH j' kt' Hin') as (r' & c' & Er' & Ec' & Ev'). rewrite <- RT, Er in Er'. injection Er' as <-. rewrite Ev in V1. rewrite Ev' in V2. assert (j = j') as <- by (eapply (var_unique _ (LIN r (nth_error_In _ _ Er))); eassumption). f_equal. eapply fst_unique; eassumption.
  Qed.

  (* ---- the tree ---- *)
  Definition puts (tree : gorn rule) (pos : list nat) (d : dtree N T K) (tree' : gorn rule) : Prop :=
    gs tree' /\ (forall a, gt_get (pos ++ a) tree' = rule_at d a) /\ (forall p, (forall a, p <> pos ++ a) -> gt_get p tree' = gt_get p tree).
  Definition free (tree : gorn rule) (pos : list nat) : Prop := gs tree /\ forall a, gt_get (pos ++ a) tree = None.
  Lemma each_spec (f : nat -> list (nat * cow) -> gorn rule -> option (gorn rule)) (ds : list (dtree N T K)) pos : forall groups b tree,
    gs tree -> (forall k a, b <= k -> gt_get (pos ++ k :: a) tree = None) ->
    (forall k, nth k groups [] <> [] -> exists d, nth_error ds (b + k) = Some d /\ forall tree, free tree (pos ++ [b + k]) -> exists tree', f (b + k) (nth k groups []) tree = Some tree' /\ puts tree (pos ++ [b + k]) d tree') ->
    exists tree', each_group f b groups tree = Some tree' /\ gs tree' /\
      (forall k a, gt_get (pos ++ (b + k) :: a) tree' = match nth k groups [] with [] => None | _ => match nth_error ds (b + k) with Some d => rule_at d a | None => None end end) /\
      (forall p, (forall k a, b <= k -> p <> pos ++ k :: a) -> gt_get p tree' = gt_get p tree).
  Proof.
    induction groups as [|g groups IH]; intros b tree GS FR HF.
    - exists tree. cbn. split; [reflexivity|]. split; [exact GS|]. split; [|reflexivity]. intros k a. rewrite FR by lia. destruct k; reflexivity.
    - assert (HF' : forall k, nth k groups [] <> [] -> exists d, nth_error ds (S b + k) = Some d /\ forall tree, free tree (pos ++ [S b + k]) -> exists tree', f (S b + k) (nth k groups []) tree = Some tree' /\ puts tree (pos ++ [S b + k]) d tree').
      { intros k Hk. replace (S b + k) with (b + S k) by lia. apply (HF (S k) Hk). }
      assert (PP : forall k k' a a', pos ++ k :: a = pos ++ k' :: a' -> k = k') by (intros k k' a a' E; apply app_inv_head in E; congruence).
      destruct g as [|x g].
      + cbn [each_group]. destruct (IH (S b) tree GS) as (tree' & E & GS' & H1 & H2); [intros; apply FR; lia|exact HF'|]. exists tree'. split; [exact E|]. split; [exact GS'|]. split.
        * intros [|k] a; [|replace (b + S k) with (S b + k) by lia; apply H1]. cbn [nth]. rewrite Nat.add_0_r, H2; [apply FR; lia|]. intros k' a' Hk' E'. apply PP in E'. lia.
        * intros p Hp. apply H2. intros k a Hk. apply Hp. lia.
      + cbn [each_group]. destruct (HF 0) as (d & Ed & Hd); [discriminate|]. rewrite Nat.add_0_r in Ed, Hd. cbn [nth] in Hd. destruct (Hd tree) as (tree1 & E1 & GS1 & P1 & P2); [split; [exact GS|intros a; rewrite <- app_assoc; apply FR; lia]|]. rewrite E1.
        assert (P1' : forall a, gt_get (pos ++ b :: a) tree1 = rule_at d a) by (intros a; rewrite <- P1, <- app_assoc; reflexivity).
        assert (P2' : forall k a, k <> b -> gt_get (pos ++ k :: a) tree1 = gt_get (pos ++ k :: a) tree) by (intros k a Hk; apply P2; intros a' E'; rewrite <- app_assoc in E'; apply PP in E'; contradiction).
        destruct (IH (S b) tree1 GS1) as (tree' & E & GS' & H1 & H2); [intros; rewrite P2' by lia; apply FR; lia|exact HF'|]. exists tree'. split; [exact E|]. split; [exact GS'|]. split.
        * intros [|k] a; [|replace (b + S k) with (S b + k) by lia; apply H1]. cbn [nth]. rewrite Nat.add_0_r, Ed, H2; [apply P1'|]. intros k' a' Hk' E'. apply PP in E'. lia.
        * intros p Hp. rewrite H2 by (intros; apply Hp; lia). apply P2. intros a E'. rewrite <- app_assoc in E'. now apply (Hp b a).
  Qed.
  Lemma list_choice {X} (P : nat -> X -> Prop) : forall n, (forall i, i < n -> exists x, P i x) -> exists l, length l = n /\ forall i x, nth_error l i = Some x -> P i x.
  Proof.
    induction n as [|n IH]; intros H.
    - exists []. split; [reflexivity|]. intros [|i] x E; discriminate.
    - destruct IH as (l & L & HL); [intros; apply H; lia|]. destruct (H n (Nat.lt_succ_diag_r n)) as (x & Hx). exists (l ++ [x]). split; [rewrite app_length; cbn; lia|]. intros i y E. apply nth_error_snoc in E. destruct E as [E|[-> ->]]; [auto|now rewrite L].
  Qed.
  Lemma opt_all_maps {X Y Z} (F : Y -> option Z) (g : X -> Y) (h : X -> Z) l : (forall x, In x l -> F (g x) = Some (h x)) -> opt_all F (map g l) = Some (map h l).
  Proof. induction l as [|x l IH]; intros HH; cbn [map opt_all]; [reflexivity|]. rewrite (HH x) by now left. rewrite IH; [reflexivity|]. intros; apply HH; now right. Qed.

  Definition mrule (r : rule) : Prop := merged rules r /\ pr_weight r = wzero.
  Lemma fallback_spec : forall n A G, gok A n G -> exists d y, deriv mrule A d /\ yield d = Some y /\
    (forall j kt, In (j, kt) G -> nth_error y j = Some (kyield kt)) /\ (forall m, (forall j kt, In (j, kt) G -> j < m) -> length y <= m) /\
    forall tree pos, free tree pos -> exists tree', fallback_vec rules n (map cowg G) tree pos = Some tree' /\ puts tree pos d tree'.
  Proof.
    induction n as [|n IH]; intros A G OKG; pose proof OKG as (NE & NJ & OK).
    { destruct G as [|[j kt] G]; [contradiction|]. destruct (OK j kt (or_introl eq_refl)) as [_ L]. destruct kt. cbn in L. lia. }
    destruct G as [|[j0 kt0] G0] eqn:EG; [contradiction|]. rewrite <- EG in *. assert (IN0 : In (j0, kt0) G) by (rewrite EG; now left).
    destruct (kderiv_parts _ _ _ _ (proj1 (OK j0 kt0 IN0))) as (r0 & _ & Er0 & HA0 & _).
    set (rof := fun kt => match nth_error rules (kroot kt) with Some r => r | None => r0 end).
    assert (RO : forall j kt, In (j, kt) G -> nth_error rules (kroot kt) = Some (rof kt)) by (intros j kt Hin; destruct (kderiv_parts _ _ _ _ (proj1 (OK j kt Hin))) as (r & c & Er & _); unfold rof; now rewrite Er).
    set (rs := map (fun g => (fst g, kroot (snd g), rof (snd g))) G : list item).
    assert (INRS : forall j o r, In (j, o, r) rs <-> exists kt, In (j, kt) G /\ o = kroot kt /\ r = rof kt). { intros j o r. unfold rs. rewrite in_map_iff. split; [intros ([j' kt] & E & Hin); cbn in E; injection E as <- <- <-; eauto|intros (kt & Hin & -> & ->); exists (j, kt); auto]. }
    assert (IOK : forall x, In x rs -> item_ok x).
    { intros [[j o] r] Hin. apply INRS in Hin. destruct Hin as (kt & Hin & -> & ->). split; [now apply (RO j)|]. destruct (kderiv_parts _ _ _ _ (proj1 (OK j kt Hin))) as (r & c & Er & _ & Ec & _ & HC). rewrite (RO j kt Hin) in Er. injection Er as ->. exists c. split; [exact Ec|]. intros i l Hv. destruct HC as [(t & -> & _)|(kts & F & _)]; [destruct Hv as [Hv|[]]; discriminate|].
      clear -F Hv. induction F as [|x kt' c kts (i' & l' & B & -> & _ & EB & _) F IHF]; [destruct Hv|]. destruct Hv as [Hv|Hv]; [injection Hv as -> ->; apply nth_error_Some; congruence|auto]. }
    assert (JS : map (fun x : nat * nat * rule => fst (fst x)) rs = map fst G) by (unfold rs; rewrite map_map; reflexivity).
    destruct (merge_rules_spec A rs IOK) as (keys & tail & comp & EM & ND & TL & HK & LC & C1 & C2); [apply (eq_ind_r (@NoDup nat) NJ JS)|].
    set (node := PRule A tail comp wzero : rule).
    destruct (collect_spec (re_of keys) (map snd (map cowg G))) as (groups & EGR & HGR).
    { intros t i j s Ht Hs. rewrite map_map in Ht. apply in_map_iff in Ht. destruct Ht as ([j1 kt] & <- & Hin). cbn [snd cowg] in *. rewrite cow_content_of. rewrite cow_successors_of in Hs. apply in_map_iff in Hs. destruct Hs as ([[i' l'] kt'] & E & Hs). unfold cowc in E. cbn in E. injection E as <- <- <-.
      destruct (kderiv_parts _ _ _ _ (proj1 (OK j1 kt Hin))) as (r & c & Er & _ & Ec & Ev & _). rewrite (re_get_none _ _ ND). intros NI. apply NI. apply HK. exists j1, (rof kt), c, l'. cbn [fst snd]. split; [apply INRS; eauto|]. rewrite (RO j1 kt Hin) in Er. injection Er as ->. split; [exact Ec|]. apply as_var_in. rewrite <- Ev. apply (in_map fst) in Hs. exact Hs. }
    assert (HG : forall idx, nth idx groups [] = map cowg (group keys G idx)) by (intros idx; rewrite HGR; apply group_cows). clear HGR.
    (* children *)
    assert (LT : length keys = length tail) by (apply tl_ok_len; exact TL).
    assert (CHILD : forall idx, idx < length keys -> exists d, exists B y, nth_error tail idx = Some B /\ deriv mrule B d /\ yield d = Some y /\ (forall j kt, In (j, kt) (group keys G idx) -> nth_error y j = Some (kyield kt)) /\
      forall tree pos, free tree pos -> exists tree', fallback_vec rules n (map cowg (group keys G idx)) tree pos = Some tree' /\ puts tree pos d tree').
    { intros idx Hidx. destruct (nth_error keys idx) as [[o i]|] eqn:Ek; [|apply nth_error_None in Ek; lia]. destruct (nth_error tail idx) as [B|] eqn:Et; [|apply nth_error_None in Et; lia].
      pose proof (F2_nth _ _ _ TL idx) as HB. rewrite Ek, Et in HB. cbn [fst snd] in HB. destruct HB as (r & Er & EB).
      destruct (IH B (group keys G idx)) as (d & y & D & Y & Y1 & _ & P).
      - split; [|split; [now apply (group_nodup A (S n))|]].
        + assert (U : In (o, i) keys) by (eapply nth_error_In; exact Ek). apply HK in U. destruct U as (j & r' & c & l & Hin & Ec & Hv). cbn [fst snd] in Hin, Hv. apply INRS in Hin. destruct Hin as (kt & Hin & -> & ->). destruct (kderiv_parts _ _ _ _ (proj1 (OK j kt Hin))) as (r1 & c1 & Er1 & _ & Ec1 & Ev & _). rewrite (RO j kt Hin) in Er1. injection Er1 as <-. rewrite Ec in Ec1. injection Ec1 as <-. apply as_var_in in Hv. rewrite <- Ev in Hv. apply in_map_iff in Hv. destruct Hv as ([p kt'] & E1 & Hv). cbn [fst] in E1. subst p.
          intros EN. assert (X : In (l, kt') (group keys G idx)) by (apply (in_group _ _ _ _ _ ND); exists j, kt, i; auto). rewrite EN in X. destruct X.
        + intros l kt' Hin. apply (in_group _ _ _ _ _ ND) in Hin. destruct Hin as (j & kt & i' & Hin & Hc & Ek'). rewrite Ek in Ek'. injection Ek' as -> ->. destruct (OK j kt Hin) as [Dk Hk]. destruct (kderiv_parts _ _ _ _ Dk) as (r1 & c1 & Er1 & _ & Ec1 & Ev & HC). rewrite Er1 in Er. injection Er as ->.
          assert (X : exists x, In x c1 /\ exists B', sub_ok kt r x kt' /\ x = Var i' l /\ nth_error (pr_tail r) i' = Some B' /\ kderiv kt' B' l (kyield kt') /\ kheight kt' < kheight kt).
          { destruct kt as [o k kts]. cbn [kchildren] in Hc. pose proof Dk as Dk'. cbn [P_ToDeriv.kderiv] in Dk'. destruct Dk' as (-> & r2 & c2 & Er2 & _ & Ec2 & D2). cbn [kroot] in Er1. rewrite Er1 in Er2. injection Er2 as <-. rewrite Ec1 in Ec2. injection Ec2 as <-. rewrite (comp_of_nth rules _ _ _ _ Er1 Ec1) in Hc. destruct D2 as [(t & -> & -> & _)|(us & _ & F)]; [destruct Hc|].
            assert (Hu : exists u, In (i', l, (kt', u)) (combine (flat_map as_var c1) (combine kts us))).
            { destruct (F3_len _ _ _ _ F) as [L1 L2]. rewrite map_length in L1. clear -Hc F L1 L2. revert kts us F L1 L2 Hc. induction c1 as [|v c1 IHc]; intros [|kt ch] [|u us] F L1 L2 Hc; cbn in F; try contradiction; try (destruct v; contradiction); cbn in Hc; try contradiction. destruct v as [i1 j1|t]; [|contradiction]. destruct F as [_ F]. cbn in Hc. destruct Hc as [[= -> -> ->]|Hc]; [exists u; now left|]. destruct (IHc ch us F) as (u' & Hu'); [cbn in L1; lia|cbn in L2; lia|exact Hc|]. exists u'. now right. }
            destruct Hu as (u & Hu). destruct (F3_entry rules r _ _ _ _ _ _ F Hu) as (m & B' & M1 & M2 & _ & M3 & M4). cbn [fst snd] in M2, M4. pose proof (kderiv_yield _ _ _ _ M4) as ->. exists (Var i' l). split; [eapply nth_error_In; exact M1|]. exists B'.
            assert (HH : kheight kt' < kheight (KNode o j kts)) by (apply kheight_child; eapply nth_error_In; exact M2). split; [|auto]. exists i', l, B'. split; [reflexivity|]. split; [|auto]. cbn [kchildren]. now rewrite (comp_of_nth rules _ _ _ _ Er1 Ec1). }
          destruct X as (x & _ & B' & _ & _ & EB' & Dk' & HH). rewrite EB in EB'. injection EB' as <-. split; [exact Dk'|lia].
      - exists d, B, y. split; [reflexivity|]. split; [exact D|]. split; [exact Y|]. split; [exact Y1|exact P]. }
    destruct (list_choice _ _ CHILD) as (ds & LD & HD).
    set (from := fun j => option_map (fun g => kroot (snd g)) (find (fun g => Nat.eqb j (fst g)) G)).
    assert (FROM : forall j o, from j = Some o <-> exists kt, In (j, kt) G /\ kroot kt = o).
    { intros j o. unfold from. destruct (find (fun g => Nat.eqb j (fst g)) G) as [[j' kt']|] eqn:EF; cbn [option_map snd].
      - apply find_some in EF. destruct EF as [Hin EJ]. apply Nat.eqb_eq in EJ. cbn in EJ. subst j'. split; [intros [= <-]; eauto|]. intros (kt & Hin' & <-). now rewrite (fst_unique _ _ _ _ NJ Hin Hin').
      - split; [discriminate|]. intros (kt & Hin & _). pose proof (find_none _ _ EF _ Hin) as X. cbn in X. now rewrite Nat.eqb_refl in X. }
    assert (USES : forall o i, (exists j r c l, from j = Some o /\ nth_error rules o = Some r /\ nth_error (pr_comp r) j = Some c /\ In (Var i l) c) <-> In (o, i) keys).
    { intros o i. rewrite HK. unfold uses. cbn [fst snd]. split.
      - intros (j & r & c & l & F & Er & Ec & Hv). apply FROM in F. destruct F as (kt & Hin & <-). exists j, r, c, l. split; [|auto]. apply INRS. exists kt. split; [exact Hin|]. split; [reflexivity|]. rewrite (RO j kt Hin) in Er. congruence.
      - intros (j & r & c & l & Hin & Ec & Hv). apply INRS in Hin. destruct Hin as (kt & Hin & -> & ->). exists j, (rof kt), c, l. split; [apply FROM; eauto|]. split; [now apply (RO j)|auto]. }
    assert (KT : forall o i, In (o, i) keys -> exists r, nth_error rules o = Some r /\ i < length (pr_tail r) /\ nth_error tail (ren keys o i) = nth_error (pr_tail r) i).
    { intros o i Hin. pose proof (ren_nth keys o i ND Hin) as E. pose proof (F2_nth _ _ _ TL (ren keys o i)) as X. rewrite E in X. destruct (nth_error tail (ren keys o i)) as [B|]; [|contradiction]. destruct X as (r & Er & EB). cbn [fst snd] in *. exists r. split; [exact Er|]. split; [apply nth_error_Some; congruence|congruence]. }
    assert (MR : mrule node).
    { split; [|reflexivity]. exists from, (ren keys). unfold merged_by. cbn [pr_comp pr_tail pr_head node]. split; [|split; [|split; [|split]]].
      - intros j c Ec. destruct (from j) as [o|] eqn:EF.
        + apply FROM in EF. destruct EF as (kt & Hin & <-). destruct (kderiv_parts _ _ _ _ (proj1 (OK j kt Hin))) as (r & c0 & Er & HA & Ec0 & _). exists r, c0. split; [exact Er|]. split; [exact HA|]. split; [exact Ec0|]. rewrite (RO j kt Hin) in Er. injection Er as <-. assert (X : nth_error comp j = Some (map (rename_succ (ren keys (kroot kt))) c0)) by (eapply C1; [apply INRS; eauto|exact Ec0]). congruence.
        + rewrite C2 in Ec; [congruence|apply nth_error_Some; congruence|]. rewrite JS. intros Hin. apply in_map_iff in Hin. destruct Hin as ([j' kt] & Ej & Hin). cbn in Ej. subst j'. assert (from j = Some (kroot kt)) by (apply FROM; eauto). congruence.
      - intros j Hj. destruct (from j) as [o|] eqn:EF; [|contradiction]. apply FROM in EF. destruct EF as (kt & Hin & <-). rewrite LC. apply (proj2 (fan_of_ge rs 0) (j, kroot kt, rof kt)). apply INRS. eauto.
      - intros o i U. apply USES in U. apply KT. exact U.
      - intros o i o' i' U U' E. apply USES in U, U'. apply (ren_nth _ _ _ ND) in U, U'. rewrite E in U. rewrite U in U'. injection U' as -> ->. auto.
      - intros k Hk. destruct (nth_error keys k) as [[o i]|] eqn:Ek; [|apply nth_error_None in Ek; lia]. exists o, i. pose proof (nth_error_In _ _ Ek) as Hin. split; [now apply USES|]. pose proof (ren_nth _ _ _ ND Hin) as E. eapply nth_error_inj; eassumption. }
    assert (DD : deriv mrule A (DNode node ds)).
    { apply (deriv_node mrule node ds MR). cbn [pr_tail node]. apply F2_of_nth; [lia|]. intros i B d EB Ed. destruct (HD i d Ed) as (B' & y & EB' & D & _). congruence. }
    (* the yield *)
    set (val := fun x : vart T => match x with Tm t => Some [t] | Var i j => match nth_error (map yield ds) i with Some (Some y) => nth_error y j | _ => None end end).
    assert (VAL : forall j kt c, In (j, kt) G -> nth_error (pr_comp (rof kt)) j = Some c -> option_map (@concat T) (opt_all val (map (rename_succ (ren keys (kroot kt))) c)) = Some (kyield kt)).
    { intros j kt c Hin Ec. destruct (kderiv_parts _ _ _ _ (proj1 (OK j kt Hin))) as (r & c1 & Er & _ & Ec1 & Ev & HC). rewrite (RO j kt Hin) in Er. injection Er as <-. rewrite Ec in Ec1. injection Ec1 as <-. destruct HC as [(t & -> & EY)|(kts & F & EY)]; [cbn; congruence|]. rewrite EY.
      assert (IV : forall i l, In (Var i l) c -> In (kroot kt, i) keys) by (intros i l Hv; apply HK; exists j, (rof kt), c, l; cbn [fst snd]; split; [apply INRS; eauto|auto]). clear Ev EY Ec.
      assert (X : opt_all val (map (rename_succ (ren keys (kroot kt))) c) = Some (map kyield kts)); [|now rewrite X].
      induction F as [|x kt' c kts (i & l & B & -> & Hc & EB & Dk & _) F IHF]; [reflexivity|]. cbn [map opt_all rename_succ]. rewrite IHF by (intros; eapply IV; right; eassumption).
      pose proof (ren_nth keys (kroot kt) i ND (IV i l (or_introl eq_refl))) as EK. assert (LK : ren keys (kroot kt) i < length ds) by (rewrite LD; apply nth_error_Some; congruence). unfold val at 1. rewrite nth_error_map. destruct (nth_error ds (ren keys (kroot kt) i)) as [d|] eqn:Ed; [|apply nth_error_None in Ed; lia]. cbn [option_map]. destruct (HD _ _ Ed) as (B' & y & _ & _ & Y & Y1 & _). rewrite Y.
      rewrite (Y1 l kt'); [reflexivity|]. apply (in_group _ _ _ _ _ ND). exists j, kt, i. auto. }
    destruct (opt_all_total (fun c => option_map (@concat T) (opt_all val c)) comp) as (y & EY).
    { intros c Hc. apply In_nth_error in Hc. destruct Hc as (j & Ej). destruct (in_dec Nat.eq_dec j (map fst G)) as [Hin|Hn].
      - apply in_map_iff in Hin. destruct Hin as ([j' kt] & E & Hin). cbn in E. subst j'. destruct (kderiv_parts _ _ _ _ (proj1 (OK j kt Hin))) as (r & c1 & Er & _ & Ec1 & _). rewrite (RO j kt Hin) in Er. injection Er as <-. assert (X : nth_error comp j = Some (map (rename_succ (ren keys (kroot kt))) c1)) by (eapply C1; [apply INRS; eauto|exact Ec1]). rewrite Ej in X. injection X as ->. rewrite (VAL j kt c1 Hin Ec1). discriminate.
      - rewrite C2 in Ej; [injection Ej as <-; discriminate|apply nth_error_Some; congruence|now rewrite JS]. }
    exists (DNode node ds), y. split; [exact DD|]. split; [exact EY|]. split; [|split].
    - intros j kt Hin. rewrite (opt_all_nth _ _ _ EY j). destruct (kderiv_parts _ _ _ _ (proj1 (OK j kt Hin))) as (r & c1 & Er & _ & Ec1 & _). rewrite (RO j kt Hin) in Er. injection Er as <-. assert (X : nth_error comp j = Some (map (rename_succ (ren keys (kroot kt))) c1)) by (eapply C1; [apply INRS; eauto|exact Ec1]). rewrite X. now apply (VAL j).
    - intros m Hm. rewrite (opt_all_len _ _ _ EY), LC. apply fan_of_le; [lia|]. intros [[j o] r] Hin. apply INRS in Hin. destruct Hin as (kt & Hin & _). apply (Hm j kt Hin).
    - intros tree pos [GS FRE]. cbn [fallback_vec].
      assert (E1 : nth_error (map cowg G) 0 = Some (cowg (j0, kt0))) by (rewrite EG; reflexivity). rewrite E1. cbn [cowg snd]. rewrite cow_content_of, Er0.
      rewrite (opt_all_maps _ cowg (fun g => (fst g, kroot (snd g), rof (snd g)))).
      2: { intros [j kt] Hin. cbn [cowg fst snd]. rewrite cow_content_of, (RO j kt Hin). reflexivity. }
      rewrite HA0. fold rs. rewrite EM, EGR.
      destruct (each_spec (fun sidx g t => fallback_vec rules n g t (pos ++ [sidx])) ds pos groups 0 tree GS) as (tree' & E' & GS' & H1 & H2).
      + intros k a _. apply FRE.
      + intros k Hk. rewrite HG in Hk. assert (Lk : k < length ds). { destruct (group keys G k) as [|[l kt'] g] eqn:EK; [contradiction|]. assert (X : In (l, kt') (group keys G k)) by (rewrite EK; now left). apply (in_group _ _ _ _ _ ND) in X. destruct X as (_ & kt & i & _ & _ & X). rewrite LD. apply nth_error_Some. congruence. }
        destruct (nth_error ds k) as [d|] eqn:Ed; [|apply nth_error_None in Ed; lia]. exists d. rewrite Nat.add_0_l. split; [exact Ed|]. rewrite HG. destruct (HD k d Ed) as (_ & _ & _ & _ & _ & _ & P). intros tr Hf. apply P. exact Hf.
      + rewrite E'. eexists. split; [reflexivity|]. split; [now apply gt_insert_sorted|]. split.
        * intros a. rewrite (get_ins tree' pos _ _ GS'). destruct (list_eq_dec Nat.eq_dec (pos ++ a) pos) as [Ea|Ea].
          -- assert (a = []) as -> by (rewrite <- (app_nil_r pos) in Ea at 2; now apply app_inv_head in Ea). reflexivity.
          -- destruct a as [|k a]; [rewrite app_nil_r in Ea; contradiction|]. specialize (H1 k a). rewrite Nat.add_0_l in H1. rewrite H1. cbn [rule_at d_children]. rewrite HG. destruct (nth_error ds k) as [d|] eqn:Ed; [|destruct (map cowg (group keys G k)); reflexivity].
             destruct (map cowg (group keys G k)) eqn:EK; [|reflexivity]. exfalso. assert (Lk : k < length keys) by (rewrite <- LD; apply nth_error_Some; congruence). destruct (nth_error keys k) as [[o i]|] eqn:Ek; [|apply nth_error_None in Ek; lia]. assert (U : In (o, i) keys) by (eapply nth_error_In; exact Ek). apply HK in U. destruct U as (j & r' & c & l & Hin & Ec & Hv). cbn [fst snd] in Hin, Hv. apply INRS in Hin. destruct Hin as (kt & Hin & -> & ->). destruct (kderiv_parts _ _ _ _ (proj1 (OK j kt Hin))) as (r1 & c1 & Er1 & _ & Ec1 & Ev & _). rewrite (RO j kt Hin) in Er1. injection Er1 as <-. rewrite Ec in Ec1. injection Ec1 as <-. apply as_var_in in Hv. rewrite <- Ev in Hv. apply in_map_iff in Hv. destruct Hv as ([p kt'] & Ep & Hv). cbn [fst] in Ep. subst p.
             assert (X : In (l, kt') (group keys G k)) by (apply (in_group _ _ _ _ _ ND); exists j, kt, i; auto). apply (in_map cowg) in X. rewrite EK in X. destruct X.
        * intros p Hp. rewrite (get_ins tree' pos _ _ GS'). destruct (list_eq_dec Nat.eq_dec p pos) as [->|_]; [exfalso; apply (Hp []); now rewrite app_nil_r|]. apply H2. intros k a _. apply Hp.
  Qed.
  Lemma kheight_cow : forall kt A k u, kderiv kt A k u -> cow_height (cow_of kt) = kheight kt.
  Proof.
    induction kt as [i k0 kts IH] using ktree_ind2. intros A k u D. cbn [P_ToDeriv.kderiv] in D. destruct D as (-> & r & c & Ei & <- & Ek & D). cbn [cow_of cow_height kheight]. f_equal. rewrite (comp_of_nth rules _ _ _ _ Ei Ek). unfold list_max.
    destruct D as [(t & -> & -> & ->)|(us & -> & F)]; [reflexivity|]. clear Ei Ek. revert c us F. induction kts as [|kt kts IHk]; intros [|x c] [|u us] F; cbn in F; try contradiction; try (destruct x; contradiction); [reflexivity|]. destruct x as [i1 j1|]; [|contradiction]. destruct F as [(B & _ & D) F]. inversion IH as [|? ? I1 I2]; subst. cbn [flat_map as_var app map combine fold_right snd]. rewrite (I1 _ _ _ D), (IHk I2 c us F). reflexivity.
  Qed.
  Theorem fallback_kword kt A u : kderiv kt A 0 u -> exists d tree, fallback rules (cow_of kt) = Some tree /\ gs tree /\
    deriv mrule A d /\ yield d = Some [u] /\ forall a, gt_get a tree = rule_at d a.
  Proof.
    intros D. pose proof (kderiv_yield _ _ _ _ D) as ->. destruct (fallback_spec (kheight kt) A [(0, kt)]) as (d & y & DD & Y & Y1 & Y2 & P).
    - split; [discriminate|]. split; [repeat constructor; cbn; tauto|]. intros j kt' [[= <- <-]|[]]. auto.
    - destruct (P [] []) as (tree & E & GS & H1 & _); [split; [exact I|reflexivity]|]. exists d, tree. unfold fallback. rewrite (kheight_cow _ _ _ _ D). split; [exact E|]. split; [exact GS|]. split; [exact DD|]. split; [|exact H1].
      rewrite Y. f_equal. specialize (Y1 0 kt (or_introl eq_refl)). specialize (Y2 1). destruct y as [|u [|u' y]]; try discriminate; [cbn in Y1; congruence|]. exfalso. cbn in Y2. assert (2 + length y <= 1); [|lia]. apply Y2. intros j kt' [[= <- <-]|[]]. lia.
  Qed.

  (* ---- derivations of the approximation ---- *)
  Lemma cow_of_deriv : forall kt A k u, kderiv kt A k u -> cow_deriv rules (cow_of kt) A k u.
  Proof.
    induction kt as [i k0 kts IH] using ktree_ind2. intros A k u D. cbn [P_ToDeriv.kderiv] in D. destruct D as (-> & r & c & Ei & <- & Ek & D).
    cbn [cow_of]. rewrite (comp_of_nth rules _ _ _ _ Ei Ek). destruct D as [(t & -> & -> & ->)|(us & -> & F)]; [cbn; now apply (cow_token rules i r k t)|].
    assert (X : c = map (fun s : nat * nat * cow => Var (fst (fst s)) (snd (fst s))) (combine (flat_map as_var c) (map cow_of kts)) /\
      Forall2 (fun (s : nat * nat * cow) u => exists B, nth_error (pr_tail r) (fst (fst s)) = Some B /\ cow_deriv rules (snd s) B (snd (fst s)) u) (combine (flat_map as_var c) (map cow_of kts)) us).
    { clear Ek. revert c us F. induction kts as [|kt kts IHk]; intros [|[i1 j1|t1] c] [|u us] F; cbn in F; try contradiction; [split; [reflexivity|constructor]|].
      inversion IH as [|? ? IH1 IH2]; subst. destruct F as [(B & HB & D) F]. destruct (IHk IH2 c us F) as [E1 E2]. cbn [flat_map as_var app map combine fst snd]. split; [now f_equal|]. constructor; [|exact E2]. exists B. split; [exact HB|]. now apply IH1. }
    destruct X as [X1 X2]. apply (cow_vars rules i r k _ us Ei); [now rewrite <- X1|exact X2].
  Qed.
  Lemma cow_word_of (AR : forall r, In r rules -> length (pr_tail r) <= 256) (FR : forall r, In r rules -> length (pr_comp r) <= 256) (NE : forall r c, In r rules -> In c (pr_comp r) -> c <> []) :
    forall kt A k u, kderiv kt A k u -> cow_word (cow_of kt) k = kword kt.
  Proof.
    induction kt as [i k0 kts IH] using ktree_ind2. intros A k u D. pose proof (kderiv_comp FR _ _ _ _ D) as L0. cbn [P_ToDeriv.kderiv] in D. destruct D as (-> & r & c & Ei & <- & Ek & D).
    cbn [cow_of]. pose proof (comp_of_nth rules _ _ _ _ Ei Ek) as EC. rewrite EC. destruct D as [(t & -> & -> & ->)|(us & -> & F)].
    - cbn [P_ToDeriv.kword]. rewrite EC. cbn [cow_word flat_map as_var map combine]. unfold wrapb. rewrite (u8_small k L0). reflexivity.
    - rewrite (body_vars rules i k kts c EC) by (intros t; eapply F3_var; exact F). cbn [cow_word]. unfold wrapb. rewrite (u8_small k L0). do 2 f_equal.
      assert (CN : c <> []) by (eapply NE; [eapply nth_error_In; exact Ei|eapply nth_error_In; exact Ek]).
      assert (X : concat (map (fun s : nat * nat * cow => Open (BVar i (fst (fst s)) (snd (fst s))) :: cow_word (snd s) (snd (fst s)) ++ [Close (BVar i (fst (fst s)) (snd (fst s)))]) (combine (flat_map as_var c) (map cow_of kts))) = kbody i c (map kword kts)).
      { clear Ek EC CN. revert c us F. induction kts as [|kt kts IHk]; intros [|[i1 j1|t1] c] [|u us] F; cbn in F; try contradiction; [reflexivity|].
        inversion IH as [|? ? IH1 IH2]; subst. destruct F as [(B & HB & D) F]. unfold kbody. change (flat_map as_var (Var i1 j1 :: c)) with ((i1, j1) :: flat_map as_var c). cbn [map combine concat fst snd]. f_equal; [|now apply (IHk IH2 c us F)].
        assert (L1 : i1 < 256). { assert (i1 < length (pr_tail r)) by (apply nth_error_Some; congruence). specialize (AR r (nth_error_In _ _ Ei)). lia. }
        cbn [var_bracket]. unfold wrapb. rewrite (u8_small i1 L1), (u8_small j1) by (eapply (kderiv_comp FR); exact D). now rewrite (IH1 _ _ _ D). }
      rewrite <- X. destruct c as [|[i1 j1|t1] c]; [contradiction| |]; destruct kts as [|kt kts]; destruct us; cbn in F; try contradiction. reflexivity.
  Qed.
End C.
