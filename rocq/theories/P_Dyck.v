(* Proofs about multiple Dyck languages. *)
From Verif Require Import Base BMap M_Agenda M_Search M_Util S_Util P_Util M_Recog S_Recog M_Automata M_TreeStack S_TreeStack P_Automata P_TreeStack M_CSAuto M_CSParse M_Approx M_Dyck S_Dyck.

(* ---- Dyck words as sequences of bracketed segments ---- *)
Section Segments.
  Context {T : Type}.
  Notation word := (list (bracket T)).
  Notation seg := (T * word)%type.
  Definition flat1 (x : seg) : word := Open (fst x) :: snd x ++ [Close (fst x)].
  Definition flat (l : list seg) : word := flat_map flat1 l.

  Fixpoint level_of (w : word) (k : nat) : option nat :=
    match w with
    | [] => Some k
    | Open _ :: r => level_of r (S k)
    | Close _ :: r => match k with 0 => None | S k' => level_of r k' end
    end.
  Lemma level_dyck (u : word) : dyck u -> forall r k, level_of (u ++ r) k = level_of r k.
  Proof.
    induction 1 as [|u v _ IHu _ IHv|a u _ IH]; intros r k; [reflexivity|now rewrite <- app_assoc, IHu, IHv|].
    cbn. rewrite <- app_assoc. cbn. now rewrite IH.
  Qed.
  Lemma dyck_prefix (u : word) s r : dyck (u ++ Close s :: r) -> dyck u -> False.
  Proof.
    intros D U. pose proof (level_dyck _ D [] 0) as E. rewrite app_nil_r, (level_dyck _ U) in E. discriminate.
  Qed.
  Lemma seg_unique (v v' : word) s s' r r' : dyck v -> dyck v' -> v ++ Close s :: r = v' ++ Close s' :: r' -> v = v' /\ s = s' /\ r = r'.
  Proof.
    intros D D' E. destruct (app_eq_app _ _ _ _ E) as (l & [[E1 E2]|[E1 E2]]); destruct l as [|b l].
    - rewrite app_nil_r in E1. subst. cbn in E2. injection E2 as <- <-. auto.
    - cbn in E2. injection E2 as <- ->. subst v. exfalso. eapply dyck_prefix; eauto.
    - rewrite app_nil_r in E1. subst. cbn in E2. injection E2 as <- <-. auto.
    - cbn in E2. injection E2 as <- ->. subst v'. exfalso. eapply dyck_prefix; eauto.
  Qed.
  Lemma flat_app a b : flat (a ++ b) = flat a ++ flat b.
  Proof. apply flat_map_app. Qed.
  Lemma flat_cons x l : flat (x :: l) = flat1 x ++ flat l.
  Proof. reflexivity. Qed.
  Lemma flat_dyck l : (forall x, In x l -> dyck (snd x)) -> dyck (flat l).
  Proof.
    induction l as [|x l IH]; intros H; [constructor|]. cbn [flat flat_map]. apply dyck_app; [apply dyck_wrap, H; now left|].
    apply IH. intros; apply H. now right.
  Qed.
  Lemma dyck_segs (w : word) : dyck w -> exists l, w = flat l /\ forall x, In x l -> dyck (snd x).
  Proof.
    induction 1 as [|u v _ (a & -> & A) _ (b & -> & B)|s u D _].
    - exists []. split; [reflexivity|easy].
    - exists (a ++ b). split; [symmetry; apply flat_app|]. intros x Hx. apply in_app_iff in Hx. destruct Hx; auto.
    - exists [(s, u)]. split; [cbn; now rewrite app_nil_r|]. intros x [<-|[]]. assumption.
  Qed.
  Lemma flat_split l : (forall x, In x l -> dyck (snd x)) -> forall u r, dyck u -> flat l = u ++ r ->
    exists a b, l = a ++ b /\ u = flat a /\ r = flat b.
  Proof.
    intros Hl u r D. destruct (dyck_segs u D) as (us & -> & Hu). clear D. revert us Hu r.
    induction l as [|x l IH]; intros us Hu r E.
    - destruct us as [|y us]; [|discriminate]. exists [], []. cbn in E. auto.
    - destruct us as [|y us].
      + exists [], (x :: l). auto.
      + cbn [flat flat_map flat1] in E. unfold flat1 in E. cbn in E. rewrite <- !app_assoc in E. cbn in E. injection E as E1 E2.
        apply seg_unique in E2; [|apply Hl; now left|apply Hu; now left]. destruct E2 as (E2 & _ & E3).
        destruct (IH (fun z Hz => Hl z (or_intror Hz)) us (fun z Hz => Hu z (or_intror Hz)) r E3) as (a & b & -> & F & ->).
        exists (y :: a), b. split; [|split; [|reflexivity]].
        * cbn. f_equal. destruct x, y; cbn in *; congruence.
        * cbn [flat flat_map]. f_equal. exact F.
  Qed.
End Segments.

Section Runs.
  Context {T : Type} (cmp : T -> T -> comparison) (OL : OrdLaws cmp) (cells : list (list T)) (mode : option (T -> nat)).
  Notation word := (list (bracket T)).
  Notation seg := (T * word)%type.
  Notation ts := (tstack (mdelem T)).
  Notation kids := (list (option ts)).

  Lemma teq_iff x y : teq cmp x y = true <-> x = y.
  Proof. unfold teq. destruct OL as [EQ _ _]. specialize (EQ x y). destruct (cmp x y); split; intros H; try discriminate; try tauto; exfalso; apply EQ in H; discriminate. Qed.
  Lemma contains_iff s l : set_contains cmp s l = true <-> In s l.
  Proof. unfold set_contains. rewrite existsb_exists. split; [intros (x & H1 & H2); apply teq_iff in H2; now subst|intros H; exists s; split; [assumption|now apply teq_iff]]. Qed.
  Lemma remove_iff s l y : In y (set_remove cmp s l) <-> In y l /\ y <> s.
  Proof.
    unfold set_remove. rewrite filter_In. split; intros [H1 H2]; split; auto.
    - intros ->. rewrite (proj2 (teq_iff s s) eq_refl) in H2. discriminate.
    - destruct (teq cmp s y) eqn:E; [|reflexivity]. apply teq_iff in E. congruence.
  Qed.

  Definition chl (ch : kids) (n : nat) : option ts := match nth_error ch n with Some (Some c) => Some c | _ => None end.
  Definition fill (ch : kids) (n : nat) : kids := if Nat.leb (length ch) n then ch ++ repeat None (n - length ch + 1) else ch.
  Definition next_index (ch : kids) : nat := match first_none ch with None => length ch | Some i => i end.
  Definition picks (s : T) (ch : kids) (n : nat) : Prop := match mode with None => n = next_index ch | Some sort => n = sort s end.
  Definition again (s : T) (n : nat) : Prop := match mode with None => True | Some sort => n = sort s end.
  Definition up_ins (s : T) (cell : list T) : md_instr T := match mode with None => MUp s cell | Some sort => MUpAt (sort s) s cell end.

  Inductive opens (s : T) (ch : kids) : nat -> list T -> kids -> kids -> Prop :=
  | op_fresh n cell : In cell cells -> In s cell -> chl ch n = None -> picks s ch n -> opens s ch n (set_remove cmp s cell) [] (fill ch n)
  | op_again n cell x R : In cell cells -> In s cell -> chl ch n = Some x -> again s n -> ts_value x = MNode None R -> In s R ->
      opens s ch n (set_remove cmp s R) (ts_children x) (set_nth n None ch).

  Inductive Run : kids -> word -> kids -> Prop :=
  | run_nil ch : Run ch [] ch
  | run_seg s ch n R c ch0 v c' w ch' : opens s ch n R c ch0 -> Run c v c' ->
      Run (set_nth n (Some (TStack None (MNode None R) c')) ch0) w ch' -> Run ch (Open s :: v ++ Close s :: w) ch'.

  (* ---- children lists ---- *)
  Lemma fill_eq par v ch n : ts_fill (TStack par v ch) n = TStack par v (fill ch n).
  Proof. unfold ts_fill, fill. cbn. now destruct (Nat.leb (length ch) n). Qed.
  Lemma fill_chl ch n m : nth_error (fill ch n) m = if Nat.leb (length ch) m then (if Nat.leb m n then Some None else None) else nth_error ch m.
  Proof.
    pose proof (fill_nth (TStack None MRoot ch) n m) as E. rewrite fill_eq in E. cbn [ts_children] in E. rewrite E.
    destruct (Nat.leb_spec (length ch) m) as [L|L].
    - rewrite (proj2 (nth_error_None ch m) L). reflexivity.
    - apply nth_error_Some in L. destruct (nth_error ch m) as [o|]; [reflexivity|congruence].
  Qed.
  Lemma fill_length ch n : n < length (fill ch n).
  Proof. unfold fill. destruct (Nat.leb_spec (length ch) n); [|assumption]. rewrite app_length, repeat_length. lia. Qed.
  Lemma chl_fill ch n i : chl (fill ch n) i = chl ch i.
  Proof.
    unfold chl. rewrite fill_chl. destruct (Nat.leb_spec (length ch) i) as [L|L]; [|reflexivity].
    rewrite (proj2 (nth_error_None ch i) L). now destruct (Nat.leb i n).
  Qed.
  Lemma chl_set ch n y i : n < length ch -> chl (set_nth n (Some y) ch) i = if Nat.eqb i n then Some y else chl ch i.
  Proof.
    intros L. unfold chl. rewrite nth_error_set_nth. destruct (Nat.eqb i n); [|reflexivity].
    destruct (Nat.ltb_spec n (length ch)); [reflexivity|lia].
  Qed.
  Lemma chl_length ch n x : chl ch n = Some x -> n < length ch.
  Proof. unfold chl. intros E. apply nth_error_Some. destruct (nth_error ch n) as [[c|]|]; congruence. Qed.
  Lemma opens_length s ch n R c ch0 : opens s ch n R c ch0 -> n < length ch0.
  Proof. destruct 1; [apply fill_length|]. rewrite set_nth_length. now apply chl_length in H1. Qed.
  Lemma opens_chl s ch n R c ch0 y i : opens s ch n R c ch0 -> chl (set_nth n (Some y) ch0) i = if Nat.eqb i n then Some y else chl ch i.
  Proof.
    intros O. rewrite chl_set by (eapply opens_length; eauto). destruct (Nat.eqb_spec i n) as [|N]; [reflexivity|].
    destruct O; [apply chl_fill|]. unfold chl. rewrite nth_error_set_nth. apply Nat.eqb_neq in N. now rewrite N.
  Qed.

  (* ---- one instruction ---- *)
  Lemma apply_up par v ch s cell t : In cell cells -> In s cell -> In t (md_apply cmp (up_ins s cell) (TStack par v ch)) ->
    exists n R c ch0, opens s ch n R c ch0 /\ t = TStack (Some (n, TStack par v ch0)) (MNode (Some s) R) c.
  Proof.
    intros C1 C2. unfold md_apply, up_ins. destruct mode as [sort|] eqn:M; cbn [md_apply_p].
    - pose proof (push_spec (TStack par v ch) (sort s) (MNode (Some s) (set_remove cmp s cell))) as (P0 & P1 & P2).
      unfold ts_push in *. destruct (ts_push_p _ _ _) as [r|]; [|congruence].
      change (child (TStack par v ch) (sort s)) with (chl ch (sort s)) in *.
      destruct (chl ch (sort s)) as [x|] eqn:Cx.
      + rewrite (P2 ltac:(discriminate)). rewrite up_spec. change (child (TStack par v ch) (sort s)) with (chl ch (sort s)). rewrite Cx.
        unfold md_reenter. cbn. destruct (ts_value x) as [|[y|] R] eqn:V; try easy. destruct (set_contains cmp s R) eqn:E; [|easy].
        intros [<-|[]]. apply contains_iff in E. do 4 eexists. split; [eapply op_again; eauto; unfold again; now rewrite M|]. reflexivity.
      + rewrite (P1 eq_refl). intros [<-|[]]. rewrite fill_eq. do 4 eexists. split; [eapply op_fresh; eauto; unfold picks; now rewrite M|]. reflexivity.
    - unfold ts_push_next. cbn [ts_children]. fold (next_index ch).
      pose proof (push_spec (TStack par v ch) (next_index ch) (MNode (Some s) (set_remove cmp s cell))) as (_ & P1 & _).
      change (child (TStack par v ch) (next_index ch)) with (chl ch (next_index ch)) in *.
      assert (N : chl ch (next_index ch) = None).
      { unfold chl, next_index. pose proof (first_none_spec ch) as [F _]. cbn zeta in F. destruct (nth_error ch _) as [[c|]|]; [|reflexivity|reflexivity]. now specialize (F c). }
      rewrite (P1 N). destruct (ups_defined (TStack par v ch)) as (l & -> & F). intros [<-|Hi].
      + rewrite fill_eq. do 4 eexists. split; [eapply op_fresh; eauto; unfold picks; now rewrite M|]. reflexivity.
      + apply in_flat_map in Hi. destruct Hi as (t' & H1 & H2).
        assert (exists i, ts_up (TStack par v ch) i = Ok t') as [i U].
        { clear -F H1. induction F as [|i t0 l1 l2 E _ IH]; [easy|]. destruct H1 as [<-|H1]; eauto. }
        rewrite up_spec in U. change (child (TStack par v ch) i) with (chl ch i) in U. destruct (chl ch i) as [x|] eqn:Cx; [|discriminate].
        injection U as <-. unfold md_reenter in H2. cbn in H2. destruct (ts_value x) as [|[y|] R] eqn:V; try easy.
        destruct (set_contains cmp s R) eqn:E; [|easy]. destruct H2 as [<-|[]]. apply contains_iff in E.
        do 4 eexists. split; [eapply op_again; eauto; unfold again; now rewrite M|]. reflexivity.
  Qed.
  Lemma F2_In {X Y} (P : X -> Y -> Prop) l l' : Forall2 P l l' -> forall x, In x l -> exists y, In y l' /\ P x y.
  Proof. induction 1; intros z Hz; [easy|]. destruct Hz as [<-|Hz]; [eexists; split; [now left|assumption]|]. destruct (IHForall2 z Hz) as (y' & ? & ?). exists y'. split; [now right|assumption]. Qed.
  Lemma apply_opens par v ch s n R c ch0 : opens s ch n R c ch0 -> exists cell, In cell cells /\ In s cell /\
    In (TStack (Some (n, TStack par v ch0)) (MNode (Some s) R) c) (md_apply cmp (up_ins s cell) (TStack par v ch)).
  Proof.
    intros O. destruct O as [n cell C1 C2 N P|n cell x R C1 C2 N P V HR]; exists cell; (split; [assumption|]; split; [assumption|]);
      unfold md_apply, up_ins, picks, again in *; destruct mode as [sort|] eqn:M; cbn [md_apply_p].
    - subst n. pose proof (push_spec (TStack par v ch) (sort s) (MNode (Some s) (set_remove cmp s cell))) as (P0 & P1 & P2).
      unfold ts_push in *. destruct (ts_push_p _ _ _) as [r|]; [|congruence]. rewrite (P1 N). left. now rewrite fill_eq.
    - subst n. unfold ts_push_next. cbn [ts_children]. fold (next_index ch).
      pose proof (push_spec (TStack par v ch) (next_index ch) (MNode (Some s) (set_remove cmp s cell))) as (_ & P1 & _).
      rewrite (P1 N). destruct (ups_defined (TStack par v ch)) as (l & -> & F). left. now rewrite fill_eq.
    - subst n. pose proof (push_spec (TStack par v ch) (sort s) (MNode (Some s) (set_remove cmp s cell))) as (P0 & P1 & P2).
      unfold ts_push in *. destruct (ts_push_p _ _ _) as [r|]; [|congruence].
      change (child (TStack par v ch) (sort s)) with (chl ch (sort s)) in *. rewrite P2 by congruence. rewrite up_spec.
      change (child (TStack par v ch) (sort s)) with (chl ch (sort s)). rewrite N. unfold md_reenter. cbn. rewrite V.
      rewrite (proj2 (contains_iff s R) HR). now left.
    - unfold ts_push_next. cbn [ts_children]. fold (next_index ch).
      pose proof (push_spec (TStack par v ch) (next_index ch) (MNode (Some s) (set_remove cmp s cell))) as (_ & P1 & _).
      change (child (TStack par v ch) (next_index ch)) with (chl ch (next_index ch)) in *.
      assert (N' : chl ch (next_index ch) = None).
      { unfold chl, next_index. pose proof (first_none_spec ch) as [F _]. cbn zeta in F. destruct (nth_error ch _) as [[c|]|]; [|reflexivity|reflexivity]. now specialize (F c). }
      rewrite (P1 N'). destruct (ups_defined (TStack par v ch)) as (l & -> & F). right. apply in_flat_map.
      destruct (F2_In _ _ _ F n) as (t' & H1 & U).
      { apply (occupied_child (TStack par v ch)). change (child (TStack par v ch) n) with (chl ch n). congruence. }
      exists t'. split; [assumption|]. rewrite up_spec in U. change (child (TStack par v ch) n) with (chl ch n) in U. rewrite N in U.
      injection U as <-. unfold md_reenter. cbn. rewrite V, (proj2 (contains_iff s R) HR). now left.
  Qed.
  Lemma apply_down t s t' : In t' (md_apply cmp (MDown s) t) ->
    exists n par v ch0 R c, t = TStack (Some (n, TStack par v ch0)) (MNode (Some s) R) c /\
      t' = TStack par v (set_nth n (Some (TStack None (MNode None R) c)) ch0).
  Proof.
    destruct t as [pp v c]. unfold md_apply. cbn. destruct v as [|[y|] R]; try easy. destruct (teq cmp s y) eqn:E; [|easy]. apply teq_iff in E. subst y. cbn.
    unfold ts_down_p. cbn. destruct pp as [[n [par v ch0]]|]; [|easy]. cbn. destruct (Nat.ltb n (length ch0)); [|easy].
    intros [<-|[]]. do 6 eexists. split; reflexivity.
  Qed.
  Lemma down_applies n par v ch0 R c s : n < length ch0 ->
    In (TStack par v (set_nth n (Some (TStack None (MNode None R) c)) ch0)) (md_apply cmp (MDown s) (TStack (Some (n, TStack par v ch0)) (MNode (Some s) R) c)).
  Proof.
    intros L. unfold md_apply. cbn. rewrite (proj2 (teq_iff s s) eq_refl). cbn. unfold ts_down_p. cbn.
    destruct (Nat.ltb_spec n (length ch0)); [now left|lia].
  Qed.

  (* ---- runs of the automaton ---- *)
  Notation trs := (md_transitions up_ins cells).
  Notation mtrans := (transition (md_instr T) (bracket T) U8Weight).
  Notation ex := (executes (T := bracket T) (K := U8Weight) (md_apply cmp)).
  Lemma trans_iff (t : mtrans) : In t trs <-> exists cell s, In cell cells /\ In s cell /\
    (t = Trans (K:=U8Weight) [Open s] 0 (up_ins s cell) \/ t = Trans (K:=U8Weight) [Close s] 0 (MDown s)).
  Proof.
    unfold md_transitions. rewrite in_flat_map. setoid_rewrite in_flat_map. split.
    - intros (cell & H1 & s & H2 & [<-|[<-|[]]]); exists cell, s; auto.
    - intros (cell & s & H1 & H2 & [->| ->]); exists cell; (split; [assumption|]); exists s; (split; [assumption|]); cbn; auto.
  Qed.
  Lemma executes_app s us vs s' : ex s (us ++ vs) s' <-> exists s1, ex s us s1 /\ ex s1 vs s'.
  Proof.
    split.
    - revert s. induction us as [|u us IH]; intros s E; cbn in E; [exists s; split; [constructor|assumption]|].
      inversion E; subst. destruct (IH _ H4) as (s2 & A & B). exists s2. split; [econstructor; eauto|assumption].
    - intros (s1 & A & B). revert A. revert s. induction us as [|u us IH]; intros s A; inversion A; subst; cbn; [assumption|]. econstructor; eauto.
  Qed.
  Lemma run_app_word (us vs : list mtrans) : run_word (us ++ vs) = run_word us ++ run_word vs.
  Proof. apply flat_map_app. Qed.

  Lemma Run_executes ch w ch' : Run ch w ch' -> forall par v, exists us, ex (TStack par v ch) us (TStack par v ch') /\
    (forall t, In t us -> In t trs) /\ run_word us = w.
  Proof.
    induction 1 as [ch|s ch n R c ch0 v c' w ch' O _ IH1 _ IH2]; intros par x.
    - exists []. repeat split; [constructor|easy].
    - destruct (apply_opens par x _ _ _ _ _ _ O) as (cell & C1 & C2 & HO).
      destruct (IH1 (Some (n, TStack par x ch0)) (MNode (Some s) R)) as (us1 & E1 & T1 & W1).
      destruct (IH2 par x) as (us2 & E2 & T2 & W2).
      exists (Trans (K:=U8Weight) [Open s] 0 (up_ins s cell) :: us1 ++ Trans (K:=U8Weight) [Close s] 0 (MDown s) :: us2). repeat split.
      + econstructor; [exact HO|]. apply executes_app. eexists. split; [exact E1|]. econstructor; [|exact E2].
        apply down_applies. eapply opens_length; eauto.
      + intros t [<-|Ht]; [apply trans_iff; exists cell, s; auto|]. apply in_app_iff in Ht. destruct Ht as [Ht|[<-|Ht]]; auto.
        apply trans_iff. exists cell, s. auto.
      + cbn [run_word flat_map t_word app]. f_equal. fold (run_word (us1 ++ Trans (K:=U8Weight) [Close s] 0 (MDown s) :: us2)).
        rewrite run_app_word, W1. cbn [run_word flat_map t_word app]. fold (run_word us2). now rewrite W2.
  Qed.
  Lemma executes_Run m : forall us, length us <= m -> forall par v ch s', ex (TStack par v ch) us s' -> (forall t, In t us -> In t trs) ->
    ts_parent s' = None ->
    (par = None /\ exists ch', s' = TStack None v ch' /\ Run ch (run_word us) ch') \/
    (exists n p q ch0 s R w0 ch' us2, par = Some (n, TStack p q ch0) /\ v = MNode (Some s) R /\ Run ch w0 ch' /\
       run_word us = w0 ++ Close s :: run_word us2 /\ length us2 < length us /\ (forall t, In t us2 -> In t us) /\
       ex (TStack p q (set_nth n (Some (TStack None (MNode None R) ch')) ch0)) us2 s').
  Proof.
    induction m as [|m IH]; intros us L par v ch s' E HT B.
    - destruct us; [|cbn in L; lia]. inversion E; subst. cbn in B. subst. left. split; [reflexivity|]. exists ch. split; [reflexivity|constructor].
    - destruct us as [|u us].
      + inversion E; subst. cbn in B. subst. left. split; [reflexivity|]. exists ch. split; [reflexivity|constructor].
      + inversion E as [|a1 a2 a3 s1 a5 HA HE]; subst. assert (Hu : In u trs) by (apply HT; now left). apply trans_iff in Hu.
        destruct Hu as (cell & s & C1 & C2 & [->| ->]); cbn [t_ins] in HA.
        * destruct (apply_up _ _ _ _ _ _ C1 C2 HA) as (n & R & c & ch0 & O & ->).
          destruct (IH us ltac:(cbn in L; lia) _ _ _ _ HE (fun t Ht => HT t (or_intror Ht)) B) as [[? _]|Q]; [discriminate|].
          destruct Q as (n' & p & q & ch1 & s0 & R' & w0 & c' & us2 & Q1 & Q2 & Q3 & Q4 & Q5 & Q6 & Q7).
          injection Q1 as <- <- <- <-. injection Q2 as <- <-.
          destruct (IH us2 ltac:(cbn in L; lia) _ _ _ _ Q7 (fun t Ht => HT t (or_intror (Q6 t Ht))) B) as [(-> & ch' & -> & Rn)|Q'].
          -- left. split; [reflexivity|]. exists ch'. split; [reflexivity|].
             change (run_word (Trans (K:=U8Weight) [Open s] 0 (up_ins s cell) :: us)) with (Open s :: run_word us). rewrite Q4. econstructor; eauto.
          -- right. destruct Q' as (n2 & p2 & q2 & ch2 & s2 & R2 & w2 & c2 & us3 & D1 & D2 & D3 & D4 & D5 & D6 & D7).
             exists n2, p2, q2, ch2, s2, R2, (Open s :: w0 ++ Close s :: w2), c2, us3. split; [assumption|]. split; [assumption|].
             split; [econstructor; eauto|]. split.
             { change (run_word (Trans (K:=U8Weight) [Open s] 0 (up_ins s cell) :: us)) with (Open s :: run_word us). rewrite Q4, D4. cbn. now rewrite <- app_assoc. }
             split; [cbn; lia|]. split; [|assumption]. intros t Ht. right. auto.
        * destruct (apply_down _ _ _ HA) as (n & p & q & ch0 & R & c & Et & ->). injection Et as -> -> ->.
          right. exists n, p, q, ch0, s, R, [], c, us. repeat split; auto; [constructor|]. intros t Ht. now right.
  Qed.

  Definition allempty (ch : kids) : Prop := forall i x, chl ch i = Some x -> ts_all (@mde_is_empty T) x = true.
  Definition accepted (w : word) : Prop := exists ch, Run [] w ch /\ allempty ch.
  Lemma allempty_iff par v ch : mde_is_empty v = true -> (ts_all (@mde_is_empty T) (TStack par v ch) = true <-> allempty ch).
  Proof.
    intros V. cbn. rewrite V. cbn. rewrite forallb_forall. split.
    - intros H i x Hx. unfold chl in Hx. destruct (nth_error ch i) as [[c|]|] eqn:E; try discriminate. injection Hx as ->.
      apply (H (Some x)). eapply nth_error_In; eauto.
    - intros H [c|] Hc; [|reflexivity]. apply In_nth_error in Hc. destruct Hc as [i Hi]. apply (H i). unfold chl. now rewrite Hi.
  Qed.
  Lemma accepted_iff w : accepted w <-> exists us s, ex (ts_new MRoot) us s /\ (forall t, In t us -> In t trs) /\ run_word us = w /\
    ts_is_at_bottom s = true /\ ts_all (@mde_is_empty T) s = true.
  Proof.
    split.
    - intros (ch & Rn & A). destruct (Run_executes _ _ _ Rn None MRoot) as (us & E & H1 & H2). exists us, (TStack None MRoot ch).
      repeat split; auto. now apply allempty_iff.
    - intros (us & s & E & H1 & H2 & B & A). assert (B' : ts_parent s = None) by (unfold ts_is_at_bottom in B; now destruct (ts_parent s)).
      destruct (executes_Run (length us) us (le_n _) _ _ _ _ E H1 B') as [(_ & ch & -> & Rn)|Q].
      + exists ch. rewrite <- H2. split; [assumption|]. eapply allempty_iff; [|exact A]. reflexivity.
      + destruct Q as (n & p & q & ch0 & s0 & Q). destruct Q as (R & w0 & ch' & us2 & Q & _). discriminate.
  Qed.

  (* ---- composing and splitting runs ---- *)
  Lemma Run_dyck ch w ch' : Run ch w ch' -> dyck w.
  Proof.
    induction 1 as [|s ch n R c ch0 v c' w ch' _ _ IH1 _ IH2]; [constructor|].
    change (dyck ((Open s :: v) ++ Close s :: w)). replace ((Open s :: v) ++ Close s :: w) with ((Open s :: v ++ [Close s]) ++ w) by (cbn; now rewrite <- app_assoc).
    apply dyck_app; [now apply dyck_wrap|assumption].
  Qed.
  Lemma Run_app ch w ch1 : Run ch w ch1 -> forall w2 ch2, Run ch1 w2 ch2 -> Run ch (w ++ w2) ch2.
  Proof.
    induction 1 as [|s ch n R c ch0 v c' w ch' O H1 _ _ IH2]; intros w2 ch2 E; [assumption|].
    cbn. rewrite <- app_assoc. cbn. econstructor; eauto.
  Qed.
  Lemma Run_open ch s x ch2 : Run ch (Open s :: x) ch2 -> exists n R c ch0 v c' w, x = v ++ Close s :: w /\
    opens s ch n R c ch0 /\ Run c v c' /\ Run (set_nth n (Some (TStack None (MNode None R) c')) ch0) w ch2.
  Proof.
    intros E. remember (Open s :: x) as W eqn:EW. destruct E as [|s' ch n R c ch0 v c' w ch2 O H1 H2]; [discriminate|].
    injection EW as -> <-. exists n, R, c, ch0, v, c', w. auto.
  Qed.
  Lemma Run_split u : dyck u -> forall ch r ch2, Run ch (u ++ r) ch2 -> exists ch1, Run ch u ch1 /\ Run ch1 r ch2.
  Proof.
    intros D. destruct (dyck_segs u D) as (us & -> & Hu). clear D. induction us as [|[s v] us IH]; intros ch r ch2 E.
    - exists ch. split; [constructor|assumption].
    - cbn [flat flat_map flat1] in E. unfold flat1 in E. cbn in E. rewrite <- !app_assoc in E. cbn in E.
      destruct (Run_open _ _ _ _ E) as (n & R & c & ch0 & v' & c' & w & E2 & O & H1 & H2). symmetry in E2.
      apply seg_unique in E2; [|eapply Run_dyck; eauto|apply (Hu (s, v)); now left]. destruct E2 as (-> & _ & ->).
      destruct (IH (fun x Hx => Hu x (or_intror Hx)) _ _ _ H2) as (ch1 & A & B). exists ch1. split; [|assumption].
      cbn [flat flat_map flat1]. unfold flat1. cbn. rewrite <- app_assoc. cbn. econstructor; eauto.
  Qed.

  (* ---- segments with the child they were read in ---- *)
  Notation tagged := (list (nat * seg)).
  Definition log (i : nat) (l : tagged) : list seg := map snd (filter (fun x => Nat.eqb (fst x) i) l).
  Definition others (i : nat) (l : tagged) : tagged := filter (fun x => negb (Nat.eqb (fst x) i)) l.
  Notation labels l := (map fst l).
  Notation inner l := (flat_map snd l).
  Lemma log_app i a b : log i (a ++ b) = log i a ++ log i b.
  Proof. unfold log. now rewrite filter_app, map_app. Qed.
  Lemma log_cons i x l : log i (x :: l) = if Nat.eqb (fst x) i then snd x :: log i l else log i l.
  Proof. unfold log. cbn. now destruct (Nat.eqb (fst x) i). Qed.
  Lemma log_others i j l : log j (others i l) = if Nat.eqb j i then [] else log j l.
  Proof.
    unfold others. induction l as [|x l IH]; cbn [filter]; [now destruct (Nat.eqb j i)|].
    destruct (Nat.eqb_spec (fst x) i) as [E|E]; cbn [negb]; rewrite ?log_cons, IH.
    - destruct (Nat.eqb_spec j i); [reflexivity|]. destruct (Nat.eqb_spec (fst x) j); [congruence|reflexivity].
    - destruct (Nat.eqb_spec j i); [|reflexivity]. destruct (Nat.eqb_spec (fst x) j); [congruence|reflexivity].
  Qed.
  Lemma log_In i l x : In x (log i l) <-> In (i, x) l.
  Proof.
    unfold log. rewrite in_map_iff. split.
    - intros ([j y] & <- & H). apply filter_In in H. destruct H as [H E]. apply Nat.eqb_eq in E. cbn in *. now subst.
    - intros H. exists (i, x). split; [reflexivity|]. apply filter_In. split; [assumption|]. apply Nat.eqb_refl.
  Qed.

  Definition tags_ok (l : tagged) : Prop := forall i s v, In (i, (s, v)) l -> again s i /\ dyck v.
  Definition slot_ok (x : option ts) (l : list seg) : Prop :=
    match x with
    | None => l = []
    | Some x => exists cell R c, In cell cells /\ x = TStack None (MNode None R) c /\ incl (labels l) cell /\ NoDup (labels l) /\
        (forall y, In y R <-> In y cell /\ ~ In y (labels l)) /\ Run [] (inner l) c
    end.
  Lemma Run_tagged ch w ch' : Run ch w ch' -> forall h, (forall i, slot_ok (chl ch i) (log i h)) ->
    exists h', w = flat (map snd h') /\ tags_ok h' /\ forall i, slot_ok (chl ch' i) (log i (h ++ h')).
  Proof.
    induction 1 as [ch|s ch n R c ch0 v c' w ch' O Rv _ _ IH2]; intros h K.
    - exists []. repeat split; try easy. intros i. rewrite app_nil_r. apply K.
    - destruct (IH2 (h ++ [(n, (s, v))])) as (h' & -> & T' & K').
      + intros i. rewrite (opens_chl _ _ _ _ _ _ _ i O), log_app, log_cons. cbn [fst snd]. rewrite (Nat.eqb_sym n i).
        destruct (Nat.eqb_spec i n) as [->|N]; [|now rewrite app_nil_r].
        specialize (K n). change (log n []) with (@nil seg). cbn [slot_ok].
        destruct O as [n cell C1 C2 N P|n cell x R C1 C2 N P V HR]; rewrite N in K; cbn [slot_ok] in K.
        * exists cell, (set_remove cmp s cell), c'. rewrite K. cbn. repeat split; auto.
          -- intros y [<-|[]]. assumption.
          -- constructor; [easy|constructor].
          -- apply remove_iff in H. apply H.
          -- intros [->|[]]. apply remove_iff in H. now apply H.
          -- intros [H1 H2]. apply remove_iff. split; [assumption|]. intros ->. tauto.
          -- now rewrite app_nil_r.
        * destruct K as (cell' & R' & c0 & K1 & -> & K3 & K4 & K5 & K6). cbn in V. injection V as ->. cbn in Rv.
          exists cell', (set_remove cmp s R), c'. cbn. rewrite flat_map_app. cbn. rewrite app_nil_r. rewrite map_app. cbn.
          pose proof (proj1 (K5 s) HR) as [HS1 HS2]. repeat split; auto.
          -- intros y Hy. apply in_app_iff in Hy. destruct Hy as [Hy|[<-|[]]]; auto.
          -- apply (Permutation_NoDup (l := s :: map fst (log n h))); [apply Permutation_cons_append|]. now constructor.
          -- apply remove_iff in H. apply (K5 y). apply H.
          -- rewrite in_app_iff. apply remove_iff in H. destruct H as [H1 H2]. apply K5 in H1. intros [H|[H|[]]]; [tauto|congruence].
          -- intros [H1 H2]. rewrite in_app_iff in H2. apply remove_iff. split; [apply K5; split; tauto|]. intros ->. apply H2. right. now left.
          -- eapply Run_app; eauto.
      + exists ((n, (s, v)) :: h'). split; [|split].
        * cbn [map flat flat_map snd]. unfold flat1. cbn. now rewrite <- app_assoc.
        * intros i s' v' [E|H]; [|now apply T' in H]. injection E as <- <- <-. split; [|eapply Run_dyck; eauto].
          unfold again. destruct O as [n cell C1 C2 N P|n cell x R C1 C2 N P V HR]; [|exact P]. unfold picks in P. now destruct mode.
        * intros i. specialize (K' i). now rewrite <- app_assoc in K'.
  Qed.

  (* every group of segments is a cell, and what it encloses is accepted *)
  Context (ND : forall cell, In cell cells -> NoDup cell).
  Definition complete (P : word -> Prop) (h : tagged) : Prop := tags_ok h /\
    forall i, log i h = [] \/ exists cell, In cell cells /\ Permutation (labels (log i h)) cell /\ P (inner (log i h)).
  Lemma accepted_tagged w : accepted w -> exists h, w = flat (map snd h) /\ complete accepted h.
  Proof.
    intros (ch & Rn & A). destruct (Run_tagged _ _ _ Rn []) as (h & E & T1 & K); [intros [|i]; reflexivity|].
    exists h. split; [assumption|]. split; [assumption|]. intros i. specialize (K i). specialize (A i). cbn [app] in K.
    destruct (chl ch i) as [x|]; cbn [slot_ok] in K; [|now left]. right.
    destruct K as (cell & R & c & K1 & -> & K3 & K4 & K5 & K6). exists cell. specialize (A _ eq_refl).
    assert (HE : mde_is_empty (MNode None R) = true).
    { cbn in A. apply andb_true_iff in A. apply A. }
    assert (A' : allempty c) by (eapply allempty_iff; eauto). destruct R; [|discriminate HE]. split; [assumption|]. split.
    - apply NoDup_Permutation; auto. intros y. split; [apply K3|]. intros Hy.
      destruct (in_dec (fun a b => match teq cmp a b as r return (teq cmp a b = r -> {a = b} + {a <> b}) with
         | true => fun e => left (proj1 (teq_iff a b) e)
         | false => fun e => right (fun q => Bool.diff_false_true (eq_trans (eq_sym e) (proj2 (teq_iff a b) q))) end eq_refl) y (labels (log i h))) as [|N]; [assumption|].
      exfalso. apply (proj2 (K5 y)). auto.
    - exists c. auto.
  Qed.

  Definition J (ch : kids) (pos : nat -> option nat) (f : tagged) : Prop :=
    (forall t t' i, pos t = Some i -> pos t' = Some i -> t = t') /\
    (forall i, chl ch i <> None -> exists t, pos t = Some i) /\
    (forall t i, pos t = Some i -> (mode = None \/ i = t) /\ exists R c cf, chl ch i = Some (TStack None (MNode None R) c) /\
        (forall y, In y R <-> In y (labels (log t f))) /\ NoDup (labels (log t f)) /\ Run c (inner (log t f)) cf /\ allempty cf) /\
    (forall t, pos t = None -> log t f = [] \/ exists cell, In cell cells /\ Permutation (labels (log t f)) cell /\ accepted (inner (log t f))) /\
    tags_ok f /\ (forall i s v, In (i, (s, v)) f -> exists cell, In cell cells /\ In s cell).
  Lemma next_free ch : chl ch (next_index ch) = None.
  Proof. unfold chl, next_index. pose proof (first_none_spec ch) as [F _]. cbn zeta in F. destruct (nth_error ch _) as [[c|]|]; [|reflexivity|reflexivity]. now specialize (F c). Qed.
  Lemma simulate f : forall ch pos, J ch pos f -> exists ch', Run ch (flat (map snd f)) ch' /\ allempty ch'.
  Proof.
    induction f as [|[t [s v]] f IH]; intros ch pos (J1 & J2 & J3 & J4 & J5 & J6).
    - exists ch. split; [constructor|]. intros i x Hx. destruct (J2 i) as [t Ht]; [congruence|].
      destruct (J3 t i Ht) as (_ & R & c & cf & E & HR & _ & Rn & A). rewrite E in Hx. injection Hx as <-. inversion Rn; subst.
      destruct R as [|y R]; [now apply allempty_iff|]. exfalso. apply (HR y). now left.
    - destruct (J5 t s v (or_introl eq_refl)) as [Ag Dv]. destruct (J6 t s v (or_introl eq_refl)) as (cell0 & C1 & C2).
      assert (Lt : log t ((t, (s, v)) :: f) = (s, v) :: log t f) by (rewrite log_cons; cbn; now rewrite Nat.eqb_refl).
      assert (Lo : forall t', t' <> t -> log t' ((t, (s, v)) :: f) = log t' f).
      { intros t' N. rewrite log_cons. cbn. destruct (Nat.eqb_spec t t'); [congruence|reflexivity]. }
      assert (exists n R c ch0 c1 cf, opens s ch n R c ch0 /\ Run c v c1 /\ Run c1 (inner (log t f)) cf /\ allempty cf /\
                (forall y, In y R <-> In y (labels (log t f))) /\ NoDup (labels (log t f)) /\ (mode = None \/ n = t) /\
                ((pos t = Some n) \/ (pos t = None /\ chl ch n = None))) as (n & R & c & ch0 & c1 & cf & O & R1 & R2 & A & HR & HN & HM & HP).
      { destruct (pos t) as [n|] eqn:P.
        - destruct (J3 t n P) as (HM & R & c & cf & E & HR & HN & Rn & A). rewrite Lt in HR, HN, Rn. cbn in Rn, HN.
          destruct (Run_split v Dv _ _ _ Rn) as (c1 & R1 & R2). inversion HN as [|? ? N1 N2]; subst.
          exists n, (set_remove cmp s R), c, (set_nth n None ch), c1, cf. repeat split; auto.
          + change c with (ts_children (TStack None (MNode None R) c)). eapply op_again; eauto.
            * unfold again in *. destruct mode as [sort|]; [|exact I]. destruct HM; congruence.
            * apply HR. now left.
          + intros H. apply remove_iff in H. destruct H as [H1 H2]. apply HR in H1. destruct H1 as [H1|H1]; [cbn in H1; congruence|assumption].
          + intros H. apply remove_iff. split; [apply HR; now right|]. intros ->. tauto.
        - destruct (J4 t P) as [L|(cell & K1 & K2 & cf & Rn & A)]; [rewrite L in Lt; discriminate|]. rewrite Lt in K2, Rn. cbn in K2, Rn.
          destruct (Run_split v Dv _ _ _ Rn) as (c1 & R1 & R2).
          assert (HN : NoDup (s :: labels (log t f))) by (eapply Permutation_NoDup; [apply Permutation_sym; exact K2|]; auto).
          inversion HN as [|? ? N1 N2]; subst. set (n := match mode with None => next_index ch | Some sort => sort s end).
          assert (HM : mode = None \/ n = t).
          { unfold again in Ag. unfold n. destruct mode; [right; congruence|now left]. }
          assert (HC : chl ch n = None).
          { destruct mode as [sort|] eqn:M; [|apply next_free]. destruct HM as [HM|HM]; [discriminate|]. rewrite HM.
            destruct (chl ch t) eqn:E; [|reflexivity]. destruct (J2 t) as [t' Ht']; [congruence|]. destruct (J3 _ _ Ht') as [[?|<-] _]; congruence. }
          exists n, (set_remove cmp s cell), [], (fill ch n), c1, cf. repeat split; auto.
          + eapply op_fresh; eauto; [|unfold picks, n; now destruct mode]. eapply Permutation_in; [exact K2|]. now left.
          + intros H. apply remove_iff in H. destruct H as [H1 H2]. eapply Permutation_in in H1; [|apply Permutation_sym; exact K2]. destruct H1; [congruence|assumption].
          + intros H. apply remove_iff. split; [eapply Permutation_in; [exact K2|]; now right|]. intros ->. tauto. }
      set (ch1 := set_nth n (Some (TStack None (MNode None R) c1)) ch0).
      assert (HC : forall i, chl ch1 i = if Nat.eqb i n then Some (TStack None (MNode None R) c1) else chl ch i) by (intros i; eapply opens_chl; eauto).
      destruct (IH ch1 (fun t' => if Nat.eqb t' t then Some n else pos t')) as (ch' & Rn & A').
      { assert (U : forall t', t' <> t -> pos t' <> Some n).
        { intros t' N E. destruct HP as [HP|[HP HF]]; [apply N; eapply J1; eauto|]. destruct (J3 _ _ E) as (_ & ? & ? & ? & E' & _). congruence. }
        split; [|split; [|split; [|split; [|split]]]].
        - intros a b i. destruct (Nat.eqb_spec a t), (Nat.eqb_spec b t); intros Ha Hb; subst; auto.
          + injection Ha as <-. exfalso. eapply U; eauto.
          + injection Hb as <-. exfalso. eapply U; eauto.
          + eapply J1; eauto.
        - intros i Hi. rewrite HC in Hi. destruct (Nat.eqb i n) eqn:Ein; [apply Nat.eqb_eq in Ein; exists t; rewrite Nat.eqb_refl; congruence|].
          apply Nat.eqb_neq in Ein. destruct (J2 i Hi) as [t' Ht']. destruct (Nat.eq_dec t' t) as [->|Nt].
          + destruct HP as [HP|[HP _]]; congruence.
          + exists t'. apply Nat.eqb_neq in Nt. now rewrite Nt.
        - intros t' i. destruct (Nat.eqb_spec t' t) as [->|Nt]; intros E.
          + injection E as <-. split; [assumption|]. exists R, c1, cf. rewrite HC, Nat.eqb_refl. auto.
          + destruct (J3 _ _ E) as (HM' & R' & c' & cf' & E1 & E2 & E3 & E4 & E5). split; [assumption|]. rewrite Lo in E2, E3, E4 by assumption.
            exists R', c', cf'. rewrite HC. destruct (Nat.eqb_spec i n) as [->|N]; [exfalso; eapply U; eauto|]. auto.
        - intros t' E. destruct (Nat.eqb t' t) eqn:Nt; [discriminate|]. apply Nat.eqb_neq in Nt. rewrite <- (Lo t' Nt). now apply J4.
        - intros i s' v' H. apply J5. now right.
        - intros i s' v' H. eapply J6. right. eauto. }
      exists ch'. split; [|assumption]. cbn [map snd flat flat_map]. unfold flat1. cbn. rewrite <- app_assoc. cbn. econstructor; eauto.
  Qed.
  Lemma tagged_accepted h : complete accepted h -> accepted (flat (map snd h)).
  Proof.
    intros [T1 C]. destruct (simulate h [] (fun _ => None)) as (ch & R & A); [|exists ch; auto].
    split; [discriminate|]. split; [intros [|i]; easy|]. split; [discriminate|]. split; [auto|]. split; [assumption|].
    intros i s v Hi. apply log_In in Hi. destruct (C i) as [L|(cell & C1 & C2 & _)]; [rewrite L in Hi; easy|].
    exists cell. split; [assumption|]. eapply Permutation_in; [exact C2|]. apply in_map_iff. exists (s, v). auto.
  Qed.

  (* ---- the language ---- *)
  Notation trip := (T * word * word)%type.
  Definition mode_ok (l : list trip) (rest : word) : Prop :=
    match mode with
    | None => True
    | Some sort => exists p, (forall x, In x l -> sort (sym_of x) = p) /\ forall s, top_symbol rest s -> sort s <> p
    end.
  Inductive gmd : word -> Prop :=
  | gmd_nil : gmd []
  | gmd_cancel cell u0 l : In cell cells -> Permutation (map sym_of l) cell ->
      dyck u0 -> (forall x, In x l -> dyck (enclosed x) /\ dyck (outside x)) -> mode_ok l (u0 ++ flat_map outside l) ->
      gmd (flat_map enclosed l) -> gmd (u0 ++ flat_map outside l) -> gmd (u0 ++ flat_map bracketed l).

  Lemma top_flat (l : list seg) s : (forall x, In x l -> dyck (snd x)) -> (top_symbol (flat l) s <-> In s (labels l)).
  Proof.
    intros Hl. split.
    - intros (x & v & y & E & Dx & Dv & Dy). destruct (flat_split l Hl x _ Dx E) as (a & b & -> & _ & Eb).
      destruct b as [|[s' v'] b]; [discriminate|]. cbn in Eb. unfold flat1 in Eb. cbn in Eb. injection Eb as <- _.
      apply in_map_iff. exists (s, v'). split; [reflexivity|]. apply in_app_iff. right. now left.
    - intros Hs. apply in_map_iff in Hs. destruct Hs as ([s' v] & <- & Hs). apply in_split in Hs. destruct Hs as (a & b & ->).
      exists (flat a), v, (flat b). rewrite flat_app. cbn. unfold flat1. cbn. rewrite <- app_assoc. cbn.
      repeat split; [apply flat_dyck|apply (Hl (s', v))|apply flat_dyck]; try (intros x Hx; apply Hl); apply in_app_iff; cbn; auto.
  Qed.
  Lemma tags_dyck h : tags_ok h -> forall x, In x (map snd h) -> dyck (snd x).
  Proof. intros H x Hx. apply in_map_iff in Hx. destruct Hx as ([i [s v]] & <- & Hx). cbn. eapply H; eauto. Qed.

  (* splitting a history at the segments of one group *)
  Lemma split_group i (h : tagged) : exists b0 (l : list (seg * tagged)),
    h = b0 ++ flat_map (fun x => (i, fst x) :: snd x) l /\ map fst l = log i h /\ b0 ++ flat_map snd l = others i h.
  Proof.
    induction h as [|[j x] h (b0 & l & E1 & E2 & E3)]; [exists [], []; auto|]. rewrite log_cons. cbn [fst snd others filter].
    destruct (Nat.eqb_spec j i) as [->|N]; cbn [negb].
    - exists [], ((x, b0) :: l). cbn. rewrite <- E1, E2. repeat split; auto.
    - exists ((j, x) :: b0), l. cbn. rewrite <- E1, E2. repeat split; auto. f_equal. exact E3.
  Qed.
  Lemma group_word i (l : list (seg * tagged)) :
    let tr x := (fst (fst x), snd (fst x), flat (map snd (snd x))) : trip in
    flat (map snd (flat_map (fun x : seg * tagged => (i, fst x) :: snd x) l)) = flat_map bracketed (map tr l) /\
    flat (map snd (flat_map (snd : seg * tagged -> tagged) l)) = flat_map outside (map tr l) /\
    inner (map fst l) = flat_map enclosed (map tr l) /\ labels (map fst l) = map sym_of (map tr l).
  Proof.
    intros tr. induction l as [|[[s v] b] l (I1 & I2 & I3 & I4)]; [auto|]. cbn [flat_map map app fst snd tr bracketed outside enclosed sym_of].
    rewrite flat_cons, !map_app, !flat_app, I1, I2, I3, I4. unfold flat1. cbn [fst snd].
    repeat split. cbn. rewrite <- !app_assoc. reflexivity.
  Qed.
  Lemma complete_gmd m : forall h, length h <= m -> complete gmd h -> gmd (flat (map snd h)).
  Proof.
    induction m as [|m IH]; intros h L [T1 C]; [destruct h; [constructor|cbn in L; lia]|].
    destruct h as [|[i x] h]; [constructor|]. set (h0 := (i, x) :: h) in *.
    destruct (split_group i h0) as (b0 & l & E1 & E2 & E3). destruct (group_word i l) as (G1 & G2 & G3 & G4).
    set (tr := fun x : seg * tagged => (fst (fst x), snd (fst x), flat (map snd (snd x))) : trip) in *.
    assert (To : tags_ok (others i h0)) by (intros j s v H; apply filter_In in H; now apply T1).
    assert (Eo : flat (map snd (others i h0)) = flat (map snd b0) ++ flat_map outside (map tr l)).
    { now rewrite <- E3, map_app, flat_app, G2. }
    rewrite E1, map_app, flat_app, G1. destruct (C i) as [Z|(cell & C1 & C2 & C3)].
    { unfold h0 in Z. rewrite log_cons in Z. cbn in Z. rewrite Nat.eqb_refl in Z. discriminate. }
    apply gmd_cancel with cell; auto.
    - rewrite <- G4, E2. assumption.
    - apply flat_dyck, tags_dyck. intros j s v H. apply T1. rewrite E1. apply in_app_iff. now left.
    - intros y Hy. apply in_map_iff in Hy. destruct Hy as ([[s v] b] & <- & Hy). cbn. split.
      + apply (T1 i s v). rewrite E1. apply in_app_iff. right. apply in_flat_map. exists (s, v, b). split; [assumption|now left].
      + apply flat_dyck, tags_dyck. intros j s' v' H. apply T1. rewrite E1. apply in_app_iff. right. apply in_flat_map. exists (s, v, b). split; [assumption|now right].
    - rewrite <- Eo. unfold mode_ok. unfold tags_ok, again in T1, To. destruct mode as [sort|]; [|exact I]. exists i. split.
      + intros y Hy. apply in_map_iff in Hy. destruct Hy as ([[s v] b] & <- & Hy). cbn. symmetry.
        apply (T1 i s v). rewrite E1. apply in_app_iff. right. apply in_flat_map. exists (s, v, b). split; [assumption|now left].
      + intros s Hs. apply top_flat in Hs.
        * apply in_map_iff in Hs. destruct Hs as ([s' v] & <- & Hs). apply in_map_iff in Hs. destruct Hs as ([j [s2 v2]] & E & Hs). injection E as -> ->.
          pose proof (proj1 (To _ _ _ Hs)) as Ej. apply filter_In in Hs. destruct Hs as [_ Hs]. cbn in Hs. destruct (Nat.eqb_spec j i); [discriminate|]. cbn. congruence.
        * intros y Hy. apply in_map_iff in Hy. destruct Hy as ([j [s' v']] & <- & Hy). cbn. eapply To; eauto.
    - rewrite <- G3, E2. assumption.
    - rewrite <- Eo. apply IH.
      + unfold others, h0. cbn. rewrite Nat.eqb_refl. cbn. cbn in L. 
        assert (FL : forall (q : tagged) g, length (filter g q) <= length q) by (clear; intros q g; induction q as [|y q IHq]; cbn; [lia|]; destruct (g y); cbn; lia).
        specialize (FL h (fun x => negb (Nat.eqb (fst x) i))). lia.
      + split; [assumption|]. intros j. rewrite log_others. destruct (Nat.eqb j i); [now left|]. apply C.
  Qed.
  Lemma inner_length i (h : tagged) : length (inner (log i h)) + 2 * length (log i h) <= length (flat (map snd h)).
  Proof.
    induction h as [|[j [s v]] h IH]; [cbn; lia|]. rewrite log_cons. cbn [fst snd map]. rewrite flat_cons, app_length.
    assert (L1 : length (flat1 (s, v)) = length v + 2) by (unfold flat1; cbn; rewrite app_length; cbn; lia). rewrite L1.
    destruct (Nat.eqb j i); cbn [flat_map snd length]; rewrite ?app_length; lia.
  Qed.
  Lemma accepted_gmd m : forall w, length w <= m -> accepted w -> gmd w.
  Proof.
    induction m as [|m IH]; intros w L A.
    - destruct w; [constructor|cbn in L; lia].
    - destruct (accepted_tagged w A) as (h & -> & T1 & C). apply (complete_gmd (length h)); [lia|]. split; [assumption|].
      intros i. destruct (C i) as [Z|(cell & C1 & C2 & C3)]; [now left|]. destruct (log i h) as [|x r] eqn:E; [now left|]. right. exists cell. repeat split; auto.
      rewrite <- E in *. apply IH; [|assumption]. pose proof (inner_length i h) as Q. rewrite E in Q at 2. cbn [length] in Q. lia.
  Qed.

  Lemma flat_splits (l : list trip) : forall (h : tagged), tags_ok h -> (forall x, In x l -> dyck (outside x)) -> flat (map snd h) = flat_map outside l ->
    exists l2 : list (trip * tagged), map fst l2 = l /\ h = flat_map snd l2 /\ forall x b, In (x, b) l2 -> flat (map snd b) = outside x.
  Proof.
    induction l as [|x l IH]; intros h T1 D E.
    - destruct h as [|[i [s v]] h]; [|discriminate]. exists []. repeat split. easy.
    - cbn in E. destruct (flat_split (map snd h) (tags_dyck h T1) _ _ (D x (or_introl eq_refl)) E) as (a & b & Ea & E1 & E2).
      apply map_eq_app in Ea. destruct Ea as (h1 & h2 & -> & <- & <-).
      destruct (IH h2) as (l2 & <- & -> & F).
      + intros i s v H. apply T1. apply in_app_iff. now right.
      + intros y Hy. apply D. now right.
      + now symmetry.
      + exists ((x, h1) :: l2). repeat split. intros y b [H|H]; [|auto]. injection H as <- <-. now symmetry.
  Qed.
  Lemma fresh_tag (h : tagged) : exists t, forall x, In x h -> fst x <> t.
  Proof.
    exists (S (list_max (map fst h))). intros x Hx E. assert (H : Forall (fun k => k <= list_max (map fst h)) (map fst h)) by (apply list_max_le; lia).
    rewrite Forall_forall in H. specialize (H (fst x) (in_map _ _ _ Hx)). lia.
  Qed.
  Lemma gmd_accepted w : gmd w -> accepted w.
  Proof.
    induction 1 as [|cell u0 l C1 C2 D0 Dl M _ IH1 _ IH2].
    - exists []. split; [constructor|]. intros [|i]; discriminate.
    - destruct (accepted_tagged _ IH2) as (h & E & T1 & C).
      destruct (flat_split (map snd h) (tags_dyck h T1) u0 _ D0 (eq_sym E)) as (a & b & Ea & -> & E2).
      apply map_eq_app in Ea. destruct Ea as (b0 & h2 & -> & <- & <-).
      destruct (flat_splits l h2) as (l2 & <- & -> & F).
      { intros i s v H. apply T1. apply in_app_iff. now right. }
      { intros x Hx. now apply Dl. }
      { now symmetry. }
      assert (exists t, (forall x, In x (b0 ++ flat_map snd l2) -> fst x <> t) /\ forall x, In x (map fst l2) -> again (sym_of x) t) as (t & Ht & Hag).
      { unfold mode_ok, tags_ok, again in *. destruct mode as [sort|].
        - destruct M as (p & M1 & M2). exists p. split; [|intros x Hx; symmetry; auto]. intros [i [s v]] Hx. cbn.
          pose proof (proj1 (T1 _ _ _ Hx)) as Ei. cbn in Ei. rewrite Ei. apply M2. rewrite E. apply top_flat.
          + intros y Hy. apply in_map_iff in Hy. destruct Hy as ([j [s' v']] & <- & Hy). cbn. eapply T1; eauto.
          + apply in_map_iff. exists (s, v). split; [reflexivity|]. apply in_map_iff. exists (i, (s, v)). auto.
        - destruct (fresh_tag (b0 ++ flat_map snd l2)) as (t & Ht). exists t. auto. }
      set (g := fun x : trip * tagged => (t, (sym_of (fst x), enclosed (fst x))) :: snd x).
      set (h' := b0 ++ flat_map g l2).
      assert (Eh : flat (map snd h') = flat (map snd b0) ++ flat_map bracketed (map fst l2)).
      { unfold h'. rewrite map_app, flat_app. f_equal. clear -F. induction l2 as [|[[[s v] u] b] l2 IH]; [reflexivity|].
        cbn [flat_map map fst bracketed]. unfold g at 1. cbn [fst snd sym_of enclosed]. rewrite map_app, flat_app, IH by (intros; apply F; now right).
        cbn [map snd]. rewrite flat_cons, (F (s, v, u) b (or_introl eq_refl)). unfold flat1. cbn. rewrite <- !app_assoc. reflexivity. }
      rewrite <- Eh. apply tagged_accepted. split.
      + intros i s v H. apply in_app_iff in H. destruct H as [H|H]; [apply T1; apply in_app_iff; now left|].
        apply in_flat_map in H. destruct H as ([[[s' v'] u] b] & H1 & [H2|H2]).
        * cbn in H2. injection H2 as <- <- <-. pose proof (in_map fst _ _ H1) as H3. split; [now apply (Hag _ H3)|]. apply (Dl _ H3).
        * apply T1. apply in_app_iff. right. apply in_flat_map. exists (s', v', u, b). auto.
      + intros i. destruct (Nat.eq_dec t i) as [<-|N].
        * right. exists cell.
          assert (Z : forall q : tagged, (forall x, In x q -> fst x <> t) -> log t q = []).
          { intros q. induction q as [|y q IHq]; intros Hq; [reflexivity|]. rewrite log_cons.
            destruct (Nat.eqb_spec (fst y) t) as [e|_]; [exfalso; apply (Hq y); [now left|assumption]|]. apply IHq. intros; apply Hq; now right. }
          assert (El : log t h' = map (fun x => (sym_of x, enclosed x)) (map fst l2)).
          { unfold h'. rewrite log_app, Z by (intros x Hx; apply Ht, in_app_iff; now left). cbn [app].
            assert (Ht2 : forall x, In x (flat_map snd l2) -> fst x <> t) by (intros x Hx; apply Ht, in_app_iff; now right).
            clear -Ht2 Z. induction l2 as [|[x b] l2 IH]; [reflexivity|]. cbn [flat_map]. rewrite log_app. unfold g at 1. rewrite log_cons. cbn [fst snd]. rewrite Nat.eqb_refl.
            rewrite Z by (intros y Hy; apply Ht2; cbn; apply in_app_iff; now left). rewrite IH by (intros y Hy; apply Ht2; cbn; apply in_app_iff; now right). reflexivity. }
          rewrite El. split; [assumption|]. split.
          -- rewrite map_map. exact C2.
          -- clear -IH1. rewrite flat_map_concat_map, map_map, <- flat_map_concat_map. exact IH1.
        * assert (El : log i h' = log i (b0 ++ flat_map snd l2)).
          { unfold h'. rewrite !log_app. f_equal. clear -N. induction l2 as [|[x b] l2 IH]; [reflexivity|]. cbn [flat_map]. rewrite !log_app, IH. f_equal.
            unfold g. rewrite log_cons. cbn. destruct (Nat.eqb_spec t i); [congruence|reflexivity]. }
          rewrite El. apply C.
  Qed.
  Theorem accepted_gmd_iff w : accepted w <-> gmd w.
  Proof. split; [now apply (accepted_gmd (length w))|apply gmd_accepted]. Qed.
End Runs.

(* ---- the recogniser ---- *)
Section Recogniser.
  Context {T : Type} (cmp : T -> T -> comparison) (OL : OrdLaws cmp).
  Notation word := (list (bracket T)).
  Lemma gmd_plain cells (w : word) : gmd cells None w <-> multiple_dyck cells w.
  Proof.
    split; induction 1; try constructor; eapply md_cancel || eapply gmd_cancel; eauto. exact I.
  Qed.
  Lemma gmd_sorted cells sort (w : word) : gmd cells (Some sort) w <-> sorted_multiple_dyck cells sort w.
  Proof.
    split.
    - induction 1 as [|cell u0 l C1 C2 D0 Dl M _ IH1 _ IH2]; [constructor|]. destruct M as (p & M1 & M2). eapply smd_cancel; eauto.
    - induction 1 as [|cell u0 l p C1 C2 D0 Dl M1 M2 _ IH1 _ IH2]; [constructor|]. eapply gmd_cancel; eauto. exists p. auto.
  Qed.
  (* empty cells make no difference *)
  Lemma gmd_cells cells cells' mode : (forall c, c <> [] -> In c cells -> In c cells') -> forall w : word, gmd cells mode w -> gmd cells' mode w.
  Proof.
    intros Hc w. induction 1 as [|cell u0 l C1 C2 D0 Dl M _ IH1 _ IH2]; [constructor|]. destruct cell as [|a cell].
    - apply Permutation_sym, Permutation_nil in C2. apply map_eq_nil in C2. subst l. exact IH2.
    - apply gmd_cancel with (a :: cell); auto. apply Hc; [discriminate|assumption].
  Qed.

  Lemma brk_spec : EqbSpec (brk_eqb cmp).
  Proof.
    intros x y. destruct x as [a|a], y as [b|b]; cbn; try (split; [discriminate|congruence]); rewrite (teq_iff cmp OL); split; congruence.
  Qed.
End Recogniser.
