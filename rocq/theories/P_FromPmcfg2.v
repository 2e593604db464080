(* Proofs: the runs of the tree stack automaton of a grammar. *)
From Verif Require Import Base BMap M_Agenda M_Search M_Util M_Recog M_Automata M_CFG M_TreeStack M_Grammar M_FromPmcfg
  S_Recog S_TreeStack S_Grammar S_FromPmcfg P_Recog P_Automata P_TreeStack P_Grammar P_GrammarCFG P_Conversion P_FromPmcfg.

(* ---- lists of children ---- *)
Section Kids.
  Context {A : Type}.
  Notation kids := (list (option (tstack A))).
  Definition chl (ch : kids) (n : nat) : option (tstack A) := match nth_error ch n with Some (Some c) => Some c | _ => None end.
  Definition fill (ch : kids) (n : nat) : kids := if Nat.leb (length ch) n then ch ++ repeat None (n - length ch + 1) else ch.
  Lemma fill_eq par (v : A) ch n : ts_fill (TStack par v ch) n = TStack par v (fill ch n).
  Proof. unfold ts_fill, fill. cbn. now destruct (Nat.leb (length ch) n). Qed.
  Lemma fill_length ch n : n < length (fill ch n).
  Proof. unfold fill. destruct (Nat.leb_spec (length ch) n); [|assumption]. rewrite app_length, repeat_length. lia. Qed.
  Lemma chl_fill ch n i : chl (fill ch n) i = chl ch i.
  Proof.
    unfold chl, fill. destruct (Nat.leb_spec (length ch) n); [|reflexivity]. destruct (Nat.ltb_spec i (length ch)) as [L|L].
    - now rewrite nth_error_app1.
    - rewrite nth_error_app2 by assumption. rewrite (proj2 (nth_error_None ch i) L). destruct (nth_error (repeat None _) (i - length ch)) as [o|] eqn:E; [|reflexivity].
      apply nth_error_In, repeat_spec in E. now subst.
  Qed.
  Lemma chl_set ch n y i : n < length ch -> chl (set_nth n (Some y) ch) i = if Nat.eqb i n then Some y else chl ch i.
  Proof.
    intros L. unfold chl. rewrite nth_error_set_nth. destruct (Nat.eqb i n); [|reflexivity].
    destruct (Nat.ltb_spec n (length ch)); [reflexivity|lia].
  Qed.
  Lemma chl_set_None ch n i : chl (set_nth n None ch) i = if Nat.eqb i n then None else chl ch i.
  Proof. unfold chl. rewrite nth_error_set_nth. destruct (Nat.eqb i n); [|reflexivity]. now destruct (Nat.ltb n (length ch)). Qed.
  Lemma chl_length ch n x : chl ch n = Some x -> n < length ch.
  Proof. unfold chl. intros E. apply nth_error_Some. destruct (nth_error ch n) as [[c|]|]; congruence. Qed.
  Lemma chl_In ch n x : chl ch n = Some x -> In (Some x) ch.
  Proof. unfold chl. intros E. apply (nth_error_In _ n). destruct (nth_error ch n) as [[c|]|]; congruence. Qed.
End Kids.

Section Runs.
  Context {N T : Type} {K : Weight} (neqb : N -> N -> bool) (NE : EqbSpec neqb).
  Notation rule := (prule N T K).
  Notation pos := (posstate rule).
  Notation trans := (transition (ts_instr pos) T K).
  Notation kids := (list (option (tstack pos))).
  Context (reqb : rule -> rule -> bool) (RE : EqbSpec reqb).
  Notation peqb := (posstate_eqb reqb).
  Lemma peqb_spec : EqbSpec peqb.
  Proof.
    intros [| |x i j] [| |y k l]; cbn; try (split; intros; discriminate || reflexivity).
    rewrite !andb_true_iff, (RE x y), !Nat.eqb_eq. split; [intros [[-> ->] ->]; reflexivity|]. intros E. injection E as -> -> ->. auto.
  Qed.
  Lemma peqb_refl a : peqb a a = true. Proof. now apply peqb_spec. Qed.
  Context (f : N -> nat) (g : pmcfg N T K) (OG : ordered_grammar f g).
  Notation rules := (pg_rules g).
  Notation is_trans := (is_trans g).
  Notation ex := (executes (T := T) (K := K) (tsi_apply peqb)).

  Inductive opens (ri : rule) : nat -> kids -> nat -> kids -> kids -> Prop :=
  | op_fresh ch i : chl ch i = None -> opens ri 0 ch i [] (fill ch i)
  | op_again j0 ch i x : chl ch i = Some x -> ts_value x = Position ri j0 (nv ri j0) -> opens ri (S j0) ch i (ts_children x) (set_nth i None ch).

  Inductive Go : rule -> nat -> nat -> kids -> list trans -> kids -> Prop :=
  | go_end r j ch : Go r j (nv r j) ch [] ch
  | go_var r j k b i j1 ri ch c ch0 us1 c' us2 ch' :
      at_var r j k = Some (b, (i, j1)) -> nth_error (pr_tail r) i = Some (pr_head ri) -> In ri rules ->
      opens ri j1 ch i c ch0 -> Go ri j1 0 c us1 c' ->
      Go r j (S k) (set_nth i (Some (TStack None (Position ri j1 (nv ri j1)) c')) ch0) us2 ch' ->
      Go r j k ch (enter r j k b (prevc j1) i j1 ri :: us1 ++ leave r j k j1 ri :: us2) ch'.

  Lemma opens_length ri j1 ch i c ch0 : opens ri j1 ch i c ch0 -> i < length ch0.
  Proof. destruct 1; [apply fill_length|]. rewrite set_nth_length. now apply chl_length in H. Qed.
  Lemma opens_chl ri j1 ch n c ch0 y i : opens ri j1 ch n c ch0 -> chl (set_nth n (Some y) ch0) i = if Nat.eqb i n then Some y else chl ch i.
  Proof.
    intros O. rewrite chl_set by (eapply opens_length; eauto). destruct (Nat.eqb i n) eqn:E; [reflexivity|].
    destruct O; [apply chl_fill|]. rewrite chl_set_None. now rewrite E.
  Qed.

  (* ---- one instruction ---- *)
  Lemma apply_enter r j k b i j1 ri par v ch s1 :
    In s1 (tsi_apply peqb (t_ins (enter r j k b (prevc j1) i j1 ri)) (TStack par v ch)) <->
    v = Position r j k /\ exists c ch0, opens ri j1 ch i c ch0 /\ s1 = TStack (Some (i, TStack par v ch0)) (Position ri j1 0) c.
  Proof.
    assert (V : peqb v (Position r j k) = true <-> v = Position r j k) by apply peqb_spec.
    destruct j1 as [|j0]; cbn [prevc enter t_ins tsi_apply ts_current_symbol ts_value].
    - destruct (peqb v (Position r j k)).
      + destruct (push_spec (TStack par v ch) i (Position ri 0 0)) as (_ & P1 & P2). change (child (TStack par v ch) i) with (chl ch i) in *.
        rewrite fill_eq in P1. destruct (chl ch i) as [x|] eqn:C.
        * rewrite P2 by discriminate. split; [intros []|]. intros (_ & c & ch0 & O & _). inversion O; congruence.
        * rewrite P1 by reflexivity. split.
          -- intros [<-|[]]. split; [now apply V|]. exists [], (fill ch i). split; [now constructor|reflexivity].
          -- intros (_ & c & ch0 & O & ->). inversion O; subst. now left.
      + split; [intros []|]. intros (E & _). now apply V in E.
    - destruct (peqb v (Position r j k)).
      + rewrite up_spec. change (child (TStack par v ch) i) with (chl ch i). destruct (chl ch i) as [x|] eqn:C.
        * cbn [ts_current_symbol ts_value ts_parent ts_children]. assert (X : peqb (ts_value x) (Position ri j0 (nv ri j0)) = true <-> ts_value x = Position ri j0 (nv ri j0)) by apply peqb_spec.
          destruct (peqb (ts_value x) (Position ri j0 (nv ri j0))).
          -- split.
             ++ intros [<-|[]]. split; [now apply V|]. exists (ts_children x), (set_nth i None ch). split; [now constructor; [|apply X]|reflexivity].
             ++ intros (_ & c & ch0 & O & ->). inversion O as [|? ? ? x0 HC HV]; subst. rewrite C in HC. injection HC as ->. now left.
          -- split; [intros []|]. intros (_ & c & ch0 & O & _). inversion O as [|? ? ? x0 HC HV]; subst. rewrite C in HC. injection HC as ->. now apply X in HV.
        * split; [intros []|]. intros (_ & c & ch0 & O & _). inversion O; congruence.
      + split; [intros []|]. intros (E & _). now apply V in E.
  Qed.
  Lemma apply_push_cur n (a b : pos) s s1 : In s1 (tsi_apply peqb (IPush n a b) s) -> ts_value s = a.
  Proof. cbn. unfold ts_current_symbol. destruct (peqb (ts_value s) a) eqn:E; [|intros []]. intros _. now apply peqb_spec. Qed.
  Lemma apply_down (a o n : pos) par v ch s1 : In s1 (tsi_apply peqb (IDown a o n) (TStack par v ch)) <->
    v = a /\ exists m p ch0, par = Some (m, TStack p o ch0) /\ m < length ch0 /\ s1 = TStack p n (set_nth m (Some (TStack None v ch)) ch0).
  Proof.
    cbn [tsi_apply ts_current_symbol ts_value]. assert (V : peqb v a = true <-> v = a) by apply peqb_spec. destruct (peqb v a).
    - unfold ts_down, ts_down_p. cbn [ts_parent ts_value ts_children]. destruct par as [[m [p q ch0]]|].
      + cbn [ts_parent ts_value ts_children]. destruct (Nat.ltb_spec m (length ch0)) as [L|L].
        * cbn [ts_current_symbol ts_value ts_set ts_parent ts_children]. assert (Q : peqb q o = true <-> q = o) by apply peqb_spec. destruct (peqb q o).
          -- split.
             ++ intros [<-|[]]. split; [now apply V|]. exists m, p, ch0. split; [now rewrite (proj1 Q eq_refl)|auto].
             ++ intros (_ & m' & p' & ch' & E & _ & ->). injection E as <- <- -> <-. now left.
          -- split; [intros []|]. intros (_ & m' & p' & ch' & E & _). injection E as <- <- -> <-. destruct Q as [_ Q]. now specialize (Q eq_refl).
        * split; [intros []|]. intros (_ & m' & p' & ch' & E & L' & _). injection E as <- <- -> <-. lia.
      + split; [intros []|]. intros (_ & m' & p' & ch' & E & _). discriminate.
    - split; [intros []|]. intros (E & _). now apply V in E.
  Qed.

  Lemma ex_app s us vs s' : ex s (us ++ vs) s' <-> exists s1, ex s us s1 /\ ex s1 vs s'.
  Proof.
    split.
    - revert s. induction us as [|u us IH]; intros s E; cbn in E; [exists s; split; [constructor|assumption]|].
      inversion E; subst. destruct (IH _ H4) as (s2 & A & B). exists s2. split; [econstructor; eauto|assumption].
    - intros (s1 & A & B). revert A. revert s. induction us as [|u us IH]; intros s A; inversion A; subst; cbn; [assumption|]. econstructor; eauto.
  Qed.

  (* ---- the way down ---- *)
  Lemma down_pos t r j (q q' : pos) ri j1 e k : is_trans t -> t_ins t = IDown (Position ri j1 e) q q' -> q = Position r j k -> e = nv ri j1 /\ t = leave r j k j1 ri /\ q' = Position r j (S k).
  Proof.
    intros [(r0 & _ & _ & [->| ->])|(r0 & j0 & k0 & b & i & j2 & ri0 & _ & _ & _ & _ & [->| ->])] E Q; try discriminate.
    - subst q. discriminate.
    - destruct j2; discriminate.
    - injection E as <- <- <- <- <-. injection Q as <- <- <-. auto.
  Qed.
  Lemma down_initial t (q' : pos) ri j1 e : is_trans t -> t_ins t = IDown (Position ri j1 e) Initial q' -> j1 = 0 /\ t = idown ri /\ q' = Designated /\ In ri rules /\ In (pr_head ri) (pg_initial g).
  Proof.
    intros [(r0 & H1 & H2 & [->| ->])|(r0 & j0 & k0 & b & i & j2 & ri0 & _ & _ & _ & _ & [->| ->])] E; try discriminate.
    - injection E as <- <- <- <-. auto.
    - destruct j2; discriminate.
  Qed.

  Lemma executes_Go m : forall us, length us <= m -> forall n p q ch0 r j k ch s', ex (TStack (Some (n, TStack p q ch0)) (Position r j k) ch) us s' ->
    (forall t, In t us -> is_trans t) -> ts_parent s' = None ->
    exists us1 t us2 ch' q', us = us1 ++ t :: us2 /\ Go r j k ch us1 ch' /\ t_ins t = IDown (Position r j (nv r j)) q q' /\
      ex (TStack p q' (set_nth n (Some (TStack None (Position r j (nv r j)) ch')) ch0)) us2 s'.
  Proof.
    induction m as [|m IH]; intros us L n p q ch0 r j k ch s' E HT B.
    - destruct us; [|cbn in L; lia]. inversion E; subst. discriminate.
    - destruct us as [|u us]; [inversion E; subst; discriminate|].
      inversion E as [|a1 a2 a3 s1 a5 HA HE]; subst.
      assert (Hu : is_trans u) by (apply HT; now left).
      destruct Hu as [(r0 & _ & _ & [->| ->])|(r0 & j0 & k0 & b & i & j1 & ri & H1 & H2 & H3 & H4 & [->| ->])].
      + apply apply_push_cur in HA. discriminate.
      + cbn [idown t_ins] in HA. apply apply_down in HA. destruct HA as (EV & n' & p' & ch1 & EP & _ & ->). injection EV as -> -> ->. injection EP as <- <- -> <-.
        exists [], (idown r0), us, ch, Designated. repeat split; auto. constructor.
      + apply apply_enter in HA. destruct HA as (EV & c & ch1 & O & ->). injection EV as -> -> ->. cbn [length] in L.
        destruct (IH us ltac:(lia) _ _ _ _ _ _ _ _ _ HE (fun t Ht => HT t (or_intror Ht)) B) as (us1 & t & us2 & c' & q' & -> & G1 & D1 & E1).
        assert (HTt : is_trans t) by (apply HT; right; apply in_or_app; right; now left).
        destruct (down_pos t r0 j0 _ q' ri j1 _ k0 HTt D1 eq_refl) as (_ & -> & ->).
        rewrite app_length in L. cbn [length] in L.
        destruct (IH us2 ltac:(lia) _ _ _ _ _ _ _ _ _ E1) as (us3 & t & us4 & ch' & q' & -> & G2 & D2 & E2); [|assumption|].
        { intros t Ht. apply HT. right. apply in_or_app. right. now right. }
        exists (enter r0 j0 k0 b (prevc j1) i j1 ri :: us1 ++ leave r0 j0 k0 j1 ri :: us3), t, us4, ch', q'.
        repeat split; auto; [cbn; now rewrite <- app_assoc|]. econstructor; eauto.
      + cbn [leave t_ins] in HA. apply apply_down in HA. destruct HA as (EV & n' & p' & ch1 & EP & _ & ->). injection EV as -> -> ->. injection EP as <- <- -> <-.
        exists [], (leave r0 j0 k0 j1 ri), us, ch, (Position r0 j0 (S k0)). repeat split; auto. constructor.
  Qed.

  Lemma Go_executes r j k ch us ch' : Go r j k ch us ch' -> forall par, ex (TStack par (Position r j k) ch) us (TStack par (Position r j (nv r j)) ch').
  Proof.
    induction 1 as [r j ch|r j k b i j1 ri ch c ch0 us1 c' us2 ch' H1 H2 H3 H4 _ IH1 _ IH2]; intros par; [constructor|].
    apply ex_cons with (s1 := TStack (Some (i, TStack par (Position r j k) ch0)) (Position ri j1 0) c).
    - apply apply_enter. split; [reflexivity|]. eauto.
    - apply ex_app. eexists. split; [apply IH1|]. eapply ex_cons; [|apply IH2].
      apply apply_down. split; [reflexivity|]. exists i, par, ch0. repeat split. eapply opens_length; eauto.
  Qed.
  Lemma Go_trans r j k ch us ch' : Go r j k ch us ch' -> In r rules -> forall t, In t us -> is_trans t.
  Proof.
    induction 1 as [r j ch|r j k b i j1 ri ch c ch0 us1 c' us2 ch' H1 H2 H3 H4 _ IH1 _ IH2]; intros Hr t Ht; [destruct Ht|].
    destruct Ht as [<-|Ht]; [right; exists r, j, k, b, i, j1, ri; repeat split; auto|]. apply in_app_iff in Ht. destruct Ht as [Ht|[<-|Ht]]; auto.
    right; exists r, j, k, b, i, j1, ri; repeat split; auto.
  Qed.

  Lemma accepting_Go us s : ex (ts_new Initial) us s -> (forall t, In t us -> is_trans t) -> ts_is_at_bottom s = true ->
    (us = [] /\ s = ts_new Initial) \/
    exists r us1 ch', In r rules /\ In (pr_head r) (pg_initial g) /\ Go r 0 0 [] us1 ch' /\ us = ipush r :: us1 ++ [idown r] /\
      s = TStack None Designated [Some (TStack None (Position r 0 (nv r 0)) ch')].
  Proof.
    intros E HT B. assert (B' : ts_parent s = None) by (unfold ts_is_at_bottom in B; now destruct (ts_parent s)).
    destruct us as [|u us]; [left; inversion E; auto|]. right.
    inversion E as [|a1 a2 a3 s1 a5 HA HE]; subst. unfold ts_new in HA.
    assert (Hu : is_trans u) by (apply HT; now left).
    destruct Hu as [(r & Hr & Hi & [->| ->])|(r0 & j0 & k0 & b & i & j1 & ri & H1 & H2 & H3 & H4 & [->| ->])].
    - assert (S1 : s1 = TStack (Some (0, TStack None Initial [None])) (Position r 0 0) []).
      { cbn [ipush t_ins tsi_apply ts_current_symbol ts_value] in HA. destruct HA as [<-|[]]. reflexivity. }
      subst s1. destruct (executes_Go _ us (le_n _) _ _ _ _ _ _ _ _ _ HE (fun t Ht => HT t (or_intror Ht)) B') as (us1 & t & us2 & ch' & q' & -> & G & D & E2).
      assert (HTt : is_trans t) by (apply HT; right; apply in_or_app; right; now left).
      destruct (down_initial _ _ _ _ _ HTt D) as (_ & -> & -> & _). cbn [set_nth] in E2.
      assert (U : us2 = []).
      { destruct us2 as [|u us2]; [reflexivity|]. exfalso. inversion E2 as [|a1 a2 a3 s1 a5 HA2 HE2]; subst.
        assert (Hu : is_trans u) by (apply HT; right; apply in_or_app; right; right; now left).
        destruct Hu as [(r0 & _ & _ & [->| ->])|(r0 & j0 & k0 & b & i & j1 & ri & _ & _ & _ & _ & [->| ->])].
        - apply apply_push_cur in HA2. discriminate.
        - apply apply_down in HA2. destruct HA2; discriminate.
        - apply apply_enter in HA2. destruct HA2; discriminate.
        - apply apply_down in HA2. destruct HA2; discriminate. }
      subst us2. inversion E2; subst. exists r, us1, ch'. auto.
    - apply apply_down in HA. destruct HA; discriminate.
    - apply apply_enter in HA. destruct HA; discriminate.
    - apply apply_down in HA. destruct HA; discriminate.
  Qed.
  Lemma Go_accepting r us1 ch' : In r rules -> In (pr_head r) (pg_initial g) -> Go r 0 0 [] us1 ch' ->
    let us := ipush r :: us1 ++ [idown r] in let s := TStack None Designated [Some (TStack None (Position r 0 (nv r 0)) ch')] in
    ex (ts_new Initial) us s /\ (forall t, In t us -> is_trans t) /\ ts_is_at_bottom s = true.
  Proof.
    intros Hr Hi G us s. split; [|split; [|reflexivity]].
    - apply ex_cons with (s1 := TStack (Some (0, TStack None Initial [None])) (Position r 0 0) []).
      + cbn. now left.
      + apply ex_app. eexists. split; [apply (Go_executes _ _ _ _ _ _ G)|]. eapply ex_cons; [|constructor]. apply apply_down. split; [reflexivity|].
        exists 0, None, [None]. repeat split. cbn. lia.
    - intros t [<-|Ht]; [left; exists r; auto|]. apply in_app_iff in Ht. destruct Ht as [Ht|[<-|[]]]; [|left; exists r; auto].
      eapply Go_trans; eauto.
  Qed.
End Runs.
