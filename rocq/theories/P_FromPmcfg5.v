(* Proofs: without left recursion the runs of the tree stack automaton of a grammar are bounded. *)
From Verif Require Import Base BMap M_Agenda M_Search M_Util M_Recog M_Automata M_CFG M_TreeStack M_Grammar M_FromPmcfg
  S_Search S_Recog S_TreeStack S_Grammar S_FromPmcfg P_Agenda P_Search P_Recog P_Automata P_TreeStack P_TSA P_Grammar P_GrammarCFG P_Conversion P_FromPmcfg P_FromPmcfg2.

Fixpoint depth {A : Type} (t : tstack A) : nat := match t with TStack None _ _ => 0 | TStack (Some (_, p)) _ _ => S (depth p) end.
Lemma depth_eq {A : Type} (t : tstack A) : depth t = match ts_parent t with None => 0 | Some (_, p) => S (depth p) end.
Proof. now destruct t as [[[n p]|] v ch]. Qed.

Section Apply.
  Context {A : Type} (eqb : A -> A -> bool) (EE : EqbSpec eqb).
  Lemma fill_depth (t : tstack A) n : depth (ts_fill t n) = depth t.
  Proof. unfold ts_fill. destruct (Nat.leb _ n); [|reflexivity]. now rewrite !depth_eq. Qed.
  Lemma apply_push_depth n a b s s1 : In s1 (tsi_apply eqb (IPush n a b) s) -> ts_value s = a /\ ts_value s1 = b /\ depth s1 = S (depth s).
  Proof.
    cbn. unfold ts_current_symbol. destruct (eqb (ts_value s) a) eqn:E; [|intros []]. apply EE in E. unfold ts_push, ts_push_p.
    destruct (nth_error _ n) as [[c|]|]; [intros []| |intros []]. intros [<-|[]]. split; [exact E|]. split; [reflexivity|]. cbn. now rewrite fill_depth.
  Qed.
  Lemma apply_up_depth n a o b s s1 : In s1 (tsi_apply eqb (IUp n a o b) s) -> ts_value s = a /\ ts_value s1 = b /\ depth s1 = S (depth s).
  Proof.
    cbn. unfold ts_current_symbol. destruct (eqb (ts_value s) a) eqn:E; [|intros []]. apply EE in E. unfold ts_up.
    destruct (Nat.ltb n _); [|intros []]. destruct (swap_remove_none n (ts_children s)) as [[tn|] ch]; [|intros []]. cbn [ts_value].
    destruct (eqb (ts_value tn) o); [|intros []]. intros [<-|[]]. split; [exact E|]. split; [reflexivity|]. cbn. now rewrite !depth_eq.
  Qed.
  Lemma apply_down_depth a o b s s1 : In s1 (tsi_apply eqb (IDown a o b) s) -> ts_value s = a /\ ts_value s1 = b /\ depth s = S (depth s1).
  Proof.
    cbn. unfold ts_current_symbol. destruct (eqb (ts_value s) a) eqn:E; [|intros []]. apply EE in E. unfold ts_down, ts_down_p. rewrite (depth_eq s).
    destruct (ts_parent s) as [[n pn]|]; [|intros []]. destruct (Nat.ltb n _); [|intros []]. cbn [ts_value]. destruct (eqb (ts_value pn) o); [|intros []].
    intros [<-|[]]. split; [exact E|]. split; [reflexivity|]. f_equal. now rewrite !depth_eq.
  Qed.
End Apply.

Lemma sg_first {T : Type} (c : list (vart T)) : forall buf b i j, nth_error (sg buf c) 0 = Some (b, (i, j)) ->
  (b = buf /\ exists rest, c = Var i j :: rest) \/ length buf < length b.
Proof.
  induction c as [|[i0 j0|t] c IH]; intros buf b i j E; cbn [sg] in E; [discriminate| |].
  - cbn in E. injection E as <- <- <-. left. eauto.
  - right. destruct (IH _ _ _ _ E) as [[-> _]|L]; [rewrite app_length; cbn; lia|]. rewrite app_length in L. cbn in L. lia.
Qed.
Lemma no_vars_last {T : Type} (c before : list (vart T)) : c <> [] -> vars c = [] -> length (last_terminal (before ++ c)) = 1.
Proof.
  intros NE V. destruct (exists_last NE) as (c' & x & ->). rewrite app_assoc, last_terminal_snoc. unfold vars in V. rewrite flat_map_app in V. apply app_eq_nil in V. destruct V as [_ V]. destruct x; [discriminate|reflexivity].
Qed.

Section Bound.
  Context {N T : Type} {K : Weight} (reqb : prule N T K -> prule N T K -> bool) (RE : EqbSpec reqb).
  Context (f : N -> nat) (g : pmcfg N T K) (OG : ordered_grammar f g) (rank : N -> nat -> nat) (NL : no_left_recursion (pg_rules g) rank).
  Notation rules := (pg_rules g).
  Notation rule := (prule N T K).
  Notation trans := (transition (ts_instr (posstate rule)) T K).
  Notation apply := (tsi_apply (posstate_eqb reqb)).

  Definition top : nat := list_max (flat_map (fun r => map (rank (pr_head r)) (seq 0 (length (pr_comp r)))) rules).
  Lemma rank_top r j : In r rules -> j < length (pr_comp r) -> rank (pr_head r) j <= top.
  Proof.
    intros Hr Hj. unfold top. set (l := flat_map _ _). assert (HF : Forall (fun k => k <= list_max l) l) by (apply list_max_le; lia). rewrite Forall_forall in HF. apply HF.
    unfold l. apply in_flat_map. exists r. split; [exact Hr|]. apply in_map. apply in_seq. lia.
  Qed.
  (* after n steps that read t symbols: e of them enter a component after something was read, z enter one at once, l leave one *)
  Definition bounded_vd (n t : nat) (v : posstate rule) (d : nat) : Prop :=
    match v with
    | Initial => n = 0 /\ t = 0 /\ d = 0
    | Designated => exists e z l, n = e + z + l + 1 /\ l <= e + z + 1 /\ e <= t /\ z <= (e + 1) * top
    | Position r j k => In r rules /\ j < length (pr_comp r) /\ exists e z l, n = e + z + l + 1 /\ d + l = e + z + 1 /\
        match k with 0 => e <= t /\ z + rank (pr_head r) j <= (e + 1) * top | S _ => e < t /\ z <= (e + 1) * top end
    end.
  (* what an instruction does to the symbol at the pointer and to its depth *)
  Definition moves (i : ts_instr (posstate rule)) (v : posstate rule) (d : nat) (v1 : posstate rule) (d1 : nat) : Prop :=
    match i with
    | IPush _ a b | IUp _ a _ b => v = a /\ v1 = b /\ d1 = S d
    | IDown a _ b => v = a /\ v1 = b /\ d = S d1
    end.
  Lemma bounded_move n t v d u v1 d1 : bounded_vd n t v d -> is_trans g u -> moves (t_ins u) v d v1 d1 -> bounded_vd (S n) (t + length (t_word u)) v1 d1.
  Proof.
    intros HB HU HA. destruct OG as (FO & OR & DT & FI).
    destruct HU as [(r & Hr & Hi & [->| ->])|(r & j & k & b & i & j1 & ri & Hr & Av & Ht & Hri & [->| ->])].
    - cbn [t_ins ipush moves] in HA. destruct HA as (E1 & E2 & E3). unfold bounded_vd in HB |- *. rewrite E1 in HB. rewrite E2. destruct HB as (-> & -> & D0).
      assert (L0 : 0 < length (pr_comp r)) by (rewrite (FO r Hr), (FI _ Hi); lia).
      split; [exact Hr|]. split; [exact L0|]. exists 0, 0, 0. split; [reflexivity|]. split; [lia|]. split; [lia|]. pose proof (rank_top r 0 Hr L0). lia.
    - cbn [t_ins idown moves] in HA. destruct HA as (E1 & E2 & E3). unfold bounded_vd in HB |- *. rewrite E1 in HB. rewrite E2.
      destruct HB as (_ & _ & e & z & l & En & ED & HB). exists e, z, (S l). split; [lia|]. split; [lia|]. destruct (nv r 0); destruct HB as [B1 B2]; split; lia.
    - assert (L1 : j1 < length (pr_comp ri)).
      { destruct (at_seq f g OG _ _ _ _ _ _ Hr Av) as (_ & B & EB & LB). rewrite Ht in EB. injection EB as <-. now rewrite (FO ri Hri). }
      assert (HA' : v = Position r j k /\ v1 = Position ri j1 0 /\ d1 = S d) by (unfold enter in HA; destruct (prevc j1); exact HA).
      assert (EW : t_word (enter r j k b (prevc j1) i j1 ri) = b) by (unfold enter; now destruct (prevc j1)). rewrite EW.
      destruct HA' as (E1 & E2 & E3). unfold bounded_vd in HB |- *. rewrite E1 in HB. rewrite E2. destruct HB as (_ & Lj & e & z & l & En & ED & HB).
      pose proof (rank_top ri j1 Hri L1) as RT. split; [exact Hri|]. split; [exact L1|].
      destruct k as [|k]; [destruct b as [|x b]|].
      + destruct HB as [B1 B2]. unfold at_var in Av. destruct (nth_error (pr_comp r) j) as [c|] eqn:Ec; [|discriminate].
        destruct (sg_first _ _ _ _ _ Av) as [[_ (rest & Er)]|L]; [|cbn in L; lia]. destruct (NL r j c Hr Ec) as [_ HN]. specialize (HN i j1 rest _ Er Ht).
        exists e, (S z), l. split; [lia|]. split; [lia|]. split; cbn [length]; lia.
      + destruct HB as [B1 B2]. exists (S e), z, l. split; [lia|]. split; [lia|]. split; cbn [length]; lia.
      + destruct HB as [B1 B2]. exists (S e), z, l. split; [lia|]. split; [lia|]. split; lia.
    - cbn [t_ins leave moves] in HA. destruct HA as (E1 & E2 & E3). unfold bounded_vd in HB |- *. rewrite E1 in HB. rewrite E2.
      destruct HB as (_ & L1 & e & z & l & En & ED & HB). split; [exact Hr|]. split; [unfold at_var in Av; apply nth_error_Some; destruct (nth_error (pr_comp r) j); congruence|].
      exists e, z, (S l). split; [lia|]. split; [lia|]. cbn [t_word leave]. destruct (nv ri j1) as [|m] eqn:Env; destruct HB as [B1 B2].
      + split; [|lia]. unfold nv in Env. destruct (nth_error (pr_comp ri) j1) as [c|] eqn:Ec; [|apply nth_error_None in Ec; lia].
        destruct (NL ri j1 c Hri Ec) as [NE _]. apply length_zero_iff_nil in Env.
        assert (LW : length (dw ri j1) = 1); [|lia]. unfold dw. destruct (nth_error_split _ _ Ec) as (c1 & c2 & E4 & E5). rewrite E4, <- E5.
        replace (firstn (S (length c1)) (c1 ++ c :: c2)) with (c1 ++ [c]); [|rewrite firstn_app, firstn_all2 by lia; replace (S (length c1) - length c1) with 1 by lia; reflexivity].
        rewrite concat_app. cbn [concat]. rewrite app_nil_r. now apply no_vars_last.
      + split; lia.
  Qed.
  Definition bounded_at (n t : nat) (s : tstack (posstate rule)) : Prop := bounded_vd n t (ts_value s) (depth s).
  Lemma apply_moves i s s1 : In s1 (apply i s) -> moves i (ts_value s) (depth s) (ts_value s1) (depth s1).
  Proof.
    destruct i; intros HA; [now apply (apply_up_depth _ (peqb_spec reqb RE)) in HA|now apply (apply_push_depth _ (peqb_spec reqb RE)) in HA|now apply (apply_down_depth _ (peqb_spec reqb RE)) in HA].
  Qed.
  Lemma bounded_step n t s u s1 : bounded_at n t s -> is_trans g u -> In s1 (apply (t_ins u) s) -> bounded_at (S n) (t + length (t_word u)) s1.
  Proof. intros HB HU HA. eapply bounded_move; [exact HB|exact HU|now apply apply_moves]. Qed.
  Lemma bounded_run us : forall n t s s', bounded_at n t s -> (forall u, In u us -> is_trans g u) -> executes apply s us s' -> bounded_at (n + length us) (t + length (run_word us)) s'.
  Proof.
    induction us as [|u us IH]; intros n t s s' HB HU HE; inversion HE as [|? ? ? s1 ? H1 H2]; subst; cbn [length run_word flat_map].
    - now rewrite !Nat.add_0_r.
    - rewrite app_length. replace (n + S (length us)) with (S n + length us) by lia. rewrite Nat.add_assoc. apply (IH _ _ s1); [|intros; apply HU; now right|exact H2].
      apply (bounded_step n t s u s1); [exact HB|apply HU; now left|exact H1].
  Qed.
  Lemma bounded_total n t v d m : bounded_vd n t v d -> t <= m -> n <= 2 * (m + (m + 1) * top) + 2.
  Proof.
    intros HB HM. unfold bounded_vd in HB. assert (MM : forall e, e <= t -> (e + 1) * top <= (m + 1) * top) by (intros; apply Nat.mul_le_mono_r; lia).
    destruct v as [| |r j k].
    - destruct HB as (e & z & l & E1 & E2 & E3 & E4). specialize (MM e ltac:(lia)). lia.
    - destruct HB as (E & _). lia.
    - destruct HB as (_ & _ & e & z & l & E1 & E2 & E3). assert (E4 : e <= t /\ z <= (e + 1) * top) by (destruct k; lia). specialize (MM e ltac:(lia)). lia.
  Qed.
  Lemma run_bound us s : (forall u, In u us -> is_trans g u) -> executes apply (ts_new Initial) us s -> forall m, length (run_word us) <= m -> length us <= 2 * (m + (m + 1) * top) + 2.
  Proof.
    intros HU HE m HM. assert (B0 : bounded_at 0 0 (ts_new (A := posstate rule) Initial)) by (cbn; auto). pose proof (bounded_run us 0 0 _ _ B0 HU HE) as HB. exact (bounded_total _ _ _ _ m HB HM).
  Qed.
End Bound.

(* ---- runs of every length keep the search from ending ---- *)
Section NeverEnds.
  Context (ai : automaton) {S I T : Type} (apply : I -> S -> list S) (init : S)
          (tr : transition I T (au_K ai) -> Prop) (final : S -> Prop)
          (kS : S -> Prop) (kI : I -> Prop) (kT : T -> Prop)
          (eS : S -> au_S ai) (eI : I -> au_I ai) (eT : T -> au_T ai)
          (tti : T -> option (au_T ai))
          (item_map : item (au_S ai) (au_I ai) (au_T ai) (au_K ai) -> option (item S I T (au_K ai))).
  Context (CD : coded ai apply init tr final kS kI kT eS eI eT tti item_map) (KL : RoundLaws (au_K ai)).
  Context (H : max_heap (item (au_S ai) (au_I ai) (au_T ai) (au_K ai) * au_K ai) (wi_leb wleb)).
  Lemma coded_never_ends word n : (forall x, In x word -> kT x) ->
    (forall d, exists us s rest, executes apply init us s /\ (forall t, In t us -> tr t) /\ run_word us ++ rest = word /\ length us = d) ->
    ~ recognise_ended ai H (opt_all tti word) n.
  Proof.
    intros KW HD (os & h & EN & Hn). rewrite (tti_word _ _ _ _ _ _ _ _ _ _ _ _ _ CD word KW) in EN. apply calls_p_total in EN.
    set (st := heap_collect item_weight wleb H (init_items ai (Some (map eT word)))) in *.
    destruct (search_end (heap_agenda item_weight wleb H) _ (heap_lossless item_weight wleb H) (dflt (item_succs ai)) n st (init_items ai (Some (map eT word)))) as (D & L & _).
    - apply (heap_collect_content item_weight wleb H).
    - unfold st in *. now rewrite EN.
    - destruct (HD D) as (us & s & rest & B1 & B2 & B3 & B4).
      destruct (exec_down _ _ _ _ _ _ _ _ _ _ _ _ _ CD us init s (cd_kinit _ _ _ _ _ _ _ _ _ _ _ _ _ CD) B1 B2) as [C1 C2].
      assert (X : In (the_item ai (map (eTr ai eI eT) us) (map eT rest) (eS s)) (level (dflt (item_succs ai)) D (init_items ai (Some (map eT word))))); [|rewrite L in X; destruct X].
      rewrite <- B4, <- (map_length (eTr ai eI eT) us). apply (complete_level ai (cd_teqb _ _ _ _ _ _ _ _ _ _ _ _ _ CD) KL); auto using (cd_teqb _ _ _ _ _ _ _ _ _ _ _ _ _ CD), (cd_key _ _ _ _ _ _ _ _ _ _ _ _ _ CD).
      + rewrite (cd_init _ _ _ _ _ _ _ _ _ _ _ _ _ CD). exact C1.
      + intros t Ht. apply in_map_iff in Ht. destruct Ht as (t0 & <- & Ht0). apply (cd_tr _ _ _ _ _ _ _ _ _ _ _ _ _ CD). eauto.
      + rewrite run_word_eTr, <- map_app, B3. reflexivity.
  Qed.
End NeverEnds.
