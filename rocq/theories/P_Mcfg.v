(* Proofs about the command mcfg parse. *)
From Verif Require Import M_Nom Base BMap M_Util M_Agenda M_Search M_Recog M_Automata M_CFG M_TreeStack M_Grammar M_Chart M_FromPmcfg M_Negra M_Text M_Command M_Mcfg
  S_Search S_Recog S_TreeStack S_Grammar S_FromPmcfg S_Negra S_Text S_AutText S_Command S_Mcfg P_Agenda P_Search P_Util P_Recog P_Automata P_TreeStack P_TSA P_Grammar
  P_FromPmcfg P_FromPmcfg2 P_FromPmcfg3 P_FromPmcfg4 P_FromPmcfg5 P_Text P_AutText P_Command Properties_TreeStack Properties_FromPmcfg Properties_Beam S_ConfText P_ConfText.

(* ---- the search ---- *)
Lemma calls_prefix {I} (A : agenda I) sp n : forall m a os a', search_calls_p A sp (n + m) a = Some (os, a') ->
  exists os1 a1 os2, search_calls_p A sp n a = Some (os1, a1) /\ os = os1 ++ os2.
Proof.
  induction n as [|n IH]; intros m a os a' E; [exists [], a, os; auto|]. cbn [plus search_calls_p] in *. destruct (search_next_p A sp a) as [[o a1]|]; [|discriminate].
  destruct (search_calls_p A sp (n + m) a1) as [[os1 a2]|] eqn:E1; [|discriminate]. injection E as <- <-. destruct (IH m a1 os1 a2 E1) as (p1 & b1 & p2 & -> & ->). exists (o :: p1), b1, p2. auto.
Qed.
Lemma ended_calls_iff {X Y} (c : option (list (option X) * Y)) : ended_calls c = true <-> exists os h, c = Some (os, h) /\ In None os.
Proof.
  unfold ended_calls. destruct c as [[os h]|]; [|split; [discriminate|intros (? & ? & E & _); discriminate]]. rewrite existsb_exists. split.
  - intros ([?|] & Hx & E); [discriminate|]. eauto.
  - intros (os' & h' & E & Hin). injection E as <- <-. exists None. auto.
Qed.
Lemma ended_mono {I} (A : agenda I) sp n m a : n <= m -> search_calls_p A sp m a <> None -> ended_calls (search_calls_p A sp n a) = true -> ended_calls (search_calls_p A sp m a) = true.
Proof.
  intros L D E. destruct (search_calls_p A sp m a) as [[os a']|] eqn:Em; [|congruence]. replace m with (n + (m - n)) in Em by lia. destruct (calls_prefix A sp n (m - n) a os a' Em) as (os1 & a1 & os2 & E1 & ->). rewrite E1 in E.
  apply ended_calls_iff in E. destruct E as (? & ? & E & Hin). injection E as <- <-. apply ended_calls_iff. do 2 eexists. split; [reflexivity|]. apply in_or_app. now left.
Qed.

Lemma until_none_app {I} (a b : list (option I)) : exists r, until_none (a ++ b) = until_none a ++ r.
Proof. induction a as [|[x|] a (r & IH)]; cbn [app until_none]; [exists (until_none b); reflexivity| |exists []; reflexivity]. exists r. now rewrite IH. Qed.
Lemma opt_all_app_inv {X Y} (h : X -> option Y) a b l : opt_all h (a ++ b) = Some l -> exists l1 l2, opt_all h a = Some l1 /\ l = l1 ++ l2.
Proof.
  revert l. induction a as [|x a IH]; intros l E; cbn [app opt_all] in *; [exists [], l; auto|]. destruct (h x) as [y|]; [|discriminate]. destruct (opt_all h (a ++ b)) as [l'|] eqn:E1; [|discriminate]. injection E as <-.
  destruct (IH l' eq_refl) as (l1 & l2 & -> & ->). exists (y :: l1), l2. auto.
Qed.
(* what was found stays found *)
Lemma recognise_prefix {S I T} (a : automaton) tti (im : item (au_S a) (au_I a) (au_T a) (au_K a) -> option (item S I T (au_K a))) H (word : list T) n m outs :
  recognise_with a tti im H word (n + m) = Some outs -> exists outs1 rest, recognise_with a tti im H word n = Some outs1 /\ outs = outs1 ++ rest.
Proof.
  unfold recognise_with, recognise_int. destruct (search_calls_p _ _ (n + m) _) as [[os h]|] eqn:E; [|discriminate]. destruct (calls_prefix _ _ n m _ os h E) as (os1 & a1 & os2 & E1 & ->). rewrite E1.
  destruct (until_none_app os1 os2) as (r & ->). rewrite filter_app. intros EO. destruct (opt_all_app_inv _ _ _ _ EO) as (l1 & l2 & E2 & ->). exists l1, l2. split; [exact E2|reflexivity].
Qed.

(* the initial configuration comes first if it is accepted *)
Section First.
  Context (ai : automaton) {S I T : Type} (apply : I -> S -> list S) (init : S)
          (tr : transition I T (au_K ai) -> Prop) (final : S -> Prop)
          (kS : S -> Prop) (kI : I -> Prop) (kT : T -> Prop)
          (eS : S -> au_S ai) (eI : I -> au_I ai) (eT : T -> au_T ai)
          (tti : T -> option (au_T ai))
          (item_map : item (au_S ai) (au_I ai) (au_T ai) (au_K ai) -> option (item S I T (au_K ai))).
  Context (CD : coded ai apply init tr final kS kI kT eS eI eT tti item_map).
  Context (H : max_heap (item (au_S ai) (au_I ai) (au_T ai) (au_K ai) * au_K ai) (wi_leb wleb)).
  Lemma coded_first n outs : final init -> recognise_with ai tti item_map H [] (Datatypes.S n) = Some outs -> exists rest, outs = (Conf [] init wone, pd_new) :: rest.
  Proof.
    intros FI. unfold recognise_with, recognise_int. cbn [opt_all]. set (st := heap_collect item_weight wleb H (init_items ai (Some []))).
    assert (P0 : Permutation (heap_agenda_content item_weight wleb H st) (init_items ai (Some []))) by (apply (heap_collect_content item_weight wleb H)).
    cbn [search_calls_p]. unfold search_next_p. destruct (ag_pop (heap_agenda item_weight wleb H) st) as [[i h]|] eqn:EP.
    - pose proof (al_pop_some _ _ (heap_lossless item_weight wleb H) _ _ _ EP) as P. rewrite P0 in P. cbn [init_items] in P. apply Permutation_length_1_inv in P. injection P as -> _.
      destruct (item_succs ai _) as [l|]; [|discriminate]. destruct (search_calls_p _ _ n _) as [[os h']|]; [|discriminate]. cbn [until_none filter fst].
      rewrite (cd_init _ _ _ _ _ _ _ _ _ _ _ _ _ CD). rewrite (proj2 (cd_final _ _ _ _ _ _ _ _ _ _ _ _ _ CD [] init wone (cd_kinit _ _ _ _ _ _ _ _ _ _ _ _ _ CD)) (conj eq_refl FI)). cbn [opt_all].
      pose proof (cd_map _ _ _ _ _ _ _ _ _ _ _ _ _ CD [] init wone [] (cd_kinit _ _ _ _ _ _ _ _ _ _ _ _ _ CD) ltac:(intros x []) ltac:(intros x [])) as EM. cbn in EM. unfold pd_new in *. rewrite EM.
      destruct (opt_all item_map _) as [l'|]; [|discriminate]. intros E. injection E as <-. exists l'. reflexivity.
    - pose proof (proj1 (al_pop_none _ _ (heap_lossless item_weight wleb H) _) EP) as P. rewrite P in P0. apply Permutation_nil in P0. discriminate.
  Qed.
End First.

(* ---- lists ---- *)
Lemma forall2_in_l {X Y} (P : X -> Y -> Prop) l l' x : Forall2 P l l' -> In x l -> exists y, In y l' /\ P x y.
Proof. induction 1; [intros []|]. intros [<-|Hx]; [eexists; split; [now left|assumption]|]. destruct (IHForall2 Hx) as (z & Hz & HP). exists z. split; [now right|assumption]. Qed.
Lemma forall2_in_r {X Y} (P : X -> Y -> Prop) l l' y : Forall2 P l l' -> In y l' -> exists x, In x l /\ P x y.
Proof. induction 1; [intros []|]. intros [<-|Hx]; [eexists; split; [now left|assumption]|]. destruct (IHForall2 Hx) as (z & Hz & HP). exists z. split; [now right|assumption]. Qed.
Lemma forall2_split_r {X Y} (P : X -> Y -> Prop) l' : forall l before y after, Forall2 P l l' -> l' = before ++ y :: after ->
  exists b x a, l = b ++ x :: a /\ Forall2 P b before /\ P x y /\ Forall2 P a after.
Proof.
  induction l' as [|z l' IH]; intros l before y after F E; [destruct before; discriminate|]. inversion F as [|x ? l1 ? HP HF]; subst. destruct before as [|b before]; injection E as E1 E2.
  - subst. exists [], x, l1. auto.
  - subst. destruct (IH l1 before y after HF eq_refl) as (b1 & x1 & a1 & -> & Q1 & Q2 & Q3). exists (x :: b1), x1, a1. auto.
Qed.
Lemma forall2_exists {X Y} (P : X -> Y -> Prop) l : (forall x, In x l -> exists y, P x y) -> exists l', Forall2 P l l'.
Proof. induction l as [|x l IH]; intros HX; [exists []; constructor|]. destruct (HX x (or_introl eq_refl)) as (y & Hy). destruct IH as (l' & Hl); [intros; apply HX; now right|]. exists (y :: l'). now constructor. Qed.

Lemma forall2_length {X Y} (P : X -> Y -> Prop) l l' : Forall2 P l l' -> length l = length l'.
Proof. induction 1; cbn; [reflexivity|now f_equal]. Qed.
Lemma forall2_firstn {X Y} (P : X -> Y -> Prop) n : forall l l', Forall2 P l l' -> Forall2 P (firstn n l) (firstn n l').
Proof. induction n as [|n IH]; intros l l' F; [constructor|]. inversion F; subst; cbn; constructor; auto. Qed.
Lemma nodup_splits {X} (l : list X) : (forall b x m a, l <> b ++ x :: m ++ x :: a) -> NoDup l.
Proof.
  induction l as [|x l IH]; intros HS; [constructor|]. constructor.
  - intros Hin. apply in_split in Hin. destruct Hin as (m & a & ->). now apply (HS [] x m a).
  - apply IH. intros b y m a E. apply (HS (x :: b) y m a). cbn. now rewrite E.
Qed.
Lemma nodup_front {X} (l l' : list X) : NoDup (l ++ l') -> NoDup l.
Proof. induction l as [|x l IH]; intros ND; [constructor|]. inversion ND as [|? ? N1 N2]; subst. constructor; [intros C; apply N1; apply in_or_app; now left|auto]. Qed.
Lemma firstn_split {X} n (l : list X) b x a : firstn n l = b ++ x :: a -> exists a', l = b ++ x :: a'.
Proof. intros E. rewrite <- (firstn_skipn n l), E. rewrite <- app_assoc. cbn. eauto. Qed.

(* the abstract syntax tree is sorted *)
Lemma ast_sorted {X} (l : list (list nat * posstate X)) : forall acc m, gsorted acc -> ast_entries l acc = Some m -> gsorted m.
Proof.
  induction l as [|[[|k a] p] l IH]; intros acc m HS E; cbn [ast_entries] in E; [now injection E as <-|eauto|]. destruct (Nat.eqb k 0); [|eauto]. destruct p; try discriminate. apply (IH _ m) in E; [exact E|]. now apply gt_insert_sorted.
Qed.

Section Mcfg.
  Context {K : ZWeight} (KL : RoundLaws K) (neqb teqb : bytes -> bytes -> bool) (reqb : prule bytes bytes K -> prule bytes bytes K -> bool)
    (NE : EqbSpec neqb) (TE : EqbSpec teqb) (RE : EqbSpec reqb).
  Notation rule := (prule bytes bytes K).
  Notation code := (item (tstack nat) (ts_instr nat) nat K).
  Notation parse := (item (tstack (posstate rule)) (ts_instr (posstate rule)) bytes K).
  Context (H : max_heap (code * K) (wi_leb wleb)) (Hb : minmax_heap (code * K) (wi_leb wleb))
          (shuffle : list (transition (ts_instr nat) nat K) -> list (transition (ts_instr nat) nat K)) (SH : forall l, Permutation (shuffle l) l).
  Context (display : configuration (tstack (posstate rule)) bytes K -> bytes).
  Context (f : bytes -> nat) (init : list bytes) (rules : list rule).
  Notation g := (PMCFG init rules : pmcfg bytes bytes K).
  Context (OG : ordered_grammar f g) (ST : forall r, In r rules -> short_tails r).

  Definition good (word : list bytes) (x : parse) (d : dtree bytes bytes K) : Prop :=
    parse_from init rules word d /\ c_weight (fst x) = read_weight d /\ S_FromPmcfg.shows (c_storage (fst x)) d /\ c_word (fst x) = [] /\ holds_tree (c_storage (fst x)) d.
  Lemma sound_good word (outs : list parse) ts : pmcfg_transitions neqb g = Some ts ->
    enum_sound (tsi_apply (posstate_eqb reqb)) (ts_new Initial) (fun t => In t ts) (fun s => ts_is_at_bottom s = true) word outs -> word <> [] ->
    (forall conf run, In (conf, run) outs -> (word = [] /\ pd_to_vec run = []) \/ exists d, parse_from init rules word d /\ c_weight conf = read_weight d /\ S_FromPmcfg.shows (c_storage conf) d) ->
    exists ds, Forall2 (good word) outs ds.
  Proof.
    intros ET ES NW O2. apply forall2_exists. intros [conf run] HI. destruct (O2 conf run HI) as [(-> & _)|(d & D & W & SW)]; [congruence|]. exists d. split; [exact D|]. split; [exact W|]. split; [exact SW|].
    destruct (ES conf run HI) as (HA & EW & _). split; [exact EW|]. refine (run_holds neqb reqb NE RE KL f g OG ts word _ _ d ET HA _ SW).
    intros E. destruct HA as (_ & _ & HW & _). rewrite E in HW. cbn in HW. congruence.
  Qed.

  Lemma shows_inj (s : tstack (posstate rule)) d d' : S_FromPmcfg.shows s d -> S_FromPmcfg.shows s d' -> d = d'.
  Proof. intros (m & M1 & M2) (m' & M1' & M2'). rewrite M1 in M1'. injection M1' as <-. apply rule_at_ext. intros a. now rewrite <- M2, M2'. Qed.

  Definition over (M : tsa (posstate rule) bytes K) (beam : option nat) (word : list bytes) (calls : nat) : Prop :=
    match beam with
    | Some b => recognise_beam_ended (tsa_automaton shuffle M) Hb b (opt_all (int_find_key teqb (ta_t M)) word) calls
    | None => recognise_ended (tsa_automaton shuffle M) H (opt_all (int_find_key teqb (ta_t M)) word) calls
    end.
  Lemma listed_in_order word (outs : list parse) ds : Forall2 (good word) outs ds ->
    (NoDup rules -> forall before x between y after d, outs = before ++ x :: between ++ y :: after -> S_FromPmcfg.shows (c_storage (fst x)) d -> ~ S_FromPmcfg.shows (c_storage (fst y)) d) ->
    ((forall r, In r rules -> wleb (pr_weight r) wone = true) -> forall before y after, outs = before ++ y :: after -> forall x, In x before -> wleb (item_weight y) (item_weight x) = true) ->
    forall n, in_order rules (firstn n ds).
  Proof.
    intros F O5 O3 n. split.
    - intros ND. assert (NDS : NoDup ds).
      { apply nodup_splits. intros b0 d m a E. destruct (forall2_split_r _ ds outs b0 d (m ++ d :: a) F E) as (bo & x & ao & Eo & _ & Gx & Fa).
        destruct (forall2_split_r _ _ ao m d a Fa eq_refl) as (mo & y & co & Eao & _ & Gy & _). subst ao. refine (O5 ND bo x mo y co d Eo _ _); [apply Gx|apply Gy]. }
      rewrite <- (firstn_skipn n ds) in NDS. eapply nodup_front; exact NDS.
    - intros HW. assert (G : forall l l', Forall2 (good word) l l' -> (forall b0 y a, l = b0 ++ y :: a -> forall x, In x b0 -> wleb (item_weight y) (item_weight x) = true) -> StronglySorted (fun x y => wleb (read_weight y) (read_weight x) = true) l').
      { induction 1 as [|x d l l' Gx Fl IH]; intros HS; [constructor|]. constructor.
        - apply IH. intros b0 y a E z Hz. apply (HS (x :: b0) y a); [cbn; now rewrite E|now right].
        - apply Forall_forall. intros d' Hd'. destruct (forall2_in_r _ _ _ d' Fl Hd') as (y & Hy & Gy). apply in_split in Hy. destruct Hy as (b0 & a & ->). specialize (HS (x :: b0) y a eq_refl x (or_introl eq_refl)).
          destruct Gx as (_ & Wx & _), Gy as (_ & Wy & _). unfold item_weight in HS. rewrite <- Wx, <- Wy. exact HS. }
      apply (G (firstn n outs)); [now apply forall2_firstn|]. intros b0 y a E. apply firstn_split in E. destruct E as (a' & E). exact (O3 HW b0 y a' E).
  Qed.
  Lemma found_gives M beam word calls : tsa_from_pmcfg neqb reqb teqb g = Some M -> word <> [] ->
    exists outs ended ds, found teqb H Hb shuffle M beam word calls = (Some outs, ended) /\ Forall2 (good word) outs ds /\
      (ended = true <-> over M beam word calls) /\ (forall n, in_order rules (firstn n ds)) /\
      forall n, beam = None -> n <= length outs \/ ended = true -> best_of init rules n word (firstn n ds).
  Proof.
    intros EM NW. destruct beam as [b|].
    - destruct (C18_recognise_beam_partial bytes bytes K neqb reqb teqb NE RE TE KL f g OG ST shuffle SH Hb b word) as (ts & M' & ET & EM' & HO & _). rewrite EM in EM'. injection EM' as <-.
      destruct (HO calls) as (outs & O1 & O2 & O3 & O5 & _).
      assert (ES : enum_sound (tsi_apply (posstate_eqb reqb)) (ts_new Initial) (fun t => In t ts) (fun s => ts_is_at_bottom s = true) word outs).
      { destruct (C14_tsa_beam_search (posstate rule) bytes K (posstate_eqb reqb) teqb (peqb_spec reqb RE) TE KL ts (ts_new Initial) shuffle SH Hb b word) as (EB & _). destruct (EB calls) as (outs' & O1' & ES & _).
        assert (EM2 : M = tsa_new (posstate_eqb reqb) teqb ts (ts_new Initial)) by (unfold tsa_from_pmcfg in EM; rewrite ET in EM; now injection EM as <-). rewrite <- EM2, O1 in O1'. injection O1' as <-. exact ES. }
      destruct (sound_good word outs ts ET ES NW O2) as (ds & F).
      exists outs. eexists. exists ds. split; [unfold found; rewrite O1; reflexivity|]. split; [exact F|]. split; [cbn [over]; apply ended_calls_iff|]. split; [|discriminate]. exact (listed_in_order word outs ds F O5 O3).
    - destruct (C18_recognise_partial bytes bytes K neqb reqb teqb NE RE TE KL f g OG ST shuffle SH H word calls) as (M' & outs & EM' & O1 & O2 & O3 & O4 & O5). rewrite EM in EM'. injection EM' as <-.
      destruct (C55_runs bytes bytes K neqb reqb NE RE KL f g OG) as (ts & ET & _).
      assert (ES : enum_sound (tsi_apply (posstate_eqb reqb)) (ts_new Initial) (fun t => In t ts) (fun s => ts_is_at_bottom s = true) word outs).
      { destruct (C14_tsa_recognise (posstate rule) bytes K (posstate_eqb reqb) teqb (peqb_spec reqb RE) TE KL ts (ts_new Initial) shuffle SH H word calls) as (outs' & O1' & ES & _).
        assert (EM2 : M = tsa_new (posstate_eqb reqb) teqb ts (ts_new Initial)) by (unfold tsa_from_pmcfg in EM; rewrite ET in EM; now injection EM as <-). rewrite <- EM2, O1 in O1'. injection O1' as <-. exact ES. }
      destruct (sound_good word outs ts ET ES NW O2) as (ds & F).
      set (e := ended_calls (search_calls_p (heap_agenda item_weight wleb H) (item_succs (tsa_automaton shuffle M)) calls (heap_collect item_weight wleb H (init_items (tsa_automaton shuffle M) (opt_all (int_find_key teqb (ta_t M)) word))))).
      assert (EI : e = true <-> over M None word calls) by apply ended_calls_iff.
      exists outs, e, ds. split; [unfold found; rewrite O1; reflexivity|]. split; [exact F|]. split; [exact EI|]. split; [apply (listed_in_order word outs ds F O5); intros HW b0 y a E; exact (proj1 (O3 HW b0 y a E))|]. intros n _ HN.
      assert (IND : forall x d d', In (x : parse) outs -> S_FromPmcfg.shows (c_storage (fst x)) d -> good word x d' -> d = d') by (intros x d d' _ S1 (_ & _ & S2 & _); eapply shows_inj; eassumption).
      split.
      + intros L d HD. assert (LD : length ds = length outs) by (symmetry; exact (forall2_length _ _ _ F)). rewrite firstn_length in L. assert (LN : length ds < n) by lia. assert (EE : e = true) by (destruct HN as [HN|HN]; [exfalso; rewrite LD in LN; exact (Nat.lt_irrefl _ (Nat.le_lt_trans _ _ _ HN LN))|exact HN]).
        assert (FD : firstn n ds = ds) by (apply firstn_all2; lia). rewrite FD. destruct (O4 (proj1 EI EE) d HD) as (x & Hx & Sx). destruct (forall2_in_l _ _ _ x F Hx) as (d' & Hd' & G). now rewrite (IND x d d' Hx Sx G).
      + intros HW d d' HD NI HI. destruct (wleb (read_weight d) (read_weight d')) eqn:EW; [reflexivity|]. exfalso. apply NI. apply in_split in HI. destruct HI as (bd & ad & ED).
        destruct (forall2_split_r _ _ (firstn n outs) bd d' ad (forall2_firstn _ n _ _ F) ED) as (b0 & y & a & Eo & Fb & Gy & _). apply firstn_split in Eo. destruct Eo as (a' & Eo).
        destruct (proj2 (O3 HW b0 y a' Eo) d HD) as (x & Hx & Sx). { destruct Gy as (_ & Wy & _). refine (eq_trans (f_equal (wleb (read_weight d)) _) EW). exact Wy. }
        destruct (forall2_in_l _ _ _ x Fb Hx) as (d2 & Hd2 & G2). rewrite ED. apply in_or_app. left. replace d with d2; [exact Hd2|]. symmetry. eapply shows_inj; [exact Sx|apply G2].
  Qed.

  (* ---- printing ---- *)
  Context (negra : bool) (NN : negra = true -> forall r, In r rules -> negra_normal (pr_comp r)) (NT : negra = true -> forall r t, In r rules -> In (pr_head r) init -> ~ In (Tm t) (List.concat (pr_comp r))).
  (* the text for a derivation *)
  Definition text_of (i : nat) (word : list bytes) (d : dtree bytes bytes K) (text : bytes) : Prop :=
    if negra then S_Command.shows (i + 1) word d text
    else exists conf, c_word conf = [] /\ c_weight conf = read_weight d /\ S_FromPmcfg.shows (c_storage conf) d /\ holds_tree (c_storage conf) d /\ text = display conf ++ newline.
  Lemma good_prints i word x d : good word x d -> exists F text, (forall fuel, F <= fuel -> print_parse display fuel negra i x = Done text) /\ text_of i word d text.
  Proof.
    intros ((A & HA & HD & HY) & W & (m & M1 & M2) & EW & HT). unfold print_parse, text_of. rewrite M1. cbn [or_panic and_then]. destruct negra eqn:EN.
    - destruct (print_shows m d word word false (i + 1)) as (F & text & E & SW).
      + split; [|exact M2]. eapply (ast_sorted _ [] m); [exact I|exact M1].
      + intros r Hr. apply NN; [reflexivity|]. eapply (deriv_rules (fun r => In r rules)); eassumption.
      + intros r t Er. apply NT; [reflexivity| |]; inversion HD as [r1 ts1 HP HF E1 E2]; subst; cbn in Er; injection Er as <-; assumption.
      + exact HY.
      + reflexivity.
      + exists F, text. split; [|exact SW]. intros fuel HF. unfold mode_of in E. rewrite (E fuel HF). reflexivity.
    - exists 0, (display (fst x) ++ newline). split; [reflexivity|]. exists (fst x). split; [exact EW|]. split; [exact W|]. split; [exists m; auto|]. auto.
  Qed.
  Lemma parses_print i word xs ds : Forall2 (good word) xs ds -> exists F texts, (forall fuel, F <= fuel -> print_parses display fuel negra i xs = Done (List.concat texts)) /\ Forall2 (text_of i word) ds texts.
  Proof.
    induction 1 as [|x d xs ds G _ (F & texts & E & F2)]; [exists 0, []; split; [reflexivity|constructor]|]. destruct (good_prints i word x d G) as (F1 & t & E1 & T1).
    exists (Nat.max F1 F), (t :: texts). split; [|constructor; assumption]. intros fuel HF. cbn [print_parses]. rewrite E1 by lia. cbn [and_then]. rewrite E by lia. reflexivity.
  Qed.

  Context (n : nat) (beam : option nat).
  Lemma line_gives M calls i line word : tsa_from_pmcfg neqb reqb teqb g = Some M -> words line word -> word <> [] ->
    exists F, (~ over M beam word calls /\
               forall fuel, F <= fuel -> mcfg_line teqb H Hb shuffle display M n beam negra calls fuel i line = Running) \/
      exists out, printed init rules (beam = None) n (text_of i word) word out /\ forall fuel, F <= fuel -> mcfg_line teqb H Hb shuffle display M n beam negra calls fuel i line = Done out.
  Proof.
    intros EM HW NW. destruct (found_gives M beam word calls EM NW) as (outs & ended & ds & EF & F2 & EE & HO & HB). destruct (parses_print i word _ _ (forall2_firstn _ n _ _ F2)) as (F & texts & EP & FT).
    exists F. assert (EL : forall fuel, F <= fuel -> mcfg_line teqb H Hb shuffle display M n beam negra calls fuel i line = if Nat.leb n (length outs) || ended then Done (List.concat texts ++ newline) else Running).
    { intros fuel HF. unfold mcfg_line. rewrite (words_split line word HW), EF. cbn [or_panic and_then]. rewrite (EP fuel HF). reflexivity. }
    destruct (Nat.leb n (length outs) || ended) eqn:EB; [right|left; split; [|exact EL]].
    - exists (List.concat texts ++ newline). split; [|exact EL]. exists (firstn n ds), texts. split; [rewrite firstn_length; lia|]. split; [|split; [apply HO|split; [|split; [exact FT|reflexivity]]]].
      + intros d Hd. destruct (forall2_in_r _ _ _ d (forall2_firstn _ n _ _ F2) Hd) as (x & _ & G). apply G.
      + intros EN. apply HB; [exact EN|]. apply orb_true_iff in EB. rewrite Nat.leb_le in EB. exact EB.
    - intros C. apply EE in C. rewrite C, orb_true_r in EB. discriminate.
  Qed.
  Lemma lines_give M calls ls sents : tsa_from_pmcfg neqb reqb teqb g = Some M -> Forall2 words ls sents -> (forall word, In word sents -> word <> []) -> forall i,
    exists F, ((exists word, In word sents /\ ~ over M beam word calls) /\
               forall fuel, F <= fuel -> mcfg_lines teqb H Hb shuffle display M n beam negra calls fuel i ls = Running) \/
      exists outs, Forall2 (fun s out => printed init rules (beam = None) n (text_of (fst s) (snd s)) (snd s) out) (combine (seq i (length sents)) sents) outs /\
        forall fuel, F <= fuel -> mcfg_lines teqb H Hb shuffle display M n beam negra calls fuel i ls = Done (List.concat outs).
  Proof.
    intros EM. induction 1 as [|line word ls sents HW _ IH]; intros NW i; [exists 0; right; exists []; split; [constructor|reflexivity]|].
    destruct (line_gives M calls i line word EM HW (NW word (or_introl eq_refl))) as (F1 & [(HE & E)|(out & HP & E)]).
    - exists F1. left. split; [exists word; split; [now left|exact HE]|]. intros fuel HF. cbn [mcfg_lines]. now rewrite (E fuel HF).
    - destruct (IH (fun w Hw => NW w (or_intror Hw)) (S i)) as (F2 & [((w & Hw & HE) & E2)|(outs & HO & E2)]); exists (Nat.max F1 F2).
      + left. split; [exists w; split; [now right|exact HE]|]. intros fuel HF. cbn [mcfg_lines]. rewrite E, E2 by lia. reflexivity.
      + right. exists (out :: outs). split; [cbn [length seq combine]; constructor; assumption|]. intros fuel HF. cbn [mcfg_lines]. rewrite E, E2 by lia. reflexivity.
  Qed.
End Mcfg.
