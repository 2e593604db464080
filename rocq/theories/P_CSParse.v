(* The parser as a whole: iterator adaptors, and the conditions of the k-best enumeration in terms of the grammar. *)
From Coq Require Import NArith Sorting.Sorted.
From Verif Require Import Base BMap M_Util M_Recog M_Automata M_Agenda M_TreeStack M_Grammar M_Chart S_Chart P_Chart M_CSAuto M_Estimates M_RuleMask M_ToDeriv M_KBest M_Cow M_CSParse
  S_Grammar S_CS S_RuleMask S_Cow P_TreeStack P_Grammar P_GrammarCFG P_Conversion P_CSAuto P_FillChart P_ToDeriv P_KBest P_KBestChart P_Cow.
Arguments Nat.ltb : simpl never. Arguments Nat.eqb : simpl never.

(* ---- iterators ---- *)
Definition gives {St X} (next : iter St X) (s : St) (l : list X) : Prop := forall m, run next m s = Some (map (nth_error l) (seq 0 m)).
Lemma map_nth_shift {X} (l : list X) m : map (nth_error l) (seq 1 m) = map (nth_error (tl l)) (seq 0 m).
Proof. rewrite <- seq_shift, map_map. apply map_ext. intros k. destruct l; [now destruct k|reflexivity]. Qed.
Lemma gives_iff {St X} (next : iter St X) s l : gives next s l <-> exists s', next s = Some (hd_error l, s') /\ gives next s' (tl l).
Proof.
  split.
  - intros G. pose proof (G 1) as G1. cbn in G1. destruct (next s) as [[x s']|] eqn:E; [|discriminate]. injection G1 as ->. exists s'. split; [now destruct l|].
    intros m. specialize (G (S m)). cbn [run seq map] in G. rewrite E in G. destruct (run next m s') as [xs|]; [|discriminate]. injection G as G. now rewrite G, map_nth_shift.
  - intros (s' & E & G) [|m]; [reflexivity|]. cbn [run seq map]. rewrite E, (G m), map_nth_shift. now destruct l.
Qed.
Lemma gives_coind {St X} (next : iter St X) (P : St -> list X -> Prop) :
  (forall s l, P s l -> exists s', next s = Some (hd_error l, s') /\ P s' (tl l)) -> forall s l, P s l -> gives next s l.
Proof.
  intros HP s l H m. revert s l H. induction m as [|m IH]; intros s l H; [reflexivity|]. destruct (HP s l H) as (s' & E & H'). cbn [run seq map]. rewrite E, (IH s' _ H'), map_nth_shift. now destruct l.
Qed.
Lemma gives_peekable {St X} (next : iter St X) s l : gives next s l -> gives (peekable_next next) (None, s) l.
Proof.
  intros G. apply (gives_coind _ (fun s l => fst s = None /\ gives next (snd s) l)); [|auto]. intros [p s0] l0 [E0 G0]. cbn in E0, G0. subst p. apply gives_iff in G0. destruct G0 as (s' & E & G'). exists (None, s'). unfold peekable_next. cbn [fst snd]. rewrite E. auto.
Qed.
Lemma gives_peek {St X} (next : iter St X) s l : gives next s l -> exists s', peek next (None, s) = Some (hd_error l, s') /\ gives (peekable_next next) s' l.
Proof.
  intros G. apply gives_iff in G. destruct G as (s1 & E & G1). exists (Some (hd_error l), s1). unfold peek. cbn [fst snd]. rewrite E. split; [reflexivity|].
  apply gives_iff. exists (None, s1). split; [reflexivity|]. now apply gives_peekable.
Qed.
(* the first c of them, or all *)
Definition upto {X} (c : option nat) (l : list X) : list X := match c with Some c => firstn c l | None => l end.
Lemma gives_take {St} (next : iter St (list (bracket bcontent))) s l c : gives next s l -> gives (take_while_next count_candidates next) (false, c, s) (upto c l).
Proof.
  intros G. apply (gives_coind _ (fun (x : bool * option nat * St) l0 => let '(done, c, s) := x in (done = true /\ l0 = []) \/ (done = false /\ exists l, l0 = upto c l /\ gives next s l))); [|right; eauto].
  intros [[done c1] s1] l1 [[-> ->]|[-> (l2 & -> & G2)]]; [exists (true, c1, s1); cbn; auto|]. apply gives_iff in G2. destruct G2 as (s' & E & G'). unfold take_while_next. rewrite E. destruct l2 as [|x l2]; cbn [hd_error].
  - exists (false, c1, s'). split; [destruct c1 as [[|c1]|]; reflexivity|]. right. split; [reflexivity|]. exists []. split; [destruct c1 as [[|c1]|]; reflexivity|exact G'].
  - cbn [tl] in G'. destruct c1 as [[|c1]|]; cbn [count_candidates upto firstn hd_error tl].
    + exists (true, Some 0, s'). split; [reflexivity|]. left. auto.
    + exists (false, Some c1, s'). split; [reflexivity|]. right. split; [reflexivity|]. exists l2. auto.
    + exists (false, None, s'). split; [reflexivity|]. right. split; [reflexivity|]. exists l2. auto.
Qed.
Definition somes {X Y} (g : X -> option Y) (l : list X) : list Y := flat_map (fun x => match g x with Some y => [y] | None => [] end) l.
(* how many are inspected until the first that is read *)
Fixpoint inspected {X Y} (g : X -> option Y) (l : list X) : nat :=
  match l with [] => 0 | x :: l => match g x with Some _ => 1 | None => S (inspected g l) end end.
Lemma search_gives {St X Y} (f : X -> option (option Y)) (g : X -> option Y) (next : iter St X) : forall l fuel s, (forall x, In x l -> f x = Some (g x)) -> gives next s l -> length l < fuel ->
  exists s' l', filter_map_search f next fuel s = Some (hd_error (somes g l), inspected g l, s') /\ gives next s' l' /\ tl (somes g l) = somes g l' /\ incl l' l /\ length l' <= length l.
Proof.
  induction l as [|x l IH]; intros [|fuel] s HF G L; try (cbn in L; lia); apply gives_iff in G; destruct G as (s' & E & G'); cbn [filter_map_search]; rewrite E; cbn [hd_error].
  - exists s', []. repeat split; [exact G'|intros x Hx; exact Hx|lia].
  - rewrite (HF x) by now left. cbn [tl] in G'. cbn [somes flat_map inspected]. destruct (g x) as [y|] eqn:Ey; cbn [app hd_error tl].
    + exists s', l. repeat split; [exact G'|intros z Hz; now right|cbn; lia].
    + destruct (IH fuel s') as (s2 & l2 & E2 & G2 & T2 & I2 & L2); [intros; apply HF; now right|exact G'|cbn in L; lia|]. rewrite E2. exists s2, l2. repeat split; [exact G2|exact T2|intros z Hz; right; now apply I2|cbn; lia].
Qed.
Lemma gives_filter_map {St X Y} (f : X -> option (option Y)) (g : X -> option Y) (next : iter St X) l fuel s : (forall x, In x l -> f x = Some (g x)) -> gives next s l -> length l < fuel ->
  gives (filter_map_next f next fuel) s (somes g l).
Proof.
  intros HF G L. apply (gives_coind _ (fun s l0 => exists l1, l0 = somes g l1 /\ (forall x, In x l1 -> f x = Some (g x)) /\ gives next s l1 /\ length l1 < fuel)); [|eauto].
  intros s0 l0 (l1 & -> & HF1 & G1 & L1). destruct (search_gives f g next l1 fuel s0 HF1 G1 L1) as (s' & l' & E & G' & T & I & L'). exists s'. unfold filter_map_next. rewrite E. split; [reflexivity|]. exists l'. split; [exact T|]. split; [intros x Hx; apply HF1, I, Hx|]. split; [exact G'|lia].
Qed.
Lemma somes_in {X Y} (g : X -> option Y) l y : In y (somes g l) <-> exists x, In x l /\ g x = Some y.
Proof. unfold somes. rewrite in_flat_map. split; intros (x & Hx & E); exists x; (split; [exact Hx|]); destruct (g x) as [y'|]; cbn in *; try contradiction; try discriminate; [destruct E as [->|[]]; reflexivity|injection E as ->; now left]. Qed.
Lemma somes_map {X X' Y} (h : X' -> X) (g : X -> option Y) l : somes g (map h l) = somes (fun x => g (h x)) l.
Proof. unfold somes. apply flat_map_map. Qed.
Lemma somes_length {X Y} (g : X -> option Y) l : length (somes g l) <= length l.
Proof. unfold somes. induction l as [|x l IH]; cbn; [lia|]. rewrite app_length. destruct (g x); cbn; lia. Qed.
Lemma upto_incl {X} c (l : list X) : incl (upto c l) l.
Proof. destruct c as [c|]; cbn; intros x Hx; [|exact Hx]. rewrite <- (firstn_skipn c l). apply in_or_app. now left. Qed.
Lemma upto_map {X Y} (h : X -> Y) c l : upto c (map h l) = map h (upto c l).
Proof. destruct c; cbn; [apply firstn_map|reflexivity]. Qed.
Lemma SS_upto {X} (Q : X -> X -> Prop) c l : StronglySorted Q l -> StronglySorted Q (upto c l).
Proof.
  destruct c as [c|]; [|auto]. cbn. revert c. induction l as [|x l IH]; intros [|c] SS; cbn; try constructor; inversion SS as [|? ? S1 S2]; subst; [now apply IH|]. rewrite Forall_forall in *. intros y Hy. apply S2. apply (upto_incl (Some c) l y Hy).
Qed.
Lemma SS_somes {X Y} (Q : X -> X -> Prop) (Q' : Y -> Y -> Prop) (g : X -> option Y) l : (forall x x' y y', In x l -> In x' l -> Q x x' -> g x = Some y -> g x' = Some y' -> Q' y y') -> StronglySorted Q l -> StronglySorted Q' (somes g l).
Proof.
  induction l as [|x l IH]; intros HQ SS; cbn [somes flat_map]; [constructor|]. inversion SS as [|? ? S1 S2]; subst. assert (IH' : StronglySorted Q' (somes g l)) by (apply IH; [intros; eapply HQ; try eassumption; now right|exact S1]). destruct (g x) as [y|] eqn:Ey; cbn [app]; [|exact IH']. constructor; [exact IH'|]. rewrite Forall_forall in *. intros y' Hy'. apply somes_in in Hy'. destruct Hy' as (x' & Hx' & E'). eapply HQ; [now left|right; exact Hx'|apply S2; exact Hx'|exact Ey|exact E'].
Qed.

(* ---- the approximation of a grammar ---- *)
Section G.
  Context {N T : Type} {K : ZWeight} (KL : ZWeightLaws K) (factorize : K -> nat -> list K) (FL : FactorLaws factorize).
  Context (rules : list (prule N T K)) (init : N) (f : N -> nat).
  Notation R := (cs_rules factorize rules).
  Context (FO : fanouts_ok rules f) (FI : f init = 1) (LR : forall r, In r rules -> lcfrs_rule f r) (NF : forall r, In r rules -> mask_nf r) (DT : defined_tails rules).
  Context (HA : forall r, In r rules -> length (pr_tail r) <= 256).

  Lemma cs_at rid x : nth_error R rid = Some x -> exists i r k c w, nth_error rules i = Some r /\ comes_from factorize rules rid i /\ nth_error (pr_comp r) k = Some c /\ In x (cs_component i r k c w).
  Proof.
    unfold comes_from, cs_rules. assert (G : forall rs b k, nth_error (cs_rules_from factorize b rs) k = Some x ->
      exists i r, nth_error rs i = Some r /\ length (cs_rules_from factorize b (firstn i rs)) <= k < length (cs_rules_from factorize b (firstn (S i) rs)) /\ In x (cs_rule factorize (b + i) r)).
    { induction rs as [|r rs IH]; intros b k E; cbn [cs_rules_from] in E; [destruct k; discriminate|]. destruct (Nat.lt_ge_cases k (length (cs_rule factorize b r))) as [L|L].
      - rewrite nth_error_app1 in E by exact L. exists 0, r. rewrite Nat.add_0_r. split; [reflexivity|]. split; [cbn; rewrite app_length; cbn; lia|]. eapply nth_error_In. exact E.
      - rewrite nth_error_app2 in E by exact L. destruct (IH _ _ E) as (i & r' & E1 & L1 & Hin). exists (S i), r'. rewrite Nat.add_succ_r. split; [exact E1|]. split; [|exact Hin]. cbn [firstn cs_rules_from] in *. rewrite !app_length. lia. }
    intros E. destruct (G rules 0 rid E) as (i & r & E1 & L & Hin). unfold cs_rule in Hin. apply in_cs_components in Hin. cbn in Hin. destruct Hin as (k & c & w & E2 & Hin). apply combine_nth_inv in E2. destruct E2 as [E2 _]. exists i, r, k, c, w. split; [exact E1|]. split; [exact L|]. split; [exact E2|exact Hin].
  Qed.
  Definition names (b : bcontent) (i : nat) : Prop := (exists k, b = BComp i k) \/ exists j k, b = BVar i j k.
  Lemma cs_bracket i r k c w x : nth_error rules i = Some r -> nth_error (pr_comp r) k = Some c -> In x (cs_component i r k c w) ->
    let '(b1, b2, b3) := cr_br x in match cr_rhs x with RB _ _ => names b3 i | _ => names b1 i end.
  Proof.
    intros Ei Ek Hin. destruct (comp_cases rules NF i r k c Ei Ek) as [(t & _ & -> & ->)|[C0 CV]].
    - cbn in Hin. destruct Hin as [<-|[]]. cbn. left. eexists. reflexivity.
    - destruct c as [|x1 [|x2 c]]; [contradiction| |].
      + destruct (CV x1 (or_introl eq_refl)) as (i1 & j1 & B & -> & _). cbn in Hin. destruct Hin as [<-|[]]. cbn. left. eexists. reflexivity.
      + apply in_component2 in Hin. destruct Hin as [->|(a & y & b & -> & ->)]; cbn [cr_br cr_rhs].
        * destruct (CV x2) as (i1 & j1 & B & -> & _); [right; now left|]. right. cbn. eauto.
        * destruct (CV y) as (i1 & j1 & B & -> & _); [right; right; apply in_or_app; right; now left|]. right. cbn. eauto.
  Qed.
  Lemma names_br b i : names b i -> is_ignore b = false.
  Proof. intros [(k & ->)|(j & k & ->)]; reflexivity. Qed.
  Lemma in_wrap b u x : In x u -> In x (wrap b u).
  Proof. unfold wrap. destruct (is_ignore b); [auto|]. intros Hx. right. apply in_or_app. now left. Qed.
  Lemma wrap_open b u : is_ignore b = false -> In (Open b) (wrap b u).
  Proof. unfold wrap. intros ->. now left. Qed.
  (* a rule that is used is named in the bracket word *)
  Lemma used_named q t u : cderiv R q t u -> forall rid, In rid (ct_rules t) -> exists i r b, nth_error rules i = Some r /\ comes_from factorize rules rid i /\ names b i /\ In (Open b) (ct_word R t).
  Proof.
    induction 1 as [rr q t w b E|rr q q1 w b t u E D IH|rr q q1 q2 w b t1 t2 u1 u2 E D1 IH1 D2 IH2]; intros rid Hin; cbn [ct_rules ct_word] in *;
      destruct (cs_at rr _ E) as (i & r & k & c & w' & Ei & CF & Ek & Hx); pose proof (cs_bracket i r k c w' _ Ei Ek Hx) as NB; unfold rule_brackets; rewrite E; cbn [cr_br cr_rhs] in *; destruct b as [[b1 b2] b3].
    - destruct Hin as [<-|[]]. exists i, r, b1. repeat (split; [assumption|]). apply wrap_open. now apply (names_br _ i).
    - destruct Hin as [<-|Hin]; [exists i, r, b1; repeat (split; [assumption|]); apply wrap_open; now apply (names_br _ i)|]. destruct (IH rid Hin) as (i' & r' & b' & H1 & H2 & H3 & H4). exists i', r', b'. repeat (split; [assumption|]). now apply in_wrap, in_wrap.
    - destruct Hin as [<-|Hin]; [exists i, r, b3; repeat (split; [assumption|]); apply in_wrap, in_or_app; right; apply wrap_open; now apply (names_br _ i)|]. apply in_app_or in Hin. destruct Hin as [Hin|Hin]; [destruct (IH1 rid Hin) as (i' & r' & b' & H1 & H2 & H3 & H4)|destruct (IH2 rid Hin) as (i' & r' & b' & H1 & H2 & H3 & H4)]; exists i', r', b'; repeat (split; [assumption|]); apply in_wrap, in_or_app; [left|right]; now apply in_wrap.
  Qed.
  Notation kderiv := (P_ToDeriv.kderiv rules).
  Lemma named_visited : forall kt A k u, kderiv kt A k u -> forall p b i, names b i -> In (Open b) (kword rules kt) -> exists q, In (q, i) (visits rules kt p).
  Proof.
    induction kt as [i0 k0 kts IH] using ktree_ind2. intros A k u D p b i NB Hin. cbn [P_ToDeriv.kderiv] in D. destruct D as (-> & r & c & Ei & <- & Ek & D). cbn [kword visits] in *. rewrite (comp_of_nth rules _ _ _ _ Ei Ek) in *.
    assert (BC : forall b', b' = b -> names b i0 -> i = i0) by (intros b' _ NB'; destruct NB as [(x & ->)|(x & y & ->)], NB' as [(x' & E)|(x' & y' & E)]; congruence).
    unfold wrapb in Hin. destruct Hin as [Hin|Hin]; [injection Hin as <-; exists p; left; f_equal; symmetry; apply (BC _ eq_refl); left; eauto|]. apply in_app_or in Hin. destruct Hin as [Hin|[Hin|[]]]; [|discriminate].
    destruct D as [(t & -> & -> & ->)|(us & -> & F)].
    - unfold wrapb in Hin. destruct Hin as [Hin|[Hin|[]]]; [|discriminate]. injection Hin as <-. destruct NB as [(x & E)|(x & y & E)]; discriminate.
    - assert (Hb : In (Open b) (kbody i0 c (map (kword rules) kts))). { destruct c as [|[i1 j1|t1] [|x2 c]]; try exact Hin; exfalso; destruct kts; cbn in F; try contradiction; destruct us; contradiction. }
      clear Hin Ei Ek. unfold kbody in Hb. apply in_concat in Hb. destruct Hb as (l & Hl & Hb). apply in_map_iff in Hl. destruct Hl as ([x v] & <- & Hc). cbn [fst snd] in Hb.
      assert (X : exists i1 j1 kt B u', x = Var i1 j1 /\ In kt kts /\ v = kword rules kt /\ kderiv kt B j1 u' /\ In (i1, visits rules kt) (combine (varids c) (map (visits rules) kts))).
      { clear -F Hc. revert c us F Hc. induction kts as [|kt kts IHk]; intros [|x0 c] [|u us] F Hc; cbn in F; try contradiction; try (destruct x0; contradiction). destruct x0 as [i1 j1|t]; [|contradiction]. destruct F as [(B & _ & D) F]. cbn [map combine] in Hc. destruct Hc as [[= <- <-]|Hc].
        - exists i1, j1, kt, B, u. split; [reflexivity|]. split; [now left|]. split; [reflexivity|]. split; [exact D|]. cbn. now left.
        - destruct (IHk c us F Hc) as (i2 & j2 & kt2 & B2 & u2 & H1 & H2 & H3 & H4 & H5). exists i2, j2, kt2, B2, u2. split; [exact H1|]. split; [now right|]. split; [exact H3|]. split; [exact H4|]. cbn. now right. }
      destruct X as (i1 & j1 & kt & B & u' & -> & Hkt & -> & D & Hv). unfold wrapb in Hb. cbn [var_bracket] in Hb. destruct Hb as [Hb|Hb]; [injection Hb as <-; exists p; left; f_equal; symmetry; apply (BC _ eq_refl); right; eauto|]. apply in_app_or in Hb. destruct Hb as [Hb|[Hb|[]]]; [|discriminate].
      rewrite Forall_forall in IH. destruct (IH kt Hkt B j1 u' D (p ++ [u8 i1]) b i NB Hb) as (q & Hq). exists q. right. apply in_concat. eexists. split; [apply in_map_iff; exists (i1, visits rules kt); split; [reflexivity|exact Hv]|]. exact Hq.
  Qed.

  (* C29 in terms of the rules of the approximation *)
  Lemma rule_at_in : forall (d : dtree N T K) a r, rule_at d a = Some r -> In r (d_rules d).
  Proof.
    induction d as [r0 ts IH] using dtree_ind2. intros [|i a] r E; cbn in E; [injection E as <-; cbn; now left|]. destruct (nth_error ts i) as [d|] eqn:Ed; [|discriminate]. cbn. right. apply in_flat_map. exists d. pose proof (nth_error_In _ _ Ed) as Hd. split; [exact Hd|]. rewrite Forall_forall in IH. eapply IH; eassumption.
  Qed.
  Lemma covers d word : deriv (fun r => In r rules) init d -> yield d = Some [word] ->
    exists t tree, cderiv R (Non init 0) t word /\ ct_weight R t = d_weight d /\ toderiv rules (ct_word R t) = Some (Some tree) /\ gs tree /\ (forall addr, gt_get addr tree = rule_at d addr) /\
      forall rid, In rid (ct_rules t) -> exists i r, nth_error rules i = Some r /\ comes_from factorize rules rid i /\ In r (d_rules d).
  Proof.
    intros D Y. destruct (rep_exists rules d init D) as (x & RX).
    pose proof (comp_tree_deriv rules NF x d init [word] 0 word RX D Y eq_refl) as KD.
    destruct (of_k KL factorize FL rules NF _ _ _ _ KD) as (t & CD & CW & CK).
    destruct (toderiv_kword rules _ _ _ _ KD (fun p i => visits_lt rules _ _ _ _ KD [] p i)) as (T1 & T2 & _).
    assert (AT : forall p i, In (p, i) (visits rules (comp_tree rules x 0) []) -> id_at x p = Some i). { intros p i Hin. destruct (visits_comp rules NF HA x d init 0 RX D [] p i Hin) as (ad & -> & Ha). exact Ha. }
    destruct T2 as (tree & ET); [intros p i j H1 H2; apply AT in H1, H2; congruence|]. destruct (T1 tree ET) as (TS & TG & _).
    exists t, tree. split; [exact CD|]. split; [|split; [rewrite CW; exact ET|split; [exact TS|split]]].
    - rewrite CK. rewrite <- (comp_tree_weight KL factorize FL rules NF f FO LR x d init RX D), FI. cbn [seq map]. symmetry. change (wmul (kweight factorize rules (comp_tree rules x 0)) (wone : K) = kweight factorize rules (comp_tree rules x 0)). rewrite (wl_comm _ (zl_weight _ KL)). apply (wl_one_l _ (zl_weight _ KL)).
    - intros addr. rewrite (rep_at rules x d RX addr). destruct (id_at x addr) as [i|] eqn:EA.
      + destruct (id_at_lt rules x d RX addr i EA) as (r & Er). rewrite Er. apply TG. exists i. split; [|exact Er]. destruct (visits_cover rules NF f FO LR HA x d init RX D addr i [] EA) as (k & Hk & Hin). rewrite FI in Hk. assert (k = 0) by lia. subst k. exact Hin.
      + destruct (gt_get addr tree) as [r|] eqn:EG; [|reflexivity]. apply TG in EG. destruct EG as (i & Hin & _). apply AT in Hin. congruence.
    - intros rid Hr. destruct (used_named _ _ _ CD rid Hr) as (i & r & b & Ei & CF & NB & Hb). rewrite CW in Hb. destruct (named_visited _ _ _ _ KD [] b i NB Hb) as (q & Hq). apply AT in Hq. exists i, r. split; [exact Ei|]. split; [exact CF|]. apply (rule_at_in d q). now rewrite (rep_at rules x d RX q), Hq.
  Qed.
  Lemma reads t word : cderiv R (Non init 0) t word -> toderiv rules (ct_word R t) <> None /\
    forall tree, toderiv rules (ct_word R t) = Some (Some tree) ->
      gs tree /\ exists d, deriv (fun r => In r rules) init d /\ yield d = Some [word] /\ d_weight d = ct_weight R t /\ forall addr, gt_get addr tree = rule_at d addr.
  Proof.
    intros CD. destruct (cderiv_k KL factorize rules NF _ _ _ _ CD) as (kt & KD & CW & CK). rewrite CW.
    destruct (toderiv_kword rules _ _ _ _ KD (fun p i => visits_lt rules _ _ _ _ KD [] p i)) as (T1 & _ & T3). split; [exact T3|]. intros tree ET. destruct (T1 tree ET) as (TS & TG & FN). split; [exact TS|].
    destruct (join rules NF f FO LR DT (kheight kt) init [] [kt] [word]) as (x & d & RX & D & Y & KT).
    - intros kt' [<-|[]]. lia.
    - now rewrite FI.
    - now rewrite FI.
    - lia.
    - intros [|[|k]] kt' u; cbn; try discriminate. intros E1 E2. injection E1 as <-. injection E2 as <-. exact KD.
    - intros kt' kt'' q i j [<-|[]] [<-|[]]. apply FN.
    - specialize (KT 0 kt eq_refl). subst kt. exists d. split; [exact D|]. split; [exact Y|].
      assert (AT : forall p i, In (p, i) (visits rules (comp_tree rules x 0) []) -> id_at x p = Some i). { intros p i Hin. destruct (visits_comp rules NF HA x d init 0 RX D [] p i Hin) as (ad & -> & Ha). exact Ha. }
      split.
      + rewrite CK. rewrite <- (comp_tree_weight KL factorize FL rules NF f FO LR x d init RX D), FI. cbn [seq map]. change (wmul (kweight factorize rules (comp_tree rules x 0)) (wone : K) = kweight factorize rules (comp_tree rules x 0)). rewrite (wl_comm _ (zl_weight _ KL)). apply (wl_one_l _ (zl_weight _ KL)).
      + intros addr. rewrite (rep_at rules x d RX addr). destruct (id_at x addr) as [i|] eqn:EA.
        * destruct (id_at_lt rules x d RX addr i EA) as (r & Er). rewrite Er. apply TG. exists i. split; [|exact Er]. destruct (visits_cover rules NF f FO LR HA x d init RX D addr i [] EA) as (k & Hk & Hin). rewrite FI in Hk. assert (k = 0) by lia. subst k. exact Hin.
        * destruct (gt_get addr tree) as [r|] eqn:EG; [|reflexivity]. apply TG in EG. destruct EG as (i & Hin & _). apply AT in Hin. congruence.
  Qed.
  (* the fallback *)
  Lemma reads_fallback t word : (forall r, In r rules -> length (pr_comp r) <= 256) -> cderiv R (Non init 0) t word -> exists c d tree, cow_new (ct_word R t) = Some c /\ fallback rules c = Some tree /\ gs tree /\
    deriv (fun r => merged rules r /\ pr_weight r = wzero) init d /\ yield d = Some [word] /\ forall addr, gt_get addr tree = rule_at d addr.
  Proof.
    intros HC CD. destruct (cderiv_k KL factorize rules NF _ _ _ _ CD) as (kt & KD & CW & _). exists (cow_of rules kt).
    destruct (fallback_kword rules (fun r Hr => proj1 (LR r Hr)) kt init word KD) as (d & tree & E & GS & D & Y & AT). exists d, tree. split; [rewrite CW; eapply (cow_new_kword rules HA HC); exact KD|]. auto.
  Qed.

  (* a nonterminal of fanout one that derives a single token in the approximation does so in the grammar *)
  Lemma kyield_ne : forall kt A k u, kderiv kt A k u -> u <> [].
  Proof.
    induction kt as [i0 k0 kts IH] using ktree_ind2. intros A k u D. cbn [P_ToDeriv.kderiv] in D. destruct D as (-> & r & c & Ei & <- & Ek & D). destruct D as [(t & -> & -> & ->)|(us & -> & F)]; [discriminate|].
    destruct (comp_cases rules NF i0 r k c Ei Ek) as [(t & _ & -> & _)|[C0 _]]; [destruct kts; cbn in F; try contradiction; destruct us; contradiction|].
    destruct c as [|x c]; [contradiction|]. destruct kts as [|kt kts], us as [|u us]; cbn in F; try contradiction; try (destruct x; contradiction). destruct x as [i1 j1|]; [|contradiction]. destruct F as [(B & _ & D) _]. inversion IH as [|? ? I1 _]; subst. cbn. intros E. apply app_eq_nil in E. now apply (I1 _ _ _ D).
  Qed.
  Lemma single_token : forall kt A u t, kderiv kt A 0 u -> f A = 1 -> u = [t] -> exists d, deriv (fun r => In r rules) A d /\ yield d = Some [[t]].
  Proof.
    induction kt as [i0 k0 kts IH] using ktree_ind2. intros A u t D FA ->. cbn [P_ToDeriv.kderiv] in D. destruct D as (-> & r & c & Ei & <- & Ek & D). pose proof (nth_error_In _ _ Ei) as Hr. destruct (NF r Hr) as (_ & _ & TN). pose proof (FO r Hr) as LC. rewrite FA in LC.
    assert (PC : pr_comp r = [c]) by (destruct (pr_comp r) as [|c0 [|c1 cs]]; try discriminate; cbn in Ek; congruence).
    destruct D as [(t' & -> & -> & [= <-])|(us & EU & F)].
    - exists (DNode r []). split; [constructor; [exact Hr|]; rewrite (TN t PC); constructor|]. cbn. now rewrite PC.
    - destruct (comp_cases rules NF i0 r 0 c Ei Ek) as [(t' & _ & -> & _)|[C0 _]]; [destruct kts; cbn in F; try contradiction; destruct us; contradiction|].
      destruct c as [|x c]; [contradiction|]. destruct kts as [|kt kts], us as [|u us]; cbn in F; try contradiction; try (destruct x; contradiction). destruct x as [i1 j1|]; [|contradiction]. destruct F as [(B & EB & D) F].
      assert (X : c = [] /\ us = [] /\ u = [t]).
      { pose proof (kyield_ne _ _ _ _ D) as NE. destruct c as [|x c], kts as [|kt2 kts], us as [|u2 us]; cbn in F; try contradiction; try (destruct x; contradiction).
        - cbn in EU. rewrite app_nil_r in EU. auto.
        - destruct x as [i2 j2|]; [|contradiction]. destruct F as [(B2 & _ & D2) _]. pose proof (kyield_ne _ _ _ _ D2) as NE2. exfalso. cbn in EU. destruct u as [|t1 [|t2 u]]; [contradiction| |discriminate]. destruct u2; [contradiction|]. discriminate. }
      destruct X as (-> & -> & ->). destruct (LR r Hr) as (_ & VE & NDL). unfold nondeleting in NDL. rewrite PC in NDL.
      assert (OF : forall i B', nth_error (pr_tail r) i = Some B' -> i = i1 /\ f B' = 1 /\ j1 = 0).
      { intros i B' EB'. destruct (DT r B' Hr (nth_error_In _ _ EB')) as (r' & Hr' & HB'). pose proof (FO r' Hr') as L'. destruct (NF r' Hr') as (NE' & _ & _). rewrite HB' in L'. assert (0 < f B') by (destruct (pr_comp r'); [contradiction|cbn in L'; lia]).
        assert (ALL : forall j, j < f B' -> i = i1 /\ j = j1) by (intros j Hj; specialize (NDL i B' j EB' Hj); cbn in NDL; destruct NDL as [[= -> ->]|[]]; auto). destruct (ALL 0 ltac:(lia)) as [-> <-]. split; [reflexivity|]. split; [|reflexivity]. destruct (Nat.eq_dec (f B') 1) as [|NE1]; [assumption|]. destruct (ALL 1 ltac:(lia)) as [_ ?]. discriminate. }
      destruct (OF i1 B EB) as (_ & FB & ->). assert (TL : pr_tail r = [B] /\ i1 = 0).
      { destruct (pr_tail r) as [|B0 tl0] eqn:ET; [destruct i1; discriminate|]. destruct (OF 0 B0 eq_refl) as (<- & _). cbn in EB. injection EB as ->. destruct tl0 as [|B1 tl1]; [auto|]. destruct (OF 1 B1 eq_refl) as [? _]. discriminate. }
      destruct TL as [TL ->]. inversion IH as [|? ? I1 _]; subst. destruct (I1 B [t] t D FB eq_refl) as (d & Dd & Yd). exists (DNode r [d]). split; [constructor; [exact Hr|]; rewrite TL; constructor; [exact Dd|constructor]|]. cbn. rewrite PC. cbn. rewrite Yd. reflexivity.
  Qed.
End G.
