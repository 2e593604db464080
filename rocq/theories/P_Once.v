(* Every derivation of the grammar is read off one derivation of the approximation: bracket words determine the derivations of
   the approximation they come from, and trees of rules determine the bracket words. *)
From Verif Require Import Base BMap M_Util M_Recog M_Automata M_TreeStack M_Grammar M_Chart M_CSAuto S_Grammar S_CS S_RuleMask P_Recog P_TreeStack P_Grammar P_GrammarCFG P_Conversion M_ToDeriv P_ToDeriv P_FromPmcfg3 P_CSParse.
From Coq Require Import ZArith.

(* ---- brackets ---- *)
Section Depth.
  Notation br := (bracket bcontent).
  Open Scope Z_scope.
  Definition bd (x : br) : Z := match x with Open _ => 1 | Close _ => -1 end.
  Fixpoint depth (w : list br) : Z := match w with [] => 0 | x :: w => bd x + depth w end.
  Lemma depth_app a b : depth (a ++ b) = depth a + depth b.
  Proof. induction a as [|x a IH]; [reflexivity|]. cbn [app depth]. rewrite IH. lia. Qed.
  Definition bal (w : list br) : Prop := depth w = 0 /\ forall a b, w = a ++ b -> 0 <= depth a.
  Lemma bal_nil : bal [].
  Proof. split; [reflexivity|]. intros [|x a] b E; [cbn; lia|discriminate]. Qed.
  Lemma bal_app u v : bal u -> bal v -> bal (u ++ v).
  Proof.
    intros [D1 B1] [D2 B2]. split; [rewrite depth_app; lia|]. intros a b E. destruct (app_eq_app _ _ _ _ E) as (l & [[E1 E2]|[E1 E2]]); [now apply (B1 a l)|].
    subst a. rewrite depth_app, D1. specialize (B2 l b E2). lia.
  Qed.
  Lemma prime_prefix c w a b : bal w -> Open c :: w ++ [Close c] = a ++ b -> a <> [] -> b <> [] -> 1 <= depth a.
  Proof.
    intros [D B] E A0 B0. destruct a as [|x a]; [contradiction|]. cbn in E. injection E as <- E. cbn [depth bd]. destruct (exists_last B0) as (b' & y & ->). rewrite app_assoc in E. apply app_inj_tail in E. destruct E as [E _]. specialize (B a b' E). lia.
  Qed.
  Lemma bal_wrap c w : bal w -> bal (wrap c w).
  Proof.
    unfold wrap. destruct (is_ignore c); [auto|]. intros BW. split; [cbn [depth bd]; rewrite depth_app, (proj1 BW); reflexivity|]. intros [|x a] b E; [cbn; lia|]. destruct b as [|y b].
    - rewrite app_nil_r in E. rewrite <- E. cbn [depth bd]. rewrite depth_app, (proj1 BW). cbn. lia.
    - pose proof (prime_prefix c w (x :: a) (y :: b) BW E). specialize (H ltac:(discriminate) ltac:(discriminate)). lia.
  Qed.
  (* the last group of a word *)
  Lemma last_group u c w u' c' w' : bal w -> bal w' -> is_ignore c = false -> is_ignore c' = false -> u ++ wrap c w = u' ++ wrap c' w' -> u = u' /\ c = c' /\ w = w'.
  Proof.
    intros B B' I I' E. unfold wrap in E. rewrite I, I' in E.
    assert (X : forall u c w u' c' w', bal w -> bal w' -> forall l, u = u' ++ l -> Open c' :: w' ++ [Close c'] = l ++ Open c :: w ++ [Close c] -> l = []).
    { clear. intros u c w u' c' w' B B' [|x l] E1 E2; [reflexivity|]. pose proof (prime_prefix c' w' (x :: l) _ B' E2 ltac:(discriminate) ltac:(discriminate)) as L. apply (f_equal depth) in E2. rewrite depth_app in E2. cbn [depth bd] in *. rewrite !depth_app, (proj1 B), (proj1 B') in E2. cbn [depth bd] in E2. lia. }
    assert (Y : u = u' /\ Open c :: w ++ [Close c] = Open c' :: w' ++ [Close c']).
    { destruct (app_eq_app _ _ _ _ E) as (l & [[E1 E2]|[E1 E2]]); assert (l = []) as -> by (eapply X; [| |exact E1|exact E2]; assumption); rewrite app_nil_r in E1; now subst. }
    destruct Y as [-> Y]. injection Y as <- Y. apply app_inj_tail in Y. destruct Y as [-> _]. auto.
  Qed.
  Lemma bal_word {Q T W} (R : list (crule Q T W)) t : bal (ct_word R t).
  Proof.
    induction t as [r|r t IH|r t1 IH1 t2 IH2]; cbn [ct_word]; destruct (rule_brackets R r) as [[ob lb] rb]; repeat (apply bal_wrap || apply bal_app || apply bal_nil); assumption.
  Qed.
End Depth.
Lemma wrap_inj c u v : wrap c u = wrap c v -> u = v.
Proof. unfold wrap. destruct (is_ignore c); [auto|]. intros [= E]. now apply app_inj_tail in E. Qed.

Section Once.
  Context {N T : Type} {K : ZWeight} (KL : ZWeightLaws K) (factorize : K -> nat -> list K) (FL : FactorLaws factorize).
  Context (rules : list (prule N T K)) (init : N) (f : N -> nat).
  Notation R := (cs_rules factorize rules).
  Context (FO : fanouts_ok rules f) (FI : f init = 1) (LR : forall r, In r rules -> lcfrs_rule f r) (NF : forall r, In r rules -> mask_nf r) (DT : defined_tails rules).
  Context (HA : forall r, In r rules -> length (pr_tail r) <= 256).

  (* ---- a rule of the approximation is known by its left-hand side and its outer bracket ---- *)
  Definition key (x : crule (cstate N) T K) : cstate N * bcontent := (cr_lhs x, fst (fst (cr_br x))).
  Lemma rest_keys i (r : prule N T K) k : forall rest off left, NoDup (map key (cs_rest i r k off left rest)) /\
    forall y, In y (map key (cs_rest i r k off left rest)) -> y = (Non (pr_head r) k, BComp i (u8 k)) \/ exists m, off <= m /\ y = (Uniq i k m, Ignore).
  Proof.
    induction rest as [|x rest IH]; intros off left; cbn [cs_rest map]; [split; [constructor|intros y []]|].
    destruct (IH (S off) (part_state i r k off rest)) as [ND KS]. split.
    - constructor; [|exact ND]. intros Hin. destruct rest as [|x' rest]; [destruct Hin|]. apply KS in Hin. unfold key in Hin. cbn in Hin. destruct Hin as [Hin|(m & L & Hin)]; [discriminate|]. injection Hin as <-. lia.
    - intros y [<-|Hy]; [unfold key; cbn; destruct rest; cbn; [now left|right; exists off; auto]|]. apply KS in Hy. destruct Hy as [Hy|(m & L & Hy)]; [now left|right; exists m; split; [lia|exact Hy]].
  Qed.
  Lemma comp_keys i (r : prule N T K) k c w : NoDup (map key (cs_component i r k c w)) /\
    forall y, In y (map key (cs_component i r k c w)) -> y = (Non (pr_head r) k, BComp i (u8 k)) \/ exists m, y = (Uniq i k m, Ignore).
  Proof.
    assert (ONE : forall y : cstate N * bcontent, NoDup [y] /\ (forall z, In z [y] -> z = y)) by (intros y; split; [constructor; [intros []|constructor]|intros z [<-|[]]; reflexivity]).
    destruct c as [|x1 [|x2 rest]]; [cbn; split; [constructor|intros y []]| |].
    - assert (EX : map key (cs_component i r k [x1] w) = [(Non (pr_head r) k, BComp i (u8 k))]) by (destruct x1; reflexivity). rewrite EX. destruct (ONE (Non (pr_head r) k, BComp i (u8 k))) as [O1 O2]. split; [exact O1|]. intros y Hy. left. now apply O2.
    - assert (EX : cs_component i r k (x1 :: x2 :: rest) w = CRule (part_state i r k 0 rest) (RB (var_state r k x1) (var_state r k x2)) w (part_bracket i k rest, var_bracket i x1, var_bracket i x2) :: cs_rest i r k 1 (part_state i r k 0 rest) rest) by (destruct x1; reflexivity).
      rewrite EX. cbn [map]. destruct (rest_keys i r k rest 1 (part_state i r k 0 rest)) as [ND KS]. split.
      + constructor; [|exact ND]. intros Hin. destruct rest as [|x rest]; [destruct Hin|]. apply KS in Hin. unfold key in Hin. cbn in Hin. destruct Hin as [Hin|(m & L & Hin)]; [discriminate|]. injection Hin as <-. lia.
      + intros y [<-|Hy]; [unfold key; cbn; destruct rest; cbn; [now left|right; eauto]|]. apply KS in Hy. destruct Hy as [Hy|(m & _ & Hy)]; [now left|right; eauto].
  Qed.
  Lemma comps_keys i (r : prule N T K) cs : forall k, NoDup (map key (cs_components i r k cs)) /\
    forall y, In y (map key (cs_components i r k cs)) -> exists k', k <= k' /\ (y = (Non (pr_head r) k', BComp i (u8 k')) \/ exists m, y = (Uniq i k' m, Ignore)).
  Proof.
    induction cs as [|[c w] cs IH]; intros k; cbn [cs_components]; [cbn; split; [constructor|intros y []]|]. destruct (comp_keys i r k c w) as [N1 K1]. destruct (IH (S k)) as [N2 K2]. rewrite map_app. split.
    - apply NoDup_app_intro; [exact N1|exact N2|]. intros y Y1 Y2. apply K1 in Y1. apply K2 in Y2. destruct Y2 as (k' & L & [->|(m' & ->)]), Y1 as [Y1|(m & Y1)]; try discriminate; injection Y1 as E; lia.
    - intros y Hy. apply in_app_or in Hy. destruct Hy as [Hy|Hy]; [exists k; split; [lia|now apply K1]|]. apply K2 in Hy. destruct Hy as (k' & L & Hy). exists k'. split; [lia|exact Hy].
  Qed.
  Lemma rules_keys : NoDup (map key R).
  Proof.
    unfold cs_rules. assert (G : forall rs i, NoDup (map key (cs_rules_from factorize i rs)) /\ forall y, In y (map key (cs_rules_from factorize i rs)) -> exists i', i <= i' /\ ((exists A k, y = (Non A k, BComp i' (u8 k))) \/ exists k m, y = (Uniq i' k m, Ignore))); [|apply G].
    induction rs as [|r rs IH]; intros i; cbn [cs_rules_from]; [cbn; split; [constructor|intros y []]|]. unfold cs_rule. destruct (comps_keys i r (combine (pr_comp r) (factorize (pr_weight r) (length (pr_comp r)))) 0) as [N1 K1]. destruct (IH (S i)) as [N2 K2]. rewrite map_app. split.
    - apply NoDup_app_intro; [exact N1|exact N2|]. intros y Y1 Y2. apply K1 in Y1. apply K2 in Y2. destruct Y2 as (i' & L & [(A & k' & ->)|(k' & m' & ->)]), Y1 as (k & _ & [Y1|(m & Y1)]); try discriminate; injection Y1; intros; lia.
    - intros y Hy. apply in_app_or in Hy. destruct Hy as [Hy|Hy]; [apply K1 in Hy; exists i; split; [lia|]; destruct Hy as (k & _ & [Hy|(m & Hy)]); [left|right]; eauto|]. apply K2 in Hy. destruct Hy as (i' & L & Hy). exists i'. split; [lia|exact Hy].
  Qed.
  Lemma same_key a b x y : nth_error R a = Some x -> nth_error R b = Some y -> key x = key y -> a = b.
  Proof.
    intros Ea Eb E. apply (proj1 (NoDup_nth_error _) rules_keys); [rewrite map_length; apply nth_error_Some; congruence|]. rewrite !nth_error_map, Ea, Eb. cbn. now f_equal.
  Qed.
  Lemma outer x : In x R -> match cr_lhs x with Non _ _ => is_ignore (fst (fst (cr_br x))) = false | Uniq _ _ _ => fst (fst (cr_br x)) = Ignore end.
  Proof.
    intros Hx. apply in_cs_rules in Hx. destruct Hx as (i & r & k & c & w & _ & _ & _ & Hx). destruct (comp_keys i r k c w) as [_ KS]. specialize (KS (key x) (in_map key _ _ Hx)). unfold key in KS. destruct KS as [E|(m & E)]; injection E as E1 E2; rewrite E1, E2; reflexivity.
  Qed.
  (* ---- bracket words determine derivations ---- *)
  Lemma word_cases q a b x y u v : nth_error R a = Some x -> nth_error R b = Some y -> cr_lhs x = q -> cr_lhs y = q -> wrap (fst (fst (cr_br x))) u = wrap (fst (fst (cr_br y))) v -> a = b /\ u = v.
  Proof.
    intros Ea Eb E1 E2 E. pose proof (outer x (nth_error_In _ _ Ea)) as Ox. pose proof (outer y (nth_error_In _ _ Eb)) as Oy. rewrite E1 in Ox. rewrite E2 in Oy.
    assert (X : fst (fst (cr_br x)) = fst (fst (cr_br y))). { destruct q; [|congruence]. unfold wrap in E. rewrite Ox, Oy in E. now injection E. }
    split; [apply (same_key a b x y Ea Eb); unfold key; congruence|]. rewrite X in E. now apply wrap_inj in E.
  Qed.
  Lemma word_inj : forall t q u, cderiv R q t u -> forall t' u', cderiv R q t' u' -> ct_word R t = ct_word R t' -> t = t'.
  Proof.
    assert (WD : forall t q u, cderiv R q t u -> exists rr x v, nth_error R rr = Some x /\ cr_lhs x = q /\ ct_word R t = wrap (fst (fst (cr_br x))) v /\
      match t with CNull r => r = rr | CUn r t1 => r = rr /\ v = wrap (snd (fst (cr_br x))) (ct_word R t1) | CBin r t1 t2 => r = rr /\ v = wrap (snd (fst (cr_br x))) (ct_word R t1) ++ wrap (snd (cr_br x)) (ct_word R t2) end).
    { intros t q u D. destruct D as [rr q t w b E|rr q q1 w b t u E D|rr q q1 q2 w b t1 t2 u1 u2 E D1 D2]; cbn [ct_word]; unfold rule_brackets; rewrite E; cbn [cr_br]; destruct b as [[ob lb] rb]; exists rr; eexists; eexists; (split; [exact E|]); (split; [reflexivity|]); (split; [reflexivity|]); auto. }
    intros t q u D. induction D as [rr q t w b E|rr q q1 w b t u E D IH|rr q q1 q2 w b t1 t2 u1 u2 E D1 IH1 D2 IH2]; intros t' u' D' EW.
    - destruct (WD _ _ _ (cd_null R rr q t w b E)) as (r1 & x1 & v1 & X1 & X2 & X3 & X4). destruct (WD _ _ _ D') as (r2 & x2 & v2 & Y1 & Y2 & Y3 & Y4). rewrite X3, Y3 in EW. destruct (word_cases q _ _ _ _ _ _ X1 Y1 X2 Y2 EW) as [-> ->]. clear X2 Y2 X3 Y3 EW. subst rr.
      inversion D' as [rr' q' t0 w' b' E'|rr' q' q1' w' b' t0 u0 E' D0|rr' q' q1' q2' w' b' t1' t2' u1' u2' E' D1' D2']; subst; cbn in Y4; [congruence| |]; destruct Y4 as [-> _]; rewrite E in E'; discriminate.
    - destruct (WD _ _ _ (cd_un R rr q q1 w b t u E D)) as (r1 & x1 & v1 & X1 & X2 & X3 & X4). destruct (WD _ _ _ D') as (r2 & x2 & v2 & Y1 & Y2 & Y3 & Y4). rewrite X3, Y3 in EW. destruct (word_cases q _ _ _ _ _ _ X1 Y1 X2 Y2 EW) as [-> ->]. clear X2 Y2 X3 Y3 EW. destruct X4 as [-> EV].
      inversion D' as [rr' q' t0 w' b' E'|rr' q' q1' w' b' t0 u0 E' D0|rr' q' q1' q2' w' b' t1' t2' u1' u2' E' D1' D2']; subst; cbn in Y4; [rewrite Y4 in E'; rewrite E in E'; discriminate| |destruct Y4 as [-> _]; rewrite E in E'; discriminate].
      destruct Y4 as [-> EV']. rewrite E in E'. injection E' as <- <- <-. rewrite E in X1, Y1. injection X1 as <-. injection Y1 as <-. cbn [cr_br] in EV'. apply wrap_inj in EV'. f_equal. now apply (IH _ _ D0).
    - destruct (WD _ _ _ (cd_bin R rr q q1 q2 w b t1 t2 u1 u2 E D1 D2)) as (r1 & x1 & v1 & X1 & X2 & X3 & X4). destruct (WD _ _ _ D') as (r2 & x2 & v2 & Y1 & Y2 & Y3 & Y4). rewrite X3, Y3 in EW. destruct (word_cases q _ _ _ _ _ _ X1 Y1 X2 Y2 EW) as [-> ->]. clear X2 Y2 X3 Y3 EW. destruct X4 as [-> EV].
      inversion D' as [rr' q' t0 w' b' E'|rr' q' q1' w' b' t0 u0 E' D0|rr' q' q1' q2' w' b' t1' t2' u1' u2' E' D1' D2']; subst; cbn in Y4; [rewrite Y4 in E'; rewrite E in E'; discriminate|destruct Y4 as [-> _]; rewrite E in E'; discriminate|].
      destruct Y4 as [-> EV']. rewrite E in E'. injection E' as <- <- <- <-. rewrite E in X1, Y1. injection X1 as <-. injection Y1 as <-. cbn [cr_br] in EV'.
      assert (NI : is_ignore (snd b) = false). { destruct (cs_at factorize rules init f FI _ _ E) as (i & r & k & c & w' & Ei & _ & Ek & Hx). pose proof (cs_bracket rules NF i r k c w' _ Ei Ek Hx) as NB. cbn [cr_br cr_rhs] in NB. destruct b as [[b1 b2] b3]. now apply (names_br b3 i). }
      destruct (last_group _ _ _ _ _ _ (bal_word R t2) (bal_word R t2') NI NI EV') as (EL & _ & ER). apply wrap_inj in EL. f_equal; [now apply (IH1 _ _ D1')|now apply (IH2 _ _ D2')].
  Qed.
  (* ---- trees of rules determine bracket words ---- *)
  Lemma reads_rep t word tree : cderiv R (Non init 0) t word -> toderiv rules (ct_word R t) = Some (Some tree) ->
    exists x d, rep rules x d /\ ct_word R t = kword rules (comp_tree rules x 0) /\ forall addr, gt_get addr tree = rule_at d addr.
  Proof.
    intros CD. destruct (cderiv_k KL factorize rules NF _ _ _ _ CD) as (kt & KD & CW & CK). rewrite CW.
    destruct (toderiv_kword rules _ _ _ _ KD (fun p i => visits_lt rules _ _ _ _ KD [] p i)) as (T1 & _ & T3). intros ET. destruct (T1 tree ET) as (TS & TG & FN).
    destruct (join rules NF f FO LR DT (kheight kt) init [] [kt] [word]) as (x & d & RX & D & Y & KT).
    - intros kt' [<-|[]]. lia.
    - now rewrite FI.
    - now rewrite FI.
    - lia.
    - intros [|[|k]] kt' u; cbn; try discriminate. intros E1 E2. injection E1 as <-. injection E2 as <-. exact KD.
    - intros kt' kt'' q i j [<-|[]] [<-|[]]. apply FN.
    - specialize (KT 0 kt eq_refl). subst kt. exists x, d. split; [exact RX|]. split; [reflexivity|].
      assert (AT : forall p i, In (p, i) (visits rules (comp_tree rules x 0) []) -> id_at x p = Some i). { intros p i Hin. destruct (visits_comp rules NF HA x d init 0 RX D [] p i Hin) as (ad & -> & Ha). exact Ha. }
      intros addr. rewrite (rep_at rules x d RX addr). destruct (id_at x addr) as [i|] eqn:EA.
      + destruct (id_at_lt rules x d RX addr i EA) as (r & Er). rewrite Er. apply TG. exists i. split; [|exact Er]. destruct (visits_cover rules NF f FO LR HA x d init RX D addr i [] EA) as (k & Hk & Hin). rewrite FI in Hk. assert (k = 0) by lia. subst k. exact Hin.
      + destruct (gt_get addr tree) as [r|] eqn:EG; [|reflexivity]. apply TG in EG. destruct EG as (i & Hin & _). apply AT in Hin. congruence.
  Qed.
  Lemma rep_inj : NoDup rules -> forall x d, rep rules x d -> forall x', rep rules x' d -> x = x'.
  Proof.
    intros ND. induction x as [i xs IH] using idt_ind2. intros d RX [i' xs'] RX'. inversion RX as [i0 r xs0 ds Ei F2]; subst. inversion RX' as [i0 r' xs0 ds' Ei' F2']; subst.
    assert (i = i') as <-. { apply (proj1 (NoDup_nth_error _) ND); [apply nth_error_Some; congruence|congruence]. } f_equal. clear -IH F2 F2'. revert ds xs' F2 F2'. induction IH as [|x xs H1 _ IHl]; intros ds xs' F2 F2'; inversion F2; subst; inversion F2'; subst; [reflexivity|]. f_equal; [eapply H1; eassumption|eapply IHl; eassumption].
  Qed.
  Lemma once t t' word word' tree : NoDup rules -> cderiv R (Non init 0) t word -> cderiv R (Non init 0) t' word' ->
    toderiv rules (ct_word R t) = Some (Some tree) -> toderiv rules (ct_word R t') = Some (Some tree) -> t = t'.
  Proof.
    intros ND D D' E E'. destruct (reads_rep _ _ _ D E) as (x & d & RX & EW & EG). destruct (reads_rep _ _ _ D' E') as (x' & d' & RX' & EW' & EG').
    assert (d = d') as <- by (apply rule_at_ext; intros a; congruence). assert (x = x') as <- by (eapply rep_inj; eassumption). eapply word_inj; [exact D|exact D'|congruence].
  Qed.
End Once.
