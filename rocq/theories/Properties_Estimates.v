(* C26: the inside and outside estimates.  C24: the table of outside estimates. *)
From Coq Require Import NArith.
From Verif Require Import Base M_Util M_Agenda M_Grammar M_Chart S_Chart P_Chart M_CSAuto S_Grammar S_CS P_CSAuto P_FillChart M_Estimates S_Estimates P_Estimates Properties_Chart.

(* ---- C24, continued: the table of outside estimates ---- *)
(* the first non-zero weight inserted for a state and a span *)
Definition first_weight {K : ZWeight} (h : list (@entry K)) (i j q : nat) : K :=
  match find (fun e => Nat.eqb i (fst (fst e)) && Nat.eqb j (snd (fst e)) && Nat.eqb q (fst (snd e)) && negb (weqb (snd (snd e)) wzero)) h with
  | Some e => snd (snd e) | None => wzero end.
Definition so_inserts {K : ZWeight} (h : list (@entry K)) (s : @sx_outside K) : option (@sx_outside K) :=
  fold_left (fun os e => match os with Some s => so_insert (fst (snd e)) (fst (fst e)) (snd (fst e)) (snd (snd e)) s | None => None end) h (Some s).

(* C24: a table of outside estimates behaves as a map from (state, span) that keeps the first value inserted; the value
   for the span (i, j) of a table of width m is what [get] finds for each constituent of each sentence with i tokens to
   its left and m - j tokens to its right *)
Theorem C24_outside_table :
  forall (K : ZWeight) (KL : ZWeightLaws K) (states m : nat) (h : list (@entry K)),
    (forall i j q w, In (i, j, (q, w)) h -> span m i j /\ q < states) ->
    exists s, so_inserts h (so_with_capacity states m) = Some s /\
      forall q i j n, q < states -> span n i j -> i + (n - j) < m ->
        so_get s q i j n = Some (let w := first_weight h i (m - (n - j)) q in if weqb w wzero then None else Some w).
Proof.
  intros K KL ns m h HH.
  set (a := Automaton (T := unit) (W := K) (repeat [] ns) [] [] [] [] [] 0 []). assert (NS : M_CSAuto.states a = ns) by (unfold M_CSAuto.states; cbn; apply repeat_length).
  assert (X : forall h s g, orep a m s g -> (forall i j q w, In (i, j, (q, w)) h -> span m i j /\ q < ns) -> exists s', so_inserts h s = Some s' /\
    orep a m s' (fun i j q => if weqb (g i j q) wzero then first_weight h i j q else g i j q)).
  { clear h HH. induction h as [|[[i0 j0] [q0 w0]] h IH]; intros s g HR HH.
    - exists s. split; [reflexivity|]. destruct HR as (A0 & A1 & A2 & A3). repeat (split; [assumption|]). intros i j q HS Hq. rewrite A3 by assumption. f_equal. unfold first_weight. cbn [find]. destruct (weqb (g i j q) wzero) eqn:Z; [now apply (zl_eqb _ KL)|reflexivity].
    - unfold so_inserts. cbn [fold_left fst snd]. destruct (HH i0 j0 q0 w0 (or_introl eq_refl)) as [S0 Q0]. rewrite <- NS in Q0. destruct (so_insert_spec a m s g i0 j0 q0 w0 HR S0 Q0) as (s1 & -> & HR1).
      destruct (IH s1 _ HR1) as (s' & E & HR'); [intros; apply (HH i j q w); now right|]. exists s'. split; [exact E|].
      destruct HR' as (A0 & A1 & A2 & A3). repeat (split; [assumption|]). intros i j q HS Hq. rewrite A3 by assumption. f_equal. unfold first_weight at 2. cbn [find fst snd]. fold (first_weight h i j q). unfold is_zero.
      destruct (Nat.eqb_spec i i0); cbn [andb]; [|reflexivity]. destruct (Nat.eqb_spec j j0); cbn [andb]; [|reflexivity]. destruct (Nat.eqb_spec q q0); cbn [andb]; [|reflexivity]. subst i0 j0 q0.
      destruct (weqb (g i j q) wzero) eqn:Z; cbn [andb]; [|now rewrite Z]. destruct (weqb w0 wzero) eqn:Z0; reflexivity. }
  destruct (X h (so_with_capacity ns m) (fun _ _ _ => wzero)) as (s & E & A0 & A1 & A2 & A3); [|assumption|].
  - split; [reflexivity|]. split; [symmetry; exact NS|]. rewrite NS. assert (CS : ns * m * (m + 1) / 2 = chart_size m * ns). { rewrite <- chart_size_ws. unfold chart_size_with_states. f_equal. lia. } cbn [so_tab so_with_capacity]. rewrite CS, repeat_length. split; [reflexivity|]. intros i j q HS Hq. apply nth_error_repeat. pose proof (cell_range m i j HS). nia.
  - exists s. split; [exact E|]. intros q i j n Hq [HS1 HS2] Hm. rewrite NS in *. unfold so_get. rewrite A0. destruct (Nat.ltb_spec (i + n) j); [lia|]. destruct (Nat.leb_spec m (i + n - j)); [lia|]. destruct (Nat.ltb_spec (j + m) n); [lia|].
    replace (j + m - n) with (m - (n - j)) by lia. set (j' := m - (n - j)). assert (SP : span m i j') by (unfold span, j'; lia). unfold so_index. rewrite A0, A1, (index_ws_some _ _ _ _ _ SP), (A3 i j' q SP Hq).
    rewrite (proj2 (zl_eqb _ KL wzero wzero) eq_refl). reflexivity.
Qed.
Print Assumptions C24_outside_table.

Example C24_outside_example :
  let h : list (@entry TropWeight) := [(0, 2, (1, Some 3)); (0, 2, (1, Some 5)); (1, 2, (0, Some 4)); (0, 3, (0, Some 0))] in
  (forall i j q w, In (i, j, (q, w)) h -> span 3 i j /\ q < 2) /\
  option_map (fun s => (so_get s 1 0 6 7, so_get s 0 1 3 4, so_get s 1 0 7 7, so_get s 0 4 5 9)) (so_inserts h (so_with_capacity 2 3))
  = Some (Some (Some (Some 3)), Some (Some (Some 4)), Some None, Some (Some (Some 0))).
Proof.
  split; [|reflexivity]. intros i j q w H. unfold span. repeat (destruct H as [H|H]; [injection H as <- <- <- <-; lia|]). destruct H.
Qed.

(* ---- C26 ---- *)
(* what a context is: filled with a derivation from q it is a derivation from init, whose weight is the product *)
Theorem C26_contexts :
  forall (Q T : Type) (K : ZWeight) (KL : ZWeightLaws K) (R : list (crule Q T K)) (init q : Q) (i k : nat) (c : K),
    context R init q i k c -> exists left right, length left = i /\ length right = k /\
      forall t u, cderiv R q t u -> exists t', cderiv R init t' (left ++ u ++ right) /\ ct_weight R t' = wmul (ct_weight R t) c.
Proof.
  intros Q T K KL R init q i k c. pose proof (zl_weight _ KL) as WL.
  assert (WA : forall x y z : K, wmul x (wmul y z) = wmul (wmul x y) z) by (intros; apply (wl_assoc _ WL)). assert (WC : forall x y : K, wmul x y = wmul y x) by apply (wl_comm _ WL).
  assert (RW : forall r q rhs w b, nth_error R r = Some (CRule q rhs w b) -> rule_weight R r = w) by (intros r q0 rhs w b E; unfold rule_weight; now rewrite E).
  induction 1 as [|r q q1 w b i k c H1 H2 IH|r q q1 q2 w b i k c t0 u0 H1 H2 IH H3|r q q1 q2 w b i k c t0 u0 H1 H2 IH H3].
  - exists [], []. split; [reflexivity|]. split; [reflexivity|]. intros t u D. exists t. cbn. rewrite app_nil_r. split; [exact D|]. symmetry. rewrite WC. apply (wl_one_l _ WL).
  - destruct IH as (l & rr & L1 & L2 & HT). exists l, rr. split; [assumption|]. split; [assumption|]. intros t u D. destruct (HT (CUn r t) u) as (t' & D' & W'); [eapply cd_un; eassumption|]. exists t'. split; [exact D'|]. rewrite W'. cbn. rewrite (RW _ _ _ _ _ H1), WA. f_equal. apply WC.
  - destruct IH as (l & rr & L1 & L2 & HT). exists l, (u0 ++ rr). split; [assumption|]. split; [now rewrite app_length, L2|]. intros t u D. destruct (HT (CBin r t t0) (u ++ u0)) as (t' & D' & W'); [eapply cd_bin; eassumption|]. exists t'. rewrite <- !app_assoc in *. split; [exact D'|]. rewrite W'. cbn. rewrite (RW _ _ _ _ _ H1), !WA. f_equal. f_equal. apply WC.
  - destruct IH as (l & rr & L1 & L2 & HT). exists (l ++ u0), rr. split; [now rewrite app_length, L1|]. split; [assumption|]. intros t u D. destruct (HT (CBin r t0 t) (u0 ++ u)) as (t' & D' & W'); [eapply cd_bin; eassumption|]. exists t'. rewrite <- !app_assoc in *. split; [exact D'|]. rewrite W'. cbn. rewrite (RW _ _ _ _ _ H1), !WA. f_equal. rewrite (WC w (ct_weight R t0)). rewrite (WC (wmul (ct_weight R t0) w)). rewrite <- !WA. reflexivity.
Qed.
Print Assumptions C26_contexts.

Section Estimates.
  Context {T : Type} {K : ZWeight} (KL : ZWeightLaws K) (teqb : T -> T -> bool) (H : max_heap (K * nat) (@item_leb K))
          (a : automaton T K) (R : list (crule nat T K)) (PZ : presents teqb a R (states a))
          (W1 : forall x, In x R -> wleb (cr_weight x) wone = true) (W0 : forall x, In x R -> cr_weight x <> wzero)
          (NZ : (wone : K) <> wzero) (INI : au_initial a < states a).
  (* what a table of outside weights of width m says about one state and span *)
  Definition outside_bound (m : nat) (s : @sx_outside K) (n q l r : nat) : Prop :=
    let contexts c := context R (au_initial a) q l (n - r) c in
    (m <= l + (n - r) /\ so_get s q l r n = Some (Some wone)) \/
    (l + (n - r) < m /\ exists w, so_get s q l r n = Some (Some w) /\ (exists c, contexts c) /\ forall c, contexts c -> wleb c w = true) \/
    (l + (n - r) < m /\ so_get s q l r n = Some None /\ forall c, ~ contexts c).
  Lemma outside_tables m : m <= 254 -> exists s, outside_from_automaton H a m = Some s /\
    forall n q l r, q < states a -> span n l r -> outside_bound m s n q l r.
  Proof.
    intros Hm. unfold outside_from_automaton. destruct (inside_spec KL teqb H a R PZ W1 W0 m) as (si & gi & -> & IR & IOK).
    destruct (outside_loops KL teqb H a R PZ W1 W0 m si gi IR IOK INI Hm NZ) as (s & g & E & (A0 & A1 & A2 & A3) & OK). exists s. split; [exact E|].
    intros n q l r Hq [S1 S2]. unfold outside_bound. unfold so_get. rewrite A0. destruct (Nat.ltb_spec (l + n) r); [lia|]. destruct (Nat.leb_spec m (l + n - r)); [left; split; [lia|reflexivity]|right].
    destruct (Nat.ltb_spec (r + m) n); [lia|]. set (j := r + m - n). assert (SP : span m l j) by (unfold span, j; lia). unfold so_index. rewrite A0, A1, (index_ws_some _ _ _ _ _ SP), (A3 l j q SP Hq).
    specialize (OK l j SP q Hq). replace (m - j) with (n - r) in OK by (unfold j; lia). destruct OK as [O1 O2]. destruct (is_zero (g l j q)) eqn:Z.
    - right. split; [lia|]. split; [reflexivity|]. intros c HC. apply (is_zero_spec KL) in Z. apply O1 in HC. tauto.
    - left. split; [lia|]. apply (is_zero_false KL) in Z. exists (g l j q). split; [reflexivity|]. split; [now apply O2|]. intros c HC. now apply O1.
  Qed.
  Lemma needed s m n word : (forall q l r, q < states a -> span n l r -> outside_bound m s n q l r) -> length word = n ->
    forall (okc : nat -> nat -> nat -> nat -> Prop) q t l r, aderiv R okc word q t l r -> r <= n -> (exists c, context R (au_initial a) q l (n - r) c) ->
    aderiv R (fun rid q l r => okc rid q l r /\ exists w, so_get s q l r n = Some (Some w)) word q t l r.
  Proof.
    intros HB HL okc. assert (G : forall q l r c, q < states a -> span n l r -> context R (au_initial a) q l (n - r) c -> exists w, so_get s q l r n = Some (Some w)).
    { intros q l r c Hq HS HC. destruct (HB q l r Hq HS) as [(_ & E)|[(_ & w & E & _)|(_ & E & NO)]]; [eauto|eauto|]. destruct (NO c HC). }
    assert (LT : forall q t l r, aderiv R okc word q t l r -> l < r /\ q < states a /\ (r <= n -> cderiv R q t (sub word l r))).
    { intros q t l r D. pose proof (aderiv_cderiv R okc word q t l r D) as [L D']. assert (Hq : q < states a) by (destruct D as [rr q tt w b l E1|rr q q1 w b t i j E1|rr q q1 q2 w b t1 t2 i mm j E1]; apply nth_error_In, (pz_states _ _ _ _ PZ) in E1; tauto).
      split; [|split; [exact Hq|intros _; exact D']]. clear -D. induction D; lia. }
    induction 1 as [rr q tt w b l E1 E2 E3|rr q q1 w b t i j E1 E2 D IH|rr q q1 q2 w b t1 t2 i mm j E1 E2 D1 IH1 D2 IH2]; intros Hr (c & HC).
    - eapply ad_null; [exact E1|exact E2|]. split; [exact E3|]. eapply G; [|split; [|exact Hr]|exact HC]; [|lia]. apply nth_error_In, (pz_states _ _ _ _ PZ) in E1. tauto.
    - pose proof (LT _ _ _ _ D) as (L & Hq & _). eapply ad_un; [exact E1| |].
      + split; [exact E2|]. eapply G; [|split; [|exact Hr]|exact HC]; [|lia]. apply nth_error_In, (pz_states _ _ _ _ PZ) in E1. tauto.
      + apply IH; [exact Hr|]. eexists. eapply cx_un; eassumption.
    - pose proof (LT _ _ _ _ D1) as (L1 & Hq1 & C1). pose proof (LT _ _ _ _ D2) as (L2 & Hq2 & C2). specialize (C1 ltac:(lia)). specialize (C2 ltac:(lia)). eapply ad_bin with (m := mm); [exact E1| | |].
      + split; [exact E2|]. eapply G; [|split; [|exact Hr]|exact HC]; [|lia]. apply nth_error_In, (pz_states _ _ _ _ PZ) in E1. tauto.
      + apply IH1; [lia|]. eexists. replace (n - mm) with (length (sub word mm j) + (n - j)) by (rewrite sub_length; lia). eapply cx_left; eassumption.
      + apply IH2; [lia|]. eexists. replace mm with (i + length (sub word i mm)) at 1 by (rewrite sub_length; lia). eapply cx_right; eassumption.
  Qed.
End Estimates.

(* C26, inside weights: the table contains a value for a state and a length exactly if the state derives a word of that
   length, and the value is at least the weight of each such derivation *)
Theorem C26_inside_partial :
  forall (T : Type) (K : ZWeight) (KL : ZWeightLaws K) (teqb : T -> T -> bool) (H : max_heap (K * nat) (@item_leb K))
         (a : automaton T K) (R : list (crule nat T K)), presents teqb a R (states a) ->
    (forall x, In x R -> wleb (cr_weight x) wone = true) -> (forall x, In x R -> cr_weight x <> wzero) ->
  forall m, exists s, inside_from_automaton H a m = Some s /\
    forall q r, q < states a -> 1 <= r <= m ->
      let derives t := exists u, cderiv R q t u /\ length u = r in
      (exists w, si_get s q r = Some (Some w) /\ (exists t, derives t) /\ forall t, derives t -> wleb (ct_weight R t) w = true) \/
      (si_get s q r = Some None /\ forall t, ~ derives t).
Proof.
  intros T K KL teqb H a R PZ W1 W0 m. destruct (inside_spec KL teqb H a R PZ W1 W0 m) as (s & g & E & IR & OK). exists s. split; [exact E|]. intros q r Hq Hr derives.
  rewrite (si_get_spec a m s g r q IR Hr Hq). destruct (OK r Hr q Hq) as [O1 O2]. destruct (is_zero (g r q)) eqn:Z.
  - right. split; [reflexivity|]. intros t (u & D & L). apply (is_zero_spec KL) in Z. destruct (O1 t u D L). contradiction.
  - left. apply (is_zero_false KL) in Z. exists (g r q). split; [reflexivity|]. split; [destruct (O2 Z) as (t & u & D & L); exists t, u; auto|]. intros t (u & D & L). apply (O1 t u D L).
Qed.
Print Assumptions C26_inside_partial.

(* C26, outside weights: for each width up to 254 the table is built without panic; for each sentence and constituent the
   answer is one if the tokens beside the constituent are too many, and otherwise a value exactly if the state occurs in a
   derivation with that many tokens to its left and right, the value being at least the weight of the rest of each such
   derivation *)
Theorem C26_outside :
  forall (T : Type) (K : ZWeight) (KL : ZWeightLaws K) (teqb : T -> T -> bool) (H : max_heap (K * nat) (@item_leb K))
         (a : automaton T K) (R : list (crule nat T K)), presents teqb a R (states a) ->
    (forall x, In x R -> wleb (cr_weight x) wone = true) -> (forall x, In x R -> cr_weight x <> wzero) ->
    (wone : K) <> wzero -> au_initial a < states a ->
  forall m, m <= 254 -> exists s, outside_from_automaton H a m = Some s /\
    forall n q l r, q < states a -> span n l r -> outside_bound a R m s n q l r.
Proof. intros T K KL teqb H a R PZ W1 W0 NZ INI m Hm. now apply (outside_tables KL teqb H a R PZ W1 W0 NZ INI m). Qed.
Print Assumptions C26_outside.

(* C26: no constituent of a derivation of a sentence is pruned by the estimates *)
Theorem C26_needed_constituents_are_kept :
  forall (T : Type) (K : ZWeight) (KL : ZWeightLaws K) (teqb : T -> T -> bool) (H : max_heap (K * nat) (@item_leb K))
         (a : automaton T K) (R : list (crule nat T K)), presents teqb a R (states a) ->
    (forall x, In x R -> wleb (cr_weight x) wone = true) -> (forall x, In x R -> cr_weight x <> wzero) ->
    (wone : K) <> wzero -> au_initial a < states a ->
  forall m, m <= 254 -> exists s, outside_from_automaton H a m = Some s /\
    forall word t, cderiv R (au_initial a) t word ->
      aderiv R (fun rid q l r => exists w, so_get s q l r (length word) = Some (Some w)) word (au_initial a) t 0 (length word).
Proof.
  intros T K KL teqb H a R PZ W1 W0 NZ INI m Hm. destruct (outside_tables KL teqb H a R PZ W1 W0 NZ INI m Hm) as (s & E & HB). exists s. split; [exact E|]. intros word t D.
  assert (D0 : aderiv R (fun _ _ _ _ => True) word (au_initial a) t 0 (length word)) by (eapply cderiv_aderiv; [exact D|auto|lia|lia|now rewrite sub_all]).
  pose proof (needed teqb a R PZ INI s m (length word) word (HB (length word)) eq_refl _ _ _ _ _ D0 (le_n _)) as D1.
  assert (X : forall P Q : nat -> nat -> nat -> nat -> Prop, (forall a b c d, P a b c d -> Q a b c d) -> forall q t l r, aderiv R P word q t l r -> aderiv R Q word q t l r).
  { intros P Q PQ q t' l r. induction 1; [eapply ad_null|eapply ad_un|eapply ad_bin]; eauto. }
  eapply X; [|apply D1]; [cbn; intros; tauto|]. exists wone. replace (length word - length word) with 0 by lia. apply cx_root.
Qed.
Print Assumptions C26_needed_constituents_are_kept.

(* C26: hence the estimates do not change the result: with them the entry of the initial state over the whole sentence is
   still the maximal weight of a derivation, for every width up to 254 *)
Theorem C26_best_weight_is_kept :
  forall (T : Type) (K : ZWeight) (KL : ZWeightLaws K) (teqb : T -> T -> bool) (H : max_heap (K * nat) (@item_leb K))
         (a : automaton T K) (R : list (crule nat T K)), presents teqb a R (states a) ->
    (forall x, In x R -> wleb (cr_weight x) wone = true) -> (forall x, In x R -> cr_weight x <> wzero) ->
    (wone : K) <> wzero -> au_initial a < states a ->
  forall m word, m <= 254 -> length word <= 255 -> word <> [] -> (N.of_nat (states a) <= 65535)%N ->
    exists s c, outside_from_automaton H a m = Some s /\
      fill_chart teqb H a word (states a) wzero (so_get s) (repeat true (length R)) = Some c /\
      let trees t := cderiv R (au_initial a) t word in
      (exists w, get_weight c 0 (length word) (au_initial a) = Some (Some w) /\ best R trees w) \/
      (get_weight c 0 (length word) (au_initial a) = Some None /\ forall t, ~ trees t).
Proof.
  intros T K KL teqb H a R PZ W1 W0 NZ INI m word Hm Hn Hne HB. destruct (outside_tables KL teqb H a R PZ W1 W0 NZ INI m Hm) as (s & E & OB). exists s.
  destruct (C25_chart_is_optimal T K KL teqb H a R PZ word (states a) (so_get s) (repeat true (length R)) Hn) as (c & EC & HC); try assumption; try lia; [rewrite repeat_length; lia| |].
  - intros q l r Hq HS. destruct (OB (length word) q l r Hq HS) as [(_ & X)|[(_ & w & X & _)|(_ & X & _)]]; rewrite X; discriminate.
  - exists c. split; [exact E|]. split; [exact EC|]. intros trees. assert (LW : 0 < length word) by (destruct word; [contradiction|cbn; lia]). specialize (HC 0 (length word) (au_initial a) ltac:(split; lia) INI). cbn zeta in HC.
    assert (EQ : forall t, aderiv R (admitted (K := K) (repeat true (length R)) (so_get s) (length word)) word (au_initial a) t 0 (length word) <-> trees t).
    { intros t. split.
      - intros D. apply aderiv_cderiv in D. destruct D as [_ D]. now rewrite sub_all in D.
      - intros D. assert (RB : forall q t u, cderiv R q t u -> forall rid, In rid (ct_rules t) -> rid < length R).
        { clear. induction 1 as [r q t w b H1|r q q1 w b t u H1 H2 IH|r q q1 q2 w b t1 t2 u1 u2 H1 H2 IH1 H3 IH2]; cbn; intros rid; [intros [<-|[]]|intros [<-|Hin]|intros [<-|Hin]]; try (apply nth_error_Some; congruence); [auto|]. apply in_app_iff in Hin. destruct Hin; auto. }
        assert (D0 : aderiv R (fun rid _ _ _ => nth_error (repeat true (length R)) rid = Some true) word (au_initial a) t 0 (length word)).
        { eapply cderiv_aderiv; [exact D| |lia|lia|now rewrite sub_all]. intros rid q l r Hin. apply nth_error_repeat. eapply RB; eassumption. }
        apply (needed teqb a R PZ INI s m (length word) word (OB (length word)) eq_refl _ _ _ _ _ D0 (le_n _)). exists wone. replace (length word - length word) with 0 by lia. apply cx_root. }
    destruct HC as [(w & E1 & [(t & D & Wt) M])|[E1 NO]]; [left|right].
    + exists w. split; [exact E1|]. split; [exists t; split; [now apply EQ|exact Wt]|]. intros t' D'. apply M. now apply EQ.
    + split; [exact E1|]. intros t D. apply (NO t). now apply EQ.
Qed.
Print Assumptions C26_best_weight_is_kept.

(* C26: the width 255, which the constructor accepts, always panics (right_front + 1 does not fit into u8) *)
Lemma wide_panics {T : Type} {K : ZWeight} (H : max_heap (K * nat) (@item_leb K)) (a : automaton T K) m : 255 <= m -> outside_from_automaton H a m = None.
Proof.
  intros Hm. unfold outside_from_automaton. destruct (inside_from_automaton H a m) as [si|]; [|reflexivity].
  destruct m as [|m]; [lia|]. rewrite seq_S, rev_app_distr. cbn [rev app fold_p]. replace (S m - (1 + m) + 1) with 1 by lia. cbn [seq fold_p]. unfold outside_round at 1. destruct (outside_left H a si _ _ _ _) as [h|]; [|reflexivity].
  unfold outside_right at 1. rewrite (proj2 (Nat.leb_le 255 (0 + (1 + m))) Hm). reflexivity.
Qed.
Theorem C26_width_255_refuted :
  forall (T : Type) (K : ZWeight) (H : max_heap (K * nat) (@item_leb K)) (a : automaton T K), outside_from_automaton H a 255 = None.
Proof. intros T K H a. apply wide_panics, le_n. Qed.
Print Assumptions C26_width_255_refuted.

(* C26: the inside value is not the maximal weight: for S -> A (cost 1), A -> a (cost 2) it is 1, but the only derivation
   from S has cost 3 *)
Definition ex_un : list (prule nat nat TropWeight) := [ex_csr 0 [1] [[Var 0 0]] 1; ex_csr 1 [] [[Tm 7]] 2].
Theorem C26_inside_maximal_refuted :
  ~ (forall (a : automaton nat TropWeight) (R : list (crule nat nat TropWeight)), presents Nat.eqb a R (states a) ->
       (forall x, In x R -> wleb (cr_weight x) wone = true) -> (forall x, In x R -> cr_weight x <> wzero) ->
     forall m s, inside_from_automaton trop_heap a m = Some s ->
     forall q r w, q < states a -> 1 <= r <= m -> si_get s q r = Some (Some w) -> exists t u, cderiv R q t u /\ length u = r /\ ct_weight R t = w).
Proof.
  intros F.
  destruct (from_grammar_presents Nat.eqb Nat.eqb Nat.eqb_eq Nat.eqb_eq trop_factorize ex_un 0) as (a & ints & E & ND & ST & PZ & II & EI & LI).
  { intros r Hr. repeat (destruct Hr as [<-|Hr]; [first [left; eexists; reflexivity|right; intros c [<-|[]]; split; [discriminate|]; intros x Hx; repeat (destruct Hx as [<-|Hx]; [eexists; eexists; split; [reflexivity|cbn; lia]|]); destruct Hx]|]). destruct Hr. }
  vm_compute in E. injection E as <- <-.
  specialize (F _ _ PZ). cbn in F. edestruct F with (m := 1) (q := 0) (r := 1) (w := Some 1 : TropWeight) as (t & u & D & L & W).
  - intros x [<-|[<-|[]]]; reflexivity.
  - intros x [<-|[<-|[]]]; discriminate.
  - vm_compute. reflexivity.
  - vm_compute. lia.
  - lia.
  - vm_compute. reflexivity.
  - clear F. inversion D as [r q t0 w b H1|r q q1 w b t0 u0 H1 H2|r q q1 q2 w b t1 t2 u1 u2 H1 H2 H3]; subst.
    + destruct r as [|[|r]]; try discriminate. destruct r; discriminate.
    + destruct r as [|[|r]]; try discriminate; [|destruct r; discriminate]. injection H1 as <- <- <-. inversion H2 as [r q t1 w b H1|r q q1 w b t1 u1 H1 H3|r q q1 q2 w b t1 t2 u1 u2 H1 H3 H4]; subst; destruct r as [|[|r]]; try discriminate; destruct r; discriminate.
    + destruct r as [|[|r]]; try discriminate. destruct r; discriminate.
Qed.
Print Assumptions C26_inside_maximal_refuted.

(* the grammar of C25_example: at width 3 the state of B is known with one token to its left and none to its right, but
   not at the beginning of a sentence of two tokens *)
Example C26_example :
  exists a s, from_grammar Nat.eqb Nat.eqb trop_factorize ex_cs 0 = Some a /\ outside_from_automaton trop_heap a 3 = Some s /\
    au_initial a < states a /\ 3 <= 254 /\
    map (fun q => (so_get s q 1 2 2, so_get s q 0 1 2, so_get s q 0 2 2)) (seq 0 (states a)) =
      [(Some (Some (Some 3)), Some None, Some (Some (Some 0))); (Some (Some (Some 7)), Some (Some (Some 5)), Some (Some (Some 5)));
       (Some (Some (Some 3)), Some None, Some None)] /\
    so_get s 2 4 6 9 = Some (Some (Some 0)).
Proof. eexists. eexists. split; [vm_compute; reflexivity|]. split; [vm_compute; reflexivity|]. split; [cbn; lia|]. split; [lia|]. vm_compute. split; reflexivity. Qed.
