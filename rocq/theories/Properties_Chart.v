(* C24: the CKY chart.  C25: filling it. *)
From Coq Require Import NArith.
From Verif Require Import Base M_Util M_Agenda M_Grammar M_Chart S_Chart P_Chart M_CSAuto S_Grammar S_CS P_CSAuto P_FillChart.

(* C24: spans are numbered one-to-one, without gaps, in the range of the tables *)
Theorem C24_index :
  forall n : nat,
    (forall i j, span n i j -> exists k, index i j n = Some k /\ k < chart_size n) /\
    (forall i j i' j', span n i j -> span n i' j' -> index i j n = index i' j' n -> i = i' /\ j = j') /\
    (forall k, k < chart_size n -> exists i j, span n i j /\ index i j n = Some k).
Proof.
  intros n. split; [|split].
  - intros i j HS. rewrite (index_some _ _ _ HS). eexists. split; [reflexivity|now apply cell_range].
  - intros i j i' j' H1 H2 E. rewrite (index_some _ _ _ H1), (index_some _ _ _ H2) in E. injection E as E. eapply cell_inj; eassumption.
  - intros k Hk. destruct (cell_surj n k Hk) as (i & j & HS & E). exists i, j. split; [assumption|]. rewrite (index_some _ _ _ HS). now f_equal.
Qed.
Print Assumptions C24_index.

(* C24: so are pairs of a span and a state *)
Theorem C24_index_with_state :
  forall n states : nat,
    (forall i j q, span n i j -> q < states -> exists k, index_with_state i j q n states = Some k /\ k < chart_size_with_states n states) /\
    (forall i j q i' j' q', span n i j -> span n i' j' -> q < states -> q' < states ->
       index_with_state i j q n states = index_with_state i' j' q' n states -> i = i' /\ j = j' /\ q = q') /\
    (forall k, k < chart_size_with_states n states -> exists i j q, span n i j /\ q < states /\ index_with_state i j q n states = Some k).
Proof.
  intros n s. rewrite chart_size_ws. split; [|split].
  - intros i j q HS Hq. rewrite (index_ws_some _ _ _ _ _ HS). eexists. split; [reflexivity|]. pose proof (cell_range n i j HS). nia.
  - intros i j q i' j' q' H1 H2 Hq Hq' E. rewrite (index_ws_some _ _ _ _ _ H1), (index_ws_some _ _ _ _ _ H2) in E. injection E as E.
    assert (E' : offset n (j - i) + i = offset n (j' - i') + i' /\ q = q').
    { set (x := offset n (j - i) + i) in *. set (y := offset n (j' - i') + i') in *. clearbody x y. assert (x = y) by nia. split; [assumption|]. subst. lia. }
    destruct E' as [E1 E2]. destruct (cell_inj _ _ _ _ _ H1 H2 E1). auto.
  - intros k Hk. destruct s as [|s]; [lia|]. set (m := S s) in *. destruct (cell_surj n (k / m)) as (i & j & HS & E).
    + apply Nat.div_lt_upper_bound; [unfold m; lia|]. lia.
    + exists i, j, (k mod m). split; [assumption|]. split; [apply Nat.mod_upper_bound; unfold m; lia|]. rewrite (index_ws_some _ _ _ _ _ HS), E. f_equal. rewrite (Nat.mul_comm (k / m) m). symmetry. apply Nat.div_mod. unfold m. lia.
Qed.
Print Assumptions C24_index_with_state.

(* C24: after any history of insertions the chart is the map the history describes *)
Theorem C24_chart :
  forall (K : ZWeight), ZWeightLaws K ->
  forall (n states beam : nat) (h : list (@entry K)), (N.of_nat beam <= 65535)%N ->
    (forall i j q w, In (i, j, (q, w)) h -> span n i j /\ q < states) ->
    exists c0 c, chart_new n states beam = Some c0 /\ add_entries h c0 = Some c /\
      forall i j, span n i j ->
        iterate_nont c i j = Some (kept_entries beam h i j) /\
        forall q, q < states -> get_weight c i j q = Some (last_weight (kept_entries beam h i j) q).
Proof.
  intros K KL n states beam h HB HV. destruct (chart_new_rep (K := K) n states beam HB) as (c0 & E0 & A1 & A2 & A3 & CR0).
  destruct (add_entries_rep h c0 _ CR0) as (c & E1 & B1 & B2 & B3 & CR); [intros [[i j] [q w]] Hin; cbn [fst snd]; rewrite A1, A2; eapply HV; exact Hin|].
  exists c0, c. split; [exact E0|]. split; [exact E1|]. intros i j HS. rewrite A1 in B1. rewrite A2 in B2. rewrite A3 in *.
  split; [rewrite (iterate_rep c _ i j CR); [reflexivity|now rewrite B1]|]. intros q Hq. rewrite (get_weight_rep KL c _ i j q CR); [reflexivity|now rewrite B1|now rewrite B2].
Qed.
Print Assumptions C24_chart.

Lemma TropLaws : ZWeightLaws TropWeight.
Proof.
  split.
  - split.
    + split; intros; repeat match goal with x : option nat |- _ => destruct x | x : wt _ |- _ => destruct x end; cbn in *; try tauto; try discriminate; auto.
      all: rewrite ?Nat.leb_le in *; try lia.
    + intros [a|] [b|]; cbn; rewrite ?Nat.leb_le; intros; try discriminate; try reflexivity. f_equal. lia.
    + intros [a|] [b|] [c|]; cbn; try reflexivity. f_equal. lia.
    + intros [a|] [b|]; cbn; try reflexivity. f_equal. lia.
    + intros [a|]; reflexivity.
    + intros [a|] [b|] [c|]; cbn; rewrite ?Nat.leb_le; intros; try discriminate; try reflexivity; lia.
  - intros [a|] [b|]; cbn; split; intros E; try discriminate; try reflexivity; [apply Nat.eqb_eq in E; congruence|injection E as ->; apply Nat.eqb_refl].
  - intros a. reflexivity.
  - intros [a|] [b|]; cbn; intros E; try discriminate; auto.
  - intros a. reflexivity.
Qed.
Definition ex_h : list (@entry TropWeight) := [(0, 1, (2, Some 1)); (1, 3, (0, Some 4)); (0, 1, (1, Some 3)); (0, 1, (0, Some 9)); (1, 3, (0, None))].
Example C24_example :
  (forall i j q w, In (i, j, (q, w)) ex_h -> span 3 i j /\ q < 3) /\ (N.of_nat 2 <= 65535)%N /\
  kept_entries 2 ex_h 0 1 = [(2, Some 1); (1, Some 3)] /\ last_weight (kept_entries 2 ex_h 0 1) 0 = None /\
  kept_entries 2 ex_h 1 3 = [(0, Some 4); (0, None)] /\ index 1 3 3 = Some 4 /\ chart_size 3 = 6.
Proof.
  split; [|repeat split; try reflexivity; discriminate]. intros i j q w H. unfold span. repeat (destruct H as [H|H]; [injection H as <- <- <- <-; lia|]). destruct H.
Qed.

(* ---- C25 ---- *)
(* the rule is enabled and the estimates know an outside weight for the state on the span *)
Definition admitted {K : ZWeight} (rule_filter : list bool) (outside : nat -> nat -> nat -> nat -> option (option K)) (n rid q l r : nat) : Prop :=
  nth_error rule_filter rid = Some true /\ exists w, outside q l r n = Some (Some w).

(* C25: for every beam, threshold, filter and estimates: no panic; every state occurs at most once per span and at most
   [beam] states occur; each is the weight of a derivation of the span all of whose constituents are admitted *)
Theorem C25_chart_is_sound :
  forall (T : Type) (K : ZWeight) (KL : ZWeightLaws K) (teqb : T -> T -> bool) (H : max_heap (K * nat) (@item_leb K))
         (a : automaton T K) (R : list (crule nat T K)), presents teqb a R (states a) ->
  forall (word : list T) (beam : nat) (delta : K) (outside : nat -> nat -> nat -> nat -> option (option K)) (rule_filter : list bool),
    length word <= 255 -> beam <> 0 -> (N.of_nat beam <= 65535)%N -> length R <= length rule_filter ->
    (forall q l r, q < states a -> span (length word) l r -> outside q l r (length word) <> None) ->
    (forall x, In x R -> wleb (cr_weight x) wone = true) -> (forall x, In x R -> cr_weight x <> wzero) ->
    exists c, fill_chart teqb H a word beam delta outside rule_filter = Some c /\
      forall l r, span (length word) l r ->
        exists es, iterate_nont c l r = Some es /\ NoDup (map fst es) /\ length es <= beam /\
          (forall q w, q < states a -> (get_weight c l r q = Some (Some w) <-> In (q, w) es)) /\
          forall q w, In (q, w) es -> exists t, aderiv R (admitted rule_filter outside (length word)) word q t l r /\ cderiv R q t (sub word l r) /\ ct_weight R t = w.
Proof.
  intros T K KL teqb H a R PZ word beam delta outside rf Hn HB0 HB HF HO HW1 HW0.
  destruct (fill_chart_ok KL teqb H a R PZ word beam delta outside rf Hn HB0 HB HF HO HW1 HW0) as (c & f & E & N1 & N2 & N3 & CR & SP & LB).
  exists c. split; [exact E|]. intros l r HS. exists (f l r). pose proof (SP l r HS) as SO. split; [apply (iterate_rep c f l r CR); now rewrite N1|]. split; [apply (so_nodup _ _ _ _ _ _ _ _ _ _ SO)|]. split; [apply LB|]. split.
  - intros q w Hq. rewrite (get_weight_rep KL c f l r q CR) by (rewrite ?N1, ?N2; assumption). rewrite <- (last_weight_iff KL (f l r) q w (so_nodup _ _ _ _ _ _ _ _ _ _ SO)).
    + split; [now intros [= E']|now intros ->].
    + intros q' w' Hin. apply (so_state _ _ _ _ _ _ _ _ _ _ SO) in Hin. tauto.
  - intros q w Hin. destruct (entry_derivation KL a R word beam delta outside rf Hn HB0 HB HF f SP (S (r - l)) l r HS (Nat.lt_succ_diag_r _) q w Hin) as (t & D & W). exists t. split; [exact D|]. split; [|exact W]. apply aderiv_cderiv in D. tauto.
Qed.
Print Assumptions C25_chart_is_sound.

(* C25: w is the maximal weight of the trees in P *)
Definition best {Q T} {K : ZWeight} (R : list (crule Q T K)) (P : ctree -> Prop) (w : K) : Prop :=
  (exists t, P t /\ ct_weight R t = w) /\ forall t, P t -> wleb (ct_weight R t) w = true.

(* C25: with room for all states and without threshold, the entry of a state is the maximal weight of an admitted
   derivation of the span, and there is an entry exactly if there is such a derivation *)
Theorem C25_chart_is_optimal :
  forall (T : Type) (K : ZWeight) (KL : ZWeightLaws K) (teqb : T -> T -> bool) (H : max_heap (K * nat) (@item_leb K))
         (a : automaton T K) (R : list (crule nat T K)), presents teqb a R (states a) ->
  forall (word : list T) (beam : nat) (outside : nat -> nat -> nat -> nat -> option (option K)) (rule_filter : list bool),
    length word <= 255 -> beam <> 0 -> (N.of_nat beam <= 65535)%N -> length R <= length rule_filter ->
    (forall q l r, q < states a -> span (length word) l r -> outside q l r (length word) <> None) ->
    (forall x, In x R -> wleb (cr_weight x) wone = true) -> (forall x, In x R -> cr_weight x <> wzero) ->
    states a <= beam ->
    exists c, fill_chart teqb H a word beam wzero outside rule_filter = Some c /\
      forall l r q, span (length word) l r -> q < states a ->
        let trees t := aderiv R (admitted rule_filter outside (length word)) word q t l r in
        (exists w, get_weight c l r q = Some (Some w) /\ best R trees w) \/ (get_weight c l r q = Some None /\ forall t, ~ trees t).
Proof.
  intros T K KL teqb H a R PZ word beam outside rf Hn HB0 HB HF HO HW1 HW0 HBS.
  destruct (fill_chart_ok KL teqb H a R PZ word beam wzero outside rf Hn HB0 HB HF HO HW1 HW0) as (c & f & E & N1 & N2 & N3 & CR & SP & LB).
  exists c. split; [exact E|]. intros l r q HS Hq trees. pose proof (SP l r HS) as SO. rewrite (get_weight_rep KL c f l r q CR) by (rewrite ?N1, ?N2; assumption).
  assert (LW : forall w, last_weight (f l r) q = Some w <-> In (q, w) (f l r)). { intros w. apply (last_weight_iff KL); [apply (so_nodup _ _ _ _ _ _ _ _ _ _ SO)|]. intros q' w' Hin. apply (so_state _ _ _ _ _ _ _ _ _ _ SO) in Hin. tauto. }
  assert (MX : forall t, trees t -> exists w, In (q, w) (f l r) /\ wleb (ct_weight R t) w = true).
  { intros t Ht. eapply (entry_max KL a R word beam wzero outside rf Hn HB0 HB HF f SP); [exact Ht|]. split; [assumption|reflexivity]. }
  destruct (last_weight (f l r) q) as [w|] eqn:EL.
  - left. exists w. split; [reflexivity|]. split.
    + destruct (entry_derivation KL a R word beam wzero outside rf Hn HB0 HB HF f SP (S (r - l)) l r HS (Nat.lt_succ_diag_r _) q w (proj1 (LW w) eq_refl)) as (t & D & W). exists t. auto.
    + intros t Ht. destruct (MX t Ht) as (w' & Hin & L). apply LW in Hin. congruence.
  - right. split; [reflexivity|]. intros t Ht. destruct (MX t Ht) as (w' & Hin & L). apply LW in Hin. discriminate.
Qed.
Print Assumptions C25_chart_is_optimal.

(* C25: from the grammar: the entry of the initial state over the whole word, with all rules enabled and no estimates,
   is the maximal weight of a derivation of the word in the context-free approximation *)
Theorem C25_grammar :
  forall (N T : Type) (K : ZWeight) (KL : ZWeightLaws K) (neqb : N -> N -> bool) (teqb : T -> T -> bool), EqbSpec neqb -> EqbSpec teqb ->
  forall (factorize : K -> nat -> list K), FactorLaws factorize ->
  forall (H : max_heap (K * nat) (@item_leb K)) (rules : list (prule N T K)) (init : N),
    (forall r, In r rules -> rule_nf r /\ wleb (pr_weight r) wone = true /\ pr_weight r <> wzero) ->
    (exists r, In r rules /\ pr_head r = init /\ pr_comp r <> []) ->
    exists a, from_grammar neqb teqb factorize rules init = Some a /\
    forall word, length word <= 255 -> word <> [] -> (N.of_nat (states a) <= 65535)%N ->
      exists c, fill_chart teqb H a word (states a) wzero (fun _ _ _ _ => Some (Some wone)) (repeat true (length (cs_rules factorize rules))) = Some c /\
        let trees t := cderiv (cs_rules factorize rules) (Non init 0) t word in
        (exists w, get_weight c 0 (length word) (au_initial a) = Some (Some w) /\ best (cs_rules factorize rules) trees w) \/
        (get_weight c 0 (length word) (au_initial a) = Some None /\ forall t, ~ trees t).
Proof.
  intros N T K KL neqb teqb NE TE factorize FL H rules init HR HI.
  destruct (from_grammar_presents neqb teqb NE TE factorize rules init) as (a & ints & E & ND & ST & PZ & II & EI & LI); [intros r Hr; apply HR; exact Hr|].
  exists a. split; [unfold from_grammar; now rewrite E|]. intros word Hn Hne HB. specialize (LI HI FL). set (R := cs_rules factorize rules) in *.
  assert (W1 : forall x, In x (map (code_rule neqb ints) R) -> wleb (cr_weight x) wone = true).
  { intros x Hx. apply in_map_iff in Hx. destruct Hx as (y & <- & Hy). cbn. revert y Hy. apply (cs_rules_weights factorize rules (fun w : K => wleb w wone = true)); [apply (w_refl KL)|]. intros r x Hr Hx. eapply (fl_one _ FL); [|exact Hx]. apply HR. exact Hr. }
  assert (W0 : forall x, In x (map (code_rule neqb ints) R) -> cr_weight x <> wzero \/ wone = (wzero : K)).
  { intros x Hx. apply in_map_iff in Hx. destruct Hx as (y & <- & Hy). cbn. revert y Hy. apply (cs_rules_weights factorize rules (fun w : K => w <> wzero \/ wone = (wzero : K))); [destruct (weqb (wone : K) wzero) eqn:E1; [right; now apply (zl_eqb _ KL)|left; intros E2; apply (zl_eqb _ KL) in E2; congruence]|]. intros r x Hr Hx. left. eapply (fl_zero _ FL); [|exact Hx]. apply HR. exact Hr. }
  assert (NZ : (wone : K) <> wzero).
  { intros E1. destruct HI as (r & Hr & _). destruct (HR r Hr) as (_ & _ & Hz). apply Hz. rewrite <- (wl_one_l _ (zl_weight _ KL) (pr_weight r)), E1. apply (zl_zero_mul _ KL). }
  assert (W0' : forall x, In x (map (code_rule neqb ints) R) -> cr_weight x <> wzero) by (intros x Hx; destruct (W0 x Hx); [assumption|contradiction]).
  assert (SNZ : states a <> 0) by lia.
  destruct (C25_chart_is_optimal T K KL teqb H a _ PZ word (states a) (fun _ _ _ _ => Some (Some wone)) (repeat true (length R)) Hn SNZ HB) as (c & EC & HC); try assumption; [rewrite map_length, repeat_length; lia|discriminate|lia|].
  exists c. split; [exact EC|]. intros trees. specialize (HC 0 (length word) (au_initial a)). assert (LW : 0 < length word) by (destruct word; [contradiction|cbn; lia]). specialize (HC ltac:(split; lia) LI). cbn zeta in HC.
  assert (EQ : forall t, aderiv (map (code_rule neqb ints) R) (admitted (K := K) (repeat true (length R)) (fun _ _ _ _ => Some (Some wone)) (length word)) word (au_initial a) t 0 (length word) <-> trees t).
  { intros t. split.
    - intros D. apply aderiv_cderiv in D. destruct D as [_ D]. rewrite sub_all in D. rewrite EI in D. eapply (cderiv_decode neqb NE R ints ND); [intros x s Hx Hs; apply (ST x s Hx Hs)|exact D|exact II|reflexivity].
    - intros D. pose proof (cderiv_code neqb R ints _ _ _ D) as D'. rewrite <- EI in D'.
      assert (RB : forall q t u, cderiv R q t u -> forall rid, In rid (ct_rules t) -> rid < length R).
      { clear. induction 1 as [r q t w b H1|r q q1 w b t u H1 H2 IH|r q q1 q2 w b t1 t2 u1 u2 H1 H2 IH1 H3 IH2]; cbn; intros rid; [intros [<-|[]]|intros [<-|Hin]|intros [<-|Hin]]; try (apply nth_error_Some; congruence); [auto|]. apply in_app_iff in Hin. destruct Hin; auto. }
      eapply cderiv_aderiv; [exact D'| |lia|lia|now rewrite sub_all]. intros rid q l r Hin. split; [apply nth_error_repeat; eapply RB; eassumption|eauto]. }
  assert (BW : forall w, best (map (code_rule neqb ints) R) (fun t => aderiv (map (code_rule neqb ints) R) (admitted (K := K) (repeat true (length R)) (fun _ _ _ _ => Some (Some wone)) (length word)) word (au_initial a) t 0 (length word)) w -> best R trees w).
  { intros w [(t & D & W) M]. split; [exists t; rewrite <- EQ, <- (ct_weight_code neqb R ints); auto|]. intros t' D'. rewrite <- (ct_weight_code neqb R ints). apply M. now apply EQ. }
  destruct HC as [(w & E1 & B)|[E1 NO]]; [left; exists w; auto|right]. split; [exact E1|]. intros t D. apply (NO t). now apply EQ.
Qed.
Print Assumptions C25_grammar.

(* the grammar S -> A B | A, A -> a, B -> S with costs; the word a a has two derivations of S in the approximation *)
Definition trop_factorize (w : TropWeight) (n : nat) : list TropWeight := match n with 0 => [] | S n => w :: repeat (wone : TropWeight) n end.
Lemma trop_factor_laws : FactorLaws trop_factorize.
Proof.
  assert (P1 : forall n, wprod (repeat (wone : TropWeight) n) = wone) by (induction n as [|n IH]; [reflexivity|]; change (wmul (wone : TropWeight) (wprod (repeat (wone : TropWeight) n)) = wone); now rewrite IH).
  assert (RI : forall n x, In x (repeat (wone : TropWeight) n) -> x = wone) by (intros n x Hx; now apply repeat_spec in Hx).
  split.
  - intros w [|n]; cbn; [reflexivity|]. now rewrite repeat_length.
  - intros w [|n] Hn; [contradiction|]. change (wmul w (wprod (repeat (wone : TropWeight) n)) = w). rewrite P1. destruct w as [k|]; cbn; [now rewrite Nat.add_0_r|reflexivity].
  - intros w [|n] x Hw Hx; [destruct Hx|]. destruct Hx as [<-|Hx]; [exact Hw|]. apply RI in Hx. subst x. reflexivity.
  - intros w [|n] x Hw Hx; [destruct Hx|]. destruct Hx as [<-|Hx]; [exact Hw|]. apply RI in Hx. subst x. discriminate.
Qed.
Lemma trop_item_TO : TotalOrder (@item_leb TropWeight).
Proof.
  pose proof (wl_order _ (zl_weight _ TropLaws)) as O. split.
  - intros [w q] [w' q']. unfold item_leb. cbn [fst snd]. destruct (to_total _ O w w') as [E|E]; rewrite E; destruct (wleb w w') eqn:E1; destruct (wleb w' w) eqn:E2; auto; destruct (Nat.le_ge_cases q q') as [L|L]; rewrite ?(proj2 (Nat.leb_le _ _) L); auto; congruence.
  - intros [w q] [w' q'] [w2 q2]. unfold item_leb. cbn [fst snd]. intros H1 H2. destruct (wleb w w') eqn:E1; [|discriminate]. destruct (wleb w' w2) eqn:E2; [|discriminate]. rewrite (to_trans _ O _ _ _ E1 E2).
    destruct (wleb w2 w) eqn:E3; [|reflexivity]. rewrite (to_trans _ O _ _ _ E2 E3) in H1. rewrite (to_trans _ O _ _ _ E3 E1) in H2. apply Nat.leb_le in H1, H2. apply Nat.leb_le. lia.
Qed.
Definition ex_csr (h : nat) (tl : list nat) (c : composition nat) (w : nat) : prule nat nat TropWeight := PRule h tl c (Some w : TropWeight).
Definition ex_cs : list (prule nat nat TropWeight) :=
  [ex_csr 0 [1; 2] [[Var 0 0; Var 1 0]] 1; ex_csr 0 [1] [[Var 0 0]] 5; ex_csr 1 [] [[Tm 7]] 2; ex_csr 2 [0] [[Var 0 0]] 0; ex_csr 2 [1] [[Var 0 0]] 4].
Definition trop_heap := P_Agenda.list_heap (@item_leb TropWeight) trop_item_TO.
Example C25_example :
  (forall r, In r ex_cs -> rule_nf r /\ wleb (pr_weight r) (wone : TropWeight) = true /\ pr_weight r <> (wzero : TropWeight)) /\
  exists a c, from_grammar Nat.eqb Nat.eqb trop_factorize ex_cs 0 = Some a /\ states a = 3 /\
    fill_chart Nat.eqb trop_heap a [7; 7] (states a) (wzero : TropWeight) (fun _ _ _ _ => Some (Some (wone : TropWeight))) (repeat true 5) = Some c /\
    get_weight c 0 2 (au_initial a) = Some (Some (Some 9)) /\ ct_weight (cs_rules trop_factorize ex_cs) (CBin 0 (CNull 2) (CUn 4 (CNull 2))) = Some 9.
Proof.
  split.
  - intros r Hr. repeat (destruct Hr as [<-|Hr]; [split; [|split; [reflexivity|discriminate]]; first [left; eexists; reflexivity|right; intros c [<-|[]]; split; [discriminate|]; intros x Hx; repeat (destruct Hx as [<-|Hx]; [eexists; eexists; split; [reflexivity|cbn; lia]|]); destruct Hx]|]). destruct Hr.
  - eexists. eexists. split; [vm_compute; reflexivity|]. split; [reflexivity|]. split; [vm_compute; reflexivity|]. split; reflexivity.
Qed.
