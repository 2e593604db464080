(* Derivations of the grammar and of its context-free approximation. *)
From Verif Require Import Base BMap M_Util M_Recog M_Automata M_TreeStack M_Grammar M_Chart M_CSAuto S_Grammar S_CS P_Recog P_TreeStack P_Grammar P_GrammarCFG P_Conversion M_ToDeriv S_RuleMask.

(* derivations of one component of a nonterminal: the rule, the component and one tree per variable of the component *)
Inductive ktree := KNode (i k : nat) (kts : list ktree).
Section KInd.
  Context (P : ktree -> Prop) (H : forall i k kts, Forall P kts -> P (KNode i k kts)).
  Fixpoint ktree_ind2 (t : ktree) : P t :=
    match t with KNode i k kts => H i k kts ((fix go l : Forall P l := match l with [] => Forall_nil _ | x :: l => Forall_cons x (ktree_ind2 x) (go l) end) kts) end.
End KInd.
(* derivations whose rules are named by their position *)
Inductive idt := INode (i : nat) (xs : list idt).
Section IInd.
  Context (P : idt -> Prop) (H : forall i xs, Forall P xs -> P (INode i xs)).
  Fixpoint idt_ind2 (x : idt) : P x :=
    match x with INode i xs => H i xs ((fix go l : Forall P l := match l with [] => Forall_nil _ | y :: l => Forall_cons y (idt_ind2 y) (go l) end) xs) end.
End IInd.
Definition wrapb (b : bcontent) (u : list (bracket bcontent)) : list (bracket bcontent) := Open b :: u ++ [Close b].

Lemma combine_app' {X Y} (a : list X) : forall (b : list Y) a' b', length a = length b -> combine (a ++ a') (b ++ b') = combine a b ++ combine a' b'.
Proof. induction a as [|x a IH]; intros [|y b] a' b' L; try discriminate; [reflexivity|]. cbn. f_equal. apply IH. now injection L. Qed.

Section K.
  Context {N T : Type} {K : ZWeight} (KL : ZWeightLaws K) (factorize : K -> nat -> list K) (FL : FactorLaws factorize) (rules : list (prule N T K)).
  Context (NF : forall r, In r rules -> mask_nf r).
  Notation rule := (prule N T K).
  Notation R := (cs_rules factorize rules).
  Let WL : WeightLaws K := zl_weight _ KL.

  Definition comp_of (i k : nat) : list (vart T) := match nth_error rules i with Some r => nth k (pr_comp r) [] | None => [] end.
  Definition factor (i k : nat) : K := match nth_error rules i with Some r => nth k (factorize (pr_weight r) (length (pr_comp r))) wone | None => wone end.
  Definition kbody (i : nat) (xs : list (vart T)) (ws : list (list (bracket bcontent))) : list (bracket bcontent) :=
    concat (map (fun p => wrapb (var_bracket i (fst p)) (snd p)) (combine xs ws)).
  Fixpoint kword (t : ktree) : list (bracket bcontent) :=
    match t with KNode i k kts => wrapb (BComp i (u8 k)) (match comp_of i k with [Tm _] => wrapb Terminal [] | c => kbody i c (map kword kts) end) end.
  Fixpoint kweight (t : ktree) : K := match t with KNode i k kts => wmul (factor i k) (wprod (map kweight kts)) end.
  (* one tree and one word per variable *)
  Fixpoint F3 (r : rule) (ps : list (N -> nat -> list T -> Prop)) (xs : list (vart T)) (us : list (list T)) : Prop :=
    match ps, xs, us with
    | [], [], [] => True
    | p :: ps, Var i j :: xs, u :: us => (exists B, nth_error (pr_tail r) i = Some B /\ p B j u) /\ F3 r ps xs us
    | _, _, _ => False
    end.
  Fixpoint kderiv (t : ktree) (A : N) (k : nat) (u : list T) : Prop :=
    match t with KNode i k' kts => k' = k /\ exists r c, nth_error rules i = Some r /\ pr_head r = A /\ nth_error (pr_comp r) k = Some c /\
      ((exists t, c = [Tm t] /\ kts = [] /\ u = [t]) \/ (exists us, u = concat us /\ F3 r (map kderiv kts) c us)) end.
  Lemma F3_snoc (r : rule) ps : forall xs us (p : N -> nat -> list T -> Prop) i j u B, F3 r ps xs us -> nth_error (pr_tail r) i = Some B -> p B j u -> F3 r (ps ++ [p]) (xs ++ [Var i j]) (us ++ [u]).
  Proof.
    induction ps as [|p0 ps IH]; intros [|[i0 j0|t0] xs] [|u0 us] p i j u B HF HB HP; cbn in HF; try contradiction; cbn [app F3]; [split; [eauto|exact I]|]. destruct HF as [H1 H2]. split; [exact H1|]. now apply (IH xs us p i j u B).
  Qed.
  Lemma F3_len (r : rule) ps : forall xs us, F3 r ps xs us -> length ps = length xs /\ length us = length xs.
  Proof. induction ps as [|p0 ps IH]; intros [|[i0 j0|t0] xs] [|u0 us] HF; cbn in HF; try contradiction; [auto|]. cbn. destruct HF as [_ H2]. apply IH in H2. lia. Qed.
  Lemma F3_var (r : rule) ps : forall xs us t, F3 r ps xs us -> ~ In (Tm t) xs.
  Proof. induction ps as [|p0 ps IH]; intros [|[i0 j0|t0] xs] [|u0 us] t HF; cbn in HF; try contradiction; [intros []|]. destruct HF as [_ H2]. intros [E|E]; [discriminate|]. exact (IH xs us t H2 E). Qed.
  Lemma kbody_snoc i xs ws x w : length xs = length ws -> kbody i (xs ++ [x]) (ws ++ [w]) = kbody i xs ws ++ wrapb (var_bracket i x) w.
  Proof. intros L. unfold kbody. rewrite (combine_app' xs ws [x] [w] L), map_app, concat_app. cbn. now rewrite app_nil_r. Qed.
  Lemma wprod_snoc (ws : list K) w : wprod (ws ++ [w]) = wmul (wprod ws) w.
  Proof. rewrite (wprod_app WL). f_equal. change (wmul w (wone : K) = w). rewrite (wl_comm _ WL). apply (wl_one_l _ WL). Qed.

  (* ---- the rules of the approximation ---- *)
  Lemma in_cs_components rid (r : rule) cs : forall cid x, In x (cs_components rid r cid cs) <-> exists k c w, nth_error cs k = Some (c, w) /\ In x (cs_component rid r (cid + k) c w).
  Proof.
    induction cs as [|[c w] cs IH]; intros cid x; cbn [cs_components].
    - split; [intros []|]. intros ([|k] & c & w & E & _); discriminate.
    - rewrite in_app_iff, IH. split.
      + intros [A|(k & c' & w' & E & A)]; [exists 0, c, w; rewrite Nat.add_0_r; auto|exists (S k), c', w'; rewrite Nat.add_succ_r; auto].
      + intros ([|k] & c' & w' & E & A); cbn in E; [injection E as <- <-; rewrite Nat.add_0_r in A; tauto|right; exists k, c', w'; rewrite Nat.add_succ_r in A; auto].
  Qed.
  Lemma in_cs_rules x : In x R <-> exists i r k c w, nth_error rules i = Some r /\ nth_error (pr_comp r) k = Some c /\ nth_error (factorize (pr_weight r) (length (pr_comp r))) k = Some w /\ In x (cs_component i r k c w).
  Proof.
    unfold cs_rules. assert (G : forall rs rid, In x (cs_rules_from factorize rid rs) <-> exists i r, nth_error rs i = Some r /\ In x (cs_rule factorize (rid + i) r)).
    { induction rs as [|r rs IH]; intros rid; cbn [cs_rules_from]; [split; [intros []|intros ([|i] & r & E & _); discriminate]|]. rewrite in_app_iff, IH. split.
      - intros [A|(i & r' & E & A)]; [exists 0, r; rewrite Nat.add_0_r; auto|exists (S i), r'; rewrite Nat.add_succ_r; auto].
      - intros ([|i] & r' & E & A); cbn in E; [injection E as <-; rewrite Nat.add_0_r in A; tauto|right; exists i, r'; rewrite Nat.add_succ_r in A; auto]. }
    rewrite G. cbn. split.
    - intros (i & r & E & A). unfold cs_rule in A. apply in_cs_components in A. cbn in A. destruct A as (k & c & w & E' & A). apply combine_nth_inv in E'. destruct E' as [E1 E2]. exists i, r, k, c, w. auto.
    - intros (i & r & k & c & w & E & E1 & E2 & A). exists i, r. split; [exact E|]. unfold cs_rule. apply in_cs_components. exists k, c, w. split; [now apply combine_nth_error|exact A].
  Qed.
  Lemma in_rest rid (r : rule) cid y : forall rest off, In y (cs_rest rid r cid (S off) (part_state rid r cid off rest) rest) <->
    exists a x b, rest = a ++ x :: b /\ y = CRule (part_state rid r cid (S off + length a) b) (RB (part_state rid r cid (off + length a) (x :: b)) (var_state r cid x)) wone (part_bracket rid cid b, Ignore, var_bracket rid x).
  Proof.
    induction rest as [|x rest IH]; intros off; [cbn [cs_rest]; split; [intros []|intros ([|? ?] & x & b & E & _); discriminate]|].
    change (In y (CRule (part_state rid r cid (S off) rest) (RB (part_state rid r cid off (x :: rest)) (var_state r cid x)) wone (part_bracket rid cid rest, Ignore, var_bracket rid x) :: cs_rest rid r cid (S (S off)) (part_state rid r cid (S off) rest) rest) <->
      exists a x0 b, x :: rest = a ++ x0 :: b /\ y = CRule (part_state rid r cid (S off + length a) b) (RB (part_state rid r cid (off + length a) (x0 :: b)) (var_state r cid x0)) wone (part_bracket rid cid b, Ignore, var_bracket rid x0)).
    cbn [In]. rewrite IH. split.
    - intros [<-|(a & x0 & b & -> & ->)]; [exists [], x, rest; split; [reflexivity|]; cbn [length]; now rewrite !Nat.add_0_r|]. exists (x :: a), x0, b. split; [reflexivity|]. cbn [length]. now rewrite !Nat.add_succ_r.
    - intros ([|x1 a] & x0 & b & E & ->); cbn in E; injection E as -> ->; [left; cbn [length]; now rewrite !Nat.add_0_r|]. right. exists a, x0, b. split; [reflexivity|]. cbn [length]. now rewrite !Nat.add_succ_r.
  Qed.
  Lemma in_component2 rid (r : rule) cid x1 x2 rest w y : In y (cs_component rid r cid (x1 :: x2 :: rest) w) <->
    y = CRule (part_state rid r cid 0 rest) (RB (var_state r cid x1) (var_state r cid x2)) w (part_bracket rid cid rest, var_bracket rid x1, var_bracket rid x2) \/
    exists a x b, rest = a ++ x :: b /\ y = CRule (part_state rid r cid (S (length a)) b) (RB (part_state rid r cid (length a) (x :: b)) (var_state r cid x)) wone (part_bracket rid cid b, Ignore, var_bracket rid x).
  Proof.
    assert (E : cs_component rid r cid (x1 :: x2 :: rest) w = CRule (part_state rid r cid 0 rest) (RB (var_state r cid x1) (var_state r cid x2)) w (part_bracket rid cid rest, var_bracket rid x1, var_bracket rid x2) :: cs_rest rid r cid 1 (part_state rid r cid 0 rest) rest) by (destruct x1; reflexivity).
    rewrite E. cbn [In]. rewrite in_rest. cbn. split; (intros [A|A]; [left; congruence|right; exact A]).
  Qed.
  Lemma nth_rule x r : nth_error R r = Some x -> rule_weight R r = cr_weight x /\ rule_brackets R r = cr_br x.
  Proof. intros E. unfold rule_weight, rule_brackets. now rewrite E. Qed.
  (* variables refer to successors *)
  Lemma comp_cases i (r : rule) k c : nth_error rules i = Some r -> nth_error (pr_comp r) k = Some c -> (exists t, pr_comp r = [[Tm t]] /\ c = [Tm t] /\ k = 0) \/ (c <> [] /\ forall x, In x c -> exists i j B, x = Var i j /\ nth_error (pr_tail r) i = Some B).
  Proof.
    intros Hi Hk. destruct (NF r (nth_error_In _ _ Hi)) as (_ & [(t & Et)|V] & _).
    - left. exists t. split; [exact Et|]. rewrite Et in Hk. destruct k as [|[|k]]; cbn in Hk; try discriminate. injection Hk as <-. auto.
    - right. destruct (V c (nth_error_In _ _ Hk)) as [V1 V2]. split; [exact V1|]. intros x Hx. destruct (V2 x Hx) as (i' & j & -> & L). destruct (nth_error (pr_tail r) i') as [B|] eqn:E; [exists i', j, B; auto|]. apply nth_error_None in E. lia.
  Qed.
  Lemma var_state_eq (r : rule) cid i j B : nth_error (pr_tail r) i = Some B -> var_state r cid (Var i j) = Non B j.
  Proof. intros E. cbn. f_equal. apply (nth_error_nth _ _ _ E). Qed.
  Lemma wrap_comp i k u : wrap (comp_bracket i k) u = wrapb (BComp i (u8 k)) u.
  Proof. reflexivity. Qed.
  Lemma factor_nth i (r : rule) k w : nth_error rules i = Some r -> nth_error (factorize (pr_weight r) (length (pr_comp r))) k = Some w -> factor i k = w.
  Proof. intros E1 E2. unfold factor. rewrite E1. now apply nth_error_nth. Qed.
  Lemma comp_of_nth i (r : rule) k c : nth_error rules i = Some r -> nth_error (pr_comp r) k = Some c -> comp_of i k = c.
  Proof. intros E1 E2. unfold comp_of. rewrite E1. now apply nth_error_nth. Qed.
  Lemma body_vars i k kts c : comp_of i k = c -> (forall t, ~ In (Tm t) c) -> kword (KNode i k kts) = wrapb (BComp i (u8 k)) (kbody i c (map kword kts)).
  Proof. intros E V. cbn [kword]. rewrite E. destruct c as [|[i' j|t] c]; [reflexivity|reflexivity|]. destruct (V t). now left. Qed.

  (* what is read off a part of a component *)
  Definition parts (i : nat) (r : rule) (xs : list (vart T)) (w : K) (t : ctree) (u : list T) (v : list (bracket bcontent)) : Prop :=
    exists kts us, F3 r (map kderiv kts) xs us /\ u = concat us /\ v = kbody i xs (map kword kts) /\ ct_weight R t = wmul w (wprod (map kweight kts)).
  Definition is_k (t : ctree) (A : N) (k : nat) (u : list T) : Prop := exists kt, kderiv kt A k u /\ ct_word R t = kword kt /\ ct_weight R t = kweight kt.
  Lemma parts_snoc i (r : rule) xs w t u v i' j B t' u' rr br : parts i r xs w t u v -> nth_error (pr_tail r) i' = Some B -> is_k t' B j u' -> nth_error R rr = Some br -> cr_weight br = wone ->
    parts i r (xs ++ [Var i' j]) w (CBin rr t t') (u ++ u') (v ++ wrapb (var_bracket (T := T) i (Var i' j)) (ct_word R t')).
  Proof.
    intros (kts & us & HF & -> & -> & EW) HB (kt & D & EW' & EK) E1 E2. exists (kts ++ [kt]), (us ++ [u']). split; [rewrite map_app; cbn [map]; now apply (F3_snoc _ _ _ _ _ _ _ _ B)|]. split; [now rewrite concat_app; cbn; rewrite app_nil_r|]. split.
    - rewrite map_app. cbn [map]. rewrite kbody_snoc, EW'; [reflexivity|]. destruct (F3_len _ _ _ _ HF) as [L _]. rewrite map_length in *. lia.
    - cbn [ct_weight]. rewrite (proj1 (nth_rule _ _ E1)), E2, EW, EK, map_app. cbn [map]. rewrite wprod_snoc, (wl_one_l _ WL). now rewrite (wl_assoc _ WL).
  Qed.
  Lemma single_part (r : rule) kt i' j B u : nth_error (pr_tail r) i' = Some B -> kderiv kt B j u -> F3 r (map kderiv [kt]) [Var i' j] [u].
  Proof. intros HB D. cbn. eauto. Qed.
  Lemma parts_two i (r : rule) w i1 j1 B1 i2 j2 B2 t1 t2 u1 u2 rr br : nth_error (pr_tail r) i1 = Some B1 -> nth_error (pr_tail r) i2 = Some B2 -> is_k t1 B1 j1 u1 -> is_k t2 B2 j2 u2 -> nth_error R rr = Some br -> cr_weight br = w ->
    parts i r [Var i1 j1; Var i2 j2] w (CBin rr t1 t2) (u1 ++ u2) (wrapb (var_bracket (T := T) i (Var i1 j1)) (ct_word R t1) ++ wrapb (var_bracket (T := T) i (Var i2 j2)) (ct_word R t2)).
  Proof.
    intros H1 H2 (k1 & D1 & W1 & K1) (k2 & D2 & W2 & K2) E1 E2. exists [k1; k2], [u1; u2]. split; [cbn; eauto 8|]. split; [cbn; now rewrite app_nil_r|]. split; [unfold kbody; cbn [map combine concat fst snd]; now rewrite app_nil_r, W1, W2|].
    cbn [ct_weight map]. rewrite (proj1 (nth_rule _ _ E1)), E2, K1, K2. f_equal. change (wmul (kweight k1) (kweight k2) = wmul (kweight k1) (wmul (kweight k2) wone)). f_equal. rewrite (wl_comm _ WL). symmetry. apply (wl_one_l _ WL).
  Qed.
  (* a complete component *)
  Lemma parts_done i (r : rule) k c w t u v t0 : nth_error rules i = Some r -> nth_error (pr_comp r) k = Some c -> nth_error (factorize (pr_weight r) (length (pr_comp r))) k = Some w ->
    parts i r c w t u v -> ct_word R t0 = wrapb (BComp i (u8 k)) v -> ct_weight R t0 = ct_weight R t -> is_k t0 (pr_head r) k u.
  Proof.
    intros E1 E2 E3 (kts & us & HF & -> & -> & EW) HW HK. exists (KNode i k kts). split; [|split].
    - cbn [kderiv]. split; [reflexivity|]. exists r, c. repeat (split; [assumption || reflexivity|]). right. eauto.
    - rewrite HW. symmetry. apply body_vars; [eapply comp_of_nth; eassumption|]. intros t'. eapply F3_var. exact HF.
    - rewrite HK, EW. cbn [kweight]. f_equal. symmetry. eapply factor_nth; eassumption.
  Qed.

  (* ---- from the approximation to component trees ---- *)
  Lemma to_k : forall t q u, cderiv R q t u ->
    (forall A k, q = Non A k -> is_k t A k u) /\
    (forall i r k x1 x2 a b w, nth_error rules i = Some r -> nth_error (pr_comp r) k = Some (x1 :: x2 :: a ++ b) -> nth_error (factorize (pr_weight r) (length (pr_comp r))) k = Some w ->
       b <> [] -> q = Uniq i k (length a) -> parts i r (x1 :: x2 :: a) w t u (ct_word R t)).
  Proof.
    intros t q u D. induction D as [rr q t w b E|rr q q1 w b t u E D IH|rr q q1 q2 w b t1 t2 u1 u2 E D1 IH1 D2 IH2]; pose proof (nth_error_In _ _ E) as Hin; apply in_cs_rules in Hin; destruct Hin as (i' & r' & k' & c' & w' & Ei & Ek & Ew & Hin); destruct (nth_rule _ _ E) as [RW RB_]; cbn [cr_weight cr_br] in RW, RB_.
    - (* a terminal *)
      destruct (comp_cases i' r' k' c' Ei Ek) as [(t' & Et & -> & ->)|[C0 CV]].
      + cbn in Hin. destruct Hin as [Hin|[]]. injection Hin as <- <- <- <-. split; [|discriminate]. intros A k [= <- <-]. exists (KNode i' 0 []). split; [|split].
        * cbn [kderiv]. split; [reflexivity|]. exists r', [Tm t']. repeat (split; [assumption || reflexivity|]). left. exists t'. auto.
        * cbn [ct_word kword]. rewrite RB_, (comp_of_nth _ _ _ _ Ei Ek). reflexivity.
        * cbn [ct_weight kweight map]. rewrite RW, (factor_nth _ _ _ _ Ei Ew). change (w' = wmul w' (wone : K)). rewrite (wl_comm _ WL). symmetry. apply (wl_one_l _ WL).
      + exfalso. destruct c' as [|x1 [|x2 rest]]; [contradiction| |].
        * destruct (CV x1 (or_introl eq_refl)) as (i0 & j0 & B & -> & _). cbn in Hin. destruct Hin as [Hin|[]]. discriminate.
        * apply in_component2 in Hin. destruct Hin as [Hin|(a & x & b0 & _ & Hin)]; discriminate.
    - (* a single variable *)
      destruct (comp_cases i' r' k' c' Ei Ek) as [(t' & Et & -> & ->)|[C0 CV]]; [cbn in Hin; destruct Hin as [Hin|[]]; discriminate|].
      destruct c' as [|x1 [|x2 rest]]; [contradiction| |apply in_component2 in Hin; destruct Hin as [Hin|(a & x & b0 & _ & Hin)]; discriminate].
      destruct (CV x1 (or_introl eq_refl)) as (i0 & j0 & B & -> & HB). cbn [cs_component In] in Hin. destruct Hin as [Hin|[]]. rewrite (var_state_eq r' k' i0 j0 B HB) in Hin. injection Hin as <- <- <- <-. split; [|discriminate]. intros A k [= <- <-].
      destruct (proj1 IH B j0 eq_refl) as (kt & D' & W' & K'). apply (parts_done i' r' k' [Var i0 j0] w' (CUn rr t) u (wrapb (var_bracket (T := T) i' (Var i0 j0)) (ct_word R t))); try assumption; [|cbn [ct_word]; now rewrite RB_|reflexivity].
      exists [kt], [u]. split; [now apply (single_part r' kt i0 j0 B)|]. split; [cbn; now rewrite app_nil_r|]. split; [unfold kbody; cbn [map combine concat fst snd]; now rewrite app_nil_r, W'|].
      cbn [ct_weight map]. rewrite RW, K'. f_equal. change (kweight kt = wmul (kweight kt) (wone : K)). rewrite (wl_comm _ WL). symmetry. apply (wl_one_l _ WL).
    - (* two parts *)
      destruct (comp_cases i' r' k' c' Ei Ek) as [(t' & Et & -> & ->)|[C0 CV]]; [cbn in Hin; destruct Hin as [Hin|[]]; discriminate|].
      destruct c' as [|x1 [|x2 rest]]; [contradiction|destruct (CV x1 (or_introl eq_refl)) as (i0 & j0 & B & -> & HB); cbn in Hin; destruct Hin as [Hin|[]]; discriminate|].
      assert (V : forall x, In x (x1 :: x2 :: rest) -> exists i j B, x = Var i j /\ nth_error (pr_tail r') i = Some B) by exact CV.
      (* the parts read so far: those before [b0], of which nothing is left if the state is that of the component *)
      assert (X : exists a b0 v, rest = a ++ b0 /\ q = part_state i' r' k' (length a) b0 /\ parts i' r' (x1 :: x2 :: a) w' (CBin rr t1 t2) (u1 ++ u2) v /\ ct_word R (CBin rr t1 t2) = wrap (part_bracket i' k' b0) v).
      { apply in_component2 in Hin. destruct Hin as [Hin|(a & x & b0 & Er & Hin)].
        - injection Hin as E1 E2 E3 E4 E5. destruct (V x1 (or_introl eq_refl)) as (i1 & j1 & B1 & -> & H1). destruct (V x2 (or_intror (or_introl eq_refl))) as (i2 & j2 & B2 & -> & H2). rewrite (var_state_eq _ _ _ _ _ H1) in E2. rewrite (var_state_eq _ _ _ _ _ H2) in E3. subst q q1 q2 w b.
          exists [], rest, (wrapb (var_bracket (T := T) i' (Var i1 j1)) (ct_word R t1) ++ wrapb (var_bracket (T := T) i' (Var i2 j2)) (ct_word R t2)). split; [reflexivity|]. split; [reflexivity|]. split; [|cbn [ct_word]; now rewrite RB_].
          eapply parts_two; [exact H1|exact H2|now apply IH1|now apply IH2|exact E|reflexivity].
        - injection Hin as E1 E2 E3 E4 E5. destruct (V x) as (i2 & j2 & B2 & -> & H2); [right; right; rewrite Er; apply in_or_app; right; now left|]. rewrite (var_state_eq _ _ _ _ _ H2) in E3. subst q q1 q2 w b.
          pose proof (proj2 IH1 i' r' k' x1 x2 a (Var i2 j2 :: b0) w' Ei) as P. rewrite <- Er in P. specialize (P Ek Ew ltac:(discriminate) eq_refl).
          exists (a ++ [Var i2 j2]), b0, (ct_word R t1 ++ wrapb (var_bracket (T := T) i' (Var i2 j2)) (ct_word R t2)). split; [now rewrite <- app_assoc|]. split; [rewrite app_length; cbn [length]; now rewrite Nat.add_1_r|]. split; [|cbn [ct_word]; now rewrite RB_].
          change (x1 :: x2 :: a ++ [Var i2 j2]) with ((x1 :: x2 :: a) ++ [Var i2 j2]). eapply parts_snoc; [exact P|exact H2|now apply IH2|exact E|reflexivity]. }
      destruct X as (a & b0 & v & Er & Eq & P & EW). split.
      + intros A k ->. destruct b0 as [|y b0]; cbn [part_state] in Eq; [|discriminate]. injection Eq as -> ->. rewrite app_nil_r in Er. subst a. eapply parts_done; [exact Ei|exact Ek|exact Ew|exact P|exact EW|reflexivity].
      + intros i r k y1 y2 a' b' w0 Hi Hk Hw Hb ->. destruct b0 as [|y b0]; cbn [part_state] in Eq; [discriminate|]. injection Eq as <- <- EL. rewrite Ei in Hi. injection Hi as <-. rewrite Ek in Hk. injection Hk as <- <- Er'. rewrite Ew in Hw. injection Hw as <-.
        assert (a' = a) as ->. { rewrite Er in Er'. clear -Er' EL. revert a Er' EL. induction a' as [|z a' IH]; intros [|z' a] E L; try discriminate; [reflexivity|]. cbn in E, L. injection E as -> E. injection L as L. f_equal. now apply IH. }
        cbn [part_bracket] in EW. change (wrap Ignore v) with v in EW. now rewrite EW.
  Qed.
  Lemma cderiv_k A k t u : cderiv R (Non A k) t u -> is_k t A k u.
  Proof. intros D. now apply (to_k t _ u D). Qed.

  (* ---- from component trees to the approximation ---- *)
  Definition zok (r : rule) (x : vart T) (z : ctree * list T * ktree) : Prop := exists i j B, x = Var i j /\ nth_error (pr_tail r) i = Some B /\
    cderiv R (Non B j) (fst (fst z)) (snd (fst z)) /\ ct_word R (fst (fst z)) = kword (snd z) /\ ct_weight R (fst (fst z)) = kweight (snd z).
  Definition zwords (zs : list (ctree * list T * ktree)) : list T := concat (map (fun z => snd (fst z)) zs).
  Lemma up_parts i (r : rule) k x1 x2 w a : forall b zs, nth_error rules i = Some r -> nth_error (pr_comp r) k = Some (x1 :: x2 :: a ++ b) -> nth_error (factorize (pr_weight r) (length (pr_comp r))) k = Some w ->
    Forall2 (zok r) (x1 :: x2 :: a) zs ->
    exists t, cderiv R (part_state i r k (length a) b) t (zwords zs) /\ ct_word R t = wrap (part_bracket i k b) (kbody i (x1 :: x2 :: a) (map (fun z => kword (snd z)) zs)) /\ ct_weight R t = wmul w (wprod (map (fun z => kweight (snd z)) zs)).
  Proof.
    induction a as [|x a IH] using rev_ind; intros b zs Ei Ek Ew F.
    - inversion F as [|? z1 ? zs1 Z1 F1]; subst. inversion F1 as [|? z2 ? zs2 Z2 F2]; subst. inversion F2; subst. destruct Z1 as (i1 & j1 & B1 & -> & H1 & D1 & W1 & K1). destruct Z2 as (i2 & j2 & B2 & -> & H2 & D2 & W2 & K2). cbn [app] in Ek.
      assert (Hin : In (CRule (part_state i r k 0 b) (RB (var_state r k (Var i1 j1)) (var_state r k (Var i2 j2))) w (part_bracket i k b, var_bracket (T := T) i (Var i1 j1), var_bracket (T := T) i (Var i2 j2))) R).
      { apply in_cs_rules. exists i, r, k, (Var i1 j1 :: Var i2 j2 :: b), w. repeat (split; [assumption|]). apply in_component2. now left. }
      apply In_nth_error in Hin. destruct Hin as (rr & E). destruct (nth_rule _ _ E) as [RW RB_]. cbn [cr_weight cr_br] in RW, RB_. rewrite (var_state_eq _ _ _ _ _ H1), (var_state_eq _ _ _ _ _ H2) in E.
      exists (CBin rr (fst (fst z1)) (fst (fst z2))). split; [unfold zwords; cbn [map concat]; rewrite app_nil_r; eapply cd_bin; eassumption|]. split.
      + cbn [ct_word]. rewrite RB_. unfold kbody. cbn [map combine concat fst snd]. rewrite app_nil_r, W1, W2. reflexivity.
      + cbn [ct_weight map]. rewrite RW, K1, K2. f_equal. change (wmul (kweight (snd z1)) (kweight (snd z2)) = wmul (kweight (snd z1)) (wmul (kweight (snd z2)) wone)). f_equal. rewrite (wl_comm _ WL). symmetry. apply (wl_one_l _ WL).
    - change (x1 :: x2 :: a ++ [x]) with ((x1 :: x2 :: a) ++ [x]) in F. apply Forall2_app_inv_l in F. destruct F as (zs1 & zs2 & F1 & F2 & ->). inversion F2 as [|? z ? zs3 Z F3_]; subst. inversion F3_; subst. rewrite <- app_assoc in Ek. cbn [app] in Ek.
      destruct (IH (x :: b) zs1 Ei Ek Ew F1) as (t1 & D1 & W1 & K1). destruct Z as (i2 & j2 & B2 & -> & H2 & D2 & W2 & K2).
      assert (Hin : In (CRule (part_state i r k (S (length a)) b) (RB (part_state i r k (length a) (Var i2 j2 :: b)) (var_state r k (Var i2 j2))) wone (part_bracket i k b, Ignore, var_bracket (T := T) i (Var i2 j2))) R).
      { apply in_cs_rules. exists i, r, k, (x1 :: x2 :: a ++ Var i2 j2 :: b), w. repeat (split; [assumption|]). apply in_component2. right. exists a, (Var i2 j2), b. auto. }
      apply In_nth_error in Hin. destruct Hin as (rr & E). destruct (nth_rule _ _ E) as [RW RB_]. cbn [cr_weight cr_br] in RW, RB_. rewrite (var_state_eq _ _ _ _ _ H2) in E.
      exists (CBin rr t1 (fst (fst z))). split; [|split].
      + rewrite app_length. cbn [length]. rewrite Nat.add_1_r. unfold zwords. rewrite map_app, concat_app. cbn [map concat]. rewrite app_nil_r. eapply cd_bin; eassumption.
      + cbn [ct_word]. rewrite RB_, W1. cbn [part_bracket]. change (x1 :: x2 :: a ++ [Var i2 j2]) with ((x1 :: x2 :: a) ++ [Var i2 j2]). rewrite map_app. cbn [map]. rewrite kbody_snoc, W2; [reflexivity|]. rewrite map_length. clear -F1. induction F1; cbn; congruence.
      + cbn [ct_weight]. rewrite RW, K1, K2, map_app. cbn [map]. rewrite wprod_snoc, (wl_one_l _ WL). now rewrite (wl_assoc _ WL).
  Qed.
  Lemma of_k : forall kt A k u, kderiv kt A k u -> exists t, cderiv R (Non A k) t u /\ ct_word R t = kword kt /\ ct_weight R t = kweight kt.
  Proof.
    induction kt as [i k0 kts IH] using ktree_ind2. intros A k u D. cbn [kderiv] in D. destruct D as (-> & r & c & Ei & <- & Ek & D).
    assert (Lk : k < length (factorize (pr_weight r) (length (pr_comp r)))) by (rewrite (fl_len _ FL); apply nth_error_Some; congruence). destruct (nth_error (factorize (pr_weight r) (length (pr_comp r))) k) as [w|] eqn:Ew; [clear Lk|apply nth_error_None in Ew; lia].
    destruct D as [(t & -> & -> & ->)|(us & -> & F)].
    - assert (Hin : In (CRule (Non (pr_head r) k) (RT t) w (comp_bracket i k, Terminal, Ignore)) R) by (apply in_cs_rules; exists i, r, k, [Tm t], w; repeat (split; [assumption|]); now left). apply In_nth_error in Hin. destruct Hin as (rr & E). destruct (nth_rule _ _ E) as [RW RB_]. cbn [cr_weight cr_br] in RW, RB_.
      exists (CNull rr). split; [eapply cd_null; exact E|]. split; [cbn [ct_word kword]; rewrite RB_, (comp_of_nth _ _ _ _ Ei Ek); reflexivity|]. cbn [ct_weight kweight map]. rewrite RW, (factor_nth _ _ _ _ Ei Ew). change (w = wmul w (wone : K)). rewrite (wl_comm _ WL). symmetry. apply (wl_one_l _ WL).
    - assert (Z : exists zs, Forall2 (zok r) c zs /\ map snd zs = kts /\ zwords zs = concat us).
      { clear Ek. revert kts IH us F. induction c as [|x c IHc]; intros [|kt kts] IH [|u us] F; cbn in F; try contradiction; try (destruct x; contradiction).
        - exists []. repeat split. constructor.
        - destruct x as [i1 j1|t1]; [|contradiction]. destruct F as [(B & HB & D) F]. inversion IH as [|? ? IH1 IH2]; subst. destruct (IHc kts IH2 us F) as (zs & F2 & <- & E2). destruct (IH1 B j1 u D) as (t & D' & W' & K'). exists ((t, u, kt) :: zs). split; [constructor; [exists i1, j1, B; auto 6|exact F2]|]. split; [reflexivity|]. unfold zwords in *. cbn [map concat fst snd]. now rewrite E2. }
      destruct Z as (zs & F2 & <- & EU). rewrite <- EU.
      assert (NT_ : forall t, ~ In (Tm t) c) by (intros t; eapply F3_var; exact F).
      rewrite (body_vars i k (map snd zs) c) by first [eapply comp_of_nth; eassumption|assumption]. cbn [kweight]. rewrite (factor_nth _ _ _ _ Ei Ew), !map_map.
      destruct (comp_cases i r k c Ei Ek) as [(t & _ & -> & _)|[C0 _]]; [destruct (NT_ t); now left|]. destruct c as [|x1 [|x2 rest]]; [contradiction| |].
      + inversion F2 as [|? z ? zs1 Z F3_]; subst. inversion F3_; subst. destruct Z as (i1 & j1 & B1 & -> & H1 & D1 & W1 & K1).
        assert (Hin : In (CRule (Non (pr_head r) k) (RU (var_state r k (Var i1 j1))) w (comp_bracket i k, var_bracket (T := T) i (Var i1 j1), Ignore)) R) by (apply in_cs_rules; exists i, r, k, [Var i1 j1], w; repeat (split; [assumption|]); now left).
        apply In_nth_error in Hin. destruct Hin as (rr & E). destruct (nth_rule _ _ E) as [RW RB_]. cbn [cr_weight cr_br] in RW, RB_. rewrite (var_state_eq _ _ _ _ _ H1) in E.
        exists (CUn rr (fst (fst z))). split; [unfold zwords; cbn [map concat]; rewrite app_nil_r; eapply cd_un; eassumption|]. split; [cbn [ct_word]; rewrite RB_; unfold kbody; cbn [map combine concat fst snd]; rewrite app_nil_r, W1; reflexivity|].
        cbn [ct_weight map]. rewrite RW, K1. f_equal. change (kweight (snd z) = wmul (kweight (snd z)) (wone : K)). rewrite (wl_comm _ WL). symmetry. apply (wl_one_l _ WL).
      + destruct (up_parts i r k x1 x2 w rest [] zs) as (t & D & W & KW); try assumption; [now rewrite app_nil_r|]. exists t. split; [exact D|]. split; [exact W|exact KW].
  Qed.

  (* ---- toderiv ---- *)
  Definition varids (c : list (vart T)) : list nat := flat_map (fun x => match x with Var i _ => [i] | Tm _ => [] end) c.
  (* positions and rules in the order in which they are read *)
  Fixpoint visits (t : ktree) (p : list nat) : list (list nat * nat) :=
    match t with KNode i k kts => (p, i) :: concat (map (fun q => snd q (p ++ [u8 (fst q)])) (combine (varids (comp_of i k)) (map visits kts))) end.
  Fixpoint insert_visits (vs : list (list nat * nat)) (tree : gorn nat) : option (gorn nat) :=
    match vs with
    | [] => Some tree
    | (p, i) :: vs => match gt_get p tree with None => insert_visits vs (gt_insert p i tree) | Some r => if Nat.eqb r i then insert_visits vs tree else None end
    end.
  Lemma insert_visits_app a : forall b tree, insert_visits (a ++ b) tree = let? tree' := insert_visits a tree in insert_visits b tree'.
  Proof. induction a as [|[p i] a IH]; intros b tree; [reflexivity|]. cbn [app insert_visits]. destruct (gt_get p tree) as [r|]; [destruct (Nat.eqb r i); [apply IH|reflexivity]|apply IH]. Qed.
  Lemma loop_kword : forall kt A k u, kderiv kt A k u -> forall p rest tree,
    toderiv_loop (kword kt ++ rest) p tree = let? tree' := insert_visits (visits kt p) tree in toderiv_loop rest p tree'.
  Proof.
    induction kt as [i k0 kts IH] using ktree_ind2. intros A k u D p rest tree. cbn [kderiv] in D. destruct D as (-> & r & c & Ei & <- & Ek & D).
    assert (G : forall v tail, (forall tree', toderiv_loop (v ++ Close (BComp i (u8 k)) :: rest) p tree' = let? tree'' := insert_visits tail tree' in toderiv_loop rest p tree'') ->
      toderiv_loop (wrapb (BComp i (u8 k)) v ++ rest) p tree = let? tree' := insert_visits ((p, i) :: tail) tree in toderiv_loop rest p tree').
    { intros v tail HV. unfold wrapb. cbn [app toderiv_loop insert_visits]. rewrite <- app_assoc. cbn [app]. destruct (gt_get p tree) as [r'|]; [destruct (Nat.eqb r' i); [apply HV|reflexivity]|apply HV]. }
    cbn [visits]. rewrite (comp_of_nth _ _ _ _ Ei Ek). destruct D as [(t & -> & -> & ->)|(us & -> & F)].
    - cbn [kword]. rewrite (comp_of_nth _ _ _ _ Ei Ek). apply G. intros tree'. reflexivity.
    - rewrite (body_vars i k kts c (comp_of_nth _ _ _ _ Ei Ek)) by (intros t; eapply F3_var; exact F). apply G. clear G tree Ek. revert c us F. induction kts as [|kt kts IHk]; intros [|x c] [|u us] F tree; cbn in F; try contradiction; try (destruct x; contradiction).
      + reflexivity.
      + destruct x as [i1 j1|t1]; [|contradiction]. destruct F as [(B & HB & D) F]. inversion IH as [|? ? IH1 IH2]; subst. unfold kbody. cbn [map combine concat fst snd varids flat_map app]. rewrite insert_visits_app. unfold wrapb at 1. cbn [app var_bracket toderiv_loop].
        rewrite <- !app_assoc. rewrite (IH1 _ _ _ D). destruct (insert_visits (visits kt (p ++ [u8 i1])) tree) as [tree'|]; [|reflexivity]. cbn [app toderiv_loop]. rewrite removelast_last. apply (IHk IH2 c us F).
  Qed.
  Definition gs {X} (m : gorn X) : Prop := sorted_keys addr_cmp (map fst m).
  Lemma get_ins {X} (m : gorn X) p q (v : X) : gs m -> gt_get q (gt_insert p v m) = if list_eq_dec Nat.eq_dec q p then Some v else gt_get q m.
  Proof.
    intros S0. unfold gt_get, gt_insert. rewrite (bm_get_insert addr_cmp addr_ord) by exact S0. destruct (addr_cmp q p) eqn:E; destruct (list_eq_dec Nat.eq_dec q p) as [->|Hn]; try reflexivity.
    - apply (ol_eq _ addr_ord) in E. contradiction.
    - rewrite (proj2 (ol_eq _ addr_ord p p) eq_refl) in E. discriminate.
    - rewrite (proj2 (ol_eq _ addr_ord p p) eq_refl) in E. discriminate.
  Qed.
  Lemma insert_visits_spec vs : forall tree, gs tree ->
    match insert_visits vs tree with
    | Some tree' => gs tree' /\ (forall p i, gt_get p tree' = Some i <-> gt_get p tree = Some i \/ (gt_get p tree = None /\ In (p, i) vs)) /\ (forall p i, In (p, i) vs -> gt_get p tree' = Some i)
    | None => exists p i j, In (p, i) vs /\ i <> j /\ (gt_get p tree = Some j \/ In (p, j) vs)
    end.
  Proof.
    induction vs as [|[p i] vs IH]; intros tree S0; cbn [insert_visits].
    - split; [exact S0|]. split; [|intros p i []]. intros p i. split; [tauto|]. intros [A|[_ []]]. exact A.
    - destruct (gt_get p tree) as [r|] eqn:G.
      + destruct (Nat.eqb_spec r i) as [->|Hn].
        * specialize (IH tree S0). destruct (insert_visits vs tree) as [tree'|].
          -- destruct IH as (S1 & I1 & I2). split; [exact S1|]. split.
             ++ intros q j. rewrite I1. split; [intros [A|[A B]]; [tauto|right; split; [exact A|now right]]|]. intros [A|[A [B|B]]]; [tauto| |tauto]. injection B as <- <-. congruence.
             ++ intros q j [[= <- <-]|Hq]; [apply I1; tauto|auto].
          -- destruct IH as (q & j1 & j2 & A & B & C). exists q, j1, j2. split; [now right|]. split; [exact B|]. destruct C as [C|C]; [tauto|right; now right].
        * exists p, i, r. split; [now left|]. split; [congruence|]. now left.
      + assert (S1 : gs (gt_insert p i tree)) by (apply (bm_insert_sorted addr_cmp addr_ord); exact S0). specialize (IH _ S1). destruct (insert_visits vs (gt_insert p i tree)) as [tree'|].
        * destruct IH as (S2 & I1 & I2). split; [exact S2|]. split.
          -- intros q j. rewrite I1, (get_ins tree p q i S0). destruct (list_eq_dec Nat.eq_dec q p) as [->|Hn].
             ++ split; [intros [[= <-]|[A _]]; [right; split; [exact G|now left]|discriminate]|]. intros [A|[_ [B|B]]]; [congruence|injection B as <-; tauto|]. specialize (I2 p j B). apply I1 in I2. rewrite (get_ins tree p p i S0) in I2. destruct (list_eq_dec Nat.eq_dec p p); [|contradiction]. destruct I2 as [I2|[I2 _]]; [left; exact I2|discriminate].
             ++ split; [intros [A|[A B]]; [tauto|right; split; [exact A|now right]]|]. intros [A|[A [B|B]]]; [tauto|injection B as -> ->; contradiction|tauto].
          -- intros q j [[= <- <-]|Hq]; [|auto]. apply I1. left. rewrite (get_ins tree p p i S0). destruct (list_eq_dec Nat.eq_dec p p); [reflexivity|contradiction].
        * destruct IH as (q & j1 & j2 & A & B & C). rewrite (get_ins tree p q i S0) in C. exists q, j1, j2. split; [now right|]. split; [exact B|]. destruct (list_eq_dec Nat.eq_dec q p) as [->|Hn]; [|destruct C as [C|C]; [tauto|right; now right]]. right. destruct C as [[= <-]|C]; [now left|now right].
  Qed.
  Lemma toderiv_kword kt A k u : kderiv kt A k u -> (forall p i, In (p, i) (visits kt []) -> i < length rules) ->
    (forall tree, toderiv rules (kword kt) = Some (Some tree) -> gs tree /\ (forall p r, gt_get p tree = Some r <-> exists i, In (p, i) (visits kt []) /\ nth_error rules i = Some r) /\ forall p i j, In (p, i) (visits kt []) -> In (p, j) (visits kt []) -> i = j) /\
    ((forall p i j, In (p, i) (visits kt []) -> In (p, j) (visits kt []) -> i = j) -> exists tree, toderiv rules (kword kt) = Some (Some tree)) /\
    toderiv rules (kword kt) <> None.
  Proof.
    intros D VL. unfold toderiv. assert (E : toderiv_loop (kword kt) [] [] = insert_visits (visits kt []) []). { pose proof (loop_kword kt A k u D [] [] []) as L. rewrite app_nil_r in L. rewrite L. destruct (insert_visits (visits kt []) []); reflexivity. }
    rewrite E. pose proof (insert_visits_spec (visits kt []) [] I) as S0. destruct (insert_visits (visits kt []) []) as [t0|].
    - destruct S0 as (S0 & I1 & I2).
      assert (OK : exists tree, opt_all (fun e => option_map (pair (fst e)) (nth_error rules (snd e))) t0 = Some tree).
      { apply opt_all_total. intros [p i] Hin. cbn [fst snd]. apply (bm_get_In addr_cmp addr_ord p i t0 S0) in Hin. change (gt_get p t0 = Some i) in Hin. apply I1 in Hin. destruct Hin as [Hin|[_ Hin]]; [discriminate|]. apply VL in Hin. destruct (nth_error rules i) eqn:En; [discriminate|]. apply nth_error_None in En. lia. }
      destruct OK as (tree & ET). rewrite ET. cbn [option_map].
      assert (TT : map fst tree = map fst t0 /\ forall p r, In (p, r) tree <-> exists i, In (p, i) t0 /\ nth_error rules i = Some r).
      { clear -ET. revert tree ET. induction t0 as [|[p i] t0 IH]; intros tree ET; cbn in ET; [injection ET as <-; split; [reflexivity|]; intros p r; split; [intros []|intros (i & [] & _)]|]. destruct (nth_error rules i) as [r|] eqn:En; [|discriminate]. cbn in ET. destruct (opt_all _ t0) as [tree0|] eqn:E0; [|discriminate]. injection ET as <-. destruct (IH tree0 eq_refl) as [T1 T2]. split; [cbn; now f_equal|].
        intros p0 r0. cbn [In]. rewrite T2. split; [intros [[= <- <-]|(i0 & A & B)]; [exists i; auto|exists i0; auto]|intros (i0 & [[= <- <-]|Q] & B); [left; congruence|right; eauto]]. }
      destruct TT as [T1 T2]. assert (ST : gs tree) by (unfold gs; rewrite T1; exact S0).
      assert (FN : forall p i j, In (p, i) (visits kt []) -> In (p, j) (visits kt []) -> i = j) by (intros p i j Q1 Q2; apply I2 in Q1, Q2; congruence).
      split; [|split; [eauto|discriminate]]. intros tree1 E1. injection E1 as <-. split; [exact ST|]. split; [|exact FN].
      intros p r. unfold gt_get. rewrite (bm_get_In addr_cmp addr_ord p r tree ST), T2. split; intros (i & Hv & Hr); exists i; (split; [|exact Hr]).
      + apply (bm_get_In addr_cmp addr_ord p i t0 S0) in Hv. change (gt_get p t0 = Some i) in Hv. apply I1 in Hv. destruct Hv as [Hv|[_ Hv]]; [discriminate|exact Hv].
      + apply (bm_get_In addr_cmp addr_ord p i t0 S0). apply I2. exact Hv.
    - destruct S0 as (p & i & j & Q1 & Q2 & [Q3|Q3]); [discriminate|]. split; [discriminate|]. split; [|discriminate]. intros F. destruct (Q2 (F p i j Q1 Q3)).
  Qed.
  Lemma visits_lt : forall kt A k u, kderiv kt A k u -> forall p q i, In (q, i) (visits kt p) -> i < length rules.
  Proof.
    induction kt as [i0 k0 kts IH] using ktree_ind2. intros A k u D p q i Hin. cbn [kderiv] in D. destruct D as (-> & r & c & Ei & <- & Ek & D). cbn [visits] in Hin. destruct Hin as [[= <- <-]|Hin]; [apply nth_error_Some; congruence|].
    apply in_concat in Hin. destruct Hin as (l & Hl & Hin). apply in_map_iff in Hl. destruct Hl as ([v g] & <- & Hc). cbn [fst snd] in Hin. pose proof (in_combine_r _ _ _ _ Hc) as Hg. apply in_map_iff in Hg. destruct Hg as (kt & <- & Hkt).
    destruct D as [(t & -> & -> & ->)|(us & -> & F)]; [destruct Hkt|]. rewrite Forall_forall in IH.
    assert (X : exists B j u, kderiv kt B j u). { clear -F Hkt. revert c us F Hkt. induction kts as [|kt0 kts IHk]; intros [|x c] [|u us] F Hkt; cbn in F; try contradiction; try (destruct x; contradiction). destruct x as [i j|t]; [|contradiction]. destruct F as [(B & _ & D) F]. destruct Hkt as [<-|Hkt]; [eauto|eapply IHk; eassumption]. }
    destruct X as (B & j & u & D). eapply (IH kt Hkt B j u D). exact Hin.
  Qed.

  (* ---- derivations of the grammar with rules named by their position ---- *)
  Inductive rep : idt -> dtree N T K -> Prop :=
  | rep_node i r xs ds : nth_error rules i = Some r -> Forall2 rep xs ds -> rep (INode i xs) (DNode r ds).
  Lemma rep_exists : forall d A, deriv (fun r => In r rules) A d -> exists x, rep x d.
  Proof.
    induction d as [r ts IH] using dtree_ind2. intros A D. apply deriv_inv in D. destruct D as (-> & Hr & F2). apply In_nth_error in Hr. destruct Hr as (i & Ei).
    destruct (choose_list (fun d x => rep x d) ts) as (xs & Fx). { intros d Hd. destruct (F2_in_r _ _ _ F2 d Hd) as (B & _ & D). rewrite Forall_forall in IH. exact (IH d Hd B D). }
    exists (INode i xs). constructor; [exact Ei|]. clear -Fx. induction Fx; constructor; auto.
  Qed.
  Fixpoint comp_tree (x : idt) : nat -> ktree :=
    match x with INode i xs => let cs := map comp_tree xs in
      fun k => KNode i k (flat_map (fun v => match v with Var i' j => match nth_error cs i' with Some g => [g j] | None => [] end | Tm _ => [] end) (comp_of i k)) end.
  Definition kids (xs : list idt) (c : list (vart T)) : list ktree :=
    flat_map (fun v => match v with Var i' j => match nth_error xs i' with Some x => [comp_tree x j] | None => [] end | Tm _ => [] end) c.
  Lemma comp_tree_eq i xs k : comp_tree (INode i xs) k = KNode i k (kids xs (comp_of i k)).
  Proof.
    cbn [comp_tree]. f_equal. unfold kids. induction (comp_of i k) as [|v c IH]; [reflexivity|]. cbn [flat_map]. rewrite IH. f_equal. destruct v as [i' j|t]; [|reflexivity]. rewrite nth_error_map. destruct (nth_error xs i'); reflexivity.
  Qed.
  Fixpoint id_at (x : idt) (a : list nat) : option nat :=
    match x with INode i xs => match a with [] => Some i | j :: a => match nth_error (map id_at xs) j with Some g => g a | None => None end end end.
  Lemma id_at_cons i xs j a : id_at (INode i xs) (j :: a) = match nth_error xs j with Some x => id_at x a | None => None end.
  Proof. cbn [id_at]. rewrite nth_error_map. destruct (nth_error xs j); reflexivity. Qed.
  Lemma rep_at : forall x d, rep x d -> forall a, rule_at d a = match id_at x a with Some i => nth_error rules i | None => None end.
  Proof.
    induction x as [i xs IH] using idt_ind2. intros d RD. inversion RD as [i0 r xs0 ds Ei F2]; subst. intros [|j a]; [cbn; now rewrite Ei|]. rewrite id_at_cons. cbn [rule_at d_children]. pose proof (F2_nth _ _ _ F2 j) as Hj. destruct (nth_error xs j) as [x|] eqn:Ex, (nth_error ds j) as [d|]; try contradiction; [|reflexivity].
    rewrite Forall_forall in IH. apply (IH x (nth_error_In _ _ Ex) d Hj).
  Qed.
  Lemma id_at_lt : forall x d, rep x d -> forall a i, id_at x a = Some i -> exists r, nth_error rules i = Some r.
  Proof.
    induction x as [i xs IH] using idt_ind2. intros d RD. inversion RD as [i0 r xs0 ds Ei F2]; subst. intros [|j a] i1 E; [cbn in E; injection E as <-; eauto|]. rewrite id_at_cons in E. pose proof (F2_nth _ _ _ F2 j) as Hj. destruct (nth_error xs j) as [x|] eqn:Ex; [|discriminate]. destruct (nth_error ds j) as [d|]; [|contradiction].
    rewrite Forall_forall in IH. apply (IH x (nth_error_In _ _ Ex) d Hj a i1 E).
  Qed.
  (* every derivation gives one tree per component *)
  Lemma comp_tree_deriv : forall x d A y k u, rep x d -> deriv (fun r => In r rules) A d -> yield d = Some y -> nth_error y k = Some u -> kderiv (comp_tree x k) A k u.
  Proof.
    induction x as [i xs IH] using idt_ind2. intros d A y k u RD D Y Hu. inversion RD as [i0 r xs0 ds Ei F2]; subst. apply deriv_inv in D. destruct D as (-> & Hr & FD). rewrite yield_eq in Y. rewrite (opt_all_nth _ _ _ Y k) in Hu. destruct (nth_error (pr_comp r) k) as [c|] eqn:Ek; [|discriminate].
    destruct (opt_all (sval ds) c) as [us|] eqn:EU; [|discriminate]. cbn in Hu. injection Hu as <-. rewrite comp_tree_eq, (comp_of_nth _ _ _ _ Ei Ek). cbn [kderiv]. split; [reflexivity|]. exists r, c. split; [exact Ei|]. split; [reflexivity|]. split; [exact Ek|].
    destruct (comp_cases i r k c Ei Ek) as [(t & _ & -> & _)|[_ V]]; [left; exists t; cbn in EU; injection EU as <-; auto|]. right. exists us. split; [reflexivity|]. clear Ek Y. revert us EU. induction c as [|v c IHc]; intros us EU; [cbn in EU; injection EU as <-; exact I|].
    destruct (V v (or_introl eq_refl)) as (i' & j & B & -> & HB). cbn [opt_all] in EU. destruct (sval ds (Var i' j)) as [u|] eqn:ES; [|discriminate]. destruct (opt_all (sval ds) c) as [us0|] eqn:EU0; [|discriminate]. injection EU as <-.
    pose proof (F2_nth _ _ _ F2 i') as Hx. pose proof (F2_nth _ _ _ FD i') as Hd. rewrite HB in Hd. destruct (nth_error ds i') as [d|] eqn:Ed; [|contradiction]. destruct (nth_error xs i') as [x|] eqn:Ex; [|contradiction].
    unfold kids. cbn [flat_map]. rewrite Ex. cbn [app map F3]. split; [|apply IHc; [intros z Hz; apply V; now right|reflexivity]]. exists B. split; [exact HB|]. cbn [sval] in ES. rewrite nth_error_map, Ed in ES. cbn [option_map] in ES. destruct (yield d) as [y0|] eqn:Y0; [|discriminate].
    rewrite Forall_forall in IH. exact (IH x (nth_error_In _ _ Ex) d B y0 j u Hx Hd Y0 ES).
  Qed.

  Section LC.
    Context (f : N -> nat) (FO : fanouts_ok rules f) (LR : forall r, In r rules -> lcfrs_rule f r).
    Lemma vars_perm (r : rule) : In r rules -> Permutation (variables (pr_comp r)) (flat_map (fun e => map (pair (fst e)) (seq 0 (f (snd e)))) (combine (seq 0 (length (pr_tail r))) (pr_tail r))).
    Proof.
      intros Hr. destruct (LR r Hr) as (Li & VE & ND). assert (CN : forall i B, In (i, B) (combine (seq 0 (length (pr_tail r))) (pr_tail r)) <-> nth_error (pr_tail r) i = Some B).
      { intros i B. split; intros Hin.
        - apply In_nth_error in Hin. destruct Hin as (n & Hn). apply combine_nth_inv in Hn. cbn [fst snd] in Hn. destruct Hn as [H1 H2]. assert (n < length (pr_tail r)) by (apply nth_error_Some; congruence). rewrite (nth_error_nth' _ 0) in H1 by (rewrite seq_length; lia). rewrite seq_nth in H1 by lia. injection H1 as <-. exact H2.
        - assert (L : i < length (pr_tail r)) by (apply nth_error_Some; congruence). apply (nth_error_In _ i). apply combine_nth_error; [|exact Hin]. rewrite (nth_error_nth' _ 0) by (rewrite seq_length; lia). now rewrite seq_nth by lia. }
      apply NoDup_Permutation; [exact Li| |].
      - assert (G : forall es : list (nat * N), NoDup (map fst es) -> NoDup (flat_map (fun e => map (pair (fst e)) (seq 0 (f (snd e)))) es)).
        { induction es as [|e es IHe]; intros NDe; [constructor|]. inversion NDe as [|? ? N1 N2]; subst. cbn [flat_map]. apply NoDup_app_intro.
          - apply NoDup_map_inj; [apply seq_NoDup|]. intros a b _ _ E. now injection E.
          - now apply IHe.
          - intros z Z1 Z2. apply in_map_iff in Z1. destruct Z1 as (j & <- & _). apply in_flat_map in Z2. destruct Z2 as (e' & He' & Z2). apply in_map_iff in Z2. destruct Z2 as (j' & E & _). injection E as E _. apply N1. rewrite <- E. now apply in_map. }
        apply G. assert (Q : forall (a : list nat) (b : list N), NoDup a -> NoDup (map fst (combine a b))). { induction a as [|a0 a IHa]; intros [|b0 b] Na; try constructor; cbn; inversion Na as [|? ? N1 N2]; subst; [|now apply IHa]. intros Hin. apply N1. apply in_map_iff in Hin. destruct Hin as ([x y] & <- & Hin). exact (in_combine_l _ _ _ _ Hin). } apply Q, seq_NoDup.
      - intros [i j]. rewrite in_flat_map. split.
        + intros Hv. destruct (VE i j Hv) as (B & HB & Hj). exists (i, B). split; [now apply CN|]. cbn [fst snd]. apply in_map. apply in_seq. lia.
        + intros ([i0 B] & HB & Hm). cbn [fst snd] in Hm. apply in_map_iff in Hm. destruct Hm as (j0 & E & Hj). injection E as -> ->. apply in_seq in Hj. apply (ND i B j); [now apply CN|lia].
    Qed.
    Lemma wprod_concat {X} (g : X -> K) (ll : list (list X)) : wprod (map g (concat ll)) = wprod (map (fun l => wprod (map g l)) ll).
    Proof. induction ll as [|l ll IH]; [reflexivity|]. cbn [concat map]. rewrite map_app, (wprod_app WL), IH. reflexivity. Qed.
    Lemma wprod_mul {X} (g h : X -> K) (l : list X) : wprod (map (fun x => wmul (g x) (h x)) l) = wmul (wprod (map g l)) (wprod (map h l)).
    Proof.
      induction l as [|x l IH]; cbn [map]; [symmetry; apply (wl_one_l _ WL)|]. change (wmul (wmul (g x) (h x)) (wprod (map (fun x => wmul (g x) (h x)) l)) = wmul (wmul (g x) (wprod (map g l))) (wmul (h x) (wprod (map h l)))). rewrite IH.
      rewrite <- !(wl_assoc _ WL). f_equal. rewrite !(wl_assoc _ WL). f_equal. apply (wl_comm _ WL).
    Qed.
    Lemma comp_tree_weight : forall x d A, rep x d -> deriv (fun r => In r rules) A d -> wprod (map (fun k => kweight (comp_tree x k)) (seq 0 (f A))) = d_weight d.
    Proof.
      induction x as [i xs IH] using idt_ind2. intros d A RD D. inversion RD as [i0 r xs0 ds Ei F2]; subst. apply deriv_inv in D. destruct D as (-> & Hr & FD). rewrite (d_weight_node WL). rewrite <- (FO r Hr).
      assert (E1 : map (fun k => kweight (comp_tree (INode i xs) k)) (seq 0 (length (pr_comp r))) = map (fun k => wmul (factor i k) (wprod (map kweight (kids xs (nth k (pr_comp r) []))))) (seq 0 (length (pr_comp r)))).
      { apply map_ext_in. intros k Hk. rewrite comp_tree_eq. cbn [kweight]. unfold comp_of. now rewrite Ei. }
      rewrite E1, wprod_mul. f_equal.
      - assert (E2 : map (factor i) (seq 0 (length (pr_comp r))) = factorize (pr_weight r) (length (pr_comp r))).
        { unfold factor. rewrite Ei. pose proof (fl_len _ FL (pr_weight r) (length (pr_comp r))) as L. rewrite <- L at 1. clear. induction (factorize (pr_weight r) (length (pr_comp r))) as [|w ws IHw]; [reflexivity|]. cbn [length seq map nth]. f_equal. rewrite <- seq_shift, map_map. exact IHw. }
        rewrite E2. apply (fl_prod _ FL). intros Z. apply length_zero_iff_nil in Z. destruct (NF r Hr) as [NE _]. contradiction.
      - assert (E3 : map (fun k => wprod (map kweight (kids xs (nth k (pr_comp r) [])))) (seq 0 (length (pr_comp r))) = map (fun c => wprod (map kweight (kids xs c))) (pr_comp r)).
        { clear. induction (pr_comp r) as [|c cs IHc]; [reflexivity|]. cbn [length seq map nth]. f_equal. rewrite <- seq_shift, map_map. exact IHc. }
        rewrite E3. set (g := fun v : nat * nat => match nth_error xs (fst v) with Some x => kweight (comp_tree x (snd v)) | None => wone end).
        assert (E4 : forall c, wprod (map kweight (kids xs c)) = wprod (map g (flat_map as_var c))).
        { induction c as [|[i' j|t] c IHc]; [reflexivity| |exact IHc]. unfold kids in *. cbn [flat_map as_var app map]. unfold g at 1. cbn [fst snd]. destruct (nth_error xs i') as [x|]; cbn [app map].
          - change (wmul (kweight (comp_tree x j)) (wprod (map kweight (flat_map (fun v => match v with Var i'0 j0 => match nth_error xs i'0 with Some x0 => [comp_tree x0 j0] | None => [] end | Tm _ => [] end) c))) = wmul (kweight (comp_tree x j)) (wprod (map g (flat_map as_var c)))). now rewrite IHc.
          - change (wprod (map kweight (flat_map (fun v => match v with Var i'0 j0 => match nth_error xs i'0 with Some x0 => [comp_tree x0 j0] | None => [] end | Tm _ => [] end) c)) = wmul wone (wprod (map g (flat_map as_var c)))). rewrite IHc. symmetry. apply (wl_one_l _ WL). }
        assert (E5 : map (fun c => wprod (map kweight (kids xs c))) (pr_comp r) = map (fun l => wprod (map g l)) (map (flat_map as_var) (pr_comp r))) by (rewrite map_map; apply map_ext; exact E4). rewrite E5, <- wprod_concat.
        assert (E6 : concat (map (flat_map as_var) (pr_comp r)) = variables (pr_comp r)). { unfold variables. clear. induction (pr_comp r) as [|c cs IHc]; [reflexivity|]. cbn [map concat]. now rewrite flat_map_app, IHc. }
        rewrite E6, (wprod_perm WL _ _ (Permutation_map g (vars_perm r Hr))), flat_map_concat_map, wprod_concat, map_map. f_equal.
        assert (G : forall tl o xs' ds', o + length xs' = length xs -> (forall m, nth_error xs' m = nth_error xs (o + m)) -> Forall (fun x => In x xs) xs' -> Forall2 rep xs' ds' -> Forall2 (deriv (fun r => In r rules)) tl ds' ->
          map (fun e => wprod (map g (map (pair (fst e)) (seq 0 (f (snd e)))))) (combine (seq o (length tl)) tl) = map d_weight ds').
        { induction tl as [|B tl IHt]; intros o xs' ds' Lx Nx Ix Fx Fd; inversion Fd as [|? d ? ds1 D1 D2]; subst; [reflexivity|]. inversion Fx as [|x ? xs1 ? X1 X2]; subst. cbn [length seq combine map fst snd]. inversion Ix as [|? ? I1 I2]; subst. f_equal.
          - rewrite map_map. rewrite <- (proj1 (Forall_forall _ _) IH x I1 d B X1 D1). f_equal. apply map_ext. intros k. unfold g. cbn [fst snd]. specialize (Nx 0). rewrite Nat.add_0_r in Nx. cbn in Nx. now rewrite <- Nx.
          - apply (IHt (S o) xs1 ds1); auto; [cbn in Lx; lia|]. intros m. specialize (Nx (S m)). rewrite Nat.add_succ_r in Nx. exact Nx. }
        apply (G (pr_tail r) 0 xs ds); auto. apply Forall_forall. auto.
    Qed.

    (* what is visited *)
    Context (AR : forall r, In r rules -> length (pr_tail r) <= 256).
    Lemma u8_small i : i < 256 -> u8 i = i.
    Proof. intros H. unfold u8. now apply Nat.mod_small. Qed.
    Lemma visits_child i k kts p q j : In (q, j) (visits (KNode i k kts) p) <-> (q = p /\ j = i) \/ exists m v kt, nth_error (varids (comp_of i k)) m = Some v /\ nth_error kts m = Some kt /\ In (q, j) (visits kt (p ++ [u8 v])).
    Proof.
      cbn [visits In]. rewrite in_concat. split.
      - intros [E|(l & Hl & Hin)]; [injection E as <- <-; auto|]. right. apply in_map_iff in Hl. destruct Hl as (e & <- & He). apply In_nth_error in He. destruct He as (m & He). apply combine_nth_inv in He. destruct He as [H1 H2]. rewrite nth_error_map in H2. destruct (nth_error kts m) as [kt|] eqn:Ek; [|discriminate]. cbn in H2. injection H2 as H2. exists m, (fst e), kt. rewrite H2. auto.
      - intros [[-> ->]|(m & v & kt & H1 & H2 & H3)]; [now left|]. right. exists (visits kt (p ++ [u8 v])). split; [|exact H3]. apply in_map_iff. exists (v, visits kt). split; [reflexivity|]. apply (nth_error_In _ m). apply combine_nth_error; [exact H1|]. rewrite nth_error_map, H2. reflexivity.
    Qed.
    Lemma kids_nth xs c : (forall v, In v c -> exists i j x, v = Var i j /\ nth_error xs i = Some x) -> forall m, nth_error (kids xs c) m = match nth_error c m with Some (Var i j) => option_map (fun x => comp_tree x j) (nth_error xs i) | _ => None end.
    Proof.
      induction c as [|v c IHc]; intros V m; [destruct m; reflexivity|]. destruct (V v (or_introl eq_refl)) as (i & j & x & -> & Ex). unfold kids. cbn [flat_map]. rewrite Ex. destruct m as [|m]; cbn [app nth_error]; [now rewrite Ex|]. apply IHc. intros z Hz. apply V. now right.
    Qed.
    Lemma varids_nth (c : list (vart T)) : (forall v, In v c -> exists i j, v = Var i j) -> forall m, nth_error (varids c) m = match nth_error c m with Some (Var i j) => Some i | _ => None end.
    Proof.
      induction c as [|v c IHc]; intros V m; [destruct m; reflexivity|]. destruct (V v (or_introl eq_refl)) as (i & j & ->). unfold varids. cbn [flat_map]. destruct m as [|m]; cbn [app nth_error]; [reflexivity|]. apply IHc. intros z Hz. apply V. now right.
    Qed.
    Lemma vars_of i (r : rule) k c xs ds : nth_error rules i = Some r -> nth_error (pr_comp r) k = Some c -> Forall2 (deriv (fun r => In r rules)) (pr_tail r) ds -> Forall2 rep xs ds -> (exists t, c = [Tm t]) \/ forall v, In v c -> exists i j x, v = Var i j /\ nth_error xs i = Some x.
    Proof.
      intros Ei Ek FD F2. destruct (comp_cases i r k c Ei Ek) as [(t & _ & -> & _)|[_ V]]; [left; eauto|]. right. intros v Hv. destruct (V v Hv) as (i' & j & B & -> & HB). pose proof (F2_nth _ _ _ F2 i') as Hx. pose proof (F2_nth _ _ _ FD i') as Hd. rewrite HB in Hd. destruct (nth_error ds i'); [|contradiction]. destruct (nth_error xs i') as [x|] eqn:Ex; [|contradiction]. exists i', j, x. auto.
    Qed.
    Lemma visits_comp : forall x d A k, rep x d -> deriv (fun r => In r rules) A d -> forall p q i, In (q, i) (visits (comp_tree x k) p) -> exists a, q = p ++ a /\ id_at x a = Some i.
    Proof.
      induction x as [i0 xs IH] using idt_ind2. intros d A k RD D p q i Hin. inversion RD as [i1 r xs0 ds Ei F2]; subst. apply deriv_inv in D. destruct D as (-> & Hr & FD). rewrite comp_tree_eq in Hin. apply visits_child in Hin. destruct Hin as [[-> ->]|(m & v & kt & H1 & H2 & H3)]; [exists []; rewrite app_nil_r; auto|].
      unfold comp_of in H1, H2. rewrite Ei in H1, H2. destruct (nth_error (pr_comp r) k) as [c|] eqn:Ek; [|rewrite nth_overflow in H1 by (now apply nth_error_None); destruct m; discriminate]. rewrite (nth_error_nth _ _ _ Ek) in H1, H2.
      destruct (vars_of i0 r k c xs ds Ei Ek FD F2) as [(t & ->)|V]; [destruct m; discriminate|]. rewrite (kids_nth _ _ V) in H2. rewrite varids_nth in H1 by (intros z Hz; destruct (V z Hz) as (a & b & _ & -> & _); eauto). destruct (nth_error c m) as [[i' j|t]|] eqn:Ec; [|discriminate|discriminate]. injection H1 as <-.
      destruct (nth_error xs i') as [x|] eqn:Ex; [|discriminate]. injection H2 as <-. pose proof (F2_nth _ _ _ F2 i') as Hx. pose proof (F2_nth _ _ _ FD i') as Hd. rewrite Ex in Hx. destruct (nth_error ds i') as [d|] eqn:Ed; [|contradiction]. destruct (nth_error (pr_tail r) i') as [B|] eqn:EB; [|contradiction].
      rewrite Forall_forall in IH. destruct (IH x (nth_error_In _ _ Ex) d B j Hx Hd _ _ _ H3) as (a & -> & Ha). exists (i' :: a). rewrite <- app_assoc. split.
      - f_equal. cbn [app]. f_equal. apply u8_small. assert (i' < length (pr_tail r)) by (apply nth_error_Some; congruence). specialize (AR r Hr). lia.
      - rewrite id_at_cons, Ex. exact Ha.
    Qed.
    Lemma f_pos A d : deriv (fun r => In r rules) A d -> 0 < f A.
    Proof. destruct d as [r ts]. intros D. apply deriv_inv in D. destruct D as (-> & Hr & _). rewrite <- (FO r Hr). destruct (NF r Hr) as [NE _]. destruct (pr_comp r); [contradiction|cbn; lia]. Qed.
    Lemma visits_cover : forall x d A, rep x d -> deriv (fun r => In r rules) A d -> forall a i p, id_at x a = Some i -> exists k, k < f A /\ In (p ++ a, i) (visits (comp_tree x k) p).
    Proof.
      induction x as [i0 xs IH] using idt_ind2. intros d A RD D a i p Ha. pose proof (f_pos A d D) as FP. inversion RD as [i1 r xs0 ds Ei F2]; subst. apply deriv_inv in D. destruct D as (-> & Hr & FD). destruct a as [|i' a].
      - cbn in Ha. injection Ha as <-. exists 0. split; [exact FP|]. rewrite comp_tree_eq. apply visits_child. left. now rewrite app_nil_r.
      - rewrite id_at_cons in Ha. destruct (nth_error xs i') as [x|] eqn:Ex; [|discriminate]. pose proof (F2_nth _ _ _ F2 i') as Hx. pose proof (F2_nth _ _ _ FD i') as Hd. rewrite Ex in Hx. destruct (nth_error ds i') as [d|] eqn:Ed; [|contradiction]. destruct (nth_error (pr_tail r) i') as [B|] eqn:EB; [|contradiction].
        rewrite Forall_forall in IH. destruct (IH x (nth_error_In _ _ Ex) d B Hx Hd a i (p ++ [i']) Ha) as (j & Hj & Hin). destruct (LR r Hr) as (_ & _ & ND). specialize (ND i' B j EB Hj). apply in_variables in ND. destruct ND as (c & Hc & Hv). apply In_nth_error in Hc. destruct Hc as (k & Ek). exists k. split; [rewrite <- (FO r Hr); apply nth_error_Some; congruence|].
        rewrite comp_tree_eq, (comp_of_nth _ _ _ _ Ei Ek). apply visits_child. right. rewrite (comp_of_nth _ _ _ _ Ei Ek). destruct (vars_of i0 r k c xs ds Ei Ek FD F2) as [(t & ->)|V]; [destruct Hv as [Hv|[]]; discriminate|]. apply In_nth_error in Hv. destruct Hv as (m & Em). exists m, i', (comp_tree x j). rewrite (kids_nth _ _ V), varids_nth by (intros z Hz; destruct (V z Hz) as (a' & b & _ & -> & _); eauto). rewrite Em, Ex. cbn [option_map]. split; [reflexivity|]. split; [reflexivity|].
        assert (L : i' < length (pr_tail r)) by (apply nth_error_Some; congruence). specialize (AR r Hr). rewrite u8_small by lia. rewrite <- app_assoc in Hin. exact Hin.
    Qed.

    (* ---- from a family of component trees back to a derivation ---- *)
    Context (DT : defined_tails rules).
    Fixpoint kheight (t : ktree) : nat := match t with KNode _ _ kts => S (list_max (map kheight kts)) end.
    Lemma kids_of (xs : list idt) (ds : list (dtree N T K)) (r : rule) : forall c ch us, F3 r (map kderiv ch) c us ->
      (forall i j v, In ((i, j), v) (combine (flat_map as_var c) (combine ch us)) -> exists x d y, nth_error xs i = Some x /\ nth_error ds i = Some d /\ yield d = Some y /\ comp_tree x j = fst v /\ nth_error y j = Some (snd v)) ->
      kids xs c = ch /\ opt_all (sval ds) c = Some us.
    Proof.
      induction c as [|v c IHc]; intros [|kt ch] [|u us] F HV; cbn in F; try contradiction; try (destruct v; contradiction); [auto|]. destruct v as [i j|t]; [|contradiction]. destruct F as [_ F]. cbn [flat_map as_var app combine] in HV.
      destruct (HV i j (kt, u) (or_introl eq_refl)) as (x & d & y & Ex & Ed & Y & C1 & C2). cbn [fst snd] in C1, C2. destruct (IHc ch us F) as [I1 I2]; [intros i0 j0 v0 H0; apply HV; now right|]. split.
      - unfold kids in *. cbn [flat_map]. now rewrite Ex, I1, C1.
      - cbn [opt_all]. rewrite (sval_var ds i j d y Ed Y), C2, I2. reflexivity.
    Qed.
    Lemma F3_keys (r : rule) : forall c ch us, F3 r (map kderiv ch) c us -> map fst (combine (flat_map as_var c) (combine ch us)) = flat_map as_var c.
    Proof. induction c as [|v c IHc]; intros [|kt ch] [|u us] F; cbn in F; try contradiction; try (destruct v; contradiction); [reflexivity|]. destruct v as [i j|t]; [|contradiction]. destruct F as [_ F]. cbn [flat_map as_var app combine map fst]. now rewrite (IHc ch us F). Qed.
    Lemma F3_entry (r : rule) : forall c ch us i j v, F3 r (map kderiv ch) c us -> In ((i, j), v) (combine (flat_map as_var c) (combine ch us)) ->
      exists m B, nth_error c m = Some (Var i j) /\ nth_error ch m = Some (fst v) /\ nth_error (varids c) m = Some i /\ nth_error (pr_tail r) i = Some B /\ kderiv (fst v) B j (snd v).
    Proof.
      induction c as [|v0 c IHc]; intros [|kt ch] [|u us] i j v F Hin; cbn in F; try contradiction; try (destruct v0; contradiction). destruct v0 as [i0 j0|t]; [|contradiction]. destruct F as [(B & HB & D) F]. cbn [flat_map as_var app combine] in Hin. destruct Hin as [E|Hin].
      - injection E as <- <- <-. exists 0, B. cbn. auto.
      - destruct (IHc ch us i j v F Hin) as (m & B' & H1 & H2 & H3 & H4 & H5). exists (S m), B'. cbn. auto.
    Qed.
    Lemma F2_of_nth {X Y} (P : X -> Y -> Prop) : forall l1 l2, length l1 = length l2 -> (forall i x y, nth_error l1 i = Some x -> nth_error l2 i = Some y -> P x y) -> Forall2 P l1 l2.
    Proof. induction l1 as [|x l1 IH]; intros [|y l2] L H; try discriminate; constructor; [apply (H 0); reflexivity|]. apply IH; [now injection L|]. intros i x' y' H1 H2. apply (H (S i)); assumption. Qed.
    Lemma opt_all_of_nth {X Y} (F : X -> option Y) : forall l l', length l = length l' -> (forall i x, nth_error l i = Some x -> F x = nth_error l' i) -> opt_all F l = Some l'.
    Proof.
      induction l as [|x l IH]; intros [|y l'] L H; try discriminate; [reflexivity|]. cbn [opt_all]. rewrite (H 0 x eq_refl). cbn [nth_error]. rewrite (IH l'); [reflexivity|now injection L|]. intros i x' E. apply (H (S i) x' E).
    Qed.
    Lemma in_keys_unique {X Y} (l : list (X * Y)) k v v' : NoDup (map fst l) -> In (k, v) l -> In (k, v') l -> v = v'.
    Proof.
      induction l as [|[k0 v0] l IH]; intros ND H1 H2; [destruct H1|]. inversion ND as [|? ? N1 N2]; subst. destruct H1 as [H1|H1], H2 as [H2|H2].
      - congruence.
      - injection H1 as -> ->. destruct N1. apply (in_map fst) in H2. exact H2.
      - injection H2 as -> ->. destruct N1. apply (in_map fst) in H1. exact H1.
      - auto.
    Qed.
    Lemma seq_nth_error n i : i < n -> nth_error (seq 0 n) i = Some i.
    Proof. intros H. rewrite (nth_error_nth' _ 0) by (rewrite seq_length; lia). now rewrite seq_nth by lia. Qed.
    Lemma tail_pos (r : rule) i B : In r rules -> nth_error (pr_tail r) i = Some B -> 0 < f B.
    Proof. intros Hr HB. destruct (DT r B Hr (nth_error_In _ _ HB)) as (r' & Hr' & <-). rewrite <- (FO r' Hr'). destruct (NF r' Hr') as [NE _]. destruct (pr_comp r'); [contradiction|cbn; lia]. Qed.
    Lemma join : forall n A p (kts : list ktree) (us : list (list T)), (forall kt, In kt kts -> kheight kt <= n) -> length kts = f A -> length us = f A -> 0 < f A ->
      (forall k kt u, nth_error kts k = Some kt -> nth_error us k = Some u -> kderiv kt A k u) ->
      (forall kt kt' q i j, In kt kts -> In kt' kts -> In (q, i) (visits kt p) -> In (q, j) (visits kt' p) -> i = j) ->
      exists x d, rep x d /\ deriv (fun r => In r rules) A d /\ yield d = Some us /\ forall k kt, nth_error kts k = Some kt -> kt = comp_tree x k.
    Proof.
      induction n as [|n IH]; intros A p kts us HH LK LU FP KD FN; (destruct kts as [|kt0 kts0] eqn:EK0; [cbn in LK; lia|]).
      - specialize (HH kt0 (or_introl eq_refl)). destruct kt0; cbn in HH; lia.
      - rewrite <- EK0 in *. assert (H0 : nth_error kts 0 = Some kt0) by (rewrite EK0; reflexivity). destruct kt0 as [i0 k0 ch0].
        destruct us as [|u0 us0] eqn:EU0; [cbn in LU; lia|]. rewrite <- EU0 in *. assert (U0 : nth_error us 0 = Some u0) by (rewrite EU0; reflexivity). destruct (KD 0 _ _ H0 U0) as (_ & r & c0 & Ei & HA & Ek0 & _). pose proof (nth_error_In _ _ Ei) as Hr. pose proof (FO r Hr) as LC. rewrite HA in LC.
        assert (DATA : forall k, k < f A -> exists (e : list ktree * list (list T)), exists c u, nth_error (pr_comp r) k = Some c /\ nth_error kts k = Some (KNode i0 k (fst e)) /\ nth_error us k = Some u /\ ((exists t, c = [Tm t] /\ fst e = [] /\ u = [t]) \/ (u = concat (snd e) /\ F3 r (map kderiv (fst e)) c (snd e)))).
        { intros k Hk. destruct (nth_error kts k) as [[i k1 ch]|] eqn:Ekt; [|apply nth_error_None in Ekt; lia]. destruct (nth_error us k) as [u|] eqn:Eu; [|apply nth_error_None in Eu; lia].
          assert (i = i0). { apply (FN (KNode i k1 ch) (KNode i0 k0 ch0) p i i0); [exact (nth_error_In _ _ Ekt)|exact (nth_error_In _ _ H0)| |]; apply visits_child; now left. } subst i.
          destruct (KD k _ _ Ekt Eu) as (-> & r' & c & Ei' & _ & Ek & D). rewrite Ei in Ei'. injection Ei' as <-. destruct D as [(t & -> & -> & ->)|(usk & -> & F)]; [exists ([], []), [Tm t], [t]|exists (ch, usk), c, (concat usk)]; repeat (split; [first [assumption|reflexivity]|]); [left; exists t|right]; auto. }
        destruct (NF r Hr) as (CNE & [(t & Et)|V] & TT).
        + (* a terminal rule *)
          assert (F1 : f A = 1) by (rewrite <- LC, Et; reflexivity). specialize (TT t Et). destruct (DATA 0 FP) as (e & c & u & E1 & E2 & E3 & E4). rewrite Et in E1. cbn in E1. injection E1 as <-. destruct E4 as [(t' & ET & EF & EU)|[_ F]]; [|destruct e as [[|? ?] [|? ?]]; cbn in F; contradiction]. injection ET as <-. subst u. rewrite EF in E2.
          exists (INode i0 []), (DNode r []). split; [constructor; [exact Ei|constructor]|]. split; [rewrite <- HA; constructor; [exact Hr|rewrite TT; constructor]|]. split.
          * rewrite yield_eq, Et. cbn. destruct us as [|u [|u' us]]; cbn in E3, LU; [discriminate| |lia]. injection E3 as ->. reflexivity.
          * intros k kt Hkt. assert (k < length kts) by (apply nth_error_Some; congruence). assert (k = 0) by lia. subst k. rewrite comp_tree_eq, (comp_of_nth i0 r 0 [Tm t] Ei) by (rewrite Et; reflexivity). cbn. congruence.
        + (* only variables *)
          destruct (choose_list (fun k (e : list ktree * list (list T)) => exists c, nth_error (pr_comp r) k = Some c /\ nth_error kts k = Some (KNode i0 k (fst e)) /\ nth_error us k = Some (concat (snd e)) /\ F3 r (map kderiv (fst e)) c (snd e)) (seq 0 (f A))) as (data & FD).
          { intros k Hk. apply in_seq in Hk. destruct (DATA k) as (e & c & u & E1 & E2 & E3 & E4); [lia|]. exists e, c. destruct E4 as [(t & -> & _)|[-> F]]; [|auto]. destruct (V _ (nth_error_In _ _ E1)) as [_ V2]. destruct (V2 (Tm t)) as (? & ? & EQ & _); [now left|discriminate]. }
          pose proof (F2_length _ _ _ FD) as LD. rewrite seq_length in LD.
          assert (DN : forall k e, nth_error data k = Some e -> exists c, nth_error (pr_comp r) k = Some c /\ nth_error kts k = Some (KNode i0 k (fst e)) /\ nth_error us k = Some (concat (snd e)) /\ F3 r (map kderiv (fst e)) c (snd e)).
          { intros k e E. pose proof (F2_nth _ _ _ FD k) as Hk. rewrite E in Hk. assert (k < length data) by (apply nth_error_Some; congruence). rewrite seq_nth_error in Hk by lia. exact Hk. }
          set (assoc := flat_map (fun e : list (vart T) * (list ktree * list (list T)) => combine (flat_map as_var (fst e)) (combine (fst (snd e)) (snd (snd e)))) (combine (pr_comp r) data)).
          assert (KEYS : map fst assoc = variables (pr_comp r)).
          { assert (G : Forall2 (fun c (e : list ktree * list (list T)) => F3 r (map kderiv (fst e)) c (snd e)) (pr_comp r) data) by (apply F2_of_nth; [lia|]; intros k c e E1 E2; destruct (DN k e E2) as (c' & E3 & _ & _ & F); rewrite E1 in E3; injection E3 as <-; exact F).
            unfold assoc, variables. clear -G. induction G as [|c e cs es F G IHG]; [reflexivity|]. cbn [combine flat_map concat fst snd]. rewrite map_app, (F3_keys r c _ _ F), IHG, flat_map_app. reflexivity. }
          destruct (LR r Hr) as (LIN & VE & ND). unfold linear in LIN. rewrite <- KEYS in LIN.
          assert (ENTRY : forall i j v, In ((i, j), v) assoc -> exists B kt, nth_error (pr_tail r) i = Some B /\ kderiv (fst v) B j (snd v) /\ kheight (fst v) <= n /\ In kt kts /\ forall q o, In (q, o) (visits (fst v) (p ++ [u8 i])) -> In (q, o) (visits kt p)).
          { intros i j v Hin. unfold assoc in Hin. apply in_flat_map in Hin. destruct Hin as ([c e] & He & Hin). cbn [fst snd] in Hin. apply In_nth_error in He. destruct He as (k & He). apply combine_nth_inv in He. cbn [fst snd] in He. destruct He as [Ec Ee]. destruct (DN k e Ee) as (c' & E1 & E2 & _ & F). rewrite Ec in E1. injection E1 as <-. destruct (F3_entry r c _ _ i j v F Hin) as (m & B & M1 & M2 & M3 & M4 & M5).
            exists B, (KNode i0 k (fst e)). split; [exact M4|]. split; [exact M5|]. pose proof (nth_error_In _ _ E2) as InK. split; [|split; [exact InK|]].
            - specialize (HH _ InK). cbn [kheight] in HH. assert (kheight (fst v) <= list_max (map kheight (fst e))); [|lia]. pose proof (list_max_le (map kheight (fst e)) (list_max (map kheight (fst e)))) as [LM _]. specialize (LM (le_n _)). rewrite Forall_forall in LM. apply LM. apply in_map. exact (nth_error_In _ _ M2).
            - intros q o Hq. apply visits_child. right. exists m, i, (fst v). rewrite (comp_of_nth _ _ _ _ Ei Ec). auto. }
          destruct (choose_list (fun i (xd : idt * dtree N T K) => forall B, nth_error (pr_tail r) i = Some B -> rep (fst xd) (snd xd) /\ deriv (fun r => In r rules) B (snd xd) /\ exists y, yield (snd xd) = Some y /\ forall j v, In ((i, j), v) assoc -> comp_tree (fst xd) j = fst v /\ nth_error y j = Some (snd v)) (seq 0 (length (pr_tail r)))) as (xds & FX).
          { intros i Hi. apply in_seq in Hi. destruct (nth_error (pr_tail r) i) as [B|] eqn:EB; [|apply nth_error_None in EB; lia].
            destruct (choose_list (fun j v => In ((i, j), v) assoc) (seq 0 (f B))) as (vs & FV).
            { intros j Hj. apply in_seq in Hj. assert (Hin : In (i, j) (map fst assoc)) by (rewrite KEYS; apply (ND i B j EB); lia). apply in_map_iff in Hin. destruct Hin as ([key v] & E & Hin). cbn in E. subst key. eauto. }
            pose proof (F2_length _ _ _ FV) as LV. rewrite seq_length in LV.
            assert (VN : forall j v, nth_error vs j = Some v -> In ((i, j), v) assoc). { intros j v E. pose proof (F2_nth _ _ _ FV j) as Hj. rewrite E in Hj. assert (j < length vs) by (apply nth_error_Some; congruence). rewrite seq_nth_error in Hj by lia. exact Hj. }
            destruct (IH B (p ++ [u8 i]) (map fst vs) (map snd vs)) as (x & d & R1 & R2 & R3 & R4).
            - intros kt Hkt. apply in_map_iff in Hkt. destruct Hkt as (v & <- & Hv). apply In_nth_error in Hv. destruct Hv as (j & Hv). destruct (ENTRY i j v (VN j v Hv)) as (_ & _ & _ & _ & Hh & _). exact Hh.
            - rewrite map_length. lia.
            - rewrite map_length. lia.
            - exact (tail_pos r i B Hr EB).
            - intros j kt u E1 E2. rewrite nth_error_map in E1, E2. destruct (nth_error vs j) as [v|] eqn:Ev; [|discriminate]. cbn in E1, E2. injection E1 as <-. injection E2 as <-. destruct (ENTRY i j v (VN j v Ev)) as (B' & _ & EB' & D & _). rewrite EB in EB'. injection EB' as <-. exact D.
            - intros kt kt' q a b Hk Hk' Ha Hb. apply in_map_iff in Hk, Hk'. destruct Hk as (v & <- & Hv), Hk' as (v' & <- & Hv'). apply In_nth_error in Hv, Hv'. destruct Hv as (j & Hv), Hv' as (j' & Hv'). destruct (ENTRY i j v (VN j v Hv)) as (_ & kt1 & _ & _ & _ & K1 & S1). destruct (ENTRY i j' v' (VN j' v' Hv')) as (_ & kt2 & _ & _ & _ & K2 & S2). apply (FN kt1 kt2 q a b K1 K2); auto.
            - exists (x, d). cbn [fst snd]. intros B' EB'. injection EB' as <-. split; [exact R1|]. split; [exact R2|]. exists (map snd vs). split; [exact R3|]. intros j v Hin. assert (Hj : j < f B). { assert (Q : In (i, j) (map fst assoc)) by (apply (in_map fst) in Hin; exact Hin). rewrite KEYS in Q. destruct (VE i j Q) as (B' & EB' & Hj). rewrite EB in EB'. injection EB' as <-. exact Hj. }
              destruct (nth_error vs j) as [v'|] eqn:Ev; [|apply nth_error_None in Ev; lia]. pose proof (in_keys_unique assoc (i, j) v v' LIN Hin (VN j v' Ev)) as <-. split; [|rewrite nth_error_map, Ev; reflexivity]. symmetry. apply (R4 j (fst v)). rewrite nth_error_map, Ev. reflexivity. }
          pose proof (F2_length _ _ _ FX) as LX. rewrite seq_length in LX.
          assert (XN : forall i xd B, nth_error xds i = Some xd -> nth_error (pr_tail r) i = Some B -> rep (fst xd) (snd xd) /\ deriv (fun r => In r rules) B (snd xd) /\ exists y, yield (snd xd) = Some y /\ forall j v, In ((i, j), v) assoc -> comp_tree (fst xd) j = fst v /\ nth_error y j = Some (snd v)).
          { intros i xd B E EB. pose proof (F2_nth _ _ _ FX i) as Hi. rewrite E in Hi. assert (i < length (pr_tail r)) by (apply nth_error_Some; congruence). rewrite seq_nth_error in Hi by lia. exact (Hi B EB). }
          assert (COMP : forall k e c, nth_error data k = Some e -> nth_error (pr_comp r) k = Some c -> kids (map fst xds) c = fst e /\ opt_all (sval (map snd xds)) c = Some (snd e)).
          { intros k e c Ee Ec. destruct (DN k e Ee) as (c' & E1 & _ & _ & F). rewrite Ec in E1. injection E1 as <-. apply (kids_of _ _ r c (fst e) (snd e) F). intros i j v Hin. assert (HA' : In ((i, j), v) assoc). { unfold assoc. apply in_flat_map. exists (c, e). split; [|exact Hin]. apply (nth_error_In _ k). now apply combine_nth_error. }
            destruct (ENTRY i j v HA') as (B & _ & EB & _). assert (i < length (pr_tail r)) by (apply nth_error_Some; congruence). destruct (nth_error xds i) as [xd|] eqn:Ex; [|apply nth_error_None in Ex; lia]. destruct (XN i xd B Ex EB) as (_ & _ & y & Y & Hy). destruct (Hy j v HA') as [Y1 Y2]. exists (fst xd), (snd xd), y. rewrite !nth_error_map, Ex. cbn. auto. }
          exists (INode i0 (map fst xds)), (DNode r (map snd xds)). split; [|split; [|split]].
          * constructor; [exact Ei|]. apply F2_of_nth; [now rewrite !map_length|]. intros i x d E1 E2. rewrite nth_error_map in E1, E2. destruct (nth_error xds i) as [xd|] eqn:Ex; [|discriminate]. cbn in E1, E2. injection E1 as <-. injection E2 as <-. assert (i < length xds) by (apply nth_error_Some; congruence). destruct (nth_error (pr_tail r) i) as [B|] eqn:EB; [|apply nth_error_None in EB; lia]. apply (XN i xd B Ex EB).
          * rewrite <- HA. constructor; [exact Hr|]. apply F2_of_nth; [rewrite map_length; lia|]. intros i B d EB E2. rewrite nth_error_map in E2. destruct (nth_error xds i) as [xd|] eqn:Ex; [|discriminate]. cbn in E2. injection E2 as <-. apply (XN i xd B Ex EB).
          * rewrite yield_eq. apply opt_all_of_nth; [lia|]. intros k c Ec. assert (k < length (pr_comp r)) by (apply nth_error_Some; congruence). destruct (nth_error data k) as [e|] eqn:Ee; [|apply nth_error_None in Ee; lia]. destruct (COMP k e c Ee Ec) as [_ ->]. cbn [option_map]. destruct (DN k e Ee) as (_ & _ & _ & -> & _). reflexivity.
          * intros k kt Ekt. assert (k < length kts) by (apply nth_error_Some; congruence). destruct (nth_error data k) as [e|] eqn:Ee; [|apply nth_error_None in Ee; lia]. destruct (DN k e Ee) as (c & Ec & E2 & _). rewrite Ekt in E2. injection E2 as ->. rewrite comp_tree_eq, (comp_of_nth _ _ _ _ Ei Ec). destruct (COMP k e c Ee Ec) as [-> _]. reflexivity.
    Qed.
  End LC.
End K.
