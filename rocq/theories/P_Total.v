(* The k-best enumeration over a chart without cycles, without conditions on the tokens: it is a fixed finite sequence at
   every node, the cache holds a prefix of it, and every derivation in the chart occurs in it. *)
From Coq Require Import Permutation.
From Verif Require Import Base M_Util M_Agenda M_Grammar M_Chart S_Chart P_Chart M_CSAuto S_CS P_FillChart M_KBest P_KBest P_KBestChart M_CSParse P_Loose.
Arguments Nat.ltb : simpl never. Arguments Nat.eqb : simpl never.

(* ---- the unique heap: membership ---- *)
Lemma bt_eqb_refl {W} (b : bt W) : bt_eqb b b = true.
Proof. destruct b; cbn; rewrite ?Nat.eqb_refl; reflexivity. Qed.
Lemma bt_eqb_sym {W} (b b' : bt W) : bt_eqb b b' = true -> bt_eqb b' b = true.
Proof. destruct b, b'; cbn; try discriminate; rewrite ?andb_true_iff, ?Nat.eqb_eq; intuition congruence. Qed.
Lemma bt_eqb_trans {W} (b b' b'' : bt W) : bt_eqb b b' = true -> bt_eqb b' b'' = true -> bt_eqb b b'' = true.
Proof. destruct b, b', b''; cbn; try discriminate; rewrite ?andb_true_iff, ?Nat.eqb_eq; intuition congruence. Qed.

Section Heap.
  Context {K : ZWeight} (H : max_heap (K * bt K) (@kb_leb K)).
  Notation uheap := (unique_heap (It := bt K) H).
  Notation push b w h := (snd (uh_push bt_eqb H b w h)).
  Definition hin (h : uheap) (b : bt K) : Prop := exists w, In (w, b) (mh_content H (uh_heap H h)).
  Definition wf (P : bt K -> Prop) (h : uheap) : Prop :=
    (forall b, hin h b -> P b) /\ (forall b, memb bt_eqb b (uh_current H h) = true -> exists b', hin h b' /\ bt_eqb b b' = true).
  Definition inj (P : bt K -> Prop) : Prop := forall b b', P b -> P b' -> bt_eqb b b' = true -> b = b'.
  Definition psum (pot : bt K -> nat) (h : uheap) : nat := list_sum (map (fun e => pot (snd e)) (mh_content H (uh_heap H h))).

  Lemma wf_default P : wf P (uh_default H).
  Proof. split; [|intros b Hb; discriminate Hb]. intros b [w Hin]. cbn in Hin. rewrite (mh_empty_c H) in Hin. destruct Hin. Qed.
  Lemma wf_weaken (P Q : bt K -> Prop) h : (forall b, P b -> Q b) -> wf P h -> wf Q h.
  Proof. intros PQ [H1 H2]. split; [|exact H2]. intros b Hb. apply PQ. now apply H1. Qed.
  Lemma push_hin b w h b' : hin h b' -> hin (push b w h) b'.
  Proof.
    intros [w' Hin]. exists w'. unfold uh_push, uh_insert. destruct (memb bt_eqb b (uh_current H h)); cbn [snd uh_heap]; [exact Hin|]. apply (Permutation_in _ (Permutation_sym (mh_push_c H _ _))). now right.
  Qed.
  Lemma push_wf P b w h : inj P -> P b -> wf P h -> wf P (push b w h) /\ hin (push b w h) b.
  Proof.
    intros IP Pb [H1 H2]. unfold uh_push, uh_insert. destruct (memb bt_eqb b (uh_current H h)) eqn:M; cbn [snd uh_heap].
    - split; [split; assumption|]. destruct (H2 b M) as (b' & Hb' & E). rewrite (IP b b' Pb (H1 b' Hb') E). exact Hb'.
    - assert (HB : hin (UniqueHeap H (mh_push H (w, b) (uh_heap H h)) (b :: uh_current H h)) b). { exists w. cbn [uh_heap]. apply (Permutation_in _ (Permutation_sym (mh_push_c H _ _))). now left. }
      split; [|exact HB]. split.
      + intros b' [w' Hin]. cbn [uh_heap] in Hin. apply (Permutation_in _ (mh_push_c H _ _)) in Hin. destruct Hin as [E|Hin]; [injection E as _ <-; exact Pb|apply H1; now exists w'].
      + intros b' Hm. cbn [uh_current memb existsb] in Hm. unfold memb in Hm. cbn [existsb] in Hm. apply orb_true_iff in Hm. destruct Hm as [Hm|Hm]; [exists b; split; [exact HB|exact Hm]|].
        destruct (H2 b' Hm) as (b2 & [w2 Hin] & E). exists b2. split; [|exact E]. exists w2. cbn [uh_heap]. apply (Permutation_in _ (Permutation_sym (mh_push_c H _ _))). now right.
  Qed.
  Lemma list_sum_cons x l : list_sum (x :: l) = x + list_sum l.
  Proof. reflexivity. Qed.
  Lemma list_sum_perm l l' : Permutation l l' -> list_sum l = list_sum l'.
  Proof.
    induction 1 as [|x l l' _ IH|x y l|l l' l'' _ IH1 _ IH2]; [reflexivity|change (x + list_sum l = x + list_sum l'); lia|change (y + (x + list_sum l) = x + (y + list_sum l)); lia|congruence].
  Qed.
  Lemma push_psum pot b w h : psum pot (push b w h) <= pot b + psum pot h.
  Proof.
    unfold psum, uh_push, uh_insert. destruct (memb bt_eqb b (uh_current H h)); cbn [snd uh_heap]; [lia|]. rewrite (list_sum_perm _ _ (Permutation_map _ (mh_push_c H _ _))). cbn [map snd]. rewrite list_sum_cons. lia.
  Qed.
  Lemma pop_psum pot h x h' : uh_pop bt_eqb H h = Some (x, h') -> psum pot h = pot (fst x) + psum pot h'.
  Proof.
    unfold uh_pop. destruct (mh_pop H (uh_heap H h)) as [[[w b] hh]|] eqn:E; [|discriminate]. intros E'. injection E' as <- <-. apply (mh_pop_some H) in E. destruct E as [PM _]. unfold psum. cbn [uh_heap fst]. rewrite (list_sum_perm _ _ (Permutation_map _ PM)). reflexivity.
  Qed.
  Lemma pop_wf P h x h' : wf P h -> uh_pop bt_eqb H h = Some (x, h') -> hin h (fst x) /\ wf P h' /\ forall b, hin h b -> b = fst x \/ hin h' b.
  Proof.
    intros [H1 H2] E. unfold uh_pop in E. destruct (mh_pop H (uh_heap H h)) as [[[w b] hh]|] eqn:EP; [|discriminate]. injection E as <- <-. apply (mh_pop_some H) in EP. destruct EP as [PM _]. cbn [fst].
    assert (SPLIT : forall b', hin h b' -> b' = b \/ hin (UniqueHeap H hh (uh_remove bt_eqb b (uh_current H h))) b').
    { intros b' [w' Hin]. apply (Permutation_in _ PM) in Hin. destruct Hin as [E|Hin]; [left; congruence|right; now exists w']. }
    split; [exists w; apply (Permutation_in _ (Permutation_sym PM)); now left|]. split; [|exact SPLIT]. split.
    - intros b' [w' Hin]. apply H1. exists w'. apply (Permutation_in _ (Permutation_sym PM)). now right.
    - intros b' Hm. cbn [uh_current] in Hm. unfold memb, uh_remove in Hm. apply existsb_exists in Hm. destruct Hm as (y & Hy & E). apply filter_In in Hy. destruct Hy as [Hy NE]. apply negb_true_iff in NE.
      destruct (H2 b') as (b2 & Hb2 & E2); [apply existsb_exists; now exists y|]. destruct (SPLIT b2 Hb2) as [->|Hb3]; [|exists b2; auto].
      exfalso. rewrite (bt_eqb_trans _ _ _ (bt_eqb_sym _ _ E2) E) in NE. discriminate.
  Qed.
  Lemma pop_none h : uh_pop bt_eqb H h = None -> forall b, ~ hin h b.
  Proof.
    unfold uh_pop. destruct (mh_pop H (uh_heap H h)) as [[[w b] hh]|] eqn:EP; [discriminate|]. intros _ b [w Hin]. apply (mh_pop_none H) in EP. rewrite EP in Hin. destruct Hin.
  Qed.
  Lemma empty_none h : uh_is_empty H h = true -> forall b, ~ hin h b.
  Proof. unfold uh_is_empty. rewrite Nat.eqb_eq, (mh_len_c H). intros E b [w Hin]. destruct (mh_content H (uh_heap H h)); [destruct Hin|discriminate E]. Qed.
  Lemma empty_pop h : uh_is_empty H h = true <-> uh_pop bt_eqb H h = None.
  Proof.
    split.
    - intros E. destruct (uh_pop bt_eqb H h) as [[x h']|] eqn:EP; [|reflexivity]. unfold uh_pop in EP. destruct (mh_pop H (uh_heap H h)) as [[[w b] hh]|] eqn:EM; [|discriminate]. apply (mh_pop_some H) in EM. destruct EM as [PM _].
      exfalso. apply (empty_none h E b). exists w. apply (Permutation_in _ (Permutation_sym PM)). now left.
    - intros EP. unfold uh_pop in EP. destruct (mh_pop H (uh_heap H h)) as [[[w b] hh]|] eqn:EM; [discriminate|]. apply (mh_pop_none H) in EM. unfold uh_is_empty. rewrite (mh_len_c H), EM. reflexivity.
  Qed.
  Lemma pushes_wf P (ws : list (bt K * K)) : inj P -> (forall p, In p ws -> P (fst p)) -> forall h, wf P h -> let h' := fold_left (fun h p => push (fst p) (snd p) h) ws h in
    wf P h' /\ (forall p, In p ws -> hin h' (fst p)) /\ (forall b, hin h b -> hin h' b).
  Proof.
    intros IP. induction ws as [|p ws IH]; intros HP h Hh; cbn; [split; [exact Hh|split; [intros p []|auto]]|].
    destruct (push_wf P (fst p) (snd p) h IP (HP p (or_introl eq_refl)) Hh) as [W1 HB]. destruct (IH (fun p' Hp => HP p' (or_intror Hp)) _ W1) as (W2 & A & B). split; [exact W2|]. split.
    - intros p' [<-|Hp]; [now apply B|now apply A].
    - intros b Hb. apply B. now apply push_hin.
  Qed.
  Lemma pushes_psum pot (ws : list (bt K * K)) : forall h, psum pot (fold_left (fun h p => push (fst p) (snd p) h) ws h) <= list_sum (map (fun p => pot (fst p)) ws) + psum pot h.
  Proof. induction ws as [|p ws IH]; intros h; cbn [fold_left map]; [lia|]. rewrite list_sum_cons. specialize (IH (push (fst p) (snd p) h)). pose proof (push_psum pot (fst p) (snd p) h). lia. Qed.
End Heap.

Section Total.
  Context {T : Type} {K : ZWeight} (H : max_heap (K * bt K) (@kb_leb K)) (teqb : T -> T -> bool).
  Context (a : automaton T K) (R : list (crule nat T K)) (PZ : presents teqb a R (states a)).
  Context (c : chart K) (n : nat) (rule_filter : list bool) (rank : nat -> nat) (RK : nat).
  Context (HF : length R <= length rule_filter) (RKB : forall q, rank q <= RK)
          (RANK : forall r q q1 w b, nth_error R r = Some (CRule q (RU q1) w b) -> nth_error rule_filter r = Some true -> rank q1 < rank q)
          (GW : forall i j q, span n i j -> q < states a -> get_weight c i j q <> None)
          (NE : forall i j q, span n i j -> q < states a -> has c i j q -> exists b, valid R c rule_filter (i, j, q) b /\ isbase b).
  Notation item := (bt K * K)%type. Notation ns := (states a).
  Notation uheap := (unique_heap (It := bt K) H).
  Notation kstate := (list (knode * (list item * uheap))).
  Notation push b w h := (snd (uh_push bt_eqb H b w h)). Notation pop := (uh_pop bt_eqb H).
  Notation mu := (mu rank RK). Notation good := (good a n). Notation valid := (valid R c rule_filter).
  Notation hin := (hin H). Notation wf := (wf H).

  Lemma valid_inj v : inj (valid v).
  Proof.
    intros b b' V V' E. destruct v as [[i j] q]. destruct b, b'; cbn in *; try discriminate; rewrite ?andb_true_iff, ?Nat.eqb_eq in E.
    - destruct V as (_ & (br & _ & E1) & _), V' as (_ & (br' & _ & E1') & _). destruct E as [[[-> ->] ->] ->]. rewrite E1 in E1'. now injection E1' as -> -> -> _.
    - destruct V as ((br & _ & E1) & _), V' as ((br' & _ & E1') & _). destruct E as [-> ->]. rewrite E1 in E1'. now injection E1' as -> -> _.
    - destruct V as (_ & t & br & _ & E1), V' as (_ & t' & br' & _ & E1'). subst. rewrite E1 in E1'. now injection E1' as _ -> _.
  Qed.
  Lemma base_inj v : inj (fun b => valid v b /\ isbase b).
  Proof. intros b b' [V _] [V' _]. now apply (valid_inj v). Qed.
  (* the children of a valid item are smaller nodes *)
  Lemma child_bin i j q r q1 m q2 w i1 i2 : good (i, j, q) -> valid (i, j, q) (BBin r q1 m q2 w i1 i2) -> good (i, m, q1) /\ good (m, j, q2) /\ mu (i, m, q1) < mu (i, j, q) /\ mu (m, j, q2) < mu (i, j, q).
  Proof.
    intros [HS Hq] (Hm & (br & _ & Er) & _ & _). destruct (rule_states teqb a R PZ _ _ _ _ _ Er) as (_ & Q1 & Q2). destruct (span_sub R n rule_filter HF _ _ _ HS Hm) as [S1 S2].
    split; [split; assumption|]. split; [split; assumption|]. split; [eapply mu_left; eassumption|eapply mu_right; eassumption].
  Qed.
  Lemma child_un i j q r q1 w i1 : good (i, j, q) -> valid (i, j, q) (BUn r q1 w i1) -> good (i, j, q1) /\ mu (i, j, q1) < mu (i, j, q).
  Proof.
    intros [HS Hq] ((br & Ef & Er) & _). destruct (rule_states teqb a R PZ _ _ _ _ _ Er) as (_ & Q1). split; [split; assumption|]. eapply mu_un; [exact HF|exact RANK|split; eassumption].
  Qed.

  Lemma backtraces_total i j q : good (i, j, q) -> exists h, backtraces H a c rule_filter i j q = Some h /\ wf (fun b => valid (i, j, q) b /\ isbase b) h /\ forall b, valid (i, j, q) b -> isbase b -> hin h b.
  Proof.
    intros [HS Hq]. set (P := fun b => valid (i, j, q) b /\ isbase b). pose proof (base_inj (i, j, q)) as IP. fold P in IP.
    destruct (pz_len _ _ _ _ PZ) as (_ & _ & L3 & L4 & L5). unfold backtraces. rewrite (table_at a R rule_filter HF _ q L3 Hq), (table_at a R rule_filter HF _ q L4 Hq), (table_at a R rule_filter HF _ q L5 Hq).
    set (B1 := fun (done : list (nat * nat * nat * K)) h => forall r q1 q2 w m, In (r, q1, q2, w) done -> nth_error rule_filter r = Some true -> i < m < j -> has c i m q1 -> has c m j q2 -> hin h (BBin r q1 m q2 w 0 0)).
    match goal with |- context [fold_p ?f (nth q (au_tdbin a) []) ?s] => destruct (fold_p_inv f (fun done h => wf P h /\ B1 done h) (nth q (au_tdbin a) []) s []) as (h1 & E1 & W1 & C1) end.
    { split; [apply wf_default|]. intros r q1 q2 w m []. }
    { intros [[[r q1] q2] w] h done Hin [Wh Ch]. apply (pz_tdbin _ _ _ _ PZ) in Hin. destruct Hin as (b & Er). destruct (filter_at R rule_filter HF _ _ Er) as (on & Ef). rewrite Ef. destruct (rule_states teqb a R PZ _ _ _ _ _ Er) as (_ & Q1 & Q2). destruct on.
      - set (Bm := fun (ms : list nat) h => B1 done h /\ forall m, In m ms -> i < m < j -> has c i m q1 -> has c m j q2 -> hin h (BBin r q1 m q2 w 0 0)).
        match goal with |- context [fold_p ?f (seq _ _) ?s] => destruct (fold_p_inv f (fun ms h => wf P h /\ Bm ms h) (seq (S i) (j - S i)) s []) as (h2 & E2 & W2 & C2 & D2) end.
        + split; [exact Wh|]. split; [exact Ch|]. intros m [].
        + intros m h' ms Hm (Wm & Cm & Dm). apply in_seq in Hm. assert (Hm' : i < m < j) by lia. destruct (span_sub R n rule_filter HF _ _ _ HS Hm') as [P1 P2].
          assert (SKIP : (~ has c i m q1 \/ ~ has c m j q2) -> wf P h' /\ Bm (ms ++ [m]) h').
          { intros NO. split; [exact Wm|]. split; [exact Cm|]. intros m' Hin Hm2 A1 A2. apply in_app_iff in Hin. destruct Hin as [Hin|[<-|[]]]; [now apply Dm|]. destruct NO; contradiction. }
          pose proof (GW _ _ _ P1 Q1) as G1. destruct (get_weight c i m q1) as [[g1|]|] eqn:GE1; [|exists h'; split; [reflexivity|apply SKIP; left; intros [x Hx]; congruence]|congruence].
          pose proof (GW _ _ _ P2 Q2) as G2. destruct (get_weight c m j q2) as [[g2|]|] eqn:GE2; [|exists h'; split; [reflexivity|apply SKIP; right; intros [x Hx]; congruence]|congruence].
          eexists. split; [reflexivity|].
          assert (PB : P (BBin r q1 m q2 w 0 0)). { split; [|split; reflexivity]. split; [exact Hm'|]. split; [exists b; split; assumption|]. split; eexists; eassumption. }
          destruct (push_wf H P _ (wmul w (wmul g1 g2)) h' IP PB Wm) as [W' HB]. split; [exact W'|]. split; [intros ? ? ? ? ? ? ? ? ? ?; apply push_hin; now apply Cm|].
          intros m' Hin Hm2 A1 A2. apply in_app_iff in Hin. destruct Hin as [Hin|[<-|[]]]; [apply push_hin; now apply Dm|exact HB].
        + exists h2. split; [exact E2|]. split; [exact W2|]. intros r' q1' q2' w' m Hin Hf Hm A1 A2. apply in_app_iff in Hin. destruct Hin as [Hin|[[= <- <- <- <-]|[]]]; [now apply C2|]. apply D2; auto. cbn. apply in_seq. lia.
      - exists h. split; [reflexivity|]. split; [exact Wh|]. intros r' q1' q2' w' m Hin Hf Hm A1 A2. apply in_app_iff in Hin. destruct Hin as [Hin|[[= <- <- <- <-]|[]]]; [now apply Ch|congruence]. }
    rewrite E1. rewrite app_nil_l in *. clear E1.
    set (B2 := fun (done : list (nat * nat * K)) h => B1 (nth q (au_tdbin a) []) h /\ forall r q1 w, In (r, q1, w) done -> nth_error rule_filter r = Some true -> has c i j q1 -> hin h (BUn r q1 w 0)).
    match goal with |- context [fold_p ?f (nth q (au_tdun a) []) ?s] => destruct (fold_p_inv f (fun done h => wf P h /\ B2 done h) (nth q (au_tdun a) []) s []) as (h2 & E2 & W2 & C2 & D2) end.
    { split; [exact W1|]. split; [exact C1|]. intros r q1 w []. }
    { intros [[r q1] w] h done Hin (Wh & Ch & Dh). apply (pz_tdun _ _ _ _ PZ) in Hin. destruct Hin as (b & Er). destruct (filter_at R rule_filter HF _ _ Er) as (on & Ef). rewrite Ef. destruct (rule_states teqb a R PZ _ _ _ _ _ Er) as (_ & Q1).
      assert (SKIP : (on = false \/ ~ has c i j q1) -> wf P h /\ B2 (done ++ [(r, q1, w)]) h).
      { intros NO. split; [exact Wh|]. split; [exact Ch|]. intros r' q1' w' Hin Hf A1. apply in_app_iff in Hin. destruct Hin as [Hin|[[= <- <- <-]|[]]]; [now apply Dh|]. destruct NO; [congruence|contradiction]. }
      destruct on; [|exists h; split; [reflexivity|apply SKIP; auto]]. pose proof (GW _ _ _ HS Q1) as G1. destruct (get_weight c i j q1) as [[g1|]|] eqn:GE1; [|exists h; split; [reflexivity|apply SKIP; right; intros [x Hx]; congruence]|congruence].
      eexists. split; [reflexivity|]. assert (PB : P (BUn r q1 w 0)). { split; [|reflexivity]. split; [exists b; split; assumption|eexists; exact GE1]. }
      destruct (push_wf H P _ (wmul g1 w) h IP PB Wh) as [W' HB]. split; [exact W'|]. split; [intros ? ? ? ? ? ? ? ? ? ?; apply push_hin; now apply Ch|].
      intros r' q1' w' Hin Hf A1. apply in_app_iff in Hin. destruct Hin as [Hin|[[= <- <- <-]|[]]]; [apply push_hin; now apply Dh|exact HB]. }
    rewrite E2. rewrite app_nil_l in *. clear E2.
    assert (FIN : forall h, wf P h -> B2 (nth q (au_tdun a) []) h -> (forall r w, In (r, w) (nth q (au_tdnull a) []) -> nth_error rule_filter r = Some true -> j - i = 1 -> hin h (BNull r w)) -> forall b, valid (i, j, q) b -> isbase b -> hin h b).
    { intros h Wh [Ch Dh] Eh b V BB. destruct b as [r q1 m q2 w i1 i2|r q1 w i1|r w]; cbn in V, BB.
      - destruct BB as [-> ->]. destruct V as (Hm & (br & Ef & Er) & A1 & A2). apply Ch; auto. apply (pz_tdbin _ _ _ _ PZ). eauto.
      - subst i1. destruct V as ((br & Ef & Er) & A1). apply Dh; auto. apply (pz_tdun _ _ _ _ PZ). eauto.
      - destruct V as (Hj & t & br & Ef & Er). apply Eh; auto. apply (pz_tdnull _ _ _ _ PZ). eauto. }
    destruct (Nat.eqb_spec (j - i) 1) as [Ej|NJ].
    2:{ exists h2. split; [reflexivity|]. split; [exact W2|]. apply FIN; [exact W2|split; assumption|]. intros; congruence. }
    set (B3 := fun (done : list (nat * K)) h => B2 (nth q (au_tdun a) []) h /\ forall r w, In (r, w) done -> nth_error rule_filter r = Some true -> hin h (BNull r w)).
    match goal with |- context [fold_p ?f (nth q (au_tdnull a) []) ?s] => destruct (fold_p_inv f (fun done h => wf P h /\ B3 done h) (nth q (au_tdnull a) []) s []) as (h3 & E3 & W3 & C3 & D3) end.
    { split; [exact W2|]. split; [split; assumption|]. intros r w []. }
    { intros [r w] h done Hin (Wh & Ch & Dh). apply (pz_tdnull _ _ _ _ PZ) in Hin. destruct Hin as (t & b & Er). destruct (filter_at R rule_filter HF _ _ Er) as (on & Ef). rewrite Ef. eexists. split; [reflexivity|]. destruct on.
      - assert (PB : P (BNull r w)). { split; [|exact I]. split; [exact Ej|]. exists t, b. split; assumption. }
        destruct (push_wf H P _ w h IP PB Wh) as [W' HB]. split; [exact W'|]. split; [destruct Ch as [Ca Cb]; split; [intros ? ? ? ? ? ? ? ? ? ?; apply push_hin; now apply Ca|intros ? ? ? ? ? ?; apply push_hin; now apply Cb]|].
        intros r' w' Hin Hf. apply in_app_iff in Hin. destruct Hin as [Hin|[[= <- <-]|[]]]; [apply push_hin; now apply Dh|exact HB].
      - split; [exact Wh|]. split; [exact Ch|]. intros r' w' Hin Hf. apply in_app_iff in Hin. destruct Hin as [Hin|[[= <- <-]|[]]]; [now apply Dh|congruence]. }
    exists h3. split; [exact E3|]. split; [exact W3|]. apply FIN; [exact W3|exact C3|]. intros r w Hin Hf _. now apply D3.
  Qed.

  (* ---- the sequence of a node, over sequences for the smaller nodes ---- *)
  Definition pushes (ws : list item) (h : uheap) : uheap := fold_left (fun h p => push (fst p) (snd p) h) ws h.
  Definition pweight (F : knode -> nat -> option item) (v : knode) (b : bt K) : option K :=
    let '(i, j, q) := v in
    match b with
    | BNull _ w => Some w
    | BUn _ q1 w ix => if mu (i, j, q1) <? mu (i, j, q) then option_map (fun p => wmul w (snd p)) (F (i, j, q1) ix) else None
    | BBin _ q1 m q2 w i1 i2 =>
        if (mu (i, m, q1) <? mu (i, j, q)) && (mu (m, j, q2) <? mu (i, j, q)) then
          match F (i, m, q1) i1 with
          | None => None
          | Some p1 => option_map (fun p2 => wmul (wmul w (snd p1)) (snd p2)) (F (m, j, q2) i2)
          end
        else None
    end.
  Definition pworse (F : knode -> nat -> option item) (v : knode) (l : list (bt K)) : list item :=
    flat_map (fun b => match pweight F v b with Some w => [(b, w)] | None => [] end) l.
  Definition pstep (F : knode -> nat -> option item) (v : knode) (x : item) (h : uheap) : option (item * uheap) := pop (pushes (pworse F v (bt_succ (fst x))) h).
  Fixpoint pseq (F : knode -> nat -> option item) (v : knode) (m : nat) : option (item * uheap) :=
    match m with
    | 0 => let '(i, j, q) := v in match backtraces H a c rule_filter i j q with Some h => pop h | None => None end
    | S m => match pseq F v m with Some (x, h) => pstep F v x h | None => None end
    end.
  Fixpoint nthF (f : nat) (v : knode) (k : nat) : option item :=
    match f with 0 => None | S f => option_map fst (pseq (nthF f) v k) end.
  Definition lst (v : knode) (k : nat) : option item := nthF (S (mu v)) v k.
  Definition st (v : knode) (m : nat) : option (item * uheap) := pseq lst v m.

  Lemma pweight_ext F G v b : (forall u k, mu u < mu v -> F u k = G u k) -> pweight F v b = pweight G v b.
  Proof.
    intros E. destruct v as [[i j] q]. unfold pweight. destruct b as [r q1 m q2 w i1 i2|r q1 w i1|r w]; [| |reflexivity].
    - destruct (Nat.ltb_spec (mu (i, m, q1)) (mu (i, j, q))); [|reflexivity]. destruct (Nat.ltb_spec (mu (m, j, q2)) (mu (i, j, q))); [|reflexivity]. cbn [andb]. now rewrite !E by assumption.
    - destruct (Nat.ltb_spec (mu (i, j, q1)) (mu (i, j, q))); [|reflexivity]. now rewrite E by assumption.
  Qed.
  Lemma pworse_ext F G v l : (forall u k, mu u < mu v -> F u k = G u k) -> pworse F v l = pworse G v l.
  Proof. intros E. unfold pworse. induction l as [|b l IH]; [reflexivity|]. cbn [flat_map]. now rewrite IH, (pweight_ext F G v b E). Qed.
  Lemma pseq_ext F G v m : (forall u k, mu u < mu v -> F u k = G u k) -> pseq F v m = pseq G v m.
  Proof. intros E. induction m as [|m IH]; [reflexivity|]. cbn [pseq]. rewrite IH. destruct (pseq G v m) as [[x h]|]; [|reflexivity]. unfold pstep. now rewrite (pworse_ext F G v _ E). Qed.
  Lemma nthF_stable : forall f f' v k, mu v < f -> mu v < f' -> nthF f v k = nthF f' v k.
  Proof.
    induction f as [|f IH]; intros f' v k L L'; [lia|]. destruct f' as [|f']; [lia|]. cbn [nthF]. f_equal. apply pseq_ext. intros u k' Hu. apply IH; lia.
  Qed.
  Lemma lst_st v k : lst v k = option_map fst (st v k).
  Proof. unfold lst, st. cbn [nthF]. f_equal. apply pseq_ext. intros u k' Hu. apply nthF_stable; [exact Hu|lia]. Qed.
  Lemma lst_st_none v k : lst v k = None -> st v k = None.
  Proof. rewrite lst_st. destruct (st v k); [discriminate|reflexivity]. Qed.
  Lemma st_none v m k : st v m = None -> m <= k -> st v k = None.
  Proof. intros E L. induction L as [|k L IH]; [exact E|]. unfold st in *. cbn [pseq]. now rewrite IH. Qed.
  Lemma lst_none v m k : lst v m = None -> m <= k -> lst v k = None.
  Proof. rewrite !lst_st. intros E L. destruct (st v m) as [x|] eqn:E1; [discriminate|]. now rewrite (st_none v m k E1 L). Qed.

  (* ---- what is in it ---- *)
  Definition idx (v : knode) (b : bt K) : Prop :=
    let '(i, j, q) := v in
    match b with
    | BBin _ q1 m q2 _ i1 i2 => lst (i, m, q1) i1 <> None /\ lst (m, j, q2) i2 <> None
    | BUn _ q1 _ i1 => lst (i, j, q1) i1 <> None
    | BNull _ _ => True
    end.
  Definition item_ok (v : knode) (b : bt K) : Prop := valid v b /\ idx v b.
  Lemma item_inj v : inj (item_ok v).
  Proof. intros b b' [V _] [V' _]. now apply (valid_inj v). Qed.
  Lemma has_first i j q : good (i, j, q) -> has c i j q -> lst (i, j, q) 0 <> None.
  Proof.
    intros G HH. pose proof G as [HS Hq]. destruct (NE i j q HS Hq HH) as (b & V & B). destruct (backtraces_total i j q G) as (h & E & W & C). rewrite lst_st. unfold st. cbn [pseq]. rewrite E.
    destruct (pop h) as [[x h']|] eqn:EP; [discriminate|]. exfalso. exact (pop_none H h EP b (C b V B)).
  Qed.
  Lemma base_ok v b : good v -> valid v b -> isbase b -> item_ok v b.
  Proof.
    intros G V B. split; [exact V|]. destruct v as [[i j] q]. destruct b as [r q1 m q2 w i1 i2|r q1 w i1|r w]; cbn in B |- *; [| |exact I].
    - destruct B as [-> ->]. destruct (child_bin _ _ _ _ _ _ _ _ _ _ G V) as (G1 & G2 & _). destruct V as (_ & _ & H1 & H2). split; now apply has_first.
    - subst i1. destruct (child_un _ _ _ _ _ _ _ G V) as (G1 & _). destruct V as (_ & H1). now apply has_first.
  Qed.
  Lemma pweight_idx v b w : pweight lst v b = Some w -> idx v b.
  Proof.
    destruct v as [[i j] q]. unfold pweight. destruct b as [r q1 m q2 w0 i1 i2|r q1 w0 i1|r w0]; cbn [idx]; [| |auto].
    - destruct (_ && _); [|discriminate]. destruct (lst (i, m, q1) i1); [|discriminate]. destruct (lst (m, j, q2) i2); [|discriminate]. split; discriminate.
    - destruct (_ <? _); [|discriminate]. destruct (lst (i, j, q1) i1); [discriminate|discriminate].
  Qed.
  Lemma idx_pweight v b : good v -> valid v b -> idx v b -> pweight lst v b <> None.
  Proof.
    intros G V X. destruct v as [[i j] q]. unfold pweight. destruct b as [r q1 m q2 w0 i1 i2|r q1 w0 i1|r w0]; cbn [idx] in X; [| |discriminate].
    - destruct (child_bin _ _ _ _ _ _ _ _ _ _ G V) as (_ & _ & M1 & M2). apply Nat.ltb_lt in M1, M2. rewrite M1, M2. cbn [andb]. destruct X as [X1 X2]. destruct (lst (i, m, q1) i1); [|congruence]. destruct (lst (m, j, q2) i2); [discriminate|congruence].
    - destruct (child_un _ _ _ _ _ _ _ G V) as (_ & M1). apply Nat.ltb_lt in M1. rewrite M1. destruct (lst (i, j, q1) i1); [discriminate|congruence].
  Qed.
  Lemma pworse_ok v b : valid v b -> forall p, In p (pworse lst v (bt_succ b)) -> item_ok v (fst p) /\ In (fst p) (bt_succ b).
  Proof.
    intros V p Hp. unfold pworse in Hp. apply in_flat_map in Hp. destruct Hp as (b' & Hb & Hp). destruct (pweight lst v b') as [w|] eqn:E; [|destruct Hp]. destruct Hp as [<-|[]]. cbn [fst]. split; [|exact Hb]. split; [eapply succ_ok; eassumption|eapply pweight_idx; exact E].
  Qed.
  Lemma st_ok v : good v -> forall m x h, st v m = Some (x, h) -> item_ok v (fst x) /\ wf (item_ok v) h.
  Proof.
    intros G. induction m as [|m IH]; intros x h E; unfold st in *; cbn [pseq] in E.
    - destruct v as [[i j] q]. destruct (backtraces_total i j q G) as (h0 & E0 & W & _). rewrite E0 in E.
      assert (W' : wf (item_ok (i, j, q)) h0) by (eapply wf_weaken; [|exact W]; intros b [V B]; now apply base_ok). destruct (pop_wf H _ _ _ _ W' E) as (HI & W2 & _). split; [now apply W'|exact W2].
    - destruct (pseq lst v m) as [[x0 h0]|]; [|discriminate]. destruct (IH _ _ eq_refl) as [V0 W0]. unfold pstep in E.
      destruct (pushes_wf H (item_ok v) (pworse lst v (bt_succ (fst x0))) (item_inj v) (fun p Hp => proj1 (pworse_ok v _ (proj1 V0) p Hp)) h0 W0) as (W1 & _ & _).
      destruct (pop_wf H _ _ _ _ W1 E) as (HI & W2 & _). split; [now apply W1|exact W2].
  Qed.
  Lemma lst_ok v k x : good v -> lst v k = Some x -> item_ok v (fst x).
  Proof. intros G. rewrite lst_st. destruct (st v k) as [[y h]|] eqn:E; [|discriminate]. cbn. intros [= <-]. exact (proj1 (st_ok v G _ _ _ E)). Qed.

  (* ---- it ends ---- *)
  Definition pot (M : nat) (b : bt K) : nat :=
    match b with
    | BBin _ _ _ _ _ i1 i2 => 2 ^ S ((M - i1) + (M - i2)) - 1
    | BUn _ _ _ i1 => 2 ^ S (M - i1) - 1
    | BNull _ _ => 1
    end.
  Lemma pow_pos k : 1 <= 2 ^ k.
  Proof. induction k; cbn; lia. Qed.
  Lemma pot_pos M b : 1 <= pot M b.
  Proof. destruct b as [r q1 m q2 w0 i1 i2|r q1 w0 i1|r w0]; cbn [pot]; [| |lia]; match goal with |- context [2 ^ S ?k] => pose proof (pow_pos k); rewrite Nat.pow_succ_r' end; lia. Qed.
  Lemma pworse_pot v M b : good v -> valid v b -> (forall u, good u -> mu u < mu v -> lst u M = None) -> list_sum (map (fun p => pot M (fst p)) (pworse lst v (bt_succ b))) <= pot M b - 1.
  Proof.
    intros G V HM. assert (LT : forall u k, good u -> mu u < mu v -> lst u k <> None -> k < M). { intros u k Gu Mu X. destruct (Nat.lt_ge_cases k M) as [L|L]; [exact L|]. exfalso. apply X. eapply lst_none; [apply HM; assumption|exact L]. }
    assert (ONE : forall b' s, valid v b' -> (idx v b' -> pot M b' <= s) -> list_sum (map (fun p => pot M (fst p)) (match pweight lst v b' with Some w => [(b', w)] | None => [] end)) <= s).
    { intros b' s V' HP. destruct (pweight lst v b') as [w|] eqn:E; cbn [map fst]; [|cbn; lia]. rewrite list_sum_cons. change (list_sum []) with 0. apply pweight_idx in E. specialize (HP E). lia. }
    unfold pworse. destruct v as [[i j] q]. destruct b as [r q1 m q2 w i1 i2|r q1 w i1|r w]; cbn [bt_succ flat_map]; [| |cbn; lia].
    - destruct (child_bin _ _ _ _ _ _ _ _ _ _ G V) as (G1 & G2 & M1 & M2). rewrite !map_app, !list_sum_app.
      pose proof (ONE (BBin r q1 m q2 w i1 (i2 + 1)) (2 ^ ((M - i1) + (M - i2)) - 1) V) as A1. pose proof (ONE (BBin r q1 m q2 w (i1 + 1) i2) (2 ^ ((M - i1) + (M - i2)) - 1) V) as A2.
      lapply A1; [clear A1; intros A1|]. 2:{ cbn [idx pot]. intros [X1 X2]. apply LT in X2; [|exact G2|exact M2]. replace ((M - i1) + (M - i2)) with (S ((M - i1) + (M - (i2 + 1)))) by lia. lia. }
      lapply A2; [clear A2; intros A2|]. 2:{ cbn [idx pot]. intros [X1 X2]. apply LT in X1; [|exact G1|exact M1]. replace ((M - i1) + (M - i2)) with (S ((M - (i1 + 1)) + (M - i2))) by lia. lia. }
      cbn [map]. change (list_sum []) with 0. cbn [pot]. pose proof (pow_pos ((M - i1) + (M - i2))). rewrite Nat.pow_succ_r'. lia.
    - destruct (child_un _ _ _ _ _ _ _ G V) as (G1 & M1). rewrite !map_app, !list_sum_app.
      pose proof (ONE (BUn r q1 w (i1 + 1)) (2 ^ (M - i1) - 1) V) as A1. lapply A1; [clear A1; intros A1|]. 2:{ cbn [idx pot]. intros X1. apply LT in X1; [|exact G1|exact M1]. replace (M - i1) with (S (M - (i1 + 1))) by lia. lia. }
      cbn [map]. change (list_sum []) with 0. cbn [pot]. pose proof (pow_pos (M - i1)). rewrite Nat.pow_succ_r'. lia.
  Qed.
  Lemma st_ends v M : good v -> (forall u, good u -> mu u < mu v -> lst u M = None) -> forall k m x h, st v m = Some (x, h) -> psum H (pot M) h + (pot M (fst x) - 1) < k -> st v (m + k) = None.
  Proof.
    intros G HM. induction k as [|k IH]; intros m x h E L; [lia|]. rewrite Nat.add_succ_r, <- Nat.add_succ_l. destruct (st_ok v G _ _ _ E) as [[V _] _].
    destruct (st v (S m)) as [[x1 h1]|] eqn:E1; [|apply (st_none v (S m)); [exact E1|lia]]. apply (IH (S m) x1 h1 E1).
    unfold st in E, E1. cbn [pseq] in E1. rewrite E in E1. unfold pstep in E1. apply (pop_psum H (pot M)) in E1. pose proof (pushes_psum H (pot M) (pworse lst v (bt_succ (fst x))) h) as PP. fold (pushes (pworse lst v (bt_succ (fst x))) h) in PP. rewrite E1 in PP.
    pose proof (pworse_pot v M (fst x) G V HM). pose proof (pot_pos M (fst x1)). lia.
  Qed.
  Lemma uniform (P : knode -> nat -> Prop) (l : list knode) : (forall v m k, P v m -> m <= k -> P v k) -> (forall v, In v l -> exists m, P v m) -> exists m, forall v, In v l -> P v m.
  Proof.
    intros MO. induction l as [|v l IH]; intros HE; [exists 0; intros v []|]. destruct IH as (m1 & H1); [intros u Hu; apply HE; now right|]. destruct (HE v (or_introl eq_refl)) as (m2 & H2). exists (Nat.max m1 m2). intros u [<-|Hu]; [apply (MO v m2); [exact H2|lia]|apply (MO u m1); [now apply H1|lia]].
  Qed.
  Definition nodes : list knode := list_prod (list_prod (seq 0 (S n)) (seq 0 (S n))) (seq 0 ns).
  Lemma good_nodes v : good v -> In v nodes.
  Proof. destruct v as [[i j] q]. intros [[L1 L2] Hq]. apply in_prod_iff. split; [apply in_prod_iff; split; apply in_seq; lia|apply in_seq; lia]. Qed.
  Lemma all_end : forall k, exists M, forall v, good v -> mu v < k -> lst v M = None.
  Proof.
    induction k as [|k (M & HM)]; [exists 0; intros; lia|]. destruct (uniform (fun v m => good v -> mu v < S k -> lst v m = None) nodes) as (M' & HM').
    - intros v m k' E L G Hv. eapply lst_none; [now apply E|exact L].
    - intros v _. destruct (st v 0) as [[x h]|] eqn:E0; [|exists 0; intros _ _; rewrite lst_st, E0; reflexivity]. eexists. intros G Hv. rewrite lst_st. rewrite (st_ends v M G) with (m := 0) (x := x) (h := h) (k := S (psum H (pot M) h + (pot M (fst x) - 1))); [reflexivity| |exact E0|lia]. intros u Gu Hu. apply HM; [exact Gu|lia].
    - exists M'. intros v G Hv. apply HM'; [now apply good_nodes|exact G|exact Hv].
  Qed.
  Lemma lst_ends v : good v -> exists M, lst v M = None.
  Proof. intros G. destruct (all_end (S (mu v))) as (M & HM). exists M. apply HM; [exact G|lia]. Qed.

  (* ---- nothing is left out ---- *)
  Lemma eventually v : good v -> forall j m x h b, st v (m + j) = None -> st v m = Some (x, h) -> hin h b -> exists k w, lst v k = Some (b, w).
  Proof.
    intros G. induction j as [|j IH]; intros m x h b EN E HB; [rewrite Nat.add_0_r in EN; congruence|]. destruct (st_ok v G _ _ _ E) as [[V _] W].
    destruct (pushes_wf H (item_ok v) (pworse lst v (bt_succ (fst x))) (item_inj v) (fun p Hp => proj1 (pworse_ok v _ V p Hp)) h W) as (W1 & _ & KEEP).
    assert (E1 : st v (S m) = pop (pushes (pworse lst v (bt_succ (fst x))) h)) by (unfold st in *; cbn [pseq]; rewrite E; reflexivity).
    apply KEEP in HB. change (hin (pushes (pworse lst v (bt_succ (fst x))) h) b) in HB. destruct (pop (pushes (pworse lst v (bt_succ (fst x))) h)) as [[x1 h1]|] eqn:EP; [|exfalso; exact (pop_none H _ EP b HB)].
    destruct (pop_wf H _ _ _ _ W1 EP) as (_ & _ & SP). destruct (SP b HB) as [->|HB1].
    - exists (S m), (snd x1). rewrite lst_st, E1. destruct x1; reflexivity.
    - apply (IH (S m) x1 h1 b); [rewrite Nat.add_succ_l, <- Nat.add_succ_r; exact EN|exact E1|exact HB1].
  Qed.
  Lemma base_listed v b : good v -> valid v b -> isbase b -> exists k w, lst v k = Some (b, w).
  Proof.
    intros G V B. destruct v as [[i j] q]. destruct (backtraces_total i j q G) as (h & E & W & C). specialize (C b V B). destruct (lst_ends _ G) as (M & EM).
    assert (E0 : st (i, j, q) 0 = pop h) by (unfold st; cbn [pseq]; now rewrite E). destruct (pop h) as [[x h']|] eqn:EP; [|exfalso; exact (pop_none H _ EP b C)]. destruct (pop_wf H _ _ _ _ W EP) as (_ & _ & SP). destruct (SP b C) as [->|HB].
    - exists 0, (snd x). rewrite lst_st, E0. destruct x; reflexivity.
    - apply (eventually _ G M 0 x h' b); [|exact E0|exact HB]. now apply lst_st_none.
  Qed.
  Lemma succ_listed v b b' k w : good v -> lst v k = Some (b, w) -> In b' (bt_succ b) -> idx v b' -> exists k' w', lst v k' = Some (b', w').
  Proof.
    intros G E HS X. rewrite lst_st in E. destruct (st v k) as [[x h]|] eqn:EK; [|discriminate]. cbn in E. injection E as ->. destruct (st_ok v G _ _ _ EK) as [[V _] W]. cbn [fst] in V.
    destruct (pushes_wf H (item_ok v) (pworse lst v (bt_succ b)) (item_inj v) (fun p Hp => proj1 (pworse_ok v _ V p Hp)) h W) as (W1 & NEW & _).
    assert (HB : hin (pushes (pworse lst v (bt_succ b)) h) b').
    { destruct (pweight lst v b') as [w'|] eqn:EW; [|exfalso; revert EW; apply idx_pweight; [exact G|eapply succ_ok; eassumption|exact X]]. apply (NEW (b', w')). unfold pworse. apply in_flat_map. exists b'. split; [exact HS|]. rewrite EW. now left. }
    assert (E1 : st v (S k) = pop (pushes (pworse lst v (bt_succ b)) h)) by (unfold st in *; cbn [pseq]; rewrite EK; reflexivity).
    destruct (pop (pushes (pworse lst v (bt_succ b)) h)) as [[x1 h1]|] eqn:EP; [|exfalso; exact (pop_none H _ EP b' HB)]. destruct (pop_wf H _ _ _ _ W1 EP) as (_ & _ & SP). destruct (SP b' HB) as [->|HB1].
    - exists (S k), (snd x1). rewrite lst_st, E1. destruct x1; reflexivity.
    - destruct (lst_ends _ G) as (M & EM). apply (eventually _ G M (S k) x1 h1 b'); [|exact E1|exact HB1]. apply (st_none v M); [|lia]. now apply lst_st_none.
  Qed.
  Lemma lst_prev v k k' : lst v k <> None -> k' <= k -> lst v k' <> None.
  Proof. intros X L E. apply X. eapply lst_none; eassumption. Qed.
  Lemma all_listed v b : good v -> item_ok v b -> exists k w, lst v k = Some (b, w).
  Proof.
    intros G. destruct v as [[i j] q]. destruct b as [r q1 m q2 w i1 i2|r q1 w i1|r w].
    - revert i2. induction i1 as [|i1 IH1]; [induction i2 as [|i2 IH2]|intros i2]; intros HI.
      + apply base_listed; [exact G|apply HI|split; reflexivity].
      + destruct HI as [V [X1 X2]]. destruct IH2 as (k & w' & E); [split; [exact V|split; [exact X1|eapply lst_prev; [exact X2|lia]]]|]. eapply succ_listed; [exact G|exact E| |split; [exact X1|exact X2]]. cbn. rewrite Nat.add_1_r. now left.
      + destruct HI as [V [X1 X2]]. destruct (IH1 i2) as (k & w' & E); [split; [exact V|split; [eapply lst_prev; [exact X1|lia]|exact X2]]|]. eapply succ_listed; [exact G|exact E| |split; [exact X1|exact X2]]. cbn. rewrite !Nat.add_1_r. right. now left.
    - induction i1 as [|i1 IH1]; intros HI.
      + apply base_listed; [exact G|apply HI|reflexivity].
      + destruct HI as [V X1]. destruct IH1 as (k & w' & E); [split; [exact V|eapply lst_prev; [exact X1|lia]]|]. eapply succ_listed; [exact G|exact E| |exact X1]. cbn. rewrite Nat.add_1_r. now left.
    - intros HI. apply base_listed; [exact G|apply HI|exact I].
  Qed.

  (* ---- the cache holds prefixes ---- *)
  Definition entry (v : knode) (derivs : list item) (h : uheap) (m : nat) (x : item) : Prop :=
    length derivs = S m /\ last_opt derivs = Some x /\ st v m = Some (x, h) /\ forall k, k <= m -> nth_error derivs k = lst v k.
  Definition inv (d : kstate) : Prop := forall v derivs h, good v -> kd_get v d = Some (derivs, h) -> (derivs = [] /\ st v 0 = None) \/ exists m x, entry v derivs h m x.
  Definition cached (v : knode) (d : kstate) (m : nat) (x : item) : Prop := exists derivs h, kd_get v d = Some (derivs, h) /\ entry v derivs h m x.
  Definition frame (v : knode) (d d' : kstate) : Prop := forall u, mu v <= mu u -> kd_get u d' = kd_get u d.
  Definition frame' (v : knode) (d d' : kstate) : Prop := forall u, mu v <= mu u -> u <> v -> kd_get u d' = kd_get u d.
  Lemma inv_set_ok v derivs h d : inv d -> ((derivs = [] /\ st v 0 = None) \/ exists m x, entry v derivs h m x) -> inv (kd_set v (derivs, h) d).
  Proof.
    intros I HE u derivs' h' G E. destruct (knode_eqb u v) eqn:EV.
    - apply knode_eqb_eq in EV. subst u. rewrite kd_get_set in E. injection E as <- <-. exact HE.
    - rewrite kd_get_other in E; [now apply (I u)|]. intros ->. rewrite (proj2 (knode_eqb_eq v v) eq_refl) in EV. discriminate.
  Qed.
  Lemma entry_snoc v derivs h m x x' h' : entry v derivs h m x -> st v (S m) = Some (x', h') -> entry v (derivs ++ [x']) h' (S m) x'.
  Proof.
    intros (L & LO & E & PR) E'. split; [rewrite app_length; cbn; lia|]. split; [|split; [exact E'|]].
    - unfold last_opt. destruct derivs as [|y derivs]; [discriminate|]. cbn [app]. now rewrite last_last.
    - intros k Hk. destruct (Nat.eq_dec k (S m)) as [->|NK]; [rewrite nth_error_app2 by lia; rewrite L, Nat.sub_diag, lst_st, E'; reflexivity|]. rewrite nth_error_app1 by lia. apply PR. lia.
  Qed.

  Section Loop.
    Context (v : knode) (G : good v) (weight : kstate -> bt K -> option (option K * kstate)).
    Context (WS : forall d b, inv d -> valid v b -> exists d', weight d b = Some (pweight lst v b, d') /\ inv d' /\ frame v d d').
    Lemma worse_total : forall l d, inv d -> (forall b, In b l -> valid v b) -> exists d', worse H weight l d = Some (pworse lst v l, d') /\ inv d' /\ frame v d d'.
    Proof.
      induction l as [|b l IH]; intros d I V; cbn [worse]; [exists d; split; [reflexivity|split; [exact I|intros u _; reflexivity]]|].
      destruct (WS d b I (V b (or_introl eq_refl))) as (d1 & -> & I1 & F1). destruct (IH d1 I1) as (d2 & -> & I2 & F2); [intros b' Hb'; apply V; now right|]. exists d2. split; [|split; [exact I2|intros u Hu; rewrite F2 by exact Hu; now apply F1]].
      unfold pworse. cbn [flat_map]. destruct (pweight lst v b); reflexivity.
    Qed.
    Lemma kloop_total : forall iters d m x, inv d -> cached v d m x -> exists d' m' x', kloop H weight v iters d x (S m) = Some (d', x', S m') /\ inv d' /\ frame' v d d' /\ cached v d' m' x' /\ m <= m' <= m + iters /\ (m' = m + iters \/ st v (S m') = None).
    Proof.
      induction iters as [|iters IH]; intros d m x I CA; cbn [kloop]; [exists d, m, x; split; [reflexivity|]; split; [exact I|]; split; [intros u _ _; reflexivity|]; split; [exact CA|]; split; [lia|left; lia]|].
      destruct CA as (derivs & h & EG & EN). pose proof EN as (L & LO & E & PR). destruct (st_ok v G _ _ _ E) as [[V X] W].
      destruct (worse_total (bt_succ (fst x)) d I) as (d1 & -> & I1 & F1); [intros b Hb; eapply succ_ok; eassumption|]. rewrite (F1 v (Nat.le_refl _)), EG.
      change (fold_left (fun h p => push (fst p) (snd p) h) (pworse lst v (bt_succ (fst x))) h) with (pushes (pworse lst v (bt_succ (fst x))) h).
      assert (ES : st v (S m) = pop (pushes (pworse lst v (bt_succ (fst x))) h)) by (unfold st in *; cbn [pseq]; rewrite E; reflexivity).
      destruct (uh_is_empty H (pushes (pworse lst v (bt_succ (fst x))) h)) eqn:EE.
      - assert (NW : pworse lst v (bt_succ (fst x)) = []).
        { destruct (pworse lst v (bt_succ (fst x))) as [|p ws] eqn:EW; [reflexivity|]. exfalso. rewrite <- EW in EE. destruct (pushes_wf H (item_ok v) (pworse lst v (bt_succ (fst x))) (item_inj v) (fun p Hp => proj1 (pworse_ok v _ V p Hp)) h W) as (_ & NEW & _).
          apply (empty_none H _ EE (fst p)). apply NEW. rewrite EW. now left. }
        rewrite NW in *. cbn [pushes fold_left] in *. exists (kd_set v (derivs, h) d1), m, x. split; [reflexivity|]. split; [apply inv_set_ok; [exact I1|right; eauto]|]. split; [intros u Hu NU; rewrite kd_get_other by exact NU; now apply F1|].
        split; [exists derivs, h; split; [apply kd_get_set|exact EN]|]. split; [lia|]. right. rewrite ES. now apply empty_pop.
      - destruct (pop (pushes (pworse lst v (bt_succ (fst x))) h)) as [[x1 h1]|] eqn:EP; [|apply empty_pop in EP; congruence]. pose proof (entry_snoc _ _ _ _ _ _ _ EN ES) as EN1.
        destruct (IH (kd_set v (derivs ++ [x1], h1) d1) (S m) x1) as (d' & m' & x' & EK & I' & F' & CA' & LE & FI).
        + apply inv_set_ok; [exact I1|right; eauto].
        + exists (derivs ++ [x1]), h1. split; [apply kd_get_set|exact EN1].
        + exists d', m', x'. split; [exact EK|]. split; [exact I'|]. split; [intros u Hu NU; rewrite F' by assumption; rewrite kd_get_other by exact NU; now apply F1|]. split; [exact CA'|]. split; [lia|]. destruct FI as [->|FI]; [left; lia|right; exact FI].
    Qed.
  End Loop.

  Lemma kth_total : forall fuel d i j q k, good (i, j, q) -> mu (i, j, q) < fuel -> inv d -> exists d', kth H a c rule_filter fuel d i j q k = Some (lst (i, j, q) k, d') /\ inv d' /\ frame' (i, j, q) d d'.
  Proof.
    induction fuel as [|fuel IH]; intros d i j q k G L I; [lia|]. cbn [kth].
    match goal with |- context [kloop H ?w _ _ _ _ _] => set (weight := w) end.
    assert (WS : forall d b, inv d -> valid (i, j, q) b -> exists d', weight d b = Some (pweight lst (i, j, q) b, d') /\ inv d' /\ frame (i, j, q) d d').
    { intros d0 b I0 V. destruct b as [r0 q1 m q2 w0 i1 i2|r0 q1 w0 i1|r0 w0]; cbn [weight pweight].
      - destruct (child_bin _ _ _ _ _ _ _ _ _ _ G V) as (G1 & G2 & M1 & M2). destruct (IH d0 i m q1 i1 G1 ltac:(lia) I0) as (d1 & -> & I1 & F1). pose proof (proj2 (Nat.ltb_lt _ _) M1) as B1. pose proof (proj2 (Nat.ltb_lt _ _) M2) as B2. rewrite B1, B2. cbn [andb].
        destruct (lst (i, m, q1) i1) as [p1|]; [|exists d1; split; [reflexivity|split; [exact I1|intros u Hu; apply F1; [lia|intros ->; lia]]]]. destruct (IH d1 m j q2 i2 G2 ltac:(lia) I1) as (d2 & -> & I2 & F2). exists d2. split; [reflexivity|]. split; [exact I2|].
        intros u Hu. rewrite F2; [apply F1|..]; try lia; intros ->; lia.
      - destruct (child_un _ _ _ _ _ _ _ G V) as (G1 & M1). destruct (IH d0 i j q1 i1 G1 ltac:(lia) I0) as (d1 & -> & I1 & F1). pose proof (proj2 (Nat.ltb_lt _ _) M1) as B1. rewrite B1. exists d1. split; [reflexivity|]. split; [exact I1|]. intros u Hu. apply F1; [lia|intros ->; lia].
      - exists d0. split; [reflexivity|]. split; [exact I0|intros u _; reflexivity]. }
    assert (FI : forall d m x, inv d -> cached (i, j, q) d m x -> exists d', 
      (let? (d, last, vec_len) := kloop H weight (i, j, q) (S k - S m) d x (S m) in
       match Nat.compare vec_len (S k) with
       | Eq => Some (Some last, d) | Lt => Some (None, d)
       | Gt => let? (derivs, _) := kd_get (i, j, q) d in let? x := nth_error derivs k in Some (Some x, d) end) = Some (lst (i, j, q) k, d') /\ inv d' /\ frame' (i, j, q) d d').
    { intros d0 m x I0 CA. destruct (kloop_total (i, j, q) G weight WS (S k - S m) d0 m x I0 CA) as (d1 & m1 & x1 & -> & I1 & F1 & (derivs & h & EG & (LD & LO & ES & PR)) & LE & FIN). exists d1.
      destruct (Nat.compare_spec (S m1) (S k)) as [EQ|LT|GT].
      - injection EQ as ->. rewrite lst_st, ES. auto.
      - split; [|auto]. rewrite lst_st. destruct FIN as [->|FIN]; [lia|]. rewrite (st_none _ (S m1) k FIN) by lia. reflexivity.
      - rewrite EG. specialize (PR k ltac:(lia)). destruct (nth_error derivs k) as [y|] eqn:EY; [rewrite <- PR; auto|]. apply nth_error_None in EY. lia. }
    destruct (kd_get (i, j, q) d) as [[derivs h]|] eqn:EG.
    - destruct (I _ _ _ G EG) as [[-> E0]|(m & x & EN)].
      + cbn [last_opt]. exists d. rewrite lst_st, (st_none _ 0 k E0) by lia. split; [reflexivity|]. split; [exact I|intros u _ _; reflexivity].
      + pose proof EN as (LD & LO & _). rewrite LO, LD. apply FI; [exact I|exists derivs, h; auto].
    - destruct (backtraces_total i j q G) as (h & EB & _). rewrite EB. assert (E0 : st (i, j, q) 0 = pop h) by (unfold st; cbn [pseq]; now rewrite EB).
      destruct (pop h) as [[x h']|] eqn:EP.
      + assert (EN : entry (i, j, q) [x] h' 0 x). { split; [reflexivity|]. split; [reflexivity|]. split; [exact E0|]. intros k0 Hk. replace k0 with 0 by lia. rewrite lst_st, E0. reflexivity. }
        destruct (FI (kd_set (i, j, q) ([x], h') d) 0 x) as (d' & E & I' & F').
        * apply inv_set_ok; [exact I|right; eauto].
        * exists [x], h'. split; [apply kd_get_set|exact EN].
        * exists d'. split; [exact E|]. split; [exact I'|]. intros u Hu NU. rewrite F' by assumption. now apply kd_get_other.
      + exists (kd_set (i, j, q) ([], uh_default H) d). rewrite lst_st, (st_none _ 0 k E0) by lia. split; [reflexivity|]. split; [apply inv_set_ok; [exact I|left; auto]|]. intros u Hu NU. now apply kd_get_other.
  Qed.

  (* ---- trees ---- *)
  Context (BR : forall r x, nth_error R r = Some x -> let '(b1, b2, b3) := cr_br x in match cr_rhs x with RB _ _ => is_br b3 | _ => is_br b1 /\ is_br b2 end).
  Inductive tof : knode -> bt K -> ctree -> Prop :=
  | tof_null i j q r w : tof (i, j, q) (BNull r w) (CNull r)
  | tof_un i j q r q1 w k e t : lst (i, j, q1) k = Some e -> tof (i, j, q1) (fst e) t -> tof (i, j, q) (BUn r q1 w k) (CUn r t)
  | tof_bin i j q r q1 m q2 w k1 k2 e1 e2 t1 t2 : lst (i, m, q1) k1 = Some e1 -> lst (m, j, q2) k2 = Some e2 -> tof (i, m, q1) (fst e1) t1 -> tof (m, j, q2) (fst e2) t2 -> tof (i, j, q) (BBin r q1 m q2 w k1 k2) (CBin r t1 t2).
  Lemma tof_exists : forall k v b, mu v < k -> good v -> item_ok v b -> exists t, tof v b t.
  Proof.
    induction k as [|k IH]; intros v b L G [V X]; [lia|]. destruct v as [[i j] q]. destruct b as [r q1 m q2 w i1 i2|r q1 w i1|r w]; cbn [idx] in X.
    - destruct (child_bin _ _ _ _ _ _ _ _ _ _ G V) as (G1 & G2 & M1 & M2). destruct X as [X1 X2]. destruct (lst (i, m, q1) i1) as [e1|] eqn:E1; [|congruence]. destruct (lst (m, j, q2) i2) as [e2|] eqn:E2; [|congruence].
      destruct (IH (i, m, q1) (fst e1)) as (t1 & T1); [lia|exact G1|eapply lst_ok; eassumption|]. destruct (IH (m, j, q2) (fst e2)) as (t2 & T2); [lia|exact G2|eapply lst_ok; eassumption|]. exists (CBin r t1 t2). eapply tof_bin; eassumption.
    - destruct (child_un _ _ _ _ _ _ _ G V) as (G1 & M1). destruct (lst (i, j, q1) i1) as [e1|] eqn:E1; [|congruence]. destruct (IH (i, j, q1) (fst e1)) as (t1 & T1); [lia|exact G1|eapply lst_ok; eassumption|]. exists (CUn r t1). eapply tof_un; eassumption.
    - exists (CNull r). constructor.
  Qed.
  Lemma read_total : forall fuel d i j q b t, good (i, j, q) -> mu (i, j, q) < fuel -> inv d -> item_ok (i, j, q) b -> tof (i, j, q) b t -> exists d', read H a c rule_filter fuel d i j b = Some (ct_word R t, d') /\ inv d'.
  Proof.
    induction fuel as [|fuel IH]; intros d i j q b t G L I [V X] TO; [lia|]. cbn [read]. inversion TO as [i0 j0 q0 r w|i0 j0 q0 r q1 w k e t1 E1 T1|i0 j0 q0 r q1 m q2 w k1 k2 e1 e2 t1 t2 E1 E2 T1 T2]; subst.
    - destruct V as (_ & t0 & br & _ & Er). pose proof (brackets_at teqb a R PZ _ _ Er) as [EB1 EB2]. cbn [cr_br] in EB1, EB2. pose proof (BR _ _ Er) as BB. cbn [cr_br cr_rhs] in BB. destruct br as [[ob ib] rb]. rewrite EB1. exists d. split; [|exact I].
      cbn [ct_word]. rewrite EB2. destruct BB as [B1 B2]. rewrite (wrap_br ib), (wrap_br ob) by assumption. reflexivity.
    - destruct (child_un _ _ _ _ _ _ _ G V) as (G1 & M1). destruct (kth_total (S fuel) d i j q1 k G1 ltac:(lia) I) as (d1 & -> & I1 & _). rewrite E1. destruct (IH d1 i j q1 (fst e) t1 G1 ltac:(lia) I1) as (d2 & -> & I2); [eapply lst_ok; eassumption|exact T1|].
      destruct V as ((br & _ & Er) & _). pose proof (brackets_at teqb a R PZ _ _ Er) as [EB1 EB2]. cbn [cr_br] in EB1, EB2. pose proof (BR _ _ Er) as BB. cbn [cr_br cr_rhs] in BB. destruct br as [[ob ib] rb]. rewrite EB1. exists d2. split; [|exact I2].
      cbn [ct_word]. rewrite EB2. destruct BB as [B1 B2]. rewrite (wrap_br ib), (wrap_br ob) by assumption. cbn [app]. rewrite <- app_assoc. reflexivity.
    - destruct (child_bin _ _ _ _ _ _ _ _ _ _ G V) as (G1 & G2 & M1 & M2). destruct (kth_total (S fuel) d i m q1 k1 G1 ltac:(lia) I) as (d1 & -> & I1 & _). rewrite E1. destruct (kth_total (S fuel) d1 m j q2 k2 G2 ltac:(lia) I1) as (d2 & -> & I2 & _). rewrite E2.
      destruct V as (_ & (br & _ & Er) & _ & _). pose proof (brackets_at teqb a R PZ _ _ Er) as [EB1 EB2]. cbn [cr_br] in EB1, EB2. pose proof (BR _ _ Er) as BB. cbn [cr_br cr_rhs] in BB. destruct br as [[ob lb] rb]. rewrite EB1.
      destruct (IH d2 i m q1 (fst e1) t1 G1 ltac:(lia) I2) as (d3 & -> & I3); [eapply lst_ok; eassumption|exact T1|]. destruct (IH d3 m j q2 (fst e2) t2 G2 ltac:(lia) I3) as (d4 & -> & I4); [eapply lst_ok; eassumption|exact T2|].
      exists d4. split; [|exact I4]. cbn [ct_word]. rewrite EB2. rewrite (wrap_br rb) by exact BB. reflexivity.
  Qed.

  (* every derivation over the spans of the chart is listed *)
  Context (word : list T) (root : knode).
  Definition inch (r q i j : nat) : Prop := nth_error rule_filter r = Some true /\ (has c i j q \/ (i, j, q) = root).
  Lemma tof_complete q t i j : aderiv R inch word q t i j -> good (i, j, q) -> mu (i, j, q) <= mu root -> exists k e, lst (i, j, q) k = Some e /\ tof (i, j, q) (fst e) t.
  Proof.
    induction 1 as [r q x w b i Er Ew [Hf _]|r q q1 w b t i j Er [Hf _] A IH|r q q1 q2 w b t1 t2 i m j Er [Hf _] A1 IH1 A2 IH2]; intros G M.
    - destruct (all_listed (i, S i, q) (BNull r w) G) as (k & w' & E); [split; [|exact I]; split; [lia|]; exists x, b; split; assumption|]. exists k, (BNull r w, w'). split; [exact E|]. constructor.
    - assert (MU : mu (i, j, q1) < mu (i, j, q)) by (eapply mu_un; [exact HF|exact RANK|split; eassumption]). destruct (rule_states teqb a R PZ _ _ _ _ _ Er) as (_ & Q1). assert (G1 : good (i, j, q1)) by (split; [apply G|exact Q1]).
      destruct (IH G1 ltac:(lia)) as (k1 & e1 & E1 & T1). assert (HA : has c i j q1). { inversion A; subst; match goal with X : inch _ _ _ _ |- _ => destruct X as [_ [HX|HX]]; [exact HX|rewrite <- HX in M; lia] end. }
      destruct (all_listed (i, j, q) (BUn r q1 w k1) G) as (k & w' & E); [split; [split; [exists b; split; assumption|exact HA]|cbn [idx]; congruence]|]. exists k, (BUn r q1 w k1, w'). split; [exact E|]. eapply tof_un; eassumption.
    - assert (LT : i < m < j). { pose proof (proj1 (aderiv_cderiv _ _ _ _ _ _ _ A1)). pose proof (proj1 (aderiv_cderiv _ _ _ _ _ _ _ A2)). lia. }
      destruct (span_sub R n rule_filter HF _ _ _ (proj1 G) LT) as [S1 S2]. destruct (rule_states teqb a R PZ _ _ _ _ _ Er) as (_ & Q1 & Q2). assert (G1 : good (i, m, q1)) by (split; assumption). assert (G2 : good (m, j, q2)) by (split; assumption).
      assert (M1 : mu (i, m, q1) < mu (i, j, q)) by (eapply mu_left; eassumption). assert (M2 : mu (m, j, q2) < mu (i, j, q)) by (eapply mu_right; eassumption).
      destruct (IH1 G1 ltac:(lia)) as (k1 & e1 & E1 & T1). destruct (IH2 G2 ltac:(lia)) as (k2 & e2 & E2 & T2).
      assert (HA1 : has c i m q1). { inversion A1; subst; match goal with X : inch _ _ _ _ |- _ => destruct X as [_ [HX|HX]]; [exact HX|rewrite <- HX in M; lia] end. }
      assert (HA2 : has c m j q2). { inversion A2; subst; match goal with X : inch _ _ _ _ |- _ => destruct X as [_ [HX|HX]]; [exact HX|rewrite <- HX in M; lia] end. }
      destruct (all_listed (i, j, q) (BBin r q1 m q2 w k1 k2) G) as (k & w' & E); [split; [split; [exact LT|split; [exists b; split; assumption|split; assumption]]|cbn [idx]; split; congruence]|]. exists k, (BBin r q1 m q2 w k1 k2, w'). split; [exact E|]. eapply tof_bin; eassumption.
  Qed.

  (* ---- the iterator ---- *)
  Context (Hroot : root = (0, u8 (ch_n c), au_initial a)) (GR : good root).
  Lemma kiter_total : exists ts : list ctree,
    (forall fuel m, mu root < fuel -> kiter_run H a c rule_filter fuel m (kiter_new H) = Some (map (nth_error (map (ct_word R) ts)) (seq 0 m))) /\
    (forall t, aderiv R inch word (au_initial a) t 0 (u8 (ch_n c)) -> In t ts).
  Proof.
    destruct (lst_ends root GR) as (M & EM).
    assert (LEN : exists N, N <= M /\ lst root N = None /\ forall k, k < N -> lst root k <> None).
    { induction M as [|M IH]; [exists 0; split; [lia|split; [exact EM|intros; lia]]|]. destruct (lst root M) eqn:E; [|destruct IH as (N & L & A & B); [reflexivity|exists N; split; [lia|auto]]]. exists (S M). split; [lia|]. split; [exact EM|]. intros k Hk X. assert (lst root M = None) by (eapply lst_none; [exact X|lia]). congruence. }
    destruct LEN as (N & _ & EN & BN).
    assert (TS : exists ts, length ts = N /\ forall k e, lst root k = Some e -> forall t, tof root (fst e) t -> nth_error ts k = Some t).
    { assert (UNI : forall v b t, tof v b t -> forall t', tof v b t' -> t = t').
      { induction 1 as [i j q r w|i j q r q1 w k e t E1 T1 IH1|i j q r q1 m q2 w k1 k2 e1 e2 t1 t2 E1 E2 T1 IH1 T2 IH2]; intros t' TO'; inversion TO'; subst; [reflexivity| |].
        - match goal with X : lst (i, j, q1) k = Some ?e', Y : tof _ (fst ?e') _ |- _ => rewrite E1 in X; injection X as <-; rewrite (IH1 _ Y); reflexivity end.
        - match goal with X : lst (i, m, q1) k1 = Some ?e', Y : tof _ (fst ?e') _, X2 : lst (m, j, q2) k2 = Some ?e2', Y2 : tof _ (fst ?e2') _ |- _ => rewrite E1 in X; injection X as <-; rewrite E2 in X2; injection X2 as <-; rewrite (IH1 _ Y), (IH2 _ Y2); reflexivity end. }
      clear EM. assert (GEN : forall n', n' <= N -> exists ts, length ts = n' /\ forall k e, k < n' -> lst root k = Some e -> forall t, tof root (fst e) t -> nth_error ts k = Some t).
      { induction n' as [|n' IH]; intros L; [exists []; split; [reflexivity|intros; lia]|]. destruct IH as (ts & LT & HT); [lia|]. destruct (lst root n') as [e|] eqn:E; [|exfalso; now apply (BN n')].
        destruct (tof_exists (S (mu root)) root (fst e)) as (t & TO); [lia|exact GR|eapply lst_ok; eassumption|]. exists (ts ++ [t]). split; [rewrite app_length; cbn; lia|]. intros k e' Hk E' t' TO'. destruct (Nat.eq_dec k n') as [->|NK].
        - rewrite nth_error_app2 by lia. rewrite LT, Nat.sub_diag. cbn. f_equal. rewrite E in E'. injection E' as <-. now apply (UNI root (fst e)).
        - rewrite nth_error_app1 by lia. apply (HT k e'); [lia|assumption|assumption]. }
      destruct (GEN N (Nat.le_refl _)) as (ts & LT & HT). exists ts. split; [exact LT|]. intros k e E t TO. apply (HT k e); [|exact E|exact TO]. destruct (Nat.lt_ge_cases k N) as [L|L]; [exact L|]. rewrite (lst_none root N k EN L) in E. discriminate. }
    destruct TS as (ts & LT & HT). exists ts. split.
    - intros fuel m FU. assert (RUN : forall m k d, inv d -> kiter_run H a c rule_filter fuel m (KIter H d k) = Some (map (nth_error (map (ct_word R) ts)) (seq k m))).
      { clear m. induction m as [|m IH]; intros k d I; [reflexivity|]. cbn [kiter_run seq map]. unfold kiter_next. cbn [ki_d ki_k]. pose proof GR as GR'. rewrite Hroot in GR', FU.
        destruct (kth_total fuel d 0 (u8 (ch_n c)) (au_initial a) k GR' FU I) as (d1 & -> & I1 & _). rewrite <- Hroot. destruct (lst root k) as [e|] eqn:E.
        - destruct (tof_exists (S (mu root)) root (fst e)) as (t & TO); [lia|exact GR|eapply lst_ok; eassumption|]. pose proof (HT k e E t TO) as EK. pose proof TO as TO'. rewrite Hroot in TO'.
          destruct (read_total fuel d1 0 (u8 (ch_n c)) (au_initial a) (fst e) t GR' FU I1) as (d2 & -> & I2); [rewrite <- Hroot; eapply lst_ok; eassumption|exact TO'|]. rewrite (IH (S k) d2 I2). rewrite nth_error_map, EK. reflexivity.
        - rewrite (IH (S k) d1 I1). assert (NN : nth_error ts k = None). { apply nth_error_None. rewrite LT. destruct (Nat.lt_ge_cases k N) as [L|L]; [exfalso; exact (BN k L E)|exact L]. } rewrite nth_error_map, NN. reflexivity. }
      apply RUN. intros v derivs h _ E. discriminate E.
    - intros t A. pose proof GR as GR'. rewrite Hroot in GR'. destruct (tof_complete _ _ _ _ A GR') as (k & e & E & TO); [rewrite Hroot; lia|]. rewrite <- Hroot in E, TO. eapply nth_error_In. exact (HT k e E t TO).
  Qed.
End Total.
