(* The k-best enumeration over any chart, without conditions on the grammar: what it can return at all. *)
From Coq Require Import Permutation.
From Verif Require Import Base M_Util M_Agenda M_Grammar M_Chart S_Chart P_Chart M_CSAuto S_CS P_FillChart M_KBest P_KBest M_CSParse.
Arguments Nat.ltb : simpl never. Arguments Nat.eqb : simpl never.

Section Loose.
  Context {T : Type} {K : ZWeight} (H : max_heap (K * bt K) (@kb_leb K)) (teqb : T -> T -> bool).
  Context (a : automaton T K) (R : list (crule nat T K)) (PZ : presents teqb a R (states a)).
  Context (c : chart K) (rule_filter : list bool).
  Context (BR : forall r x, nth_error R r = Some x -> let '(b1, b2, b3) := cr_br x in match cr_rhs x with RB _ _ => is_br b3 | _ => is_br b1 /\ is_br b2 end).
  Notation item := (bt K * K)%type.
  Notation kstate := (list (knode * (list item * unique_heap (It := bt K) H))).
  Definition on (r : nat) (x : crule nat T K) : Prop := nth_error rule_filter r = Some true /\ nth_error R r = Some x.
  Definition has (i j q : nat) : Prop := exists w, get_weight c i j q = Some (Some w).

  (* the backtraces a node can have *)
  Definition valid (v : knode) (b : bt K) : Prop :=
    let '(i, j, q) := v in
    match b with
    | BBin r q1 m q2 w _ _ => i < m < j /\ (exists br, on r (CRule q (RB q1 q2) w br)) /\ has i m q1 /\ has m j q2
    | BUn r q1 w _ => (exists br, on r (CRule q (RU q1) w br)) /\ has i j q1
    | BNull r w => j - i = 1 /\ exists t br, on r (CRule q (RT t) w br)
    end.
  Definition heap_ok (v : knode) (h : unique_heap H) : Prop := forall w b, In (w, b) (mh_content H (uh_heap H h)) -> valid v b.
  Definition kinv (d : kstate) : Prop := forall v derivs h, kd_get v d = Some (derivs, h) -> (forall x, In x derivs -> valid v (fst x)) /\ heap_ok v h.

  Lemma push_ok v h b w : heap_ok v h -> valid v b -> heap_ok v (snd (uh_push bt_eqb H b w h)).
  Proof.
    intros Hh Hb w' b' Hin. unfold uh_push, uh_insert in Hin. destruct (memb bt_eqb b (uh_current H h)); cbn [snd uh_heap] in Hin; [now apply (Hh w')|].
    apply (Permutation_in _ (mh_push_c H _ _)) in Hin. destruct Hin as [E|Hin]; [injection E as _ <-; exact Hb|now apply (Hh w')].
  Qed.
  Lemma pop_ok v h x h' : heap_ok v h -> uh_pop bt_eqb H h = Some (x, h') -> valid v (fst x) /\ heap_ok v h'.
  Proof.
    intros Hh E. unfold uh_pop in E. destruct (mh_pop H (uh_heap H h)) as [[[w b] hh]|] eqn:EP; [|discriminate]. injection E as <- <-. apply (mh_pop_some H) in EP. destruct EP as [PM _]. split.
    - apply (Hh w). apply (Permutation_in _ (Permutation_sym PM)). now left.
    - intros w' b' Hin. apply (Hh w'). apply (Permutation_in _ (Permutation_sym PM)). now right.
  Qed.
  Lemma default_ok v : heap_ok v (uh_default H).
  Proof. intros w b Hin. cbn in Hin. rewrite (mh_empty_c H) in Hin. destruct Hin. Qed.
  Lemma fold_p_ok {X St} (f : St -> X -> option St) (P : St -> Prop) l : (forall x s s', In x l -> P s -> f s x = Some s' -> P s') -> forall s s', P s -> fold_p f l s = Some s' -> P s'.
  Proof.
    induction l as [|x l IH]; intros HP s s' Hs E; cbn in E; [injection E as <-; exact Hs|]. destruct (f s x) as [s1|] eqn:E1; [|discriminate]. apply (IH (fun y s0 s0' Hy => HP y s0 s0' (or_intror Hy)) s1 s'); [|exact E]. eapply HP; [now left|exact Hs|exact E1].
  Qed.
  Lemma at_nth {X} (tab : list (list X)) q l : nth_error tab q = Some l -> nth q tab [] = l.
  Proof. apply nth_error_nth. Qed.
  Lemma backtraces_ok i j q h : backtraces H a c rule_filter i j q = Some h -> heap_ok (i, j, q) h.
  Proof.
    unfold backtraces. intros E. destruct (nth_error (au_tdbin a) q) as [bins|] eqn:EB; [|discriminate].
    match type of E with match ?f with _ => _ end = _ => destruct f as [h1|] eqn:E1; [|discriminate] end.
    assert (H1 : heap_ok (i, j, q) h1).
    { revert E1. apply fold_p_ok; [|apply default_ok]. intros [[[r q1] q2] w] s s' Hin Hs Es. rewrite <- (at_nth _ _ _ EB) in Hin. apply (pz_tdbin _ _ _ _ PZ) in Hin. destruct Hin as (b & Er).
      destruct (nth_error rule_filter r) as [[|]|] eqn:Ef; [|injection Es as <-; exact Hs|discriminate]. revert Hs Es. apply fold_p_ok. intros m s0 s0' Hm Hs0 Es0. apply in_seq in Hm.
      destruct (get_weight c i m q1) as [[g1|]|] eqn:G1; [|injection Es0 as <-; exact Hs0|discriminate]. destruct (get_weight c m j q2) as [[g2|]|] eqn:G2; [|injection Es0 as <-; exact Hs0|discriminate]. injection Es0 as <-.
      apply push_ok; [exact Hs0|]. split; [lia|]. split; [exists b; split; assumption|]. split; eexists; eassumption. }
    destruct (nth_error (au_tdun a) q) as [uns|] eqn:EU; [|discriminate].
    match type of E with match ?f with _ => _ end = _ => destruct f as [h2|] eqn:E2; [|discriminate] end.
    assert (H2 : heap_ok (i, j, q) h2).
    { revert H1 E2. apply fold_p_ok. intros [[r q1] w] s s' Hin Hs Es. rewrite <- (at_nth _ _ _ EU) in Hin. apply (pz_tdun _ _ _ _ PZ) in Hin. destruct Hin as (b & Er).
      destruct (nth_error rule_filter r) as [[|]|] eqn:Ef; [|injection Es as <-; exact Hs|discriminate]. destruct (get_weight c i j q1) as [[g1|]|] eqn:G1; [|injection Es as <-; exact Hs|discriminate]. injection Es as <-.
      apply push_ok; [exact Hs|]. split; [exists b; split; assumption|eexists; exact G1]. }
    destruct (Nat.eqb_spec (j - i) 1) as [Ej|]; [|injection E as <-; exact H2]. destruct (nth_error (au_tdnull a) q) as [nulls|] eqn:EN; [|discriminate].
    revert H2 E. apply fold_p_ok. intros [r w] s s' Hin Hs Es. rewrite <- (at_nth _ _ _ EN) in Hin. apply (pz_tdnull _ _ _ _ PZ) in Hin. destruct Hin as (t & b & Er).
    destruct (nth_error rule_filter r) as [[|]|] eqn:Ef; [|injection Es as <-; exact Hs|discriminate]. injection Es as <-. apply push_ok; [exact Hs|]. split; [exact Ej|]. exists t, b. split; assumption.
  Qed.
  Lemma succ_ok v b b' : valid v b -> In b' (bt_succ b) -> valid v b'.
  Proof. destruct v as [[i j] q]. destruct b as [r q1 m q2 w i1 i2|r q1 w i1|r w]; cbn; intros Hv Hin; [destruct Hin as [<-|[<-|[]]]; exact Hv|destruct Hin as [<-|[]]; exact Hv|destruct Hin]. Qed.
  Lemma kinv_set v derivs h d : kinv d -> (forall x, In x derivs -> valid v (fst x)) -> heap_ok v h -> kinv (kd_set v (derivs, h) d).
  Proof.
    intros I H1 H2 u derivs' h' E. destruct (knode_eqb u v) eqn:EV.
    - apply knode_eqb_eq in EV. subst u. rewrite kd_get_set in E. injection E as <- <-. auto.
    - rewrite kd_get_other in E; [now apply (I u)|]. intros ->. rewrite (proj2 (knode_eqb_eq v v) eq_refl) in EV. discriminate.
  Qed.

  Section Loop.
    Context (weight : kstate -> bt K -> option (option K * kstate)) (WI : forall d b w d', kinv d -> weight d b = Some (w, d') -> kinv d').
    Lemma worse_ok : forall l d ws d', kinv d -> worse H weight l d = Some (ws, d') -> kinv d' /\ forall p, In p ws -> In (fst p) l.
    Proof.
      induction l as [|b l IH]; intros d ws d' I E; cbn in E; [injection E as <- <-; split; [exact I|intros p []]|]. destruct (weight d b) as [[w d1]|] eqn:E1; [|discriminate]. destruct (worse H weight l d1) as [[bs d2]|] eqn:E2; [|discriminate].
      apply WI in E1; [|exact I]. apply IH in E2; [|exact E1]. destruct E2 as [I2 S2]. injection E as <- <-. split; [exact I2|]. intros p Hp. destruct w; [destruct Hp as [<-|Hp]; [now left|]|]; right; now apply S2.
    Qed.
    Lemma kloop_ok v : forall iters d last len d' last' len', kinv d -> valid v (fst last) -> kloop H weight v iters d last len = Some (d', last', len') -> kinv d' /\ valid v (fst last').
    Proof.
      induction iters as [|iters IH]; intros d last len d' last' len' I HL E; cbn [kloop] in E; [injection E as <- <- <-; auto|].
      destruct (worse H weight (bt_succ (fst last)) d) as [[ws d1]|] eqn:EW; [|discriminate]. apply worse_ok in EW; [|exact I]. destruct EW as [I1 SW].
      destruct (kd_get v d1) as [[derivs cands]|] eqn:EG; [|discriminate]. destruct (I1 v derivs cands EG) as [ID IH1].
      set (cands' := fold_left (fun h p => snd (uh_push bt_eqb H (fst p) (snd p) h)) ws cands) in *.
      assert (HC : heap_ok v cands').
      { unfold cands'. assert (SV : forall p, In p ws -> valid v (fst p)) by (intros p Hp; eapply succ_ok; [exact HL|now apply SW]). clear -IH1 SV. revert cands IH1. induction ws as [|p ws IHw]; intros h Hh; [exact Hh|]. cbn. apply IHw; [intros p' Hp'; apply SV; now right|]. apply push_ok; [exact Hh|apply SV; now left]. }
      destruct (uh_is_empty H cands'); [injection E as <- <- <-; split; [now apply kinv_set|exact HL]|]. destruct (uh_pop bt_eqb H cands') as [[x cands2]|] eqn:EP; [|discriminate]. apply (pop_ok v) in EP; [|exact HC]. destruct EP as [VX HC2].
      eapply IH; [|exact VX|exact E]. apply kinv_set; [exact I1| |exact HC2]. intros y Hy. apply in_app_iff in Hy. destruct Hy as [Hy|[<-|[]]]; [now apply ID|exact VX].
    Qed.
  End Loop.
  Lemma last_opt_In {X} (l : list X) x : last_opt l = Some x -> In x l.
  Proof.
    unfold last_opt. destruct l as [|y l]; [discriminate|]. intros E. injection E as <-. revert y. induction l as [|z l IH]; intros y; [now left|]. cbn [last]. destruct l as [|z' l]; [right; now left|]. destruct (IH y) as [E|Hin]; [now left|right; right; exact Hin].
  Qed.
  Lemma kth_ok : forall fuel d i j q k r d', kinv d -> kth H a c rule_filter fuel d i j q k = Some (r, d') -> kinv d' /\ match r with Some x => valid (i, j, q) (fst x) | None => True end.
  Proof.
    induction fuel as [|fuel IH]; intros d i j q k r d' I E; [discriminate|]. cbn [kth] in E.
    match type of E with context [kloop H ?w _ _ _ _ _] => set (weight := w) in E end.
    assert (WI : forall d b w d', kinv d -> weight d b = Some (w, d') -> kinv d').
    { intros d0 b w d0' I0 E0. unfold weight in E0. destruct b as [r0 q1 m q2 w0 i1 i2|r0 q1 w0 i1|r0 w0].
      - destruct (kth H a c rule_filter fuel d0 i m q1 i1) as [[r1 d1]|] eqn:E1; [|discriminate]. apply IH in E1; [|exact I0]. destruct r1 as [p1|]; [|injection E0 as _ <-; apply E1].
        destruct (kth H a c rule_filter fuel d1 m j q2 i2) as [[r2 d2]|] eqn:E2; [|discriminate]. apply IH in E2; [|apply E1]. injection E0 as _ <-. apply E2.
      - destruct (kth H a c rule_filter fuel d0 i j q1 i1) as [[r1 d1]|] eqn:E1; [|discriminate]. apply IH in E1; [|exact I0]. injection E0 as _ <-. apply E1.
      - injection E0 as _ <-. exact I0. }
    assert (FI : forall d last len, kinv d -> valid (i, j, q) (fst last) ->
      (let? (d, last, vec_len) := kloop H weight (i, j, q) (S k - len) d last len in
       match Nat.compare vec_len (S k) with
       | Eq => Some (Some last, d) | Lt => Some (None, d)
       | Gt => let? (derivs, _) := kd_get (i, j, q) d in let? x := nth_error derivs k in Some (Some x, d) end) = Some (r, d') ->
      kinv d' /\ match r with Some x => valid (i, j, q) (fst x) | None => True end).
    { intros d0 last len I0 V0 E0. destruct (kloop H weight (i, j, q) (S k - len) d0 last len) as [[[d1 last1] len1]|] eqn:EL; [|discriminate]. apply (kloop_ok weight WI) in EL; [|exact I0|exact V0]. destruct EL as [I1 V1].
      destruct (Nat.compare len1 (S k)); [injection E0 as <- <-; auto|injection E0 as <- <-; auto|]. destruct (kd_get (i, j, q) d1) as [[derivs h]|] eqn:EG; [|discriminate]. destruct (nth_error derivs k) as [x|] eqn:EX; [|discriminate]. injection E0 as <- <-. split; [exact I1|].
      apply (I1 _ _ _ EG). eapply nth_error_In. exact EX. }
    destruct (kd_get (i, j, q) d) as [[derivs h]|] eqn:EG.
    - destruct (last_opt derivs) as [x|] eqn:EL; [|injection E as <- <-; auto]. apply (FI d x (length derivs) I); [|exact E]. apply (I _ _ _ EG). now apply last_opt_In.
    - destruct (backtraces H a c rule_filter i j q) as [bts|] eqn:EB; [|discriminate]. apply backtraces_ok in EB. destruct (uh_pop bt_eqb H bts) as [[first bts']|] eqn:EP.
      + apply (pop_ok (i, j, q)) in EP; [|exact EB]. destruct EP as [VF HB]. refine (FI _ first 1 _ VF E). apply kinv_set; [exact I| |exact HB]. intros x [<-|[]]. exact VF.
      + injection E as <- <-. split; [|exact Logic.I]. apply kinv_set; [exact I|intros x []|apply default_ok].
  Qed.

  (* the token at position p comes from a rule of a state that is in the chart there (or from the root) *)
  Definition loose (root : knode) (p : nat) (t : T) : Prop :=
    exists r q w br, on r (CRule q (RT t) w br) /\ (has p (S p) q \/ (p, S p, q) = root).
  Lemma read_ok root : forall fuel d i j q b u d', kinv d -> valid (i, j, q) b -> (has i j q \/ (i, j, q) = root) -> read H a c rule_filter fuel d i j b = Some (u, d') ->
    kinv d' /\ exists t w, u = ct_word R t /\ cderiv R q t w /\ i + length w = j /\ (forall p x, nth_error w p = Some x -> loose root (i + p) x) /\ exists rid, In rid (ct_rules t) /\ nth_error rule_filter rid = Some true.
  Proof.
    induction fuel as [|fuel IH]; intros d i j q b u d' I V HV E; [discriminate|]. cbn [read] in E. destruct b as [r q1 m q2 w i1 i2|r q1 w i1|r w]; cbn [valid] in V.
    - destruct V as (Hm & (br & Ef & Er) & H1 & H2).
      destruct (kth H a c rule_filter (S fuel) d i m q1 i1) as [[[ce1|] d1]|] eqn:E1; try discriminate. apply kth_ok in E1; [|exact I]. destruct E1 as [I1 V1].
      destruct (kth H a c rule_filter (S fuel) d1 m j q2 i2) as [[[ce2|] d2]|] eqn:E2; try discriminate. apply kth_ok in E2; [|exact I1]. destruct E2 as [I2 V2].
      pose proof (brackets_at teqb a R PZ _ _ Er) as [EB1 EB2]. cbn [cr_br] in EB1, EB2. pose proof (BR _ _ Er) as BB. cbn [cr_br cr_rhs] in BB. destruct br as [[ob lb] rb]. rewrite EB1 in E.
      destruct (read H a c rule_filter fuel d2 i m (fst ce1)) as [[w1 d3]|] eqn:E3; [|discriminate]. apply (IH _ _ _ q1) in E3; [|exact I2|exact V1|now left]. destruct E3 as (I3 & t1 & u1 & -> & C1 & L1 & P1 & _).
      destruct (read H a c rule_filter fuel d3 m j (fst ce2)) as [[w2 d4]|] eqn:E4; [|discriminate]. apply (IH _ _ _ q2) in E4; [|exact I3|exact V2|now left]. destruct E4 as (I4 & t2 & u2 & -> & C2 & L2 & P2 & _).
      injection E as <- <-. split; [exact I4|]. exists (CBin r t1 t2), (u1 ++ u2). split; [|split; [|split; [|split]]].
      + cbn [ct_word]. rewrite EB2. rewrite (wrap_br rb) by exact BB. reflexivity.
      + eapply cd_bin; eassumption.
      + rewrite app_length. lia.
      + intros p x Hx. destruct (Nat.lt_ge_cases p (length u1)) as [L|L].
        * rewrite nth_error_app1 in Hx by exact L. now apply P1.
        * rewrite nth_error_app2 in Hx by exact L. apply P2 in Hx. replace (i + p) with (m + (p - length u1)) by lia. exact Hx.
      + exists r. split; [now left|exact Ef].
    - destruct V as ((br & Ef & Er) & H1). destruct (kth H a c rule_filter (S fuel) d i j q1 i1) as [[[ce1|] d1]|] eqn:E1; try discriminate. apply kth_ok in E1; [|exact I]. destruct E1 as [I1 V1].
      destruct (read H a c rule_filter fuel d1 i j (fst ce1)) as [[w1 d3]|] eqn:E3; [|discriminate]. apply (IH _ _ _ q1) in E3; [|exact I1|exact V1|now left]. destruct E3 as (I3 & t1 & u1 & -> & C1 & L1 & P1 & _).
      pose proof (brackets_at teqb a R PZ _ _ Er) as [EB1 EB2]. cbn [cr_br] in EB1, EB2. pose proof (BR _ _ Er) as BB. cbn [cr_br cr_rhs] in BB. destruct br as [[ob lb] rb]. rewrite EB1 in E. injection E as <- <-. split; [exact I3|].
      exists (CUn r t1), u1. split; [|split; [eapply cd_un; eassumption|split; [exact L1|split; [exact P1|exists r; split; [now left|exact Ef]]]]]. cbn [ct_word]. rewrite EB2. destruct BB as [B1 B2]. rewrite (wrap_br lb), (wrap_br ob) by assumption. cbn [app]. rewrite <- app_assoc. reflexivity.
    - destruct V as (Hj & t & br & Ef & Er). pose proof (brackets_at teqb a R PZ _ _ Er) as [EB1 EB2]. cbn [cr_br] in EB1, EB2. pose proof (BR _ _ Er) as BB. cbn [cr_br cr_rhs] in BB. destruct br as [[ob lb] rb]. rewrite EB1 in E. injection E as <- <-. split; [exact I|].
      assert (j = S i) as -> by lia. exists (CNull r), [t]. split; [|split; [eapply cd_null; exact Er|split; [cbn; lia|split; [|exists r; split; [now left|exact Ef]]]]].
      + cbn [ct_word]. rewrite EB2. destruct BB as [B1 B2]. rewrite (wrap_br lb), (wrap_br ob) by assumption. reflexivity.
      + intros [|p] x Hx; [|destruct p; discriminate]. cbn in Hx. injection Hx as <-. rewrite Nat.add_0_r. exists r, q, w, (ob, lb, rb). split; [split; assumption|exact HV].
  Qed.

  Notation n := (u8 (ch_n c)).
  Lemma kiter_ok fuel s x s' : kinv (ki_d H s) -> kiter_next H a c rule_filter fuel s = Some (x, s') -> kinv (ki_d H s') /\
    match x with None => True | Some u => exists t w, u = ct_word R t /\ cderiv R (au_initial a) t w /\ length w = n /\ (forall p x, nth_error w p = Some x -> loose (0, n, au_initial a) p x) /\
      exists rid, In rid (ct_rules t) /\ nth_error rule_filter rid = Some true end.
  Proof.
    intros I E. unfold kiter_next in E. destruct (kth H a c rule_filter fuel (ki_d H s) 0 n (au_initial a) (ki_k H s)) as [[r d]|] eqn:EK; [|discriminate]. apply kth_ok in EK; [|exact I]. destruct EK as [I1 V1].
    destruct r as [p|]; [|injection E as <- <-; auto]. destruct (read H a c rule_filter fuel d 0 n (fst p)) as [[w d2]|] eqn:ER; [|discriminate]. injection E as <- <-. cbn [ki_d].
    apply (read_ok (0, n, au_initial a) _ _ _ _ (au_initial a)) in ER; [|exact I1|exact V1|now right]. destruct ER as (I2 & t & u & E1 & E2 & E3 & E4 & E5). split; [exact I2|]. exists t, u. auto.
  Qed.
End Loose.

(* ---- invariants of the iterator adaptors ---- *)
Section Iter.
  Context {St X : Type} (next : iter St X) (P : St -> Prop) (Q : X -> Prop).
  Definition keeps : Prop := forall s x s', P s -> next s = Some (x, s') -> P s' /\ match x with Some x => Q x | None => True end.
End Iter.
Lemma keeps_peekable {St X} (next : iter St X) P Q : keeps next P Q ->
  keeps (peekable_next next) (fun s => P (snd s) /\ match fst s with Some (Some x) => Q x | _ => True end) Q.
Proof.
  intros HK [o s] x s' [HP HQ] E. unfold peekable_next in E. cbn [fst snd] in *. destruct o as [y|].
  - injection E as <- <-. cbn. split; [auto|]. now destruct y.
  - destruct (next s) as [[y s1]|] eqn:E1; [|discriminate]. injection E as <- <-. destruct (HK _ _ _ HP E1). cbn. auto.
Qed.
Lemma keeps_take {St S2 X} (pred : S2 -> X -> bool * S2) (next : iter St X) P Q : keeps next P Q -> keeps (take_while_next pred next) (fun s => P (snd s)) Q.
Proof.
  intros HK [[done p] s] x s' HP E. unfold take_while_next in E. cbn [snd] in *. destruct done; [injection E as <- <-; auto|]. destruct (next s) as [[[y|] s1]|] eqn:E1; [| |discriminate].
  - destruct (HK _ _ _ HP E1) as [P1 Q1]. destruct (pred p y) as [[|] p']; injection E as <- <-; auto.
  - destruct (HK _ _ _ HP E1) as [P1 Q1]. injection E as <- <-. auto.
Qed.
Lemma keeps_filter {St X Y} (f : X -> option (option Y)) (next : iter St X) P Q (Q' : Y -> Prop) fuel : keeps next P Q -> (forall x y, Q x -> f x = Some (Some y) -> Q' y) -> keeps (filter_map_next f next fuel) P Q'.
Proof.
  intros HK HF s x s' HP E. unfold filter_map_next in E. destruct (filter_map_search f next fuel s) as [[[y n] s1]|] eqn:ES; [|discriminate]. injection E as <- <-.
  revert s y n s1 HP ES. induction fuel as [|fuel IH]; intros s y n s1 HP ES; [discriminate|]. cbn in ES. destruct (next s) as [[[x|] s2]|] eqn:E1; [| |discriminate].
  - destruct (HK _ _ _ HP E1) as [P1 Q1]. destruct (f x) as [[z|]|] eqn:EF; [| |discriminate]; [injection ES as <- <- <-; split; [exact P1|eapply HF; eassumption]|].
    destruct (filter_map_search f next fuel s2) as [[[y1 n1] s3]|] eqn:E2; [|discriminate]. injection ES as <- <- <-. eapply IH; eassumption.
  - destruct (HK _ _ _ HP E1) as [P1 _]. injection ES as <- <- <-. auto.
Qed.
Lemma keeps_run {St X} (next : iter St X) P Q : keeps next P Q -> forall m s l, P s -> run next m s = Some l -> forall x, In (Some x) l -> Q x.
Proof.
  intros HK. induction m as [|m IH]; intros s l HP E x Hx; cbn in E; [injection E as <-; destruct Hx|]. destruct (next s) as [[y s1]|] eqn:E1; [|discriminate]. destruct (run next m s1) as [xs|] eqn:E2; [|discriminate]. injection E as <-.
  destruct (HK _ _ _ HP E1) as [P1 Q1]. destruct Hx as [->|Hx]; [exact Q1|]. eapply IH; eassumption.
Qed.
Lemma keeps_peek {St X} (next : iter St X) P Q : keeps next P Q -> forall s x s', P s -> peek next (None, s) = Some (x, s') -> P (snd s') /\ fst s' = Some x /\ match x with Some x => Q x | None => True end.
Proof. intros HK s x s' HP E. unfold peek in E. cbn [fst snd] in E. destruct (next s) as [[y s1]|] eqn:E1; [|discriminate]. injection E as <- <-. destruct (HK _ _ _ HP E1). cbn. auto. Qed.
