(* Proofs: finite state automata with empty transitions. *)
From Verif Require Import Base M_Util M_Recog M_Automata S_Recog S_Automata P_Recog P_Automata P_Finds.

Section Loops.
  Context {Q T : Type} {K : Weight} (ts : list (transition (fs_instr Q) T K)).
  Notation path := (fs_path ts).
  Notation run := (list (transition (fs_instr Q) T K)).

  Lemma path_app p w us q v vs r : path p w us q -> path q v vs r -> path p (w ++ v) (us ++ vs) r.
  Proof. induction 1 as [q|p q w u wt us s HI _ IH]; intros P; [exact P|]. cbn [app]. rewrite <- app_assoc. constructor; auto. Qed.
  Lemma path_repeat p us : path p [] us p -> forall d, path p [] (concat (repeat us d)) p.
  Proof. intros P. induction d as [|d IH]; [constructor|]. exact (path_app p [] us p [] _ p P IH). Qed.
  Lemma path_split us vs : forall p w r, path p w (us ++ vs) r -> exists w1 w2 q, w = w1 ++ w2 /\ path p w1 us q /\ path q w2 vs r.
  Proof.
    induction us as [|t us IH]; intros p w r P; [exists [], w, p; repeat split; [constructor|exact P]|]. cbn [app] in P. inversion P as [|? q0 w0 v0 wt ? ? HI P']; subst.
    destruct (IH _ _ _ P') as (w1 & w2 & q & -> & P1 & P2). exists (w0 ++ w1), w2, q. split; [now rewrite app_assoc|]. split; [now constructor|exact P2].
  Qed.

  (* the states a run leaves, with the number of symbols read so far *)
  Fixpoint marks (k : nat) (us : run) : list (Q * nat) :=
    match us with [] => [] | t :: us => (fs_source (t_ins t), k) :: marks (k + length (t_word t)) us end.
  Lemma marks_length us : forall k, length (marks k us) = length us.
  Proof. induction us; intros; cbn; auto. Qed.
  Lemma marks_in p w us q : path p w us q -> forall k x m, In (x, m) (marks k us) -> exists us1 us2 w1 w2, us = us1 ++ us2 /\ w = w1 ++ w2 /\ path p w1 us1 x /\ m = k + length w1.
  Proof.
    induction 1 as [q|p q w v wt us r HI P IH]; intros k x m HM; [destruct HM|]. cbn [marks t_ins t_word fs_source] in HM. destruct HM as [E|HM].
    - injection E as <- <-. exists [], (Trans w wt (FSI p q) :: us), [], (w ++ v). repeat split; [constructor|cbn; lia].
    - destruct (IH _ _ _ HM) as (us1 & us2 & w1 & w2 & -> & -> & P1 & ->). exists (Trans w wt (FSI p q) :: us1), us2, (w ++ w1), w2. split; [reflexivity|]. split; [now rewrite app_assoc|]. split; [now constructor|]. rewrite app_length. lia.
  Qed.
  Lemma marks_all p w us q : path p w us q -> forall k x, In x (marks k us) -> In x (list_prod (map (fun t => fs_source (t_ins t)) ts) (seq k (S (length w)))).
  Proof.
    induction 1 as [q|p q w v wt us r HI P IH]; intros k x HM; [destruct HM|]. cbn [marks t_ins t_word fs_source] in HM. destruct HM as [<-|HM].
    - apply in_prod; [|apply in_seq; lia]. apply in_map_iff. exists (Trans w wt (FSI p q)). auto.
    - apply IH in HM. destruct x as [y m]. apply in_prod_iff in HM. destruct HM as [H1 H2]. apply in_prod; [exact H1|]. apply in_seq in H2. apply in_seq. rewrite app_length. lia.
  Qed.
  (* the state p can be reached with a part of the word, and left and reached again without reading *)
  Lemma path_short p w us q : path p w us q -> (forall us1 us2 w1 x vs, us = us1 ++ us2 -> path p w1 us1 x -> (exists w2, w = w1 ++ w2) -> vs <> [] -> path x [] vs x -> False) ->
    forall k, NoDup (marks k us).
  Proof.
    induction 1 as [q|p q w v wt us r HI P IH]; intros NL k; [constructor|]. cbn [marks t_ins t_word fs_source]. constructor.
    - intros HM. destruct (marks_in _ _ _ _ P _ _ _ HM) as (us1 & us2 & w1 & w2 & E1 & E2 & P1 & Em). assert (w = []) as -> by (destruct w; [reflexivity|cbn in Em; lia]). assert (w1 = []) as -> by (destruct w1; [reflexivity|cbn in Em; lia]).
      apply (NL [] (Trans [] wt (FSI p q) :: us) [] p (Trans [] wt (FSI p q) :: us1) eq_refl); [constructor|eexists; reflexivity|discriminate|]. exact (path_cons ts p q [] [] wt us1 p HI P1).
    - apply IH. intros us1 us2 w1 x vs E P1 (w2 & E2) NV PL. apply (NL (Trans w wt (FSI p q) :: us1) us2 (w ++ w1) x vs); [now rewrite E|now constructor|exists w2; rewrite E2; now rewrite app_assoc|exact NV|exact PL].
  Qed.
  Lemma path_bound p w us q : path p w us q -> (forall w1 us1 x vs, path p w1 us1 x -> (exists w2, w = w1 ++ w2) -> vs <> [] -> path x [] vs x -> False) ->
    length us <= length ts * S (length w).
  Proof.
    intros P NL. rewrite <- (marks_length us 0). transitivity (length (list_prod (map (fun t => fs_source (t_ins t)) ts) (seq 0 (S (length w))))).
    - apply NoDup_incl_length; [|intros x Hx; now apply (marks_all p w us q P)]. apply (path_short p w us q P). intros us1 us2 w1 x vs _ P1 HW NV PL. exact (NL w1 us1 x vs P1 HW NV PL).
    - rewrite prod_length, map_length, seq_length. apply le_n.
  Qed.
End Loops.

Lemma fsa_tokens {Q T : Type} {K : Weight} (qeqb : Q -> Q -> bool) (teqb : T -> T -> bool) (ts : list (transition (fs_instr Q) T K)) initial finals :
  forall y, In y (fa_t (fsa_new qeqb teqb ts initial finals)) -> exists t, In t ts /\ In y (t_word t).
Proof.
  unfold fsa_new. destruct (int_integerise qeqb [] initial) as [q1 ini]. destruct (int_list qeqb q1 finals) as [q2 fin]. pose proof (trs_tokens teqb (fsi_integerise qeqb) ts [] q2) as G.
  destruct (trs_integerise teqb (fsi_integerise qeqb) [] q2 ts) as [[lt lq] us]. intros y Hy. destruct (G y Hy) as [[]|H]. exact H.
Qed.

(* a product is at most the product of a part of its factors, if no factor exceeds one *)
Lemma lprod_filter {K : Weight} (KL : RoundLaws K) {X : Type} (w : X -> K) (p : X -> bool) l : (forall x, In x l -> wleb (w x) wone = true) ->
  wleb (lprod (map w l)) (lprod (map w (filter p l))) = true.
Proof.
  pose proof (rl_order _ KL) as TO. intros LE. unfold lprod. assert (R : wleb (wone : K) wone = true) by (destruct (to_total _ TO wone wone); assumption).
  assert (G : forall k1 k2 : K, wleb k1 k2 = true -> wleb (fold_left wmul (map w l) k1) (fold_left wmul (map w (filter p l)) k2) = true); [|now apply G]. clear R.
  induction l as [|x l IH]; intros k1 k2 R; [exact R|]. specialize (IH (fun y Hy => LE y (or_intror Hy))). cbn [map filter fold_left]. destruct (p x); cbn [map fold_left]; apply IH.
  - now apply (rl_mono _ KL).
  - apply (to_trans _ TO _ k1); [|exact R]. apply (wl_shrink KL). apply LE. now left.
Qed.
Lemma run_epsilons {I T : Type} {K : Weight} (us : list (transition I T K)) :
  length us <= length (run_word us) + length (filter (fun t => match t_word t with [] => true | _ => false end) us).
Proof. induction us as [|t us IH]; [apply le_n|]. unfold run_word in *. cbn [flat_map filter length]. rewrite app_length. destruct (t_word t); cbn [length]; lia. Qed.
