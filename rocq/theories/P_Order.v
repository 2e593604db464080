From Verif Require Import Base BMap M_Agenda M_Search M_Util M_Recog M_Automata M_Order S_Util S_Order P_Util P_Agenda.

Lemma then_opp c d : CompOpp (then_cmp c d) = then_cmp (CompOpp c) (CompOpp d).
Proof. now destruct c. Qed.

(* ---- orders on pairs, along injections, reversed ---- *)
Definition pair_cmp {A B} (f : A -> A -> comparison) (g : B -> B -> comparison) (a b : A * B) : comparison := then_cmp (f (fst a) (fst b)) (g (snd a) (snd b)).
Lemma pair_ord {A B} f g : OrdLaws f -> OrdLaws g -> OrdLaws (@pair_cmp A B f g).
Proof.
  intros F G. split; unfold pair_cmp.
  - intros [a1 b1] [a2 b2]. cbn. destruct (f a1 a2) eqn:E; cbn.
    + apply (ol_eq _ F) in E. subst. rewrite (ol_eq _ G). split; congruence.
    + split; [discriminate|]. intros X. injection X as -> ->. rewrite (cmp_refl f F) in E. discriminate.
    + split; [discriminate|]. intros X. injection X as -> ->. rewrite (cmp_refl f F) in E. discriminate.
  - intros [a1 b1] [a2 b2]. cbn. rewrite then_opp, (ol_opp _ F a1 a2), (ol_opp _ G b1 b2). reflexivity.
  - intros [a1 b1] [a2 b2] [a3 b3]. cbn. destruct (f a1 a2) eqn:E1; cbn; [|intros _|discriminate].
    + apply (ol_eq _ F) in E1. subst. destruct (f a2 a3); cbn; auto. apply (ol_trans _ G).
    + destruct (f a2 a3) eqn:E2; cbn; [|intros _|discriminate].
      * apply (ol_eq _ F) in E2. subst. now rewrite E1.
      * now rewrite (ol_trans _ F _ _ _ E1 E2).
Qed.
Lemma inj_ord {A B} (k : A -> B) f : OrdLaws f -> (forall x y, k x = k y -> x = y) -> OrdLaws (fun x y => f (k x) (k y)).
Proof.
  intros F I. split.
  - intros a b. rewrite (ol_eq _ F). split; [apply I|congruence].
  - intros a b. apply (ol_opp _ F).
  - intros a b c. apply (ol_trans _ F).
Qed.
Lemma flip_ord {A} f : OrdLaws f -> OrdLaws (fun x y : A => f y x).
Proof.
  intros F. split.
  - intros a b. rewrite (ol_eq _ F). split; congruence.
  - intros a b. apply (ol_opp _ F).
  - intros a b c X Y. exact (ol_trans _ F _ _ _ Y X).
Qed.
Lemma ext_ord {A} (f g : A -> A -> comparison) : (forall x y, g x y = f x y) -> OrdLaws f -> OrdLaws g.
Proof. intros E F. split; intros; rewrite ?E in *; [apply (ol_eq _ F)|apply (ol_opp _ F)|exact (ol_trans _ F _ _ _ H H0)]. Qed.

Section P.
  Context {S T I : Type} {K : Weight} (wc : K -> K -> comparison) (tc : T -> T -> comparison) (sc : S -> S -> comparison) (ic : I -> I -> comparison).
  Context (WO : OrdLaws wc) (TO : OrdLaws tc) (SO : OrdLaws sc) (IO : OrdLaws ic).

  Lemma conf_ord : OrdLaws (conf_cmp (S:=S) (T:=T) wc tc sc).
  Proof.
    apply (ext_ord (fun x y => pair_cmp wc (pair_cmp (fun n m => Nat.compare m n) (pair_cmp (lex_cmp tc) sc)) (c_weight x, (length (c_word x), (c_word x, c_storage x))) (c_weight y, (length (c_word y), (c_word y, c_storage y))))).
    - reflexivity.
    - apply (inj_ord (fun x : configuration S T K => (c_weight x, (length (c_word x), (c_word x, c_storage x))))).
      + apply pair_ord; [exact WO|]. apply pair_ord; [apply flip_ord, nat_ord|]. apply pair_ord; [now apply lex_ord|exact SO].
      + intros [w s k] [w' s' k'] E. cbn in E. congruence.
  Qed.
  Lemma tr_ord : OrdLaws (tr_cmp (I:=I) (T:=T) wc tc ic).
  Proof.
    apply (ext_ord (fun x y => pair_cmp wc (pair_cmp (lex_cmp tc) ic) (t_weight x, (t_word x, t_ins x)) (t_weight y, (t_word y, t_ins y)))).
    - reflexivity.
    - apply (inj_ord (fun x : transition I T K => (t_weight x, (t_word x, t_ins x)))).
      + apply pair_ord; [exact WO|]. apply pair_ord; [now apply lex_ord|exact IO].
      + intros [w k s] [w' k' s'] E. cbn in E. congruence.
  Qed.
  Lemma pd_lex {A} (c : A -> A -> comparison) (p q : pushdown A) : pd_cmp c p q = lex_cmp c (elements p) (elements q).
  Proof. revert q. induction p as [|x p IH]; intros [|y q]; cbn; auto. rewrite IH. now destruct (c x y). Qed.
  Lemma pd_ord {A} (c : A -> A -> comparison) : OrdLaws c -> OrdLaws (pd_cmp c).
  Proof. intros O. apply (ext_ord _ _ (pd_lex c)). apply (inj_ord elements); [now apply lex_ord|]. intros x y. apply elements_inj. Qed.
  Lemma item_ord : OrdLaws (item_cmp (S:=S) (T:=T) wc tc sc ic).
  Proof.
    apply (ext_ord (pair_cmp (conf_cmp wc tc sc) (pd_cmp (tr_cmp wc tc ic)))); [reflexivity|].
    apply pair_ord; [apply conf_ord|apply pd_ord, tr_ord].
  Qed.

  (* ---- partial_cmp ---- *)
  Lemma lex_pcmp_some {A} (p : A -> A -> option comparison) c : (forall x y, p x y = Some (c x y)) -> forall a b, lex_pcmp p a b = Some (lex_cmp c a b).
  Proof. intros E a. induction a as [|x a IH]; intros [|y b]; cbn; auto. rewrite E, IH. now destruct (c x y). Qed.
  Lemma pd_pcmp_some {A} (p : A -> A -> option comparison) c : (forall x y, p x y = Some (c x y)) -> forall a b, pd_pcmp p a b = Some (pd_cmp c a b).
  Proof. intros E a. induction a as [|x a IH]; intros [|y b]; cbn; auto. rewrite E, IH. now destruct (c x y). Qed.
  Lemma then_pcmp_some c d : then_pcmp (Some c) (Some d) = Some (then_cmp c d).
  Proof. now destruct c. Qed.
  Lemma derive_pcmp_some c d : derive_pcmp (Some c) (Some d) = Some (then_cmp c d).
  Proof. now destruct c. Qed.
  Context (wp : K -> K -> option comparison) (tp : T -> T -> option comparison) (sp : S -> S -> option comparison) (ip : I -> I -> option comparison).
  Context (WP : forall x y, wp x y = Some (wc x y)) (TP : forall x y, tp x y = Some (tc x y)) (SP : forall x y, sp x y = Some (sc x y)) (IP : forall x y, ip x y = Some (ic x y)).
  Lemma conf_pcmp_some a b : conf_pcmp wp tp sp a b = Some (conf_cmp wc tc sc a b).
  Proof. unfold conf_pcmp, conf_cmp. now rewrite WP, (lex_pcmp_some tp tc TP), SP, !then_pcmp_some. Qed.
  Lemma tr_pcmp_some a b : tr_pcmp wp tp ip a b = Some (tr_cmp wc tc ic a b).
  Proof. unfold tr_pcmp, tr_cmp. now rewrite WP, (lex_pcmp_some tp tc TP), IP, !then_pcmp_some. Qed.
  Lemma item_pcmp_some a b : item_pcmp wp tp sp ip a b = Some (item_cmp wc tc sc ic a b).
  Proof. unfold item_pcmp, item_cmp. now rewrite conf_pcmp_some, (pd_pcmp_some _ _ tr_pcmp_some), derive_pcmp_some. Qed.
End P.

(* ---- what Greater means ---- *)
Lemma then_gt c d : then_cmp c d = Gt <-> c = Gt \/ (c = Eq /\ d = Gt).
Proof. destruct c; cbn; intuition discriminate. Qed.
Lemma cmp_gt_lt {A} (c : A -> A -> comparison) : OrdLaws c -> forall a b, c a b = Gt <-> c b a = Lt.
Proof. intros O a b. rewrite (ol_opp _ O a b). destruct (c a b); cbn; split; congruence. Qed.
Lemma lex_lt {A} (c : A -> A -> comparison) : OrdLaws c -> forall u v, lex_cmp c u v = Lt <-> word_less (fun x y => c x y = Lt) u v.
Proof.
  intros O u. induction u as [|x u IH]; intros [|y v]; cbn.
  - split; [discriminate|]. intros [(x & r & E)|(p & x & y & u' & v' & E & _)]; [discriminate|now destruct p].
  - split; [|reflexivity]. intros _. left. now exists y, v.
  - split; [discriminate|]. intros [(z & r & E)|(p & z & y & u' & v' & _ & E & _)]; [discriminate|now destruct p].
  - destruct (c x y) eqn:E.
    + apply (ol_eq _ O) in E. subst y. rewrite IH. split.
      * intros [(z & r & ->)|(p & z & y & u' & v' & -> & -> & L)]; [left; now exists z, r|right; now exists (x :: p), z, y, u', v'].
      * intros [(z & r & E)|(p & z & y & u' & v' & E1 & E2 & L)]; [injection E as ->; left; now exists z, r|].
        destruct p as [|q p]; injection E1 as -> ->; injection E2; intros; subst.
        -- rewrite (cmp_refl c O) in L. discriminate.
        -- right. now exists p, z, y, u', v'.
    + split; [|reflexivity]. intros _. right. now exists [], x, y, u, v.
    + split; [discriminate|]. intros [(z & r & X)|(p & z & y' & u' & v' & E1 & E2 & L)].
      * injection X as -> ->. rewrite (cmp_refl c O) in E. discriminate.
      * destruct p as [|q p]; injection E1 as -> ->; injection E2; intros; subst; [congruence|]. rewrite (cmp_refl c O) in E. discriminate.
Qed.

(* ---- drained heaps ---- *)
Lemma drain_spec {X} (leb : X -> X -> bool) (H : max_heap X leb) : forall n h, length (mh_content H h) <= n ->
  Permutation (drain H n h) (mh_content H h) /\ ForallOrdPairs (fun x y => leb y x = true) (drain H n h).
Proof.
  induction n as [|n IH]; intros h L; cbn.
  - destruct (mh_content H h); [|cbn in L; lia]. split; constructor.
  - destruct (mh_pop H h) as [[x h']|] eqn:E.
    + destruct (mh_pop_some H _ _ _ E) as [P M]. pose proof (Permutation_length P) as PL. cbn in PL. destruct (IH h') as [P' O']; [lia|]. split.
      * rewrite P. now constructor.
      * constructor; [|exact O']. apply Forall_forall. intros y Hy. apply M. eapply Permutation_in; [symmetry; exact P|]. right. eapply Permutation_in; [exact P'|exact Hy].
    + apply (mh_pop_none H) in E. rewrite E. split; constructor.
Qed.
