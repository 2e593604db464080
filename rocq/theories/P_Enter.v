(* Unique searches over graphs whose nodes are entered once. *)
From Verif Require Import Base M_Agenda M_Search S_Search S_Enter P_Agenda P_Search.

Section Once.
  Context {I : Type} (eqb : I -> I -> bool) (E : EqbSpec eqb) (A : agenda I) (content : ag_T A -> list I)
          (AL : agenda_lossless A content) (succs : I -> list I) (init : list I) (EO : entered_once succs init).

  Definition once_inv (s : unique_state A) : Prop :=
    NoDup (content (fst s) ++ snd s) /\
    (forall x, In x (snd s) -> exists p, walk succs init (x :: p) /\ incl p (snd s)) /\
    (forall y, In y (content (fst s)) ->
       In y init \/ exists x, In x (snd s) /\ forward succs init x y) /\
    (forall y, In y (content (fst s)) -> exists p, walk succs init (y :: p) /\ incl p (snd s)).

  Lemma nodup_filter_once {B} (P : B -> bool) (l : list B) :
    (forall y, In y l -> P y = true -> forall a b, l = a ++ y :: b -> ~ In y (a ++ b)) -> NoDup (filter P l).
  Proof.
    induction l as [|x l IH]; intros H; cbn; [constructor|].
    assert (IH' : NoDup (filter P l)).
    { apply IH. intros y Hy Py a b -> Hin. apply (H y (or_intror Hy) Py (x :: a) b eq_refl). cbn. now right. }
    destruct (P x) eqn:Px; [|assumption]. constructor; [|assumption]. intros Hx. apply filter_In in Hx.
    exact (H x (or_introl eq_refl) Px [] l eq_refl (proj1 Hx)).
  Qed.

  Lemma once_step s : once_inv s -> once_inv (snd (unique_next A succs eqb s)) /\
    (fst (unique_next A succs eqb s) = None -> ag_pop A (fst s) = None).
  Proof.
    destruct s as [a el]. intros (ND & W & F & V). cbn [fst snd] in *. unfold unique_next.
    destruct (ag_pop A a) as [[item a']|] eqn:P; [|split; [repeat split; assumption|reflexivity]].
    pose proof (al_pop_some _ _ AL _ _ _ P) as PP.
    assert (ND1 : NoDup ((item :: content a') ++ el)) by (eapply Permutation_NoDup; [apply Permutation_app_tail; exact PP|exact ND]).
    cbn in ND1. inversion ND1 as [|? ? Ni ND2]; subst.
    assert (Hi : ~ In item el) by (intros H; apply Ni, in_or_app; now right).
    assert (Hc : ~ In item (content a')) by (intros H; apply Ni, in_or_app; now left).
    assert (Q : forall y, In y (content a') -> In y (content a)) by (intros y Hy; apply (Permutation_in _ (Permutation_sym PP)); now right).
    assert (Qi : In item (content a)) by (apply (Permutation_in _ (Permutation_sym PP)); now left).
    destruct (memb eqb item el) eqn:M; [apply (P_Agenda.memb_In eqb E) in M; contradiction|]. cbn [fst snd]. split; [|discriminate].
    set (l := filter (fun i => negb (memb eqb i (item :: el))) (succs item)).
    destruct (V item Qi) as (pi & Wi & Ii).
    assert (FW : forall y, In y l -> forward succs init item y /\ ~ In y (item :: el)).
    { intros y Hy. apply filter_In in Hy. destruct Hy as [Hy Hn]. apply negb_true_iff in Hn.
      assert (Hn' : ~ In y (item :: el)) by (intros Hin; apply (P_Agenda.memb_In eqb E) in Hin; congruence).
      split; [|assumption]. split; [now exists pi|]. split; [assumption|]. intros D. apply Hn'.
      specialize (D pi Wi). destruct D as [->|D]; [now left|right; now apply Ii]. }
    assert (PE : Permutation (content (ag_extend A l a')) (l ++ content a')) by (apply (extend_lossless A content AL)).
    assert (INe : forall y, In y (content (ag_extend A l a')) -> In y l \/ In y (content a')).
    { intros y Hy. apply (Permutation_in _ PE) in Hy. now apply in_app_or in Hy. }
    unfold once_inv. cbn [fst snd]. repeat split.
    - eapply Permutation_NoDup; [apply Permutation_app_tail; symmetry; exact PE|].
      rewrite <- app_assoc. assert (ND3 : NoDup (content a' ++ item :: el)).
      { eapply Permutation_NoDup; [apply Permutation_middle|]. now constructor. }
      assert (NL : NoDup l).
      { apply nodup_filter_once. intros y Hy Py a0 b0 Eq. assert (Hl : In y l) by (apply filter_In; now split).
        destruct (FW y Hl) as [Fy _]. destruct EO as [_ EO2]. destruct (EO2 item y Fy) as (_ & _ & O). exact (O a0 b0 Eq). }
      assert (DJ : forall y, In y l -> ~ In y (content a' ++ item :: el)).
      { intros y Hy Hin. destruct (FW y Hy) as [Fy Ny]. apply in_app_or in Hin. destruct Hin as [Hin|Hin]; [|contradiction].
        destruct EO as [_ EO2]. destruct (EO2 item y Fy) as (O1 & O2 & _).
        destruct (F y (Q y Hin)) as [H|(x & Hx & Fx)]; [contradiction|]. rewrite (O2 x Fx) in Hx. contradiction. }
      revert NL DJ ND3. generalize (content a' ++ item :: el). clear. induction l as [|y l IH]; intros r NL DJ NR; [assumption|].
      inversion NL; subst. cbn. constructor.
      + intros Hin. apply in_app_or in Hin. destruct Hin; [contradiction|]. exact (DJ y (or_introl eq_refl) H).
      + apply IH; auto. intros z Hz. apply DJ. now right.
    - intros x [<-|Hx].
      + exists pi. split; [assumption|]. intros z Hz. right. now apply Ii.
      + destruct (W x Hx) as (p & Hp & Ip). exists p. split; [assumption|]. intros z Hz. right. now apply Ip.
    - intros y Hy. destruct (INe y Hy) as [H|H].
      + right. exists item. split; [now left|]. now apply FW.
      + destruct (F y (Q y H)) as [Hy'|(x & Hx & Fx)]; [now left|right]. exists x. split; [now right|assumption].
    - intros y Hy. destruct (INe y Hy) as [H|H].
      + exists (item :: pi). split.
        * constructor; [assumption|]. now apply filter_In in H.
        * intros z [<-|Hz]; [now left|right; now apply Ii].
      + destruct (V y (Q y H)) as (p & Hp & Ip). exists p. split; [assumption|]. intros z Hz. right. now apply Ip.
  Qed.

  Lemma once_calls n : forall s, once_inv s ->
    returned (fst (unique_calls A succs eqb n s)) = until_none (fst (unique_calls A succs eqb n s)) /\
    (In None (fst (unique_calls A succs eqb n s)) -> content (fst (snd (unique_calls A succs eqb n s))) = []).
  Proof.
    induction n as [|n IH]; intros s H; [split; [reflexivity|intros []]|].
    rewrite (ucalls_S A succs eqb). destruct (once_step s H) as [H1 H2]. specialize (IH _ H1).
    destruct (fst (unique_next A succs eqb s)) as [x|] eqn:Ex.
    - destruct IH as [IH1 IH2]. cbn [fst snd]. split; [unfold returned in *; cbn; now rewrite IH1|]. intros [Hx|Hx]; [discriminate|auto].
    - specialize (H2 eq_refl). 
      assert (G : forall m, unique_calls A succs eqb m s = (repeat None m, s)).
      { intros m. destruct s as [a el]. cbn in H2. induction m as [|m IHm]; [reflexivity|]. cbn. rewrite H2. rewrite IHm. reflexivity. }
      assert (S1 : snd (unique_next A succs eqb s) = s) by (destruct s as [a el]; cbn in *; now rewrite H2).
      rewrite S1, G. cbn. split.
      + clear. induction n; cbn; auto.
      + intros _. now apply (al_pop_none _ _ AL).
  Qed.

  Lemma once_init a : Permutation (content a) init -> once_inv (unique_from A a).
  Proof.
    intros P. destruct EO as [ND _]. unfold once_inv, unique_from. cbn [fst snd]. repeat split.
    - rewrite app_nil_r. now apply (Permutation_NoDup (Permutation_sym P)).
    - intros x [].
    - intros y Hy. left. now apply (Permutation_in _ P).
    - intros y Hy. exists []. split; [|intros z []]. constructor. now apply (Permutation_in _ P).
  Qed.
End Once.
