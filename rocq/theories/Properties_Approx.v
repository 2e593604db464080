(* C19, C20, C21 and the second half of C41: approximation strategies, coarse-to-fine recognition, equivalence relations. *)
From Verif Require Import Base M_Agenda M_Search M_Util M_Recog M_Automata M_TreeStack M_CSAuto M_CSParse M_Approx
  S_Search S_Util S_Recog S_Automata S_TreeStack S_Approx P_Agenda P_Search P_Util P_Recog P_Automata P_PDA P_TreeStack P_TSA P_CSParse
  Properties_Automata Properties_TreeStack P_Approx.
Arguments Nat.ltb : simpl never. Arguments Nat.eqb : simpl never.

(* ================= C21 ================= *)
(* new_safe: fails exactly if a class is labelled like the default or two classes overlap; otherwise members are projected
   to the label of their class, and all other symbols to the default.  [classes] is in any order. *)
Theorem C21_new_safe :
  forall (A B : Type) (aeqb : A -> A -> bool) (beqb : B -> B -> bool), EqbSpec aeqb -> EqbSpec beqb ->
  forall (classes : list (B * list A)) (default : B), family classes ->
  ((exists R, er_new_safe aeqb beqb classes default = Ok R) <-> ~ In default (map fst classes) /\ disjoint_classes classes) /\
  (forall R, er_new_safe aeqb beqb classes default = Ok R ->
     (forall x label, in_class classes x label -> er_project aeqb R x = label) /\
     (forall x, (forall label, ~ in_class classes x label) -> er_project aeqb R x = default)) /\
  (* new panics exactly where new_safe fails, and otherwise builds the same relation *)
  (forall R, er_new aeqb beqb classes default = Some R <-> er_new_safe aeqb beqb classes default = Ok R).
Proof.
  intros A B aeqb beqb AE BE classes d F. pose proof (er_classes_spec aeqb beqb AE BE d classes F []) as S0. unfold er_new, er_new_safe.
  destruct (er_classes aeqb beqb d classes []) as [m|e].
  - destruct S0 as (S1 & S2 & _ & S4 & S5). split; [split; [auto|intros _; eexists; reflexivity]|]. split.
    + intros R E. injection E as <-. unfold er_project. cbn [er_map er_default]. split; intros x; [intros l Hl; now rewrite (S4 x l Hl)|].
      intros N. now rewrite (S5 x N).
    + intros R. split; intros E; injection E as <-; reflexivity.
  - split; [split; [intros [R E]; discriminate|]|split; [intros R E; discriminate|intros R; split; discriminate]].
    intros [H1 H2]. exfalso. apply S0. split; [assumption|]. split; [assumption|]. intros; reflexivity.
Qed.
Print Assumptions C21_new_safe.

(* From<Vec<EquivalenceClass>>: panics exactly without a default class; the last class that lists a symbol wins *)
Theorem C21_from :
  forall (A B : Type) (aeqb : A -> A -> bool), EqbSpec aeqb ->
  forall (classes : list (eqclass A B)),
  ((exists R, er_from aeqb classes = Some R) <-> exists c, In c classes /\ ec_set c = None) /\
  forall R, er_from aeqb classes = Some R ->
    (* no overlap: the label of the class *)
    (forall before c ms after x, classes = before ++ c :: after -> ec_set c = Some ms -> In x ms ->
       (forall c' ms', In c' after -> ec_set c' = Some ms' -> ~ In x ms') -> er_project aeqb R x = ec_label c) /\
    (* otherwise the last default *)
    (forall before c after x, classes = before ++ c :: after -> ec_set c = None -> (forall c', In c' after -> ec_set c' <> None) ->
       (forall c' ms', In c' classes -> ec_set c' = Some ms' -> ~ In x ms') -> er_project aeqb R x = ec_label c).
Proof.
  intros A B aeqb AE classes. pose proof (er_from_fold aeqb AE classes [] None) as F0. unfold er_from.
  assert (LAST : (exists c, In c classes /\ ec_set c = None) -> exists before c after, classes = before ++ c :: after /\ ec_set c = None /\ forall c', In c' after -> ec_set c' <> None).
  { clear. induction classes as [|a r IH]; intros (c & Hc & E); [destruct Hc|].
    destruct (existsb (fun c => match ec_set c with None => true | Some _ => false end) r) eqn:X.
    - apply existsb_exists in X. destruct X as (c0 & H0 & E0). destruct IH as (b & c1 & af & -> & E1 & E2); [exists c0; split; [assumption|destruct (ec_set c0); [discriminate|reflexivity]]|].
      exists (a :: b), c1, af. auto.
    - assert (N : forall c', In c' r -> ec_set c' <> None).
      { intros c' H' E'. assert (existsb (fun c => match ec_set c with None => true | Some _ => false end) r = true); [|congruence]. apply existsb_exists. exists c'. rewrite E'. auto. }
      destruct Hc as [->|Hc]; [exists [], c, r; auto|exfalso; now apply (N c Hc)]. }
  destruct (fold_left (er_from_loop aeqb) classes ([], None)) as [m d]. destruct F0 as (F1 & F2 & F3). split.
  - split.
    + intros [R E]. destruct d as [d|]; [|discriminate].
      destruct (existsb (fun c => match ec_set c with None => true | Some _ => false end) classes) eqn:X.
      * apply existsb_exists in X. destruct X as (c & Hc & E0). exists c. split; [assumption|]. destruct (ec_set c); [discriminate|reflexivity].
      * exfalso. assert (Some d = None); [|discriminate]. apply F3. intros c Hc E'.
        assert (existsb (fun c => match ec_set c with None => true | Some _ => false end) classes = true); [|congruence]. apply existsb_exists. exists c. rewrite E'. auto.
    + intros X. destruct (LAST X) as (b & c & af & E1 & E2 & E3). rewrite (F2 b c af E1 E2 E3). eexists; reflexivity.
  - intros R E. destruct d as [d|]; [|discriminate]. injection E as <-. unfold er_project. cbn [er_map er_default]. split.
    + intros b c ms af x E1 E2 H1 H2. destruct (F1 x) as [G _]. now rewrite (G b c ms af E1 E2 H1 H2).
    + intros b c af x E1 E2 H1 H2. destruct (F1 x) as [_ G]. rewrite G by exact H2. cbn. specialize (F2 b c af E1 E2 H1). congruence.
Qed.
Print Assumptions C21_from.

(* ... so overlapping classes are accepted there *)
Theorem C21_from_overlap_refuted :
  exists R, er_from Nat.eqb [EqClass (A:=nat) 10 (Some [1;2]); EqClass 20 (Some [2;3]); EqClass 0 None] = Some R /\
    er_project Nat.eqb R 2 = 20 /\ er_new_safe Nat.eqb Nat.eqb [(10, [1;2]); (20, [2;3])] 0 = Err tt.
Proof. eexists. split; [vm_compute; reflexivity|]. split; reflexivity. Qed.
Print Assumptions C21_from_overlap_refuted.

(* FromStr: lines with different labels give the relation that new_safe builds from them *)
Definition lines_of {A B} (lines : list (eqclass A B)) : list (B * list A) :=
  flat_map (fun c => match ec_set c with Some ms => [(ec_label c, ms)] | None => [] end) lines.
Theorem C21_from_str :
  forall (A B : Type) (aeqb : A -> A -> bool) (beqb : B -> B -> bool), EqbSpec aeqb -> EqbSpec beqb ->
  forall order, (forall l, Permutation (order l) l) ->
  forall before c after, ec_set (A:=A) (B:=B) c = None -> (forall c', In c' after -> ec_set c' <> None) ->
  let lines := before ++ c :: after in family (lines_of lines) ->
  ((exists R, er_from_str aeqb beqb order lines = Ok R) <-> ~ In (ec_label c) (map fst (lines_of lines)) /\ disjoint_classes (lines_of lines)) /\
  forall R, er_from_str aeqb beqb order lines = Ok R ->
    (forall x label, in_class (lines_of lines) x label -> er_project aeqb R x = label) /\
    (forall x, (forall label, ~ in_class (lines_of lines) x label) -> er_project aeqb R x = ec_label c).
Proof.
  intros A B aeqb beqb AE BE order HO before c after E0 NA lines F.
  assert (G : forall (cls : list (eqclass A B)) m d, NoDup (map fst (m ++ lines_of cls)) -> fold_left (er_str_loop beqb) cls (m, d) =
    (m ++ lines_of cls, fold_left (fun d c => match ec_set c with None => Some (ec_label c) | Some _ => d end) cls d)).
  { clear -BE. induction cls as [|a r IH]; intros m d N; cbn [fold_left lines_of flat_map]; [now rewrite app_nil_r|]. cbn [lines_of flat_map] in N. fold (lines_of r) in *.
    unfold er_str_loop at 2. destruct (ec_set a) as [ms|] eqn:E.
    - assert (I : am_insert beqb (ec_label a) ms m = m ++ [(ec_label a, ms)]).
      { assert (X : ~ In (ec_label a) (map fst m)). { intros X. rewrite map_app in N. cbn in N. apply NoDup_remove_2 in N. apply N, in_or_app. now left. }
        clear -X BE. induction m as [|[k v] m IH]; cbn; [reflexivity|]. destruct (beqb (ec_label a) k) eqn:EE.
        - apply BE in EE. exfalso. apply X. now left.
        - rewrite IH; [reflexivity|]. intros Y. apply X. now right. }
      rewrite I. rewrite IH; [now rewrite <- app_assoc|now rewrite <- app_assoc].
    - rewrite IH; [reflexivity|assumption]. }
  assert (DD : fold_left (fun d c => match ec_set c with None => Some (ec_label c) | Some _ => d end) lines None = Some (ec_label c)).
  { unfold lines. rewrite fold_left_app. cbn [fold_left]. rewrite E0. generalize (ec_label c). clear -NA. induction after as [|a r IH]; intros b; [reflexivity|]. cbn [fold_left].
    destruct (ec_set a) eqn:E; [apply IH; intros; apply NA; now right|exfalso; apply (NA a (or_introl eq_refl)); assumption]. }
  unfold er_from_str. rewrite (G lines [] None) by (cbn [app]; apply F). cbn [app]. rewrite DD.
  assert (IC : forall x l, in_class (order (lines_of lines)) x l <-> in_class (lines_of lines) x l).
  { intros x l. unfold in_class. split; intros (ms & H1 & H2); exists ms; (split; [|assumption]); revert H1; apply Permutation_in; [apply HO|symmetry; apply HO]. }
  assert (F' : family (order (lines_of lines))).
  { destruct F as [F1 F2]. split; [eapply Permutation_NoDup; [apply Permutation_map; symmetry; apply HO|assumption]|]. intros l ms H. apply (F2 l ms). revert H. apply Permutation_in, HO. }
  destruct (C21_new_safe A B aeqb beqb AE BE (order (lines_of lines)) (ec_label c) F') as (C1 & C2 & _). split.
  - rewrite C1. split; intros [H1 H2]; split.
    + intros H. apply H1. revert H. apply Permutation_in, Permutation_map. symmetry. apply HO.
    + intros x l l' Hl Hl'. apply (H2 x); now apply IC.
    + intros H. apply H1. revert H. apply Permutation_in, Permutation_map, HO.
    + intros x l l' Hl Hl'. apply (H2 x); now apply IC.
  - intros R E. destruct (C2 R E) as [D1 D2]. split.
    + intros x l H. apply D1. now apply IC.
    + intros x H. apply D2. intros l Hl. apply (H l). now apply IC.
Qed.
Print Assumptions C21_from_str.

(* FromStr for any lines: of several lines with one label, and of several default lines, the last one counts *)
Definition last_line {A B} (lines : list (eqclass A B)) (label : B) (ms : list A) : Prop :=
  exists before c after, lines = before ++ c :: after /\ ec_set c = Some ms /\ ec_label c = label /\
    forall c' ms', In c' after -> ec_set c' = Some ms' -> ec_label c' <> label.
Definition last_default {A B} (lines : list (eqclass A B)) (label : B) : Prop :=
  exists before c after, lines = before ++ c :: after /\ ec_set c = None /\ ec_label c = label /\ forall c', In c' after -> ec_set c' <> None.
Definition last_class {A B} (lines : list (eqclass A B)) (x : A) (label : B) : Prop := exists ms, last_line lines label ms /\ In x ms.

Lemma split_snoc {X} (l : list X) a b x r : l ++ [a] = b ++ x :: r -> (r = [] /\ b = l /\ x = a) \/ exists r', r = r' ++ [a] /\ l = b ++ x :: r'.
Proof.
  destruct r as [|y r] using rev_ind; intros E.
  - apply app_inj_tail in E. destruct E; auto.
  - rewrite app_comm_cons, app_assoc in E. apply app_inj_tail in E. destruct E as [E ->]. right. eauto.
Qed.
Lemma last_line_snoc {A B} (lines : list (eqclass A B)) c l ms :
  last_line (lines ++ [c]) l ms <-> (ec_set c = Some ms /\ ec_label c = l) \/ (last_line lines l ms /\ forall ms', ec_set c = Some ms' -> ec_label c <> l).
Proof.
  split.
  - intros (b & x & r & E & E1 & E2 & N). apply split_snoc in E. destruct E as [(-> & -> & ->)|(r' & -> & ->)]; [now left|right].
    split; [|intros ms' H'; apply (N c ms'); [apply in_or_app; right; now left|exact H']]. exists b, x, r'. repeat split; auto. intros c' ms' Hc. apply N. apply in_or_app. now left.
  - intros [(E1 & E2)|((b & x & r & -> & E1 & E2 & N) & NC)].
    + exists lines, c, []. split; [reflexivity|]. split; [exact E1|]. split; [exact E2|]. intros c' ms' [].
    + exists b, x, (r ++ [c]). rewrite <- app_assoc. repeat split; auto. intros c' ms' Hc. apply in_app_iff in Hc. destruct Hc as [Hc|[<-|[]]]; eauto.
Qed.
Lemma last_default_snoc {A B} (lines : list (eqclass A B)) c l :
  last_default (lines ++ [c]) l <-> (ec_set c = None /\ ec_label c = l) \/ (last_default lines l /\ ec_set c <> None).
Proof.
  split.
  - intros (b & x & r & E & E1 & E2 & N). apply split_snoc in E. destruct E as [(-> & -> & ->)|(r' & -> & ->)]; [now left|right].
    split; [|apply N, in_or_app; right; now left]. exists b, x, r'. repeat split; auto. intros c' Hc. apply N, in_or_app. now left.
  - intros [(E1 & E2)|((b & x & r & -> & E1 & E2 & N) & NC)].
    + exists lines, c, []. split; [reflexivity|]. split; [exact E1|]. split; [exact E2|]. intros c' [].
    + exists b, x, (r ++ [c]). rewrite <- app_assoc. repeat split; auto. intros c' Hc. apply in_app_iff in Hc. destruct Hc as [Hc|[<-|[]]]; eauto.
Qed.
Lemma last_nil {A B} (l : B) (ms : list A) : ~ last_line [] l ms.
Proof. intros (b & x & r & E & _). destruct b; discriminate. Qed.
Lemma last_default_nil {A B} (l : B) : ~ last_default (A := A) [] l.
Proof. intros (b & x & r & E & _). destruct b; discriminate. Qed.
Lemma last_default_one {A B} (lines : list (eqclass A B)) l l' : last_default lines l -> last_default lines l' -> l = l'.
Proof.
  revert l l'. induction lines as [|c lines IH] using rev_ind; intros l l' H H'; [now apply last_default_nil in H|].
  apply last_default_snoc in H, H'. destruct H as [[E1 E2]|[H N]], H' as [[E1' E2']|[H' N']]; try congruence. now apply IH.
Qed.
Lemma am_insert_in {A V} (aeqb : A -> A -> bool) (AE : EqbSpec aeqb) k (v : V) m : NoDup (map fst m) ->
  NoDup (map fst (am_insert aeqb k v m)) /\ forall k' v', In (k', v') (am_insert aeqb k v m) <-> (k' = k /\ v' = v) \/ (k' <> k /\ In (k', v') m).
Proof.
  induction m as [|[a b] m IH]; cbn [am_insert map fst]; intros N.
  - split; [repeat constructor; intros []|]. intros k' v'. cbn. split; [intros [E|[]]; injection E; auto|]. intros [[-> ->]|[_ []]]. now left.
  - inversion N as [|? ? NI N']; subst. destruct (IH N') as [I1 I2]. destruct (aeqb k a) eqn:EB.
    + apply AE in EB. subst a. split; [now constructor|]. intros k' v'. cbn [In]. split.
      * intros [E|H]; [injection E as <- <-; now left|]. right. split; [|now right]. intros ->. apply NI. apply in_map_iff. exists (k, v'). auto.
      * intros [[-> ->]|[NK [E|H]]]; [now left|injection E as <- <-; congruence|now right].
    + assert (NK : k <> a) by (intros ->; rewrite (proj2 (AE a a) eq_refl) in EB; discriminate). split.
      * cbn. constructor; [|exact I1]. intros H. apply in_map_iff in H. destruct H as ([k' v'] & E & H). cbn in E. subst k'. apply I2 in H. destruct H as [[-> _]|[_ H]]; [congruence|].
        apply NI, in_map_iff. exists (a, v'). auto.
      * intros k' v'. cbn [In]. rewrite I2. split; [intros [E|[H|H]]; [injection E as <- <-|..]; intuition congruence|intros [H|[H [E|H']]]; auto; left; exact E].
Qed.

Theorem C21_from_str_any :
  forall (A B : Type) (aeqb : A -> A -> bool) (beqb : B -> B -> bool), EqbSpec aeqb -> EqbSpec beqb ->
  forall order, (forall l, Permutation (order l) l) ->
  forall lines : list (eqclass A B), (forall c ms, In c lines -> ec_set c = Some ms -> NoDup ms) ->
  (* it fails exactly without a default, if the default is the label of a class, or if two classes overlap *)
  ((exists R, er_from_str aeqb beqb order lines = Ok R) <->
   exists d, last_default lines d /\ (forall c ms, In c lines -> ec_set c = Some ms -> ec_label c <> d) /\
     forall x l l', last_class lines x l -> last_class lines x l' -> l = l') /\
  forall R, er_from_str aeqb beqb order lines = Ok R ->
    (forall x label, last_class lines x label -> er_project aeqb R x = label) /\
    (forall x d, last_default lines d -> (forall label, ~ last_class lines x label) -> er_project aeqb R x = d).
Proof.
  intros A B aeqb beqb AE BE order HO lines HS.
  assert (G : exists m d, fold_left (er_str_loop beqb) lines ([], None) = (m, d) /\ NoDup (map fst m) /\ (forall l ms, In (l, ms) m <-> last_line lines l ms) /\
    (forall l, d = Some l <-> last_default lines l) /\ forall l, In l (map fst m) <-> exists c ms, In c lines /\ ec_set c = Some ms /\ ec_label c = l).
  { clear -BE. induction lines as [|c lines IH] using rev_ind.
    - exists [], None. split; [reflexivity|]. split; [constructor|]. split; [intros l ms; split; [intros []|intros H; now apply last_nil in H]|].
      split; [intros l; split; [discriminate|intros H; now apply last_default_nil in H]|]. intros l. split; [intros []|intros (c & ms & [] & _)].
    - destruct IH as (m & d & E & N & I1 & I2 & I3). rewrite fold_left_app, E. cbn [fold_left]. unfold er_str_loop at 1. destruct (ec_set c) as [es|] eqn:EC.
      + destruct (am_insert_in beqb BE (ec_label c) es m N) as [N' J]. exists (am_insert beqb (ec_label c) es m), d. split; [reflexivity|]. split; [exact N'|]. split; [|split].
        * intros l ms. rewrite J, last_line_snoc, I1, EC. split; [intros [[-> ->]|[H1 H2]]; [now left|right; split; [exact H2|congruence]]|].
          intros [[H1 H2]|[H1 H2]]; [left; split; congruence|]. right. split; [|exact H1]. intros ->. now apply (H2 es).
        * intros l. rewrite last_default_snoc, EC, I2. intuition congruence.
        * intros l. split.
          -- intros H. apply in_map_iff in H. destruct H as ([l' ms] & <- & H). apply J in H. destruct H as [[-> ->]|[_ H]]; [exists c, es; split; [apply in_or_app; right; now left|auto]|].
             destruct (proj1 (I3 l')) as (c' & ms' & H1 & H2); [apply in_map_iff; exists (l', ms); auto|]. exists c', ms'. split; [apply in_or_app; now left|exact H2].
          -- intros (c' & ms & H1 & H2 & <-). apply in_map_iff. destruct (beqb (ec_label c') (ec_label c)) eqn:EB.
             ++ apply BE in EB. exists (ec_label c, es). split; [symmetry; exact EB|]. apply J. now left.
             ++ assert (NE : ec_label c' <> ec_label c) by (intros X; rewrite (proj2 (BE _ _) X) in EB; discriminate).
                apply in_app_iff in H1. destruct H1 as [H1|[<-|[]]]; [|congruence]. pose proof (proj2 (I3 (ec_label c')) (ex_intro _ c' (ex_intro _ ms (conj H1 (conj H2 eq_refl))))) as X. apply in_map_iff in X. destruct X as ([l' ms'] & EL & X). cbn in EL. subst l'.
                exists (ec_label c', ms'). split; [reflexivity|]. apply J. auto.
      + exists m, (Some (ec_label c)). split; [reflexivity|]. split; [exact N|]. split; [|split].
        * intros l ms. rewrite last_line_snoc, I1, EC. intuition congruence.
        * intros l. rewrite last_default_snoc, EC. split; [intros H; injection H; auto|intros [[_ <-]|[_ H]]; congruence].
        * intros l. rewrite I3. split; intros (c' & ms & H1 & H2); exists c', ms; (split; [|exact H2]); [apply in_or_app; now left|]. apply in_app_iff in H1. destruct H1 as [H1|[<-|[]]]; [exact H1|destruct H2; congruence]. }
  destruct G as (m & d & E & N & I1 & I2 & I3). unfold er_from_str. rewrite E.
  assert (IC : forall x l, in_class (order m) x l <-> last_class lines x l).
  { intros x l. unfold in_class, last_class. split; intros (ms & H1 & H2); exists ms; (split; [|assumption]).
    - apply I1. revert H1. apply Permutation_in, HO.
    - apply I1 in H1. revert H1. apply Permutation_in. symmetry. apply HO. }
  assert (IN : forall l, In l (map fst (order m)) <-> In l (map fst m)).
  { intros l. split; apply Permutation_in, Permutation_map; [apply HO|symmetry; apply HO]. }
  destruct d as [d|].
  - assert (F : family (order m)).
    { split; [eapply Permutation_NoDup; [apply Permutation_map; symmetry; apply HO|exact N]|]. intros l ms H. apply (Permutation_in _ (HO m)) in H. apply I1 in H.
      destruct H as (b & c & r & -> & H2 & _). apply (HS c); [apply in_or_app; right; now left|exact H2]. }
    destruct (C21_new_safe A B aeqb beqb AE BE (order m) d F) as (C1 & C2 & _). rewrite C1. split; [split|].
    + intros [H1 H2]. exists d. split; [now apply I2|]. split; [intros c ms Hc Hs El; apply H1, IN, I3; eauto|]. intros x l l' Hl Hl'. apply (H2 x); now apply IC.
    + intros (d' & H1 & H2 & H3). apply I2 in H1. injection H1 as <-. split; [|intros x l l' Hl Hl'; apply (H3 x); now apply IC]. intros H. apply IN, I3 in H. destruct H as (c & ms & X1 & X2 & X3). now apply (H2 c ms).
    + intros R ER. destruct (C2 R ER) as [D1 D2]. split; [intros x l H; now apply D1, IC|]. intros x d' H1 H2. apply I2 in H1. injection H1 as <-. apply D2. intros l Hl. now apply (H2 l), IC.
  - split; [split|intros R H; discriminate]; [intros [R H]; discriminate|]. intros (d & H & _). apply I2 in H. discriminate.
Qed.
Print Assumptions C21_from_str_any.

Example C21_from_str_any_example :
  let lines := [EqClass (A:=nat) 10 (Some [1;2]); EqClass 7 None; EqClass 10 (Some [3]); EqClass 20 (Some [1]); EqClass 0 None] in
  (forall c ms, In c lines -> ec_set c = Some ms -> NoDup ms) /\ last_class lines 3 10 /\ last_class lines 1 20 /\ last_default lines 0 /\
  (exists R, er_from_str Nat.eqb Nat.eqb (@rev _) lines = Ok R /\ map (er_project Nat.eqb R) [1;2;3;4] = [20;0;10;0]) /\
  er_from_str Nat.eqb Nat.eqb (@rev _) [EqClass (A:=nat) 10 (Some [1;2])] = Err tt.
Proof.
  cbv zeta. split; [|split; [|split; [|split; [|split]]]].
  - intros c ms H E. cbn in H. repeat (destruct H as [<-|H]; [cbn in E; try discriminate; injection E as <-; repeat constructor; cbn; intuition lia|]). destruct H.
  - exists [3]. split; [|now left]. exists [EqClass (A:=nat) 10 (Some [1;2]); EqClass 7 None], (EqClass 10 (Some [3])), [EqClass 20 (Some [1]); EqClass 0 None]. repeat split. intros c' ms' [<-|[<-|[]]]; cbn; [lia|discriminate].
  - exists [1]. split; [|now left]. exists [EqClass (A:=nat) 10 (Some [1;2]); EqClass 7 None; EqClass 10 (Some [3])], (EqClass 20 (Some [1])), [EqClass 0 None]. repeat split. intros c' ms' [<-|[]]; discriminate.
  - exists [EqClass (A:=nat) 10 (Some [1;2]); EqClass 7 None; EqClass 10 (Some [3]); EqClass 20 (Some [1])], (EqClass 0 None), []. repeat split. intros c' [].
  - eexists. split; [vm_compute; reflexivity|reflexivity].
  - reflexivity.
Qed.

(* a repeated label silently drops the members of the earlier line *)
Theorem C21_from_str_repeated_label_refuted :
  exists R, er_from_str Nat.eqb Nat.eqb (fun l => l) [EqClass (A:=nat) 10 (Some [1;2]); EqClass 10 (Some [3]); EqClass 0 None] = Ok R /\ er_project Nat.eqb R 1 = 0.
Proof. eexists. split; [vm_compute; reflexivity|reflexivity]. Qed.
Print Assumptions C21_from_str_repeated_label_refuted.

Example C21_example :
  family [(10, [1;2]); (20, [3])] /\ ~ In 0 (map fst [(10, [1;2]); (20, [3])]) /\ disjoint_classes [(10, [1;2]); (20, [3])] /\
  exists R, er_new Nat.eqb Nat.eqb [(10, [1;2]); (20, [3])] 0 = Some R /\ map (er_project Nat.eqb R) [1;2;3;4] = [10;10;20;0].
Proof.
  split; [split; [repeat constructor; cbn; intuition lia|]|split; [cbn; intuition lia|split]].
  - intros l ms [E|[E|[]]]; injection E as <- <-; repeat constructor; cbn; intuition lia.
  - intros x l l' (ms & [E|[E|[]]] & H) (ms' & [E'|[E'|[]]] & H'); injection E as <- <-; injection E' as <- <-; cbn in *; intuition lia.
  - eexists. split; [vm_compute; reflexivity|reflexivity].
Qed.

(* ================= C19 ================= *)
(* Relabelling: approximation does not panic, and every run is mapped to a run on the same word that ends in the mapped
   storage, so accepting runs (one symbol left) to accepting runs. *)
Theorem C19_relabel :
  forall (A B T : Type) (K : Weight) (wadd : K -> K -> K) (wzero : K) (aeqb : A -> A -> bool) (beqb : B -> B -> bool) (teqb : T -> T -> bool),
  EqbSpec aeqb -> EqbSpec beqb -> EqbSpec teqb ->
  forall (f : A -> B) order, (forall l, Permutation (order l) l) ->
  forall (ts : list (transition (pd_instr A) T K)) (initial : list A) M, pda_new wadd wzero aeqb teqb ts initial = Some M ->
  exists M2 m, rlb_approximate wadd wzero beqb teqb order f M = Some (M2, m) /\
    pda_initial M2 = Some (map f initial) /\
    forall us s, executes (pdi_apply aeqb) initial us s -> (forall t, In t us -> pda_has M t) ->
    exists us2, image_run (relabelled f) us us2 /\ (forall t, In t us2 -> pda_has M2 t) /\
      executes (pdi_apply beqb) (map f initial) us2 (map f s) /\ run_word us2 = run_word us /\
      (length s = 1 -> length (map f s) = 1).
Proof.
  intros A B T K wadd wzero aeqb beqb teqb AE BE TE f order HO ts initial M HM.
  destruct (rlb_defined wadd wzero aeqb beqb teqb AE BE TE f order ts initial M HO HM) as (M2 & m & l & E & _ & L & HM2 & _). exists M2, m. split; [assumption|].
  split; [exact (proj1 (C41_pda_merges B T K wadd wzero beqb teqb BE TE _ _ M2 HM2))|].
  intros us s X HT.
  destruct (gen_image wadd wzero beqb teqb BE TE (pdi_apply aeqb) initial (rlb_ins f) (fun s s2 => s2 = map f s)
              (fun i s s' s2 => rlb_hom aeqb beqb AE BE f i s s' s2) l (map f initial) eq_refl M2 HM2 us s X) as (us2 & s2 & J1 & J2 & J3 & -> & J5).
  { intros t Ht. apply L. apply (pda_has_merged wadd wzero aeqb teqb AE TE ts initial M t HM). auto. }
  exists us2. split; [exact J1|]. split; [assumption|]. split; [assumption|]. split; [assumption|]. now rewrite map_length.
Qed.
Print Assumptions C19_relabel.

(* Tree stack to pushdown: the storage is mapped to the path from the root to the pointer. *)
Theorem C19_tts :
  forall (A T : Type) (K : Weight) (wadd : K -> K -> K) (wzero : K) (aeqb : A -> A -> bool) (teqb : T -> T -> bool),
  EqbSpec aeqb -> EqbSpec teqb ->
  forall order, (forall l, Permutation (order l) l) ->
  forall (ts : list (transition (ts_instr A) T K)) (initial : tstack A), built initial ->
  exists M2 m init2, tts_approximate wadd wzero aeqb teqb order (tsa_new aeqb teqb ts initial) = Some (M2, m) /\
    pda_initial M2 = Some init2 /\ path_of initial init2 /\
    (forall us s, executes (tsi_apply aeqb) initial us s -> (forall t, In t us -> In t ts) ->
     exists us2 s2, image_run path_instr us us2 /\ (forall t, In t us2 -> pda_has M2 t) /\
       executes (pdi_apply aeqb) init2 us2 s2 /\ path_of s s2 /\ run_word us2 = run_word us /\
       (ts_is_at_bottom s = true -> length s2 = 1)) /\
    (* and the pushdown automaton never empties its stack, so its recogniser never panics *)
    (RoundLaws K -> forall shuffle, (forall l, Permutation (shuffle l) l) -> forall H word n, exists outs, pda_recognise teqb shuffle M2 H word n = Some outs).
Proof.
  intros A T K wadd wzero aeqb teqb AE TE order HO ts initial BU. pose proof (built_wf initial BU) as W.
  destruct (tts_defined wadd wzero aeqb teqb AE TE order ts initial HO W) as (M2 & m & l & E & L & HM2 & _). exists M2, m, (spine initial). split; [assumption|].
  split; [exact (proj1 (C41_pda_merges A T K wadd wzero aeqb teqb AE TE _ _ M2 HM2))|]. split; [apply spine_path|]. split.
  - intros us s X HT.
    destruct (gen_image wadd wzero aeqb teqb AE TE (tsi_apply aeqb) initial tts_ins (fun s s2 => wf s /\ s2 = spine s)
                (tts_hom aeqb AE) l (spine initial) (conj W eq_refl) M2 HM2 us s X) as (us2 & s2 & J1 & J2 & J3 & (J4 & ->) & J5).
    { intros t Ht. eapply Permutation_in; [symmetry; exact L|]. auto. }
    exists us2, (spine s). split; [exact J1|]. split; [assumption|]. split; [assumption|]. split; [apply spine_path|]. split; [assumption|]. apply spine_bottom.
  - intros KL shuffle SH H word n. destruct (C14_pda_recognise A T K wadd wzero aeqb teqb AE TE KL _ _ shuffle SH M2 HM2 H word n) as [_ C]. apply C.
    intros us s rest X HT _.
    assert (NE : forall (us : list (transition (pd_instr A) T K)) s0, s0 <> [] -> executes (pdi_apply aeqb) s0 us s -> (forall t, In t us -> pi_new (t_ins t) <> []) -> s <> []).
    { clear -AE. induction us as [|t us IH]; intros s0 N X HT; inversion X as [|? ? ? s1 ? X1 X2]; subst; [assumption|]. apply (IH s1); [|assumption|intros; apply HT; now right].
      apply (pdi_apply_spec aeqb AE) in X1. destruct X1 as (base & _ & ->). specialize (HT t (or_introl eq_refl)). destruct (pi_new (t_ins t)); [congruence|]. now destruct base. }
    apply (NE us (spine initial) (spine_nonempty initial) X). intros t Ht. destruct (HT t Ht) as [(t0 & H0 & _ & E2) _]. rewrite <- E2. apply in_map_iff in H0. destruct H0 as (t1 & <- & _). cbn.
    destruct (t_ins t1); discriminate.
Qed.
Print Assumptions C19_tts.

(* the storage part by itself, for every tree stack built with the operations: no panic, and any larger bound on the
   iterations of its loop gives the same *)
Theorem C19_tts_storage :
  forall (A : Type) (t : tstack A), built t -> exists pd, tts_storage t = Some pd /\ path_of t pd /\
    forall fuel, ts_depth t < fuel -> tts_loop fuel t [ts_current_symbol t] = Some pd.
Proof.
  intros A t BU. pose proof (built_wf t BU) as W. exists (spine t). split; [now apply tts_storage_spec|]. split; [apply spine_path|].
  intros fuel L. rewrite (tts_loop_spec (ts_depth t) t _ fuel W eq_refl L). rewrite (spine_below t). reflexivity.
Qed.
Print Assumptions C19_tts_storage.

Example C19_example :
  let M2 := tts_approximate (K:=CostWeight) Nat.add 0 Nat.eqb Nat.eqb (fun l => l) ex_tsa in
  match M2 with
  | Some (M, _) => pda_initial M = Some [100] /\ pda_has M (Trans (K:=CostWeight) [2] 0 (Replace [104] [104; 105]))
  | None => False
  end /\ built ex_ts /\ tts_storage ex_ts = Some [0; 13].
Proof. cbn zeta. split; [|split; [exact (proj1 C17_example)|reflexivity]]. vm_compute. split; [reflexivity|]. eexists. split; [reflexivity|]. vm_compute. intuition. Qed.

(* ================= C41, mapping back ================= *)
(* The instance maps a transition back to the originals with the same word, weight and mapped instruction, each as often
   as the automaton lists it; no original is lost when its own image is looked up.
   Missing: transitions of the approximated automaton in which several originals were merged carry another weight. *)
Theorem C41_relabel_map_back_partial :
  forall (A B T : Type) (K : Weight) (wadd : K -> K -> K) (wzero : K) (aeqb : A -> A -> bool) (beqb : B -> B -> bool) (teqb : T -> T -> bool),
  EqbSpec aeqb -> EqbSpec beqb -> EqbSpec teqb -> RoundLaws K ->
  forall (f : A -> B) order, (forall l, Permutation (order l) l) ->
  forall (ts : list (transition (pd_instr A) T K)) (initial : list A) M, pda_new wadd wzero aeqb teqb ts initial = Some M ->
  exists M2 m, rlb_approximate wadd wzero beqb teqb order f M = Some (M2, m) /\
    (forall t1 t2, In t1 (unapproximate_transition (pdi_eqb beqb) teqb m t2) <->
       pda_has M t1 /\ t_word t2 = t_word t1 /\ t_weight t2 = t_weight t1 /\ t_ins t2 = relabelled f (t_ins t1)) /\
    (forall t2, NoDup (unapproximate_transition (pdi_eqb beqb) teqb m t2)) /\
    (* if relabelling makes no two transitions coincide, every transition of M2 is mapped back to all its originals *)
    ((forall k, wadd wzero k = k) ->
     (forall t t', pda_has M t -> pda_has M t' -> t_word t = t_word t' -> relabelled f (t_ins t) = relabelled f (t_ins t') -> t = t') ->
     forall t1 t2, pda_has M t1 -> pda_has M2 t2 -> t_word t2 = t_word t1 -> t_ins t2 = relabelled f (t_ins t1) ->
       In t1 (unapproximate_transition (pdi_eqb beqb) teqb m t2)).
Proof.
  intros A B T K wadd wzero aeqb beqb teqb AE BE TE KL f order HO ts initial M HM.
  destruct (rlb_defined wadd wzero aeqb beqb teqb AE BE TE f order ts initial M HO HM) as (M2 & m & l & E & ND & L & HM2 & BK). specialize (BK KL). exists M2, m. split; [assumption|].
  assert (IL : forall t, In t l <-> pda_has M t) by (intros t; rewrite L; symmetry; exact (pda_has_merged wadd wzero aeqb teqb AE TE ts initial M t HM)).
  assert (B1 : forall t1 t2, In t1 (unapproximate_transition (pdi_eqb beqb) teqb m t2) <->
       pda_has M t1 /\ t_word t2 = t_word t1 /\ t_weight t2 = t_weight t1 /\ t_ins t2 = relabelled f (t_ins t1)).
  { intros t1 t2. rewrite (back_In (pdi_eqb beqb) teqb (pdi_eqb_spec beqb BE) TE KL (rlb_ins f) l m t1 t2 BK), IL. split; (intros [H1 H2]; split; [assumption|]).
    - subst t2. cbn. auto.
    - destruct H2 as (F1 & F2 & F3). destruct t2 as [w k i]. cbn in *. subst. reflexivity. }
  split; [exact B1|]. split.
  - intros t2. rewrite (BK t2). now apply NoDup_filter.
  - intros UZ INJ t1 t2 H1 H2 E1 E2. apply B1. split; [assumption|]. split; [assumption|]. split; [|assumption].
    assert (X : exact_image (rlb_ins f) [t1] [t2]).
    { apply (no_merge wadd wzero beqb teqb BE TE (rlb_ins f) l (map f initial) M2 HM2 [t1] [t2]).
      - exact UZ.
      - exact ND.
      - intros t t' G1 G2. apply INJ; now apply IL.
      - intros t [<-|[]]. now apply IL.
      - intros t [<-|[]]. assumption.
      - constructor; [|constructor]. split; assumption. }
    unfold exact_image in X. cbn in X. injection X as ->. reflexivity.
Qed.
Print Assumptions C41_relabel_map_back_partial.

Theorem C41_tts_map_back_partial :
  forall (A T : Type) (K : Weight) (wadd : K -> K -> K) (wzero : K) (aeqb : A -> A -> bool) (teqb : T -> T -> bool),
  EqbSpec aeqb -> EqbSpec teqb -> RoundLaws K ->
  forall order, (forall l, Permutation (order l) l) ->
  forall (ts : list (transition (ts_instr A) T K)) (initial : tstack A), built initial ->
  exists M2 m, tts_approximate wadd wzero aeqb teqb order (tsa_new aeqb teqb ts initial) = Some (M2, m) /\
    (forall t1 t2, In t1 (unapproximate_transition (pdi_eqb aeqb) teqb m t2) <->
       In t1 ts /\ t_word t2 = t_word t1 /\ t_weight t2 = t_weight t1 /\ t_ins t2 = path_instr (t_ins t1)) /\
    ((forall k, wadd wzero k = k) -> NoDup ts ->
     (forall t t', In t ts -> In t' ts -> t_word t = t_word t' -> path_instr (t_ins t) = path_instr (t_ins t') -> t = t') ->
     forall t1 t2, In t1 ts -> pda_has M2 t2 -> t_word t2 = t_word t1 -> t_ins t2 = path_instr (t_ins t1) ->
       In t1 (unapproximate_transition (pdi_eqb aeqb) teqb m t2)).
Proof.
  intros A T K wadd wzero aeqb teqb AE TE KL order HO ts initial BU. pose proof (built_wf initial BU) as W.
  destruct (tts_defined wadd wzero aeqb teqb AE TE order ts initial HO W) as (M2 & m & l & E & L & HM2 & BK). specialize (BK KL). exists M2, m. split; [assumption|].
  assert (IL : forall t, In t l <-> In t ts) by (intros t; split; apply Permutation_in; [|symmetry]; assumption).
  assert (B1 : forall t1 t2, In t1 (unapproximate_transition (pdi_eqb aeqb) teqb m t2) <->
       In t1 ts /\ t_word t2 = t_word t1 /\ t_weight t2 = t_weight t1 /\ t_ins t2 = path_instr (t_ins t1)).
  { intros t1 t2. rewrite (back_In (pdi_eqb aeqb) teqb (pdi_eqb_spec aeqb AE) TE KL tts_ins l m t1 t2 BK), IL. split; (intros [H1 H2]; split; [assumption|]).
    - subst t2. cbn. auto.
    - destruct H2 as (F1 & F2 & F3). destruct t2 as [w k i]. cbn in *. subst. reflexivity. }
  split; [exact B1|]. intros UZ ND INJ t1 t2 H1 H2 E1 E2. apply B1. split; [assumption|]. split; [assumption|]. split; [|assumption].
  assert (X : exact_image tts_ins [t1] [t2]).
  { apply (no_merge wadd wzero aeqb teqb AE TE tts_ins l (spine initial) M2 HM2 [t1] [t2]).
    - exact UZ.
    - eapply Permutation_NoDup; [symmetry; exact L|assumption].
    - intros t t' G1 G2. apply INJ; now apply IL.
    - intros t [<-|[]]. now apply IL.
    - intros t [<-|[]]. assumption.
    - constructor; [|constructor]. split; assumption. }
  unfold exact_image in X. cbn in X. injection X as ->. reflexivity.
Qed.
Print Assumptions C41_tts_map_back_partial.

(* ================= C20 ================= *)
(* What the iterator yields: [steps] items taken from the coarse search suffice to find the first coarse parse c; then the
   forest yields the fine runs whose image, weights included, is the run of c, in non-increasing order of weight, and
   then only None.  All are accepting runs on the word.
   Missing for the full claim: the runs of every other coarse parse (see C20_second_coarse_parse_refuted), and those
   whose image has merged weights (see C20_merged_refuted). *)
Theorem C20_relabel_partial :
  forall (A B T : Type) (K : Weight) (wadd : K -> K -> K) (wzero : K) (aeqb : A -> A -> bool) (beqb : B -> B -> bool) (teqb : T -> T -> bool),
  EqbSpec aeqb -> EqbSpec beqb -> EqbSpec teqb -> RoundLaws K ->
  forall (f : A -> B) order, (forall l, Permutation (order l) l) ->
  forall (ts : list (transition (pd_instr A) T K)) (initial : list A) M, pda_new wadd wzero aeqb teqb ts initial = Some M ->
  forall shuffle, (forall l, Permutation (shuffle l) l) -> forall H heap_order, (forall l, Permutation (heap_order l) l) ->
  forall ileb (OH : max_heap (item (list A) (pd_instr A) T K) ileb), (forall a b, ileb a b = true -> wleb (item_weight a) (item_weight b) = true) ->
  forall M2 m, rlb_approximate wadd wzero beqb teqb order f M = Some (M2, m) ->
  forall word steps fuel, steps <= fuel -> 2 <= fuel ->
  let result := ctf_rlb wadd wzero aeqb beqb teqb f shuffle H fuel order heap_order ileb OH M word in
  let accepted us s := accepting_run (pdi_apply aeqb) initial (pda_has M) (fun s => length s = 1) word us s in
  (forall c rest, pda_recognise teqb shuffle M2 H word steps = Some (c :: rest) ->
    exists outs, (forall n, result n = Some (map (nth_error outs) (seq 0 n))) /\
      enum_sound (pdi_apply aeqb) initial (pda_has M) (fun s => length s = 1) word outs /\
      (forall us s, accepted us s -> (In (Conf [] s (run_weight us), pd_from us) outs <-> exact_image (relabelled f) us (pd_to_vec (snd c)))) /\
      nonincreasing item_weight wleb outs /\ NoDup (map snd outs) /\
      (* if no transitions were merged, these are all the runs that are mapped to the first coarse run *)
      ((forall k, wadd wzero k = k) ->
       (forall t t', pda_has M t -> pda_has M t' -> t_word t = t_word t' -> relabelled f (t_ins t) = relabelled f (t_ins t') -> t = t') ->
       forall us s, accepted us s -> image_run (relabelled f) us (pd_to_vec (snd c)) -> In (Conf [] s (run_weight us), pd_from us) outs)) /\
  (* no coarse parse at all: no fine parse is yielded, and there is none *)
  (pda_recognise teqb shuffle M2 H word steps = Some [] -> recognise_ended (pda_automaton shuffle M2) H (opt_all (int_find_key teqb (pa_t M2)) word) steps ->
     (forall n, result n = Some (repeat None n)) /\ forall us s, ~ accepted us s).
Proof.
  intros A B T K wadd wzero aeqb beqb teqb AE BE TE KL f order HO ts initial M HM shuffle SH H heap_order HP ileb OH IW M2 m E word steps fuel L1 L2 result accepted.
  destruct (rlb_defined wadd wzero aeqb beqb teqb AE BE TE f order ts initial M HO HM) as (M2' & m' & l & E' & ND & L & HM2 & BK). rewrite E in E'. injection E' as <- <-.
  specialize (BK KL). assert (IL : forall t, In t l <-> pda_has M t) by (intros t; rewrite L; symmetry; exact (pda_has_merged wadd wzero aeqb teqb AE TE ts initial M t HM)).
  assert (ACC : forall us s, accepted us s <-> accepting_run (pdi_apply aeqb) initial (fun t => In t l) (fun s => length s = 1) word us s).
  { intros us s. unfold accepted, accepting_run. split; intros (X1 & X2 & X3); (split; [assumption|split; [|assumption]]); intros t Ht; now apply IL, X2. }
  assert (RS : forall n, result n = run (ctf_next (pdi_eqb beqb) teqb (pdi_apply aeqb) initial m heap_order
                  (rec_next (pda_automaton shuffle M2) (item_un pdi_un_integerise un_list (pa_t M2) (pa_a M2)) H fuel) ileb OH fuel)
        n (ctf_new ileb OH (rec_start (pda_automaton shuffle M2) (int_find_key teqb (pa_t M2)) H word))).
  { intros n. unfold result, ctf_rlb. rewrite E. now rewrite (proj1 (C41_pda_merges A T K wadd wzero aeqb teqb AE TE ts initial M HM)). }
  assert (FIN : forall s s2, s2 = map f s -> (length s2 = 1 <-> length s = 1)) by (intros s s2 ->; now rewrite map_length).
  split.
  - intros c rest EC.
    destruct (forest_some KL wadd wzero beqb teqb BE TE (pdi_apply aeqb) initial (fun s => length s = 1) (rlb_ins f) (fun s s2 => s2 = map f s)
                (fun i s s' s2 => rlb_hom aeqb beqb AE BE f i s s' s2) FIN l m BK (map f initial) eq_refl M2 HM2 shuffle SH H heap_order HP ileb OH IW word steps c rest fuel EC L1 L2)
      as (outs & G1 & G2 & G3 & G4).
    exists outs. split; [intros n; rewrite RS; apply G1|].
    assert (IFF : forall us s, accepted us s -> (In (Conf [] s (run_weight us), pd_from us) outs <-> exact_image (relabelled f) us (pd_to_vec (snd c)))).
    { intros us s HA. rewrite G2. cbn [c_storage c_word c_weight]. rewrite pd_to_from. apply ACC in HA. split; [tauto|]. intros X. repeat (split; [solve [auto]|]). exact X. }
    split; [|split; [exact IFF|split; [exact G3|split; [apply G4; [intros; apply pdi_apply_det|exact ND]|]]]].
    + intros conf r HI. apply G2 in HI. destruct HI as (X1 & X2 & X3 & _). split; [now apply ACC|auto].
    + intros UZ INJ us s HA IR. apply IFF; [assumption|].
      apply (no_merge wadd wzero beqb teqb BE TE (rlb_ins f) l (map f initial) M2 HM2 us (pd_to_vec (snd c))).
      * exact UZ.
      * exact ND.
      * intros t t' H1 H2. apply INJ; now apply IL.
      * intros t Ht. apply IL. now apply HA.
      * destruct (C14_pda_recognise B T K wadd wzero beqb teqb BE TE KL _ _ shuffle SH M2 HM2 H word steps) as [C _]. destruct (C _ EC) as (SO & _). destruct c as [cc cr].
        destruct (SO cc cr (or_introl eq_refl)) as ((_ & X & _) & _). intros t Ht. apply (pda_has_merged wadd wzero beqb teqb BE TE _ _ _ t HM2). now apply X.
      * exact IR.
  - intros EC EN.
    destruct (forest_none KL wadd wzero beqb teqb BE TE (pdi_apply aeqb) initial (fun s => length s = 1) (rlb_ins f) (fun s s2 => s2 = map f s)
                (fun i s s' s2 => rlb_hom aeqb beqb AE BE f i s s' s2) FIN l m (map f initial) eq_refl M2 HM2 shuffle SH H heap_order ileb OH IW word steps fuel EC EN L1 ltac:(lia)) as [G1 G2].
    split; [intros n; rewrite RS; apply G1|]. intros us s HA. apply (G2 us s). now apply ACC.
Qed.
Print Assumptions C20_relabel_partial.

Theorem C20_tts_partial :
  forall (A T : Type) (K : Weight) (wadd : K -> K -> K) (wzero : K) (aeqb : A -> A -> bool) (teqb : T -> T -> bool),
  EqbSpec aeqb -> EqbSpec teqb -> RoundLaws K ->
  forall order, (forall l, Permutation (order l) l) ->
  forall (ts : list (transition (ts_instr A) T K)) (initial : tstack A), built initial ->
  forall shuffle, (forall l, Permutation (shuffle l) l) -> forall H heap_order, (forall l, Permutation (heap_order l) l) ->
  forall ileb (OH : max_heap (item (tstack A) (ts_instr A) T K) ileb), (forall a b, ileb a b = true -> wleb (item_weight a) (item_weight b) = true) ->
  let M := tsa_new aeqb teqb ts initial in
  forall M2 m, tts_approximate wadd wzero aeqb teqb order M = Some (M2, m) ->
  forall word steps fuel, steps <= fuel -> 2 <= fuel ->
  let result := ctf_tts wadd wzero aeqb teqb shuffle H fuel order heap_order ileb OH M word in
  let accepted us s := accepting_run (tsi_apply aeqb) initial (fun t => In t ts) (fun s => ts_is_at_bottom s = true) word us s in
  (forall c rest, pda_recognise teqb shuffle M2 H word steps = Some (c :: rest) ->
    exists outs, (forall n, result n = Some (map (nth_error outs) (seq 0 n))) /\
      enum_sound (tsi_apply aeqb) initial (fun t => In t ts) (fun s => ts_is_at_bottom s = true) word outs /\
      (forall us s, accepted us s -> (In (Conf [] s (run_weight us), pd_from us) outs <-> exact_image path_instr us (pd_to_vec (snd c)))) /\
      nonincreasing item_weight wleb outs /\ (NoDup ts -> NoDup (map snd outs)) /\
      ((forall k, wadd wzero k = k) -> NoDup ts ->
       (forall t t', In t ts -> In t' ts -> t_word t = t_word t' -> path_instr (t_ins t) = path_instr (t_ins t') -> t = t') ->
       forall us s, accepted us s -> image_run path_instr us (pd_to_vec (snd c)) -> In (Conf [] s (run_weight us), pd_from us) outs)) /\
  (pda_recognise teqb shuffle M2 H word steps = Some [] -> recognise_ended (pda_automaton shuffle M2) H (opt_all (int_find_key teqb (pa_t M2)) word) steps ->
     (forall n, result n = Some (repeat None n)) /\ forall us s, ~ accepted us s).
Proof.
  intros A T K wadd wzero aeqb teqb AE TE KL order HO ts initial BU shuffle SH H heap_order HP ileb OH IW M M2 m E word steps fuel L1 L2 result accepted. pose proof (built_wf initial BU) as W.
  destruct (tts_defined wadd wzero aeqb teqb AE TE order ts initial HO W) as (M2' & m' & l & E' & L & HM2 & BK). fold M in E'. rewrite E in E'. injection E' as <- <-.
  specialize (BK KL). assert (IL : forall t, In t l <-> In t ts) by (intros t; split; apply Permutation_in; [|symmetry]; assumption).
  assert (ACC : forall us s, accepted us s <-> accepting_run (tsi_apply aeqb) initial (fun t => In t l) (fun s => ts_is_at_bottom s = true) word us s).
  { intros us s. unfold accepted, accepting_run. split; intros (X1 & X2 & X3); (split; [assumption|split; [|assumption]]); intros t Ht; now apply IL, X2. }
  assert (RS : forall n, result n = run (ctf_next (pdi_eqb aeqb) teqb (tsi_apply aeqb) initial m heap_order
                  (rec_next (pda_automaton shuffle M2) (item_un pdi_un_integerise un_list (pa_t M2) (pa_a M2)) H fuel) ileb OH fuel)
        n (ctf_new ileb OH (rec_start (pda_automaton shuffle M2) (int_find_key teqb (pa_t M2)) H word))).
  { intros n. unfold result, ctf_tts. rewrite E. unfold M. now rewrite (proj1 (C14_tsa_reads_back A T K aeqb teqb AE TE ts initial)). }
  assert (FIN : forall (s : tstack A) (s2 : list A), wf s /\ s2 = spine s -> (length s2 = 1 <-> ts_is_at_bottom s = true)) by (intros s s2 [_ ->]; symmetry; apply spine_bottom).
  split.
  - intros c rest EC.
    destruct (forest_some KL wadd wzero aeqb teqb AE TE (tsi_apply aeqb) initial (fun s => ts_is_at_bottom s = true) tts_ins (fun s s2 => wf s /\ s2 = spine s)
                (tts_hom aeqb AE) FIN l m BK (spine initial) (conj W eq_refl) M2 HM2 shuffle SH H heap_order HP ileb OH IW word steps c rest fuel EC L1 L2)
      as (outs & G1 & G2 & G3 & G4).
    exists outs. split; [intros n; rewrite RS; apply G1|].
    assert (IFF : forall us s, accepted us s -> (In (Conf [] s (run_weight us), pd_from us) outs <-> exact_image path_instr us (pd_to_vec (snd c)))).
    { intros us s HA. rewrite G2. cbn [c_storage c_word c_weight]. rewrite pd_to_from. apply ACC in HA. split; [tauto|]. intros X. repeat (split; [solve [auto]|]). exact X. }
    assert (NL : NoDup ts -> NoDup l) by (intros N; eapply Permutation_NoDup; [symmetry; exact L|assumption]).
    split; [|split; [exact IFF|split; [exact G3|split; [intros N; apply G4; [intros; apply tsi_det|now apply NL]|]]]].
    + intros conf r HI. apply G2 in HI. destruct HI as (X1 & X2 & X3 & _). split; [now apply ACC|auto].
    + intros UZ ND INJ us s HA IR. apply IFF; [assumption|].
      apply (no_merge wadd wzero aeqb teqb AE TE tts_ins l (spine initial) M2 HM2 us (pd_to_vec (snd c))).
      * exact UZ.
      * now apply NL.
      * intros t t' H1 H2. apply INJ; now apply IL.
      * intros t Ht. apply IL. now apply HA.
      * destruct (C14_pda_recognise A T K wadd wzero aeqb teqb AE TE KL _ _ shuffle SH M2 HM2 H word steps) as [C _]. destruct (C _ EC) as (SO & _). destruct c as [cc cr].
        destruct (SO cc cr (or_introl eq_refl)) as ((_ & X & _) & _). intros t Ht. apply (pda_has_merged wadd wzero aeqb teqb AE TE _ _ _ t HM2). now apply X.
      * exact IR.
  - intros EC EN.
    destruct (forest_none KL wadd wzero aeqb teqb AE TE (tsi_apply aeqb) initial (fun s => ts_is_at_bottom s = true) tts_ins (fun s s2 => wf s /\ s2 = spine s)
                (tts_hom aeqb AE) FIN l m (spine initial) (conj W eq_refl) M2 HM2 shuffle SH H heap_order ileb OH IW word steps fuel EC EN L1 ltac:(lia)) as [G1 G2].
    split; [intros n; rewrite RS; apply G1|]. intros us s HA. apply (G2 us s). now apply ACC.
Qed.
Print Assumptions C20_tts_partial.

(* ---- concrete cases and counterexamples ---- *)
(* counts with their order, sum and product *)
Definition CountWeight : Weight := mkWeight nat Nat.mul 1 Nat.leb.
Lemma count_laws : RoundLaws CountWeight.
Proof.
  constructor; cbn; intros; try lia.
  - exact nat_leb_TO.
  - intros a b H1 H2. apply Nat.leb_le in H1, H2. cbn in *. lia.
  - apply Nat.leb_le in H. apply Nat.leb_le. apply Nat.mul_le_mono_r. exact H.
Qed.
Definition count_heap : max_heap (item (list nat) (pd_instr nat) nat CountWeight * CountWeight) (wi_leb wleb) := list_heap _ (wi_TO wleb (rl_order _ count_laws)).
Definition by_weight {S I T : Type} {K : Weight} (a b : item S I T K) : bool := wleb (item_weight a) (item_weight b).
Lemma by_weight_TO {S I T : Type} {K : Weight} (KL : RoundLaws K) : TotalOrder (@by_weight S I T K).
Proof.
  destruct (rl_order _ KL) as [O1 O2]. constructor; unfold by_weight.
  - intros a b. apply O1.
  - intros a b c. apply O2.
Qed.
Definition count_out : max_heap (item (list nat) (pd_instr nat) nat CountWeight) by_weight := list_heap _ (by_weight_TO count_laws).

(* two ways to read one token *)
Definition ex_two : list (transition (pd_instr nat) nat CountWeight) :=
  [Trans (K:=CountWeight) [0] 1 (Replace [7] [8]); Trans (K:=CountWeight) [0] 2 (Replace [7] [9])].
Definition ex_two_pda : pda nat nat CountWeight := match pda_new (K:=CountWeight) Nat.add 0 Nat.eqb Nat.eqb ex_two [7] with Some M => M | None => PDA [] [] [] [] end.
Lemma ex_two_new : pda_new (K:=CountWeight) Nat.add 0 Nat.eqb Nat.eqb ex_two [7] = Some ex_two_pda.
Proof. reflexivity. Qed.
Lemma ex_two_runs : forall w s, In (Trans (K:=CountWeight) [0] w (Replace [7] [s])) ex_two ->
  accepting_run (pdi_apply Nat.eqb) [7] (pda_has ex_two_pda) (fun s => length s = 1) [0] [Trans (K:=CountWeight) [0] w (Replace [7] [s])] [s].
Proof.
  intros w s H. split; [|split; [|split; reflexivity]].
  - econstructor; [|constructor]. cbn. left. reflexivity.
  - intros t [<-|[]]. eexists. split; [vm_compute; reflexivity|exact H].
Qed.

(* with the identity as relabelling, the coarse automaton has the same two runs; only the better one is mapped back *)
Theorem C20_second_coarse_parse_refuted :
  let run w s := [Trans (K:=CountWeight) [0] w (Replace [7] [s])] in
  let accepted us s := accepting_run (pdi_apply Nat.eqb) [7] (pda_has ex_two_pda) (fun s => length s = 1) [0] us s in
  let result := ctf_rlb (K:=CountWeight) Nat.add 0 Nat.eqb Nat.eqb Nat.eqb (fun a => a) (fun l => l) count_heap 20 (fun l => l) (fun l => l) by_weight count_out ex_two_pda [0] in
  accepted (run 1 8) [8] /\ accepted (run 2 9) [9] /\
  (exists M2 m, rlb_approximate (K:=CountWeight) Nat.add 0 Nat.eqb Nat.eqb (fun l => l) (fun a : nat => a) ex_two_pda = Some (M2, m) /\
     pda_recognise Nat.eqb (fun l => l) M2 count_heap [0] 20 = Some [(Conf [] [9] (2 : CountWeight), pd_from (run 2 9)); (Conf [] [8] (1 : CountWeight), pd_from (run 1 8))]) /\
  (forall n, result n = Some (map (nth_error [(Conf [] [9] (2 : CountWeight), pd_from (run 2 9))]) (seq 0 n))).
Proof.
  cbn zeta. split; [apply ex_two_runs; cbn; auto|]. split; [apply ex_two_runs; cbn; auto|]. split; [do 2 eexists; split; vm_compute; reflexivity|].
  destruct (rlb_approximate (K:=CountWeight) Nat.add 0 Nat.eqb Nat.eqb (fun l => l) (fun a : nat => a) ex_two_pda) as [[M2 m]|] eqn:E; [|vm_compute in E; discriminate].
  destruct (C20_relabel_partial nat nat nat CountWeight Nat.add 0 Nat.eqb Nat.eqb Nat.eqb nat_eqb_spec nat_eqb_spec nat_eqb_spec count_laws (fun a => a) (fun l => l) (fun l => Permutation_refl l)
              ex_two [7] ex_two_pda ex_two_new (fun l => l) (fun l => Permutation_refl l) count_heap (fun l => l) (fun l => Permutation_refl l) by_weight count_out (fun a b H => H) M2 m E [0] 20 20 ltac:(lia) ltac:(lia)) as [C _].
  injection E as <- <-. edestruct C as (outs & G1 & _); [vm_compute; reflexivity|]. clear C. pose proof (G1 2) as G2.
  assert (V : ctf_rlb (K:=CountWeight) Nat.add 0 Nat.eqb Nat.eqb Nat.eqb (fun a => a) (fun l => l) count_heap 20 (fun l => l) (fun l => l) by_weight count_out ex_two_pda [0] 2 =
    Some [Some (Conf [] [9] (2 : CountWeight), pd_from [Trans (K:=CountWeight) [0] 2 (Replace [7] [9])]); None]) by (vm_compute; reflexivity).
  rewrite V in G2. intros n. rewrite (G1 n). destruct outs as [|o [|o2 outs]]; cbn in G2; [discriminate| |discriminate]. injection G2 as <-. reflexivity.
Qed.
Print Assumptions C20_second_coarse_parse_refuted.

(* a relabelling that makes the two transitions coincide: their weights are added, and the coarse run is mapped back to
   nothing, although both fine runs have it as their image *)
Theorem C20_merged_refuted :
  let run w s := [Trans (K:=CountWeight) [0] w (Replace [7] [s])] in
  let accepted us s := accepting_run (pdi_apply Nat.eqb) [7] (pda_has ex_two_pda) (fun s => length s = 1) [0] us s in
  let result := ctf_rlb (K:=CountWeight) Nat.add 0 Nat.eqb Nat.eqb Nat.eqb (fun _ => 5) (fun l => l) count_heap 20 (fun l => l) (fun l => l) by_weight count_out ex_two_pda [0] in
  accepted (run 1 8) [8] /\ accepted (run 2 9) [9] /\
  (exists M2 m, rlb_approximate (K:=CountWeight) Nat.add 0 Nat.eqb Nat.eqb (fun l => l) (fun _ : nat => 5) ex_two_pda = Some (M2, m) /\
     (* C41 *)
     pda_has M2 (Trans (K:=CountWeight) [0] 3 (Replace [5] [5])) /\ unapproximate_transition (pdi_eqb Nat.eqb) Nat.eqb m (Trans (K:=CountWeight) [0] 3 (Replace [5] [5])) = [] /\
     pda_recognise Nat.eqb (fun l => l) M2 count_heap [0] 20 = Some [(Conf [] [5] (3 : CountWeight), pd_from [Trans (K:=CountWeight) [0] 3 (Replace [5] [5])])]) /\
  (forall n, result n = Some (repeat None n)).
Proof.
  cbn zeta. split; [apply ex_two_runs; cbn; auto|]. split; [apply ex_two_runs; cbn; auto|]. split.
  { do 2 eexists. split; [vm_compute; reflexivity|]. split; [eexists; split; [vm_compute; reflexivity|now left]|]. split; vm_compute; reflexivity. }
  destruct (rlb_approximate (K:=CountWeight) Nat.add 0 Nat.eqb Nat.eqb (fun l => l) (fun _ : nat => 5) ex_two_pda) as [[M2 m]|] eqn:E; [|vm_compute in E; discriminate].
  destruct (C20_relabel_partial nat nat nat CountWeight Nat.add 0 Nat.eqb Nat.eqb Nat.eqb nat_eqb_spec nat_eqb_spec nat_eqb_spec count_laws (fun _ => 5) (fun l => l) (fun l => Permutation_refl l)
              ex_two [7] ex_two_pda ex_two_new (fun l => l) (fun l => Permutation_refl l) count_heap (fun l => l) (fun l => Permutation_refl l) by_weight count_out (fun a b H => H) M2 m E [0] 20 20 ltac:(lia) ltac:(lia)) as [C _].
  injection E as <- <-. edestruct C as (outs & G1 & _); [vm_compute; reflexivity|]. clear C. pose proof (G1 1) as G2.
  assert (V : ctf_rlb (K:=CountWeight) Nat.add 0 Nat.eqb Nat.eqb Nat.eqb (fun _ => 5) (fun l => l) count_heap 20 (fun l => l) (fun l => l) by_weight count_out ex_two_pda [0] 1 = Some [None]) by (vm_compute; reflexivity).
  rewrite V in G2. intros n. rewrite (G1 n). destruct outs as [|o outs]; cbn in G2; [|discriminate]. f_equal. generalize 0. clear. induction n as [|n IH]; intros a; cbn; [reflexivity|]. rewrite IH. now destruct a.
Qed.
Print Assumptions C20_merged_refuted.

(* relabelling can make the recogniser panic on a word the fine automaton recognises without a panic: the coarse automaton
   pops its last symbol *)
Definition ex_push_pop : list (transition (pd_instr nat) nat CountWeight) :=
  [Trans (K:=CountWeight) [0] 1 (Replace [7] [7;8]); Trans (K:=CountWeight) [1] 1 (Replace [8] [])].
Theorem C20_relabel_panics_refuted :
  exists M, pda_new (K:=CountWeight) Nat.add 0 Nat.eqb Nat.eqb ex_push_pop [7] = Some M /\
    (exists out, pda_recognise Nat.eqb (fun l => l) M count_heap [0;1] 20 = Some [out]) /\
    pda_recognise Nat.eqb (fun l => l) M count_heap [1;1] 20 = Some [] /\
    ctf_rlb (K:=CountWeight) Nat.add 0 Nat.eqb Nat.eqb Nat.eqb (fun a => a) (fun l => l) count_heap 20 (fun l => l) (fun l => l) by_weight count_out M [1;1] 1 = Some [None] /\
    ctf_rlb (K:=CountWeight) Nat.add 0 Nat.eqb Nat.eqb Nat.eqb (fun _ => 5) (fun l => l) count_heap 20 (fun l => l) (fun l => l) by_weight count_out M [1;1] 1 = None.
Proof. eexists. split; [vm_compute; reflexivity|]. split; [eexists; vm_compute; reflexivity|]. repeat split; vm_compute; reflexivity. Qed.
Print Assumptions C20_relabel_panics_refuted.

(* the tree stack automaton for a^n b^n c^n d^n through its pushdown approximation *)
Definition ex_tsa_out : max_heap (item (tstack nat) (ts_instr nat) nat CostWeight) by_weight := list_heap _ (by_weight_TO cost_laws).
Example C20_example :
  (exists M2 m c rest, tts_approximate (K:=CostWeight) Nat.add 0 Nat.eqb Nat.eqb (fun l => l) ex_tsa = Some (M2, m) /\
     pda_recognise Nat.eqb (fun l => l) M2 ex_pda_heap [0;1;2;3] 40 = Some (c :: rest)) /\
  built (ts_new 100) /\
  match ctf_tts (K:=CostWeight) Nat.add 0 Nat.eqb Nat.eqb (fun l => l) ex_pda_heap 40 (fun l => l) (fun l => l) by_weight ex_tsa_out ex_tsa [0;1;2;3] 2 with
  | Some [Some (c, r); None] => run_word (pd_to_vec r) = [0;1;2;3] /\ length (pd_to_vec r) = 8
  | _ => False
  end.
Proof. split; [do 4 eexists; split; vm_compute; reflexivity|]. split; [constructor|]. vm_compute. auto. Qed.

(* a transition of the approximated automaton in which two originals were merged is mapped back to none of them *)
Theorem C41_map_back_merged_refuted :
  exists M2 m t2, rlb_approximate (K:=CountWeight) Nat.add 0 Nat.eqb Nat.eqb (fun l => l) (fun _ : nat => 5) ex_two_pda = Some (M2, m) /\ pda_has M2 t2 /\
    (forall t1, In t1 ex_two -> pda_has ex_two_pda t1 /\ t_word t2 = t_word t1 /\ t_ins t2 = relabelled (fun _ => 5) (t_ins t1)) /\
    unapproximate_transition (pdi_eqb Nat.eqb) Nat.eqb m t2 = [].
Proof.
  destruct C20_merged_refuted as (_ & _ & (M2 & m & H1 & H2 & H3 & _) & _). exists M2, m, (Trans (K:=CountWeight) [0] 3 (Replace [5] [5])). split; [exact H1|]. split; [exact H2|].
  split; [|exact H3]. intros t1 [<-|[<-|[]]]; (split; [eexists; split; [vm_compute; reflexivity|cbn; auto]|split; reflexivity]).
Qed.
Print Assumptions C41_map_back_merged_refuted.
Example C41_map_back_example :
  exists M2 m, rlb_approximate (K:=CountWeight) Nat.add 0 Nat.eqb Nat.eqb (fun l => l) (fun a : nat => a + 1) ex_two_pda = Some (M2, m) /\
    unapproximate_transition (pdi_eqb Nat.eqb) Nat.eqb m (Trans (K:=CountWeight) [0] 2 (Replace [8] [10])) = [Trans (K:=CountWeight) [0] 2 (Replace [7] [9])].
Proof. do 2 eexists. split; vm_compute; reflexivity. Qed.
