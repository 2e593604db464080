(* Proofs about the texts of pushdown automata. *)
From Verif Require Import M_Nom Base M_Util M_Recog M_Agenda M_Automata M_CFG M_TreeStack M_Grammar M_Chart M_FromPmcfg M_CSAuto M_Approx M_Text M_AutText M_Command M_TsaCommand M_ApproxCommand M_PdaText
  S_Recog S_Automata S_CFG S_Approx S_TsaCommand S_ApproxCommand S_PdaText P_Agenda P_Util P_Recog P_Automata P_PDA P_CFG P_Approx P_ApproxCommand Properties_Automata.

Section Sums.
  Context {K : Weight} (wadd : K -> K -> K) (wzero : K) (SL : sum_laws wadd wzero).
  Notation wsum := (wsum wadd wzero).
  Lemma fold_acc ws : forall z, fold_left wadd ws z = wadd z (wsum ws).
  Proof.
    destruct SL as (C & AS & Z). unfold S_Automata.wsum. induction ws as [|w ws IH]; intros z; cbn; [now rewrite C, Z|].
    rewrite (IH (wadd z w)), (IH (wadd wzero w)), Z. now rewrite AS.
  Qed.
  Lemma wsum_cons w ws : wsum (w :: ws) = wadd w (wsum ws).
  Proof. destruct SL as (C & AS & Z). unfold S_Automata.wsum at 1. cbn. now rewrite Z, fold_acc. Qed.
  Lemma wsum_app a b : wsum (a ++ b) = wadd (wsum a) (wsum b).
  Proof. unfold S_Automata.wsum at 1. rewrite fold_left_app. now rewrite fold_acc. Qed.
  Lemma wsum_perm a b : Permutation a b -> wsum a = wsum b.
  Proof.
    destruct SL as (C & AS & Z). induction 1 as [|x a b _ IH|x y a|a b c _ IH1 _ IH2]; [reflexivity|now rewrite !wsum_cons, IH| |congruence].
    rewrite !wsum_cons, !AS. now rewrite (C x y).
  Qed.
End Sums.

Lemma filter_perm {X : Type} (p : X -> bool) a b : Permutation a b -> Permutation (filter p a) (filter p b).
Proof.
  induction 1 as [|x a b _ IH|x y a|a b c _ IH1 _ IH2]; cbn; [constructor| | |now transitivity (filter p b)].
  - destruct (p x); [now constructor|exact IH].
  - destruct (p x), (p y); try reflexivity. constructor.
Qed.

(* a list falls into classes *)
Lemma classes_perm {X Y : Type} (rel : Y -> X -> bool) (l : list Y) (xs : list X) :
  (forall x, In x xs -> exists l1 y l2, l = l1 ++ y :: l2 /\ rel y x = true /\ forall z, In z (l1 ++ l2) -> rel z x = false) ->
  Permutation xs (flat_map (fun y => filter (rel y) xs) l).
Proof.
  induction xs as [|x xs IH]; intros H.
  - cbn [filter]. assert (E : forall l : list Y, flat_map (fun _ => []) l = ([] : list X)) by (clear; induction l; auto). rewrite E. constructor.
  - destruct (H x (or_introl eq_refl)) as (l1 & y & l2 & E & Ey & Ez).
    assert (N : forall l0, (forall z, In z l0 -> rel z x = false) -> flat_map (fun y => filter (rel y) (x :: xs)) l0 = flat_map (fun y => filter (rel y) xs) l0).
    { induction l0 as [|z l0 IH0]; intros Hz; [reflexivity|]. cbn [flat_map]. rewrite IH0 by (intros; apply Hz; now right). f_equal. cbn. now rewrite (Hz z (or_introl eq_refl)). }
    assert (G : Permutation xs (flat_map (fun y => filter (rel y) xs) l)) by (apply IH; intros x0 Hx; apply H; now right).
    rewrite E in G |- *. rewrite flat_map_app in G |- *. cbn [flat_map] in G |- *. rewrite !N by (intros; apply Ez, in_or_app; auto). cbn [filter]. rewrite Ey.
    rewrite G at 1. cbn [app]. apply Permutation_middle.
Qed.

Section Regroup.
  Context {A B T : Type} {K : Weight} (wadd : K -> K -> K) (wzero : K) (SL : sum_laws wadd wzero) (aeqb : A -> A -> bool) (beqb : B -> B -> bool) (teqb : T -> T -> bool)
          (AE : EqbSpec aeqb) (BE : EqbSpec beqb) (TE : EqbSpec teqb).
  Notation wsum := (wsum wadd wzero).
  Lemma merged_perm (ts ts' : list (transition (pd_instr A) T K)) t : Permutation ts ts' -> merged wadd wzero aeqb teqb ts t <-> merged wadd wzero aeqb teqb ts' t.
  Proof.
    assert (G : forall ts ts', Permutation ts ts' -> merged wadd wzero aeqb teqb ts t -> merged wadd wzero aeqb teqb ts' t).
    { clear ts ts'. intros ts ts' P [(t0 & H0 & E) W]. split; [exists t0; split; [now apply (Permutation_in _ P)|exact E]|]. rewrite W. apply (wsum_perm wadd wzero SL), Permutation_map, filter_perm, P. }
    intros P. split; apply G; [exact P|now symmetry].
  Qed.
  (* merging twice is merging once *)
  Context (ins : pd_instr A -> pd_instr B) (ts l : list (transition (pd_instr A) T K)) (NL : NoDup l) (HL : forall t, In t l <-> merged wadd wzero aeqb teqb ts t).
  Notation cls t := (filter (same_trans aeqb teqb t) ts).
  Lemma ts_classes : Permutation ts (flat_map (fun t => cls t) l).
  Proof.
    apply classes_perm. intros t Ht. set (m := Trans (t_word t) (wsum (map t_weight (cls t))) (t_ins t)).
    assert (Hm : In m l) by (apply HL; split; [exists t; auto|reflexivity]).
    destruct (in_split m l Hm) as (l1 & l2 & E). exists l1, m, l2. split; [exact E|]. split; [apply (same_trans_iff aeqb teqb AE TE); auto|].
    intros z Hz. destruct (same_trans aeqb teqb z t) eqn:EZ; [|reflexivity]. exfalso. apply (same_trans_iff aeqb teqb AE TE) in EZ. destruct EZ as [E1 E2].
    assert (HZ : In z l) by (rewrite E; apply in_app_iff in Hz; apply in_app_iff; cbn; tauto). apply HL in HZ. destruct HZ as [_ W].
    assert (z = m) as ->; [|rewrite E in NL; exact (NoDup_remove_2 _ _ _ NL Hz)]. destruct z as [w k i]. cbn [t_word t_ins t_weight] in *. subst w i. unfold m. f_equal. exact W.
  Qed.
  Lemma regroup (P : transition (pd_instr B) T K -> bool) : (forall t u, t_word t = t_word u -> t_ins t = t_ins u -> P t = P u) ->
    wsum (map t_weight (filter P (map (image ins) l))) = wsum (map t_weight (filter P (map (image ins) ts))).
  Proof.
    intros HP.
    rewrite (wsum_perm wadd wzero SL (map t_weight (filter P (map (image ins) ts))) (map t_weight (filter P (map (image ins) (flat_map (fun t => cls t) l)))))
      by (apply Permutation_map, filter_perm, Permutation_map, ts_classes).
    assert (W : forall t, In t l -> t_weight t = wsum (map t_weight (cls t))) by (intros t Ht; apply HL in Ht; apply Ht). clear NL HL.
    induction l as [|t l0 IH]; [reflexivity|]. cbn [flat_map map filter]. rewrite map_app, filter_app, map_app, (wsum_app wadd wzero SL).
    rewrite <- IH by (intros u Hu; apply W; now right).
    assert (C : forall us, (forall u, In u us -> t_word u = t_word t /\ t_ins u = t_ins t) ->
              filter P (map (image ins) us) = if P (image ins t) then map (image ins) us else []).
    { induction us as [|u us IHu]; intros Hu; [now destruct (P _)|]. cbn [map filter]. rewrite IHu by (intros; apply Hu; now right).
      destruct (Hu u (or_introl eq_refl)) as [E1 E2]. rewrite (HP (image ins u) (image ins t)); [now destruct (P _)|exact E1|cbn; now rewrite E2]. }
    rewrite (C (cls t)) by (intros u Hu; apply filter_In in Hu; destruct Hu as [_ Hu]; apply (same_trans_iff aeqb teqb AE TE) in Hu; destruct Hu; split; congruence).
    destruct (P (image ins t)).
    - cbn [map]. rewrite (wsum_cons wadd wzero SL). f_equal. cbn [image t_weight]. rewrite map_map. cbn [image t_weight]. apply W. now left.
    - cbn [map app]. unfold S_Automata.wsum at 2. cbn. destruct SL as (_ & _ & Z). symmetry. apply Z.
  Qed.
  Lemma merged_image t : merged wadd wzero beqb teqb (map (image ins) l) t <-> merged wadd wzero beqb teqb (map (image ins) ts) t.
  Proof.
    unfold merged. rewrite (regroup (same_trans beqb teqb t)).
    - split; intros [(t0 & H0 & E1 & E2) W]; (split; [|exact W]); apply in_map_iff in H0; destruct H0 as (t1 & <- & H1).
      + apply HL in H1. destruct H1 as [(t2 & H2 & F1 & F2) _]. exists (image ins t2). split; [now apply in_map|]. cbn [image t_word t_ins] in *. split; congruence.
      + set (m := Trans (t_word t1) (wsum (map t_weight (cls t1))) (t_ins t1)). assert (Hm : In m l) by (apply HL; split; [exists t1; auto|reflexivity]).
        exists (image ins m). split; [now apply in_map|]. cbn [image t_word t_ins m] in *. split; congruence.
    - intros u v E1 E2. unfold same_trans. now rewrite E1, E2.
  Qed.
End Regroup.

(* the transitions of a coarse grammar *)
Lemma coarse_transitions {A B T : Type} {K : Weight} (teqb : T -> T -> bool) (TE : EqbSpec teqb) (f : A -> B) (order : list T -> list T) (OR : forall l, Permutation (order l) l) (g : cfg A T K) :
  Permutation (map (image (rlb_ins (ps_map f))) (cfg_transitions teqb order g)) (cfg_transitions teqb order (coarse f g)).
Proof.
  destruct (cfg_transitions_eq teqb TE order OR g) as (terms & N1 & H1 & ->). destruct (cfg_transitions_eq teqb TE order OR (coarse f g)) as (terms' & N2 & H2 & ->).
  rewrite !map_app, !map_map. cbn [coarse cg_rules cg_initial]. rewrite !map_map. apply Permutation_app; [|apply Permutation_app].
  - erewrite map_ext; [reflexivity|]. intros r. apply image_rule.
  - assert (P : Permutation terms terms') by (apply NoDup_Permutation; [exact N1|exact N2|]; intros x; now rewrite H1, H2, occurs_coarse). erewrite map_ext; [apply Permutation_map, P|]. reflexivity.
  - reflexivity.
Qed.

(* the distinct elements of a list *)
Lemma distinct_list {X : Type} (eqb : X -> X -> bool) (E : EqbSpec eqb) (l : list X) : exists d, NoDup d /\ forall x, In x d <-> In x l.
Proof. exists (distinct eqb l). split; [now apply distinct_NoDup|intros x; now apply distinct_In]. Qed.

Lemma letter_eqb_spec neqb teqb : EqbSpec neqb -> EqbSpec teqb -> EqbSpec (letter_eqb neqb teqb).
Proof.
  intros NE TE [a|a] [b|b]; cbn; [rewrite (NE a b)| | |rewrite (TE a b)]; split; intros H; try discriminate; congruence.
Qed.

Section Printed.
  Context {K : ZWeight} (neqb teqb : bytes -> bytes -> bool) (NE : EqbSpec neqb) (TE : EqbSpec teqb) (wadd : K -> K -> K) (WZ : forall x, wadd wzero x = x)
          (iow : text_io K) (debug_string : bytes -> bytes) (init : list bytes) (rules : list (cfg_rule bytes bytes K)).
  Notation tr := (transition (pd_instr (push_state bytes bytes)) bytes K).
  Notation stack_text := (push_state_text (X := bytes) (Y := bytes) (fun x => x) (fun x => x)).
  Notation wsum := (wsum wadd wzero).
  Notation line := (fun t : tr => transition_text iow debug_string (pdi_text stack_text) t ++ newline).
  Definition init_sum (s : bytes) : tr := Trans [] (wsum (map (fun _ => wone) (filter (neqb s) init))) (Replace [M_CFG.Initial] [PNt s]).

  Lemma commas_eq l : M_Text.commas l = S_TsaCommand.commas l.
  Proof. induction l as [|x l IH]; [reflexivity|]. destruct l as [|y l]; [reflexivity|]. change (x ++ «", "» ++ M_Text.commas (y :: l) = x ++ «", "» ++ S_TsaCommand.commas (y :: l)). now rewrite IH. Qed.
  Lemma line_text (w : list bytes) k c n : line (Trans w k (Replace c n)) = replace_line debug_string w (map stack_text c) (map stack_text n) (to_text iow k).
  Proof.
    unfold transition_text, pdi_text, replace_line, list_text. cbn [t_word t_ins t_weight pi_current pi_new]. rewrite !commas_eq, !map_map. unfold in_quotes. now rewrite <- !app_assoc.
  Qed.
  Lemma sym_text x : stack_text (sym x) = in_parentheses (letter_name x).
  Proof. now destruct x. Qed.
  Lemma rule_text r : line (rule_trans r) = rule_line debug_string (to_text iow) r.
  Proof.
    unfold rule_trans, rule_line. rewrite line_text. f_equal. rewrite map_rev, map_map. f_equal. apply map_ext, sym_text.
  Qed.

  Lemma sym_eq x y : ps_eqb neqb teqb (sym x) (sym y) = letter_eqb neqb teqb x y.
  Proof. now destruct x, y. Qed.
  Lemma list_eqb_sym : forall a b, M_Automata.list_eqb (ps_eqb neqb teqb) (map sym a) (map sym b) = M_Automata.list_eqb (letter_eqb neqb teqb) a b.
  Proof. induction a as [|x a IH]; intros [|y b]; try reflexivity. cbn. now rewrite sym_eq, IH. Qed.
  Lemma same_rule_spec (r r' : cfg_rule bytes bytes K) : same_rule neqb teqb r r' = true <-> cr_head r = cr_head r' /\ cr_rhs r = cr_rhs r'.
  Proof. unfold same_rule. rewrite andb_true_iff, (NE _ _), (list_eqb_spec _ (letter_eqb_spec neqb teqb NE TE) _ _). reflexivity. Qed.

  Lemma sym_inj x y : sym (N := bytes) (T := bytes) x = sym y -> x = y.
  Proof. destruct x, y; cbn; congruence. Qed.
  Lemma syms_inj a b : rev (map (sym (N := bytes) (T := bytes)) a) = rev (map sym b) -> a = b.
  Proof.
    intros E. apply (f_equal (@rev _)) in E. rewrite !rev_involutive in E. revert b E. induction a as [|x a IH]; intros [|y b] E; try discriminate; [reflexivity|].
    cbn in E. injection E as E1 E2. apply sym_inj in E1. subst y. f_equal. now apply IH.
  Qed.

  Context (terms : list bytes) (NT : NoDup terms).
  Notation Ts := (map (rule_trans (K := K)) rules ++ map read_trans terms ++ map init_trans init).
  Notation same := (same_trans (K := K) (ps_eqb neqb teqb) teqb).
  Notation tr_in := (merged wadd wzero (ps_eqb neqb teqb) teqb Ts).
  Lemma same_spec (t u : tr) : same t u = true <-> t_word t = t_word u /\ t_ins t = t_ins u.
  Proof. apply (same_trans_iff _ _ (ps_eqb_spec neqb teqb NE TE) TE). Qed.
  Lemma filter_none {X : Type} (p : X -> bool) xs : (forall x, In x xs -> p x = false) -> filter p xs = [].
  Proof. induction xs as [|x xs IH]; intros H; [reflexivity|]. cbn. rewrite (H x (or_introl eq_refl)). apply IH. intros; apply H; now right. Qed.
  Lemma filter_map {X Y : Type} (p : Y -> bool) (h : X -> Y) xs : filter p (map h xs) = map h (filter (fun x => p (h x)) xs).
  Proof. induction xs as [|x xs IH]; [reflexivity|]. cbn. destruct (p (h x)); cbn; now rewrite IH. Qed.
  Lemma not_same (t u : tr) : (t_word t <> t_word u \/ t_ins t <> t_ins u) -> same t u = false.
  Proof. intros H. destruct (same t u) eqn:E; [|reflexivity]. apply same_spec in E. destruct E, H; contradiction. Qed.
  Lemma filter_one {X : Type} (eqb : X -> X -> bool) (E : EqbSpec eqb) x xs : NoDup xs -> In x xs -> filter (eqb x) xs = [x].
  Proof.
    induction xs as [|y xs IH]; intros ND Hx; [destruct Hx|]. apply NoDup_cons_iff in ND. destruct ND as [N1 N2]. cbn. destruct (eqb x y) eqn:EE.
    - apply E in EE. subst y. f_equal. apply filter_none. intros z Hz. destruct (eqb x z) eqn:EZ; [|reflexivity]. apply E in EZ. now subst z.
    - destruct Hx as [->|Hx]; [|now apply IH]. rewrite (proj2 (E x x) eq_refl) in EE. discriminate.
  Qed.

  (* the transitions: rules, terminals, initial nonterminals *)
  Lemma kinds t : tr_in t <-> (exists r, joined neqb teqb wadd rules r /\ t = rule_trans r) \/ (exists x, In x terms /\ t = read_trans x) \/ (exists s, In s init /\ t = init_sum s).
  Proof.
    assert (FR : forall r : cfg_rule bytes bytes K, filter (same (rule_trans r)) Ts = map rule_trans (filter (same_rule neqb teqb r) rules)).
    { intros r. rewrite !filter_app, !filter_map. rewrite (filter_none _ terms), (filter_none _ init) by (intros; apply not_same; cbn; first [left; discriminate|right; discriminate]). cbn [map]. rewrite !app_nil_r.
      f_equal. apply filter_ext. intros r'. apply eq_true_iff_eq. rewrite same_rule_spec, same_spec. unfold rule_trans. cbn [t_word t_ins]. split.
      - intros [_ E]. injection E as E1 E2. split; [exact E1|]. now apply syms_inj.
      - intros [-> ->]. auto. }
    assert (FX : forall x, In x terms -> filter (same (read_trans x)) Ts = [read_trans x]).
    { intros x Hx. rewrite !filter_app, !filter_map. rewrite (filter_none _ rules), (filter_none _ init) by (intros; apply not_same; left; discriminate). cbn [map app]. rewrite app_nil_r.
      rewrite (filter_ext _ (teqb x)); [now rewrite (filter_one teqb TE x terms NT Hx)|]. intros y. apply eq_true_iff_eq. rewrite (TE x y), same_spec. cbn. split; [intros [E _]; congruence|intros ->; auto]. }
    assert (FS : forall s, filter (same (init_sum s)) Ts = map init_trans (filter (neqb s) init)).
    { intros s. rewrite !filter_app, !filter_map. rewrite (filter_none _ rules), (filter_none _ terms) by (intros; apply not_same; cbn; first [left; discriminate|right; discriminate]). cbn [map app].
      f_equal. apply filter_ext. intros y. apply eq_true_iff_eq. rewrite (NE s y), same_spec. cbn. split; [intros [_ E]; congruence|intros ->; auto]. }
    split.
    - intros [(t0 & H0 & E1 & E2) W]. apply in_app_iff in H0. rewrite in_app_iff in H0. destruct H0 as [H0|[H0|H0]]; apply in_map_iff in H0.
      + destruct H0 as (r & <- & Hr). left. destruct t as [w k i]. cbn [t_word t_ins t_weight rule_trans] in *. subst w i. exists (CFGRule (cr_head r) (cr_rhs r) k). split; [|reflexivity].
        split; [exists r; auto|]. cbn [cr_weight]. change (Trans [] k (Replace [PNt (cr_head r)] (rev (map sym (cr_rhs r))))) with (rule_trans (CFGRule (cr_head r) (cr_rhs r) k) : tr) in W.
        rewrite FR, map_map in W. exact W.
      + destruct H0 as (x & <- & Hx). right. left. exists x. split; [exact Hx|]. destruct t as [w k i]. cbn [t_word t_ins t_weight read_trans] in *. subst w i. unfold read_trans. f_equal.
        change (same (Trans [x] k (Replace [PT x] []))) with (same (read_trans x)) in W. rewrite (FX x Hx) in W. cbn in W. rewrite W. apply WZ.
      + destruct H0 as (s & <- & Hs). right. right. exists s. split; [exact Hs|]. destruct t as [w k i]. cbn [t_word t_ins t_weight init_trans] in *. subst w i. unfold init_sum. f_equal.
        change (same (Trans [] k (Replace [M_CFG.Initial] [PNt s]))) with (same (init_sum s)) in W. rewrite FS, map_map in W. exact W.
    - intros [(r & [(r0 & H0 & E1 & E2) W] & ->)|[(x & Hx & ->)|(s & Hs & ->)]].
      + split; [|rewrite FR, map_map; exact W]. exists (rule_trans r0). split; [apply in_or_app; left; now apply in_map|]. unfold rule_trans. cbn [t_word t_ins]. now rewrite E1, E2.
      + split; [|rewrite (FX x Hx); cbn; symmetry; apply WZ]. exists (read_trans x). split; [apply in_or_app; right; apply in_or_app; left; now apply in_map|auto].
      + split; [|rewrite FS, map_map; reflexivity]. exists (init_trans s). split; [apply in_or_app; right; apply in_or_app; right; now apply in_map|auto].
  Qed.

  Lemma joined_list : exists rs, NoDup (map (fun r => (cr_head r, cr_rhs r)) rs) /\ forall r, In r rs <-> joined neqb teqb wadd rules r.
  Proof.
    set (keq := fun a b : bytes * list (lettert bytes bytes) => neqb (fst a) (fst b) && M_Automata.list_eqb (letter_eqb neqb teqb) (snd a) (snd b)).
    assert (KE : EqbSpec keq).
    { intros [a b] [a' b']. unfold keq. cbn [fst snd]. rewrite andb_true_iff, (NE _ _), (list_eqb_spec _ (letter_eqb_spec neqb teqb NE TE) _ _). split; [intros [-> ->]; auto|intros E; injection E; auto]. }
    destruct (distinct_list keq KE (map (fun r => (cr_head r, cr_rhs r)) rules)) as (ks & N & H).
    set (mk := fun k : bytes * list (lettert bytes bytes) => CFGRule (fst k) (snd k) (wsum (map cr_weight (filter (same_rule neqb teqb (CFGRule (fst k) (snd k) wone)) rules))) : cfg_rule bytes bytes K).
    exists (map mk ks). split.
    - rewrite map_map. erewrite map_ext; [rewrite map_id; exact N|]. now intros [a b].
    - intros r. rewrite in_map_iff. split.
      + intros (k & <- & Hk). apply H in Hk. apply in_map_iff in Hk. destruct Hk as (r0 & <- & H0). split; [exists r0; auto|reflexivity].
      + intros [(r0 & H0 & E1 & E2) W]. exists (cr_head r, cr_rhs r). split; [|apply H, in_map_iff; exists r0; split; [congruence|exact H0]]. destruct r as [a b k]. cbn in *. unfold mk. cbn [fst snd]. f_equal. symmetry. exact W.
  Qed.

  Lemma cfg_printed (TI : forall x, In x terms <-> exists r, In r rules /\ In (Value x) (cr_rhs r)) (l : list tr) : NoDup l -> (forall t, In t l <-> tr_in t) ->
    cfg_automaton_printed neqb teqb wadd debug_string (to_text iow) init rules
      («"initial: stack: [@ I], empty:@"» ++ newline ++ newline ++ List.concat (map line l) ++ newline).
  Proof.
    intros NL HL. destruct joined_list as (rs & R1 & R2). destruct (distinct_list neqb NE init) as (ss & S1 & S2). exists rs, terms, ss, (map line l).
    split; [exact R1|]. split; [exact R2|]. split; [exact NT|]. split; [exact TI|]. split; [exact S1|]. split; [exact S2|]. split; [|reflexivity].
    assert (P : Permutation l (map rule_trans rs ++ map read_trans terms ++ map init_sum ss)).
    { apply NoDup_Permutation; [exact NL| |].
      - apply NoDup_app_intro; [| |].
        + apply nodup_map_on; [exact (nodup_of_map _ _ R1)|]. intros r r' Hr Hr' E. apply (nodup_map_inj _ _ R1 r r' Hr Hr'). unfold rule_trans in E. injection E as _ E2 E3. apply syms_inj in E3. congruence.
        + apply NoDup_app_intro; [apply nodup_map_on; [exact NT|]; intros x y _ _ E; now injection E| |].
          * apply nodup_map_on; [exact S1|]. intros x y _ _ E. unfold init_sum in E. now injection E.
          * intros t H1 H2. apply in_map_iff in H1, H2. destruct H1 as (x & <- & _). destruct H2 as (s & E & _). discriminate.
        + intros t H1 H2. apply in_map_iff in H1. destruct H1 as (r & <- & _). apply in_app_iff in H2. destruct H2 as [H2|H2]; apply in_map_iff in H2; destruct H2 as (x & E & _); unfold rule_trans in E; discriminate.
      - intros t. rewrite HL, kinds, !in_app_iff, !in_map_iff. split.
        + intros [(r & Hr & ->)|[(x & Hx & ->)|(s & Hs & ->)]]; [left; exists r; split; [reflexivity|now apply R2]|right; left; eauto|right; right; exists s; split; [reflexivity|now apply S2]].
        + intros [(r & <- & Hr)|[(x & <- & Hx)|(s & <- & Hs)]]; [left; exists r; split; [now apply R2|reflexivity]|right; left; eauto|right; right; exists s; split; [now apply S2|reflexivity]]. }
    apply (Permutation_map line) in P. rewrite !map_app, !map_map in P. rewrite P. apply Permutation_app; [|apply Permutation_app].
    - erewrite map_ext; [reflexivity|]. apply rule_text.
    - erewrite map_ext; [reflexivity|]. intros x. unfold read_trans, read_line. now rewrite line_text.
    - erewrite map_ext; [reflexivity|]. intros s. unfold init_sum, init_line. now rewrite line_text.
  Qed.
End Printed.
