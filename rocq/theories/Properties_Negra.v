(* C36, C37: separate_terminal_rules and the NEGRA export. *)
From Verif Require Import Base BMap M_Util M_Recog M_Automata M_CFG M_TreeStack M_Grammar M_Negra
  S_Recog S_Grammar S_Negra P_Automata P_TreeStack P_Grammar P_GrammarCFG P_Conversion P_Separate P_Negra.

(* C36: whenever separate_terminal_rules returns, its result encodes a derivation from the same nonterminal with the same
   yield.  The encoding of d as a sorted map from addresses to rules is as in C35. *)
Theorem C36_yield :
  forall (HT W : Type) (heqb : HT -> HT -> bool) (ext : HT -> HT -> HT), EqbSpec heqb ->
  forall (d : dtree HT HT W) (A : HT) (tree_map tree_map' : gorn (prule HT HT W)) (fuel : nat),
    deriv (fun _ => True) A d ->
    sorted_keys addr_cmp (map fst tree_map) -> (forall addr, gt_get addr tree_map = rule_at d addr) ->
    separate heqb ext fuel tree_map = Some tree_map' ->
    exists d', sorted_keys addr_cmp (map fst tree_map') /\ (forall addr, gt_get addr tree_map' = rule_at d' addr) /\
      deriv (fun _ => True) A d' /\ (forall y, yield d = Some y -> yield d' = Some y).
Proof.
  intros HT W heqb ext HE d A m m' fuel HD S0 HM HS. exists (sepT heqb ext fuel (olds m) d).
  destruct (separate_tree heqb ext d A HD m S0 HM fuel m' HS) as (H1 & H2). pose proof (sep_defined heqb ext d m S0 HM fuel m' HS) as SD.
  split; [exact H1|]. split; [exact H2|]. split; [apply sepT_deriv; assumption|]. intros y Hy. eapply sepT_yield; eauto.
Qed.
Print Assumptions C36_yield.

(* C36: every rule of the input reappears at its address with the same head, weight and successors, possibly followed by
   new successors, and the new successors are named differently from all nonterminals of the input *)
Theorem C36_old_nodes :
  forall (HT W : Type) (heqb : HT -> HT -> bool) (ext : HT -> HT -> HT), EqbSpec heqb ->
  forall (d : dtree HT HT W) (A : HT) (tree_map tree_map' : gorn (prule HT HT W)) (fuel : nat),
    deriv (fun _ => True) A d ->
    sorted_keys addr_cmp (map fst tree_map) -> (forall addr, gt_get addr tree_map = rule_at d addr) ->
    separate heqb ext fuel tree_map = Some tree_map' ->
    forall addr r, rule_at d addr = Some r ->
      exists r' new, gt_get addr tree_map' = Some r' /\ pr_head r' = pr_head r /\ pr_weight r' = pr_weight r /\ pr_tail r' = pr_tail r ++ new /\
        (forall B a s, In B new -> rule_at d a = Some s -> pr_head s <> B).
Proof.
  intros HT W heqb ext HE d A m m' fuel HD S0 HM HS addr r Hr. destruct (separate_tree heqb ext d A HD m S0 HM fuel m' HS) as (H1 & H2).
  assert (Hin : In r (d_rules d)) by (apply d_rules_at; eauto). pose proof (sep_defined heqb ext d m S0 HM fuel m' HS r Hin) as SD.
  assert (G : gt_get addr m' = Some (fst (sep_of heqb ext fuel (olds m) r))) by (rewrite H2; apply (rule_at_sepT heqb ext fuel (olds m) addr d A _ HD); left; eauto).
  rewrite G. unfold sep_of in *. destruct (sep_rule heqb ext fuel (olds m) r) as [x|] eqn:Ex; [|congruence].
  destruct (sep_rule_spec heqb HE ext fuel (olds m) r x Ex) as [(-> & _)|(L & names & _ & NN & _ & -> & _)]; cbn [fst].
  - exists r, []. rewrite app_nil_r. repeat split; auto.
  - eexists _, names. split; [reflexivity|]. cbn. repeat split. intros B a s HB Hs E. apply (NN B HB). unfold olds. apply in_map_iff. exists (a, s). split; [exact E|]. now apply (in_map_tree d m S0 HM).
Qed.
Print Assumptions C36_old_nodes.

(* C36: meets_negra_criteria decides the normal form *)
Theorem C36_criteria :
  forall (N T W : Type) (tree_map : gorn (prule N T W)),
    meets_negra_criteria tree_map = true <-> forall addr r, In (addr, r) tree_map -> negra_normal (pr_comp r).
Proof.
  intros N T W m. unfold meets_negra_criteria. rewrite forallb_forall. split.
  - intros H addr r Hin. specialize (H _ Hin). apply negra_symbols_spec in H. exact H.
  - intros H [addr r] Hin. apply negra_symbols_spec. exact (H addr r Hin).
Qed.
Print Assumptions C36_criteria.

(* C36: the result is in normal form exactly if no rule of the input consists of one terminal followed by variables.
   Full statement (always in normal form) is refuted below. *)
Theorem C36_normal_form_partial :
  forall (HT W : Type) (heqb : HT -> HT -> bool) (ext : HT -> HT -> HT), EqbSpec heqb ->
  forall (d : dtree HT HT W) (A : HT) (tree_map tree_map' : gorn (prule HT HT W)) (fuel : nat),
    deriv (fun _ => True) A d ->
    sorted_keys addr_cmp (map fst tree_map) -> (forall addr, gt_get addr tree_map = rule_at d addr) ->
    separate heqb ext fuel tree_map = Some tree_map' ->
    (forall addr r, In (addr, r) tree_map' -> negra_normal (pr_comp r)) <->
    (forall r, In r (d_rules d) -> ~ exists t x l, concat (pr_comp r) = Tm t :: x :: l /\ forall y, In y (x :: l) -> exists i j, y = Var i j).
Proof.
  intros HT W heqb ext HE d A m m' fuel HD S0 HM HS. rewrite <- C36_criteria. rewrite (separate_criteria heqb HE ext d A HD m S0 HM fuel m' HS). split.
  - intros H r Hr. apply d_rules_at in Hr. destruct Hr as (a & Ha). exact (H a r Ha).
  - intros H a r Ha. apply H. apply d_rules_at. eauto.
Qed.
Print Assumptions C36_normal_form_partial.

(* C36: for strings, the search for new names ends if no terminal is the empty string *)
Theorem C36_terminates :
  forall (C W : Type) (heqb : list C -> list C -> bool), EqbSpec heqb ->
  forall (tree_map : gorn (prule (list C) (list C) W)),
    (forall addr r t, In (addr, r) tree_map -> In (Tm t) (concat (pr_comp r)) -> t <> []) ->
    forall fuel, length tree_map < fuel -> exists tree_map', separate heqb (@app C) fuel tree_map = Some tree_map' /\ separate heqb (@app C) (S (length tree_map)) tree_map = Some tree_map'.
Proof.
  intros C W heqb HE m HT fuel HF. set (old := map (fun e : list nat * prule (list C) (list C) W => pr_head (snd e)) m).
  assert (OL : length old = length m) by (unfold old; apply map_length).
  (* the k-th name tried *)
  set (try := fix try (o t : list C) (k : nat) := match k with 0 => t | S k => try o (t ++ o) k end).
  assert (LT : forall o k t, length (try o t k) = length t + k * length o) by (intros o; induction k as [|k IH]; intros t; cbn; [lia|]; rewrite IH, app_length; lia).
  assert (FN : forall f o t, fresh_head heqb (@app C) f old o t = None -> forall k, k < f -> In (try o t k) old).
  { induction f as [|f IH]; intros o t H k Hk; [lia|]. cbn [fresh_head] in H. destruct (memb heqb t old) eqn:M; [|discriminate]. destruct k as [|k]; cbn [try]; [now apply (memb_In heqb HE)|]. apply IH; [assumption|lia]. }
  assert (F1 : forall f f' o t x, fresh_head heqb (@app C) f old o t = Some x -> f <= f' -> fresh_head heqb (@app C) f' old o t = Some x).
  { induction f as [|f IH]; intros f' o t x H L; [discriminate|]. destruct f' as [|f']; [lia|]. cbn [fresh_head] in *. destruct (memb heqb t old); [apply IH; [assumption|lia]|assumption]. }
  assert (FS : forall o, o <> [] -> exists x, fresh_head heqb (@app C) (S (length m)) old o o = Some x).
  { intros o No. destruct (fresh_head heqb (@app C) (S (length m)) old o o) as [x|] eqn:E; [eauto|]. exfalso. pose proof (FN _ _ _ E) as HIn.
    assert (ND : NoDup (map (try o o) (seq 0 (S (length m))))).
    { apply NoDup_map_inj; [apply seq_NoDup|]. intros x y _ _ Exy. apply (f_equal (@length C)) in Exy. rewrite !LT in Exy. destruct o as [|c o]; [congruence|]. cbn [length] in Exy. nia. }
    assert (INC : incl (map (try o o) (seq 0 (S (length m)))) old) by (intros x Hx; apply in_map_iff in Hx; destruct Hx as (k & <- & Hk); apply in_seq in Hk; apply HIn; lia).
    pose proof (NoDup_incl_length ND INC) as L. rewrite map_length, seq_length in L. lia. }
  assert (SR : forall addr r, In (addr, r) m -> exists x, forall f, length m < f -> sep_rule heqb (@app C) f old r = Some x).
  { intros addr r Hin. unfold sep_rule. rewrite (sep_composition_spec heqb HE). set (L := fold_left (see heqb) (concat (pr_comp r)) []).
    destruct (snd (fold_left flag (concat (pr_comp r)) (true, false))); [eauto|].
    assert (HL : forall t, In t L -> t <> []).
    { assert (GEN : forall l s, (forall t, In t s -> t <> []) -> (forall t, In (Tm t) l -> t <> []) -> forall t, In t (fold_left (see heqb) l s) -> t <> []).
      { induction l as [|z l IH]; intros s Hs Hl; [exact Hs|]. cbn [fold_left]. apply IH; [|intros; apply Hl; now right]. destruct z as [i j|t]; cbn [see]; [exact Hs|]. destruct (index_of heqb t s); [exact Hs|].
        intros t' Ht'. apply in_app_iff in Ht'. destruct Ht' as [Ht'|[<-|[]]]; [now apply Hs|]. apply Hl. now left. }
      apply GEN; [intros t []|]. intros t Ht. exact (HT addr r t Hin Ht). }
    destruct (opt_all_total (fun t => fresh_head heqb (@app C) (S (length m)) old t t) L) as (names & EN); [intros t Ht; destruct (FS t (HL t Ht)) as (x & ->); discriminate|].
    eexists. intros f Hf. replace (opt_all (fun t => fresh_head heqb (@app C) f old t t) L) with (Some names); [reflexivity|]. rewrite <- EN. apply opt_all_ext. intros t Ht.
    destruct (FS t (HL t Ht)) as (x & Ex). rewrite Ex. symmetry. apply (F1 _ _ _ _ _ Ex). lia. }
  assert (OA : exists xs, forall f, length m < f -> opt_all (fun e => option_map (sep_entries e) (sep_rule heqb (@app C) f old (snd e))) m = Some xs).
  { revert SR. generalize (length m) as n. clearbody old. clear. intros n SR. induction m as [|[a r] m IH]; [exists []; reflexivity|].
    destruct (SR a r (or_introl eq_refl)) as (x & Hx). destruct IH as (xs & Hxs); [intros a' r' H; apply (SR a' r'); now right|]. eexists. intros f Hf. cbn [opt_all snd]. rewrite (Hx f Hf), (Hxs f Hf). reflexivity. }
  destruct OA as (xs & HX). unfold separate. fold old. rewrite (HX fuel HF), (HX (S (length m))) by lia. cbn [option_map]. eauto.
Qed.
Print Assumptions C36_terminates.

Definition ex_rule (h : list nat) (tl : list (list nat)) (c : composition (list nat)) : prule (list nat) (list nat) unit := PRule h tl c tt.
Definition ex_sep_d : dtree (list nat) (list nat) unit :=
  DNode (ex_rule [1] [[2]] [[Var 0 0; Tm [5]; Var 0 1; Tm [5]; Tm [2]]]) [DNode (ex_rule [2] [] [[Tm [7]; Tm [8]]; [Tm [7]]]) []].
Definition ex_sep_m : gorn (prule (list nat) (list nat) unit) :=
  [([], ex_rule [1] [[2]] [[Var 0 0; Tm [5]; Var 0 1; Tm [5]; Tm [2]]]); ([0], ex_rule [2] [] [[Tm [7]; Tm [8]]; [Tm [7]]])].
Example C36_example :
  deriv (fun _ => True) [1] ex_sep_d /\ sorted_keys addr_cmp (map fst ex_sep_m) /\ (forall addr, gt_get addr ex_sep_m = rule_at ex_sep_d addr) /\
  yield ex_sep_d = Some [[[7]; [8]; [5]; [7]; [5]; [2]]] /\
  separate list_eqb (@app nat) 3 ex_sep_m = Some
    [([], ex_rule [1] [[2]; [5]; [2; 2]] [[Var 0 0; Var 1 0; Var 0 1; Var 1 0; Var 2 0]]);
     ([0], ex_rule [2] [[7]; [8]] [[Var 0 0; Var 1 0]; [Var 0 0]]);
     ([0; 0], ex_rule [7] [] [[Tm [7]]]); ([0; 1], ex_rule [8] [] [[Tm [8]]]);
     ([1], ex_rule [5] [] [[Tm [5]]]); ([2], ex_rule [2; 2] [] [[Tm [2]]])].
Proof.
  split; [|split; [|split; [|split]]].
  - apply (deriv_node (fun _ => True) (ex_rule [1] [[2]] _)); [exact I|]. constructor; [|constructor]. apply (deriv_node (fun _ => True) (ex_rule [2] [] _)); [exact I|constructor].
  - cbn. split; [intros b [<-|[]]; reflexivity|]. split; [intros b []|exact I].
  - intros [|[|[|i]] [|j r]]; try reflexivity; cbn; try (destruct j; reflexivity).
  - reflexivity.
  - reflexivity.
Qed.

(* C36 (normal form), refuted: a rule of one terminal followed by variables is left as it is *)
Theorem C36_normal_form_refuted :
  exists (d : dtree (list nat) (list nat) unit) tree_map,
    deriv (fun _ => True) [1] d /\ sorted_keys addr_cmp (map fst tree_map) /\ (forall addr, gt_get addr tree_map = rule_at d addr) /\
    yield d = Some [[[5]; [7]]] /\ (forall fuel, separate list_eqb (@app nat) (S fuel) tree_map = Some tree_map) /\ meets_negra_criteria tree_map = false.
Proof.
  exists (DNode (ex_rule [1] [[2]] [[Tm [5]; Var 0 0]]) [DNode (ex_rule [2] [] [[Tm [7]]]) []]), [([], ex_rule [1] [[2]] [[Tm [5]; Var 0 0]]); ([0], ex_rule [2] [] [[Tm [7]]])].
  split; [|split; [|split; [|split; [|split]]]]; try reflexivity.
  - apply (deriv_node (fun _ => True) (ex_rule [1] [[2]] _)); [exact I|]. constructor; [|constructor]. apply (deriv_node (fun _ => True) (ex_rule [2] [] _)); [exact I|constructor].
  - cbn. split; [intros b [<-|[]]; reflexivity|]. split; [intros b []|exact I].
  - intros [|[|[|i]] [|j r]]; try reflexivity; cbn; try (destruct j; reflexivity).
Qed.
Print Assumptions C36_normal_form_refuted.

(* C36 (termination), refuted: an empty terminal that is also a nonterminal keeps the loop running forever *)
Theorem C36_terminates_refuted :
  exists (d : dtree (list nat) (list nat) unit) tree_map,
    deriv (fun _ => True) [] d /\ sorted_keys addr_cmp (map fst tree_map) /\ (forall addr, gt_get addr tree_map = rule_at d addr) /\ yield d <> None /\
    forall fuel, separate list_eqb (@app nat) fuel tree_map = None.
Proof.
  exists (DNode (ex_rule [] [] [[Tm []; Tm []]]) []), [([], ex_rule [] [] [[Tm []; Tm []]])].
  split; [|split; [|split; [|split]]].
  - apply (deriv_node (fun _ => True) (ex_rule [] [] _)); [exact I|constructor].
  - cbn. split; [intros b []|exact I].
  - intros [|[|i] r]; reflexivity.
  - discriminate.
  - intros fuel. unfold separate. cbn [opt_all map snd pr_head ex_rule]. replace (sep_rule list_eqb (@app nat) fuel [[]] (ex_rule [] [] [[Tm []; Tm []]])) with (@None (prule (list nat) (list nat) unit * list (prule (list nat) (list nat) unit))); [reflexivity|].
    unfold sep_rule. cbn. assert (F : forall f, fresh_head list_eqb (@app nat) f [[]] [] [] = None) by (induction f as [|f IH]; [reflexivity|cbn; exact IH]). rewrite F. reflexivity.
Qed.
Print Assumptions C36_terminates_refuted.

(* C37: for every derivation in normal form whose words do not stand at the root, the export consists of the words in
   sentence order followed by one line for each inner node above a word; numbers are distinct and each line names the
   number of its parent, 0 for the root *)
Theorem C37_export :
  forall (N T W : Type) (d : dtree N T W) (tree_map : gorn (prule N T W)) (mode : dump_mode T) (ls : list (list nat * T)),
    sorted_keys addr_cmp (map fst tree_map) -> (forall addr, gt_get addr tree_map = rule_at d addr) ->
    (forall addr r, In (addr, r) tree_map -> negra_normal (pr_comp r)) ->
    leaves d = Some ls -> (forall x, In x ls -> fst x <> []) -> (forall ws, mode = FromPos ws -> length ls <= length ws) ->
    exists fuel0 lines, (forall fuel, fuel0 <= fuel -> to_negra fuel tree_map mode = Some lines) /\
      negra_export d (map fst ls) (mode_words mode (map snd ls)) lines.
Proof.
  intros N T W d m mode ls S0 HM HN HL HR HW. apply C36_criteria in HN. unfold to_negra. rewrite HN. now apply vector_ok.
Qed.
Print Assumptions C37_export.

(* C37: the leaves spell the yield *)
Theorem C37_words :
  forall (N T W : Type) (d : dtree N T W), option_map (@concat T) (yield d) = option_map (map snd) (leaves d).
Proof. intros N T W d. apply yield_leaves. Qed.
Print Assumptions C37_words.

(* C37: otherwise to_negra panics *)
Theorem C37_panics :
  forall (N T W : Type) (d : dtree N T W) (tree_map : gorn (prule N T W)) (mode : dump_mode T),
    sorted_keys addr_cmp (map fst tree_map) -> (forall addr, gt_get addr tree_map = rule_at d addr) ->
    ((exists addr r, In (addr, r) tree_map /\ ~ negra_normal (pr_comp r)) \/ leaves d = None \/
     exists ls, leaves d = Some ls /\ ((exists x, In x ls /\ fst x = []) \/ exists ws, mode = FromPos ws /\ length ws < length ls)) ->
    forall fuel, to_negra fuel tree_map mode = None.
Proof.
  intros N T W d m mode S0 HM [(addr & r & Hin & NN)|H] fuel; unfold to_negra; destruct (meets_negra_criteria m) eqn:E; try reflexivity.
  - exfalso. apply NN. apply (proj1 (C36_criteria _ _ _ m) E addr r Hin).
  - eapply vector_panics; eassumption.
Qed.
Print Assumptions C37_panics.

(* a discontinuous tree: node [0] covers the first and the third word *)
Definition ex_nr (h : nat) (tl : list nat) (c : composition nat) : prule nat nat unit := PRule h tl c tt.
Definition ex_ng_d : dtree nat nat unit :=
  DNode (ex_nr 1 [2; 3] [[Var 0 0; Var 1 0; Var 0 1]])
    [DNode (ex_nr 2 [4; 5] [[Var 0 0]; [Var 1 0]]) [DNode (ex_nr 4 [] [[Tm 10]]) []; DNode (ex_nr 5 [] [[Tm 12]]) []]; DNode (ex_nr 3 [] [[Tm 11]]) []].
Definition ex_ng_m : gorn (prule nat nat unit) :=
  [([], ex_nr 1 [2; 3] [[Var 0 0; Var 1 0; Var 0 1]]); ([0], ex_nr 2 [4; 5] [[Var 0 0]; [Var 1 0]]); ([0; 0], ex_nr 4 [] [[Tm 10]]); ([0; 1], ex_nr 5 [] [[Tm 12]]); ([1], ex_nr 3 [] [[Tm 11]])].
Example C37_example :
  leaves ex_ng_d = Some [([0; 0], 10); ([1], 11); ([0; 1], 12)] /\ (forall addr r, In (addr, r) ex_ng_m -> negra_normal (pr_comp r)) /\
  (forall addr, gt_get addr ex_ng_m = rule_at ex_ng_d addr) /\ sorted_keys addr_cmp (map fst ex_ng_m) /\
  to_negra 5 ex_ng_m Default = Some [(NWord 10, 4, 500); (NWord 11, 3, 0); (NWord 12, 5, 500); (NNode 500, 2, 0)].
Proof.
  split; [reflexivity|]. split; [|split; [|split]].
  - apply C36_criteria. reflexivity.
  - intros [|[|[|i]] r]; try reflexivity; [|destruct r as [|j r]; [reflexivity|cbn; destruct j; reflexivity]|cbn; destruct i; reflexivity].
    destruct r as [|[|[|j]] r]; try reflexivity; [destruct r as [|j r]; [reflexivity|cbn; destruct j; reflexivity]|destruct r as [|j r]; [reflexivity|cbn; destruct j; reflexivity]|cbn; destruct j; reflexivity].
  - cbn. repeat split; intros b Hb; repeat (destruct Hb as [<-|Hb]; [reflexivity|]); destruct Hb.
  - reflexivity.
Qed.
