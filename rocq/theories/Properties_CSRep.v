(* C29: the representation of a grammar for Chomsky-Schützenberger parsing covers every derivation. *)
From Verif Require Import Base BMap M_Util M_Recog M_Automata M_Agenda M_TreeStack M_Grammar M_Chart M_CSAuto M_ToDeriv S_Grammar S_CS S_RuleMask P_TreeStack P_Grammar P_GrammarCFG P_Conversion P_CSAuto P_FillChart P_ToDeriv Properties_Chart Properties_RuleMask.

(* The approximation derives, for every derivation of a word by the grammar, a bracket word of the same weight from which
   toderiv reads the derivation.  CR is the list of rules that the automaton built by the code consists of. *)
Theorem C29_covers_every_derivation :
  forall (N T : Type) (K : ZWeight) (KL : ZWeightLaws K) (neqb : N -> N -> bool) (teqb : T -> T -> bool), EqbSpec neqb -> EqbSpec teqb ->
  forall (factorize : K -> nat -> list K), FactorLaws factorize ->
  forall (rules : list (prule N T K)) (init : N) (g : mcfg N T K),
    lcfrs_new neqb rules init = Some (Some g) -> in_normal_form rules = true -> (forall r, In r rules -> pr_comp r <> []) ->
    (forall r, In r rules -> length (pr_tail r) <= 256) ->
    exists a CR, from_grammar neqb teqb factorize rules init = Some a /\ presents teqb a CR (states a) /\
      forall d word, deriv (fun r => In r rules) init d -> yield d = Some [word] ->
        exists t tree, cderiv CR (au_initial a) t word /\ ct_weight CR t = d_weight d /\
          toderiv rules (ct_word CR t) = Some (Some tree) /\ sorted_keys addr_cmp (map fst tree) /\ forall addr, gt_get addr tree = rule_at d addr.
Proof.
  intros N T K KL neqb teqb NE TE factorize FL rules init g HN HF HC HA.
  destruct (C27_accepted_grammars N T K neqb rules init g NE HN HF HC) as ((f & FO & FI & _ & LR) & _ & NF).
  destruct (from_grammar_presents neqb teqb NE TE factorize rules init) as (a & ints & E & ND & ST & PZ & II & EI & LI); [intros r Hr; apply NF; exact Hr|].
  exists a, (map (code_rule neqb ints) (cs_rules factorize rules)). split; [unfold from_grammar; now rewrite E|]. split; [exact PZ|].
  intros d word D Y. destruct (rep_exists rules d init D) as (x & RX).
  pose proof (comp_tree_deriv rules NF x d init [word] 0 word RX D Y eq_refl) as KD.
  destruct (of_k KL factorize FL rules NF _ _ _ _ KD) as (t & CD & CW & CK).
  destruct (toderiv_kword rules _ _ _ _ KD (fun p i => visits_lt rules _ _ _ _ KD [] p i)) as (T1 & T2 & _).
  assert (AT : forall p i, In (p, i) (visits rules (comp_tree rules x 0) []) -> id_at x p = Some i). { intros p i Hin. destruct (visits_comp rules NF HA x d init 0 RX D [] p i Hin) as (ad & -> & Ha). exact Ha. }
  destruct T2 as (tree & ET); [intros p i j H1 H2; apply AT in H1, H2; congruence|]. destruct (T1 tree ET) as (TS & TG & _).
  exists t, tree. split; [rewrite EI; apply (cderiv_code neqb); exact CD|]. split; [|split; [rewrite ct_word_code, CW; exact ET|split; [exact TS|]]].
  - rewrite ct_weight_code, CK. rewrite <- (comp_tree_weight KL factorize FL rules NF f FO LR x d init RX D), FI. cbn [seq map]. symmetry. change (wmul (kweight factorize rules (comp_tree rules x 0)) (wone : K) = kweight factorize rules (comp_tree rules x 0)). rewrite (wl_comm _ (zl_weight _ KL)). apply (wl_one_l _ (zl_weight _ KL)).
  - intros addr. rewrite (rep_at rules x d RX addr). destruct (id_at x addr) as [i|] eqn:EA.
    + destruct (id_at_lt rules x d RX addr i EA) as (r & Er). rewrite Er. apply TG. exists i. split; [|exact Er]. destruct (visits_cover rules NF f FO LR HA x d init RX D addr i [] EA) as (k & Hk & Hin). rewrite FI in Hk. assert (k = 0) by lia. subst k. exact Hin.
    + destruct (gt_get addr tree) as [r|] eqn:EG; [|reflexivity]. apply TG in EG. destruct EG as (i & Hin & _). apply AT in Hin. congruence.
Qed.
Print Assumptions C29_covers_every_derivation.

(* ... and nothing else: toderiv never panics on the bracket words of the approximation, and what it reads is a derivation
   of the word, with the weight of the bracket word's tree *)
Theorem C29_reads_only_derivations :
  forall (N T : Type) (K : ZWeight) (KL : ZWeightLaws K) (neqb : N -> N -> bool) (teqb : T -> T -> bool), EqbSpec neqb -> EqbSpec teqb ->
  forall (factorize : K -> nat -> list K), FactorLaws factorize ->
  forall (rules : list (prule N T K)) (init : N) (g : mcfg N T K),
    lcfrs_new neqb rules init = Some (Some g) -> in_normal_form rules = true -> (forall r, In r rules -> pr_comp r <> []) ->
    (forall r, In r rules -> length (pr_tail r) <= 256) ->
    exists a CR, from_grammar neqb teqb factorize rules init = Some a /\ presents teqb a CR (states a) /\
      forall t word, cderiv CR (au_initial a) t word ->
        toderiv rules (ct_word CR t) <> None /\
        forall tree, toderiv rules (ct_word CR t) = Some (Some tree) ->
          exists d, deriv (fun r => In r rules) init d /\ yield d = Some [word] /\ d_weight d = ct_weight CR t /\ forall addr, gt_get addr tree = rule_at d addr.
Proof.
  intros N T K KL neqb teqb NE TE factorize FL rules init g HN HF HC HA.
  destruct (C27_accepted_grammars N T K neqb rules init g NE HN HF HC) as ((f & FO & FI & _ & LR) & _ & NF). pose proof HN as HN'. apply (lcfrs_new_ok neqb NE) in HN'. destruct HN' as (_ & _ & DT & _).
  destruct (from_grammar_presents neqb teqb NE TE factorize rules init) as (a & ints & E & ND & ST & PZ & II & EI & LI); [intros r Hr; apply NF; exact Hr|].
  exists a, (map (code_rule neqb ints) (cs_rules factorize rules)). split; [unfold from_grammar; now rewrite E|]. split; [exact PZ|].
  intros t word CD. rewrite ct_word_code. rewrite EI in CD. apply (cderiv_decode neqb NE _ ints ND (fun x s Hx Hs => proj2 (ST x s Hx Hs)) _ t word) with (q := Non init 0) in CD; [|exact II|reflexivity].
  destruct (cderiv_k KL factorize rules NF _ _ _ _ CD) as (kt & KD & CW & CK). rewrite CW.
  destruct (toderiv_kword rules _ _ _ _ KD (fun p i => visits_lt rules _ _ _ _ KD [] p i)) as (T1 & _ & T3). split; [exact T3|]. intros tree ET. destruct (T1 tree ET) as (TS & TG & FN).
  destruct (join rules NF f FO LR DT (kheight kt) init [] [kt] [word]) as (x & d & RX & D & Y & KT).
  - intros kt' [<-|[]]. lia.
  - now rewrite FI.
  - now rewrite FI.
  - lia.
  - intros [|[|k]] kt' u; cbn; try discriminate. intros E1 E2. injection E1 as <-. injection E2 as <-. exact KD.
  - intros kt' kt'' q i j [<-|[]] [<-|[]]. apply FN.
  - specialize (KT 0 kt eq_refl). subst kt. exists d. split; [exact D|]. split; [exact Y|].
    assert (AT : forall p i, In (p, i) (visits rules (comp_tree rules x 0) []) -> id_at x p = Some i). { intros p i Hin. destruct (visits_comp rules NF HA x d init 0 RX D [] p i Hin) as (ad & -> & Ha). exact Ha. }
    split.
    + rewrite ct_weight_code, CK. rewrite <- (comp_tree_weight KL factorize FL rules NF f FO LR x d init RX D), FI. cbn [seq map]. change (wmul (kweight factorize rules (comp_tree rules x 0)) (wone : K) = kweight factorize rules (comp_tree rules x 0)). rewrite (wl_comm _ (zl_weight _ KL)). apply (wl_one_l _ (zl_weight _ KL)).
    + intros addr. rewrite (rep_at rules x d RX addr). destruct (id_at x addr) as [i|] eqn:EA.
      * destruct (id_at_lt rules x d RX addr i EA) as (r & Er). rewrite Er. apply TG. exists i. split; [|exact Er]. destruct (visits_cover rules NF f FO LR HA x d init RX D addr i [] EA) as (k & Hk & Hin). rewrite FI in Hk. assert (k = 0) by lia. subst k. exact Hin.
      * destruct (gt_get addr tree) as [r|] eqn:EG; [|reflexivity]. apply TG in EG. destruct EG as (i & Hin & _). apply AT in Hin. congruence.
Qed.
Print Assumptions C29_reads_only_derivations.

(* Refuted for successors of fanout 0: the tree that is read lacks them *)
Theorem C29_covers_refuted :
  lcfrs_new Nat.eqb ex_zero 0 = Some (Some (MCFG ex_zero 0)) /\ in_normal_form ex_zero = true /\ (forall r, In r ex_zero -> length (pr_tail r) <= 256) /\
  exists d, deriv (fun r => In r ex_zero) 0 d /\ yield d = Some [[7]] /\ rule_at d [0] <> None /\
    forall t tree, cderiv (cs_rules trop_factorize ex_zero) (Non 0 0) t [7] -> toderiv ex_zero (ct_word (cs_rules trop_factorize ex_zero) t) = Some (Some tree) -> gt_get [0] tree = None.
Proof.
  split; [reflexivity|]. split; [reflexivity|]. split; [intros r [<-|[<-|[<-|[]]]]; cbn; lia|].
  exists (DNode (ex_csr 0 [1; 2] [[Var 1 0]] 1) [DNode (ex_csr 1 [] [] 0) []; DNode (ex_csr 2 [] [[Tm 7]] 2) []]). split; [|split; [reflexivity|split; [discriminate|]]].
  - repeat match goal with |- deriv _ _ (DNode ?r ?ts) => refine (deriv_node _ r ts _ _); [cbn [In ex_zero]; unfold ex_csr; repeat (first [left; reflexivity|right])|unfold ex_csr; cbn [pr_tail]] | |- Forall2 _ _ _ => constructor end.
  - change (cs_rules trop_factorize ex_zero) with [CRule (Non 0 0) (RU (Non 2 0)) (Some 1 : TropWeight) (BComp 0 0, BVar 0 1 0, Ignore); CRule (Non 2 0) (RT 7) (Some 2 : TropWeight) (BComp 2 0, Terminal, Ignore)].
    assert (G : forall q t u, cderiv [CRule (Non 0 0) (RU (Non 2 0)) (Some 1 : TropWeight) (BComp 0 0, BVar 0 1 0, Ignore); CRule (Non 2 0) (RT 7) (Some 2 : TropWeight) (BComp 2 0, Terminal, Ignore)] q t u -> (q = Non 0 0 -> t = CUn 0 (CNull 1)) /\ (q = Non 2 0 -> t = CNull 1)).
    { intros q t u D. induction D as [r q t w b E|r q q1 w b t u E _ IH|r q q1 q2 w b t1 t2 u1 u2 E _ _ _ _]; destruct r as [|[|[|r]]]; try discriminate; injection E as <- <-; (split; intros Q; try discriminate); [reflexivity|]. destruct IH as [_ IH]. now rewrite IH. }
    intros t tree D E. apply G in D. destruct D as [D _]. rewrite (D eq_refl) in E. vm_compute in E. injection E as <-. reflexivity.
Qed.
Print Assumptions C29_covers_refuted.

(* Refuted for more than 256 successors: the numbers of the successors are truncated to eight bits in the brackets, so that
   a derivation with 257 successors is not read back *)
Definition ex_wide : list (prule nat nat TropWeight) :=
  [ex_csr 0 (repeat 1 256 ++ [2]) [map (fun i => Var i 0) (seq 0 257)] 1; ex_csr 1 [] [[Tm 7]] 0; ex_csr 2 [] [[Tm 8]] 2].
Definition ex_wide_word : list nat := repeat 7 256 ++ [8].
Lemma ex_wide_nf : forall r, In r ex_wide -> mask_nf r.
Proof.
  intros r [<-|[<-|[<-|[]]]]; (split; [discriminate|split]).
  - right. intros c [<-|[]]. split; [discriminate|]. intros x Hx. apply in_map_iff in Hx. destruct Hx as (i & <- & Hi). apply in_seq in Hi. exists i, 0. split; [reflexivity|]. cbn [pr_tail ex_csr]. rewrite app_length, repeat_length. cbn [length]. lia.
  - intros t E. discriminate.
  - left. exists 7. reflexivity.
  - intros t E. reflexivity.
  - left. exists 8. reflexivity.
  - intros t E. reflexivity.
Qed.
Theorem C29_covers_wide_refuted :
  lcfrs_new Nat.eqb ex_wide 0 = Some (Some (MCFG ex_wide 0)) /\ in_normal_form ex_wide = true /\ (forall r, In r ex_wide -> pr_comp r <> []) /\
  (exists d, deriv (fun r => In r ex_wide) 0 d /\ yield d = Some [ex_wide_word]) /\
  forall t word, cderiv (cs_rules trop_factorize ex_wide) (Non 0 0) t word -> toderiv ex_wide (ct_word (cs_rules trop_factorize ex_wide) t) = Some None.
Proof.
  split; [vm_compute; reflexivity|]. split; [vm_compute; reflexivity|]. split; [intros r Hr; apply ex_wide_nf; exact Hr|]. split.
  - exists (DNode (nth 0 ex_wide (ex_csr 0 [] [] 0)) (repeat (DNode (nth 1 ex_wide (ex_csr 0 [] [] 0)) []) 256 ++ [DNode (nth 2 ex_wide (ex_csr 0 [] [] 0)) []])). split; [|vm_compute; reflexivity].
    refine (deriv_node _ (nth 0 ex_wide (ex_csr 0 [] [] 0)) _ (or_introl eq_refl) _). change (pr_tail (nth 0 ex_wide (ex_csr 0 [] [] 0))) with (repeat 1 256 ++ [2]). apply Forall2_app.
    + assert (G : forall n, Forall2 (deriv (fun r => In r ex_wide)) (repeat 1 n) (repeat (DNode (nth 1 ex_wide (ex_csr 0 [] [] 0)) []) n)) by (induction n as [|n IH]; cbn [repeat]; constructor; [refine (deriv_node _ (nth 1 ex_wide (ex_csr 0 [] [] 0)) [] (or_intror (or_introl eq_refl)) _); constructor|exact IH]). apply G.
    + constructor; [|constructor]. refine (deriv_node _ (nth 2 ex_wide (ex_csr 0 [] [] 0)) [] (or_intror (or_intror (or_introl eq_refl))) _). constructor.
  - intros t word D. destruct (cderiv_k TropLaws trop_factorize ex_wide ex_wide_nf _ _ _ _ D) as (kt & KD & -> & _).
    destruct (toderiv_kword ex_wide kt 0 0 word KD (fun p i => visits_lt ex_wide kt 0 0 word KD [] p i)) as (T1 & _ & T3). destruct (toderiv ex_wide (kword ex_wide kt)) as [[tree|]|]; [exfalso|reflexivity|contradiction].
    destruct (T1 tree eq_refl) as (_ & _ & FN). clear T1 T3 D. destruct kt as [i k kts]. cbn [kderiv] in KD. destruct KD as (-> & r & c & Ei & Eh & Ek & KD).
    destruct i as [|[|[|i]]]; cbn [nth_error ex_wide] in Ei; [|injection Ei as <-; discriminate|injection Ei as <-; discriminate|destruct i; discriminate]. injection Ei as <-. cbn [pr_comp ex_csr nth_error] in Ek. injection Ek as <-. destruct KD as [(t' & E & _)|(us & -> & F)]; [discriminate|].
    assert (VID : forall m, m < 257 -> nth_error (varids (comp_of ex_wide 0 0)) m = Some m).
    { intros m Hm. change (comp_of ex_wide 0 0) with (map (fun i => @Var nat i 0) (seq 0 257)). rewrite varids_nth by (intros v Hv; apply in_map_iff in Hv; destruct Hv as (i & <- & _); eauto). rewrite nth_error_map, seq_nth_error by lia. reflexivity. }
    assert (G : forall m B, m < 257 -> nth_error (repeat 1 256 ++ [2]) m = Some B -> exists kt u, nth_error kts m = Some kt /\ kderiv ex_wide kt B 0 u).
    { assert (G' : forall n o kts us, F3 (ex_csr 0 (repeat 1 256 ++ [2]) [map (fun i => Var i 0) (seq 0 257)] 1) (map (kderiv ex_wide) kts) (map (fun i => Var i 0) (seq o n)) us -> forall m B, m < n -> nth_error (repeat 1 256 ++ [2]) (o + m) = Some B -> exists kt u, nth_error kts m = Some kt /\ kderiv ex_wide kt B 0 u).
      { clear. induction n as [|n IH]; intros o kts us F m B Hm HB; [lia|]. cbn [seq map] in F. destruct kts as [|kt kts], us as [|u us]; cbn [map F3] in F; try contradiction. destruct F as [(B' & HB' & D) F]. destruct m as [|m].
        - rewrite Nat.add_0_r in HB. cbn [pr_tail ex_csr] in HB'. rewrite HB in HB'. injection HB' as <-. exists kt, u. auto.
        - cbn [nth_error]. apply (IH (S o) kts us F m B); [lia|]. now rewrite Nat.add_succ_r in HB. }
      intros m B Hm HB. apply (G' 257 0 kts us F m B Hm HB). }
    destruct (G 0 1) as (k1 & u1 & K1 & D1); [lia|reflexivity|]. destruct (G 256 2) as (k2 & u2 & K2 & D2); [lia|reflexivity|].
    assert (H1 : forall kt B u i, kderiv ex_wide kt B 0 u -> (B = 1 /\ i = 1) \/ (B = 2 /\ i = 2) -> forall p, In (p, i) (visits ex_wide kt p)).
    { clear. intros kt B u i KD HB p. destruct kt as [i1 k1 kts1]. cbn [kderiv] in KD. destruct KD as (_ & r & c & Ei & Eh & _). apply visits_child. left. split; [reflexivity|]. destruct i1 as [|[|[|i1]]]; cbn [nth_error ex_wide] in Ei; [| | |destruct i1; discriminate]; injection Ei as <-; cbn in Eh; lia. }
    assert (X : 1 = 2); [|discriminate]. apply (FN [0] 1 2); apply visits_child; right.
    + exists 0, 0, k1. split; [apply VID; lia|]. split; [exact K1|]. apply (H1 k1 1 u1 1 D1). auto.
    + exists 256, 256, k2. split; [apply VID; lia|]. split; [exact K2|]. change ([] ++ [u8 256]) with [0]. apply (H1 k2 2 u2 2 D2). auto.
Qed.
Print Assumptions C29_covers_wide_refuted.

(* the discontinuous grammar of C27 and its derivation of 7 8 8 *)
Example C29_example :
  lcfrs_new Nat.eqb ex_mask 0 = Some (Some (MCFG ex_mask 0)) /\ in_normal_form ex_mask = true /\ (forall r, In r ex_mask -> pr_comp r <> []) /\ (forall r, In r ex_mask -> length (pr_tail r) <= 256) /\
  let d := DNode (nth 0 ex_mask (ex_csr 0 [] [] 0)) [DNode (nth 1 ex_mask (ex_csr 0 [] [] 0)) [DNode (nth 3 ex_mask (ex_csr 0 [] [] 0)) []; DNode (nth 4 ex_mask (ex_csr 0 [] [] 0)) []];
    DNode (nth 2 ex_mask (ex_csr 0 [] [] 0)) [DNode (nth 4 ex_mask (ex_csr 0 [] [] 0)) []]] in
  yield d = Some [[7; 8; 8]] /\
  let t := CBin 1 (CBin 0 (CUn 2 (CNull 5)) (CUn 4 (CNull 6))) (CUn 3 (CNull 6)) in
  let R := cs_rules trop_factorize ex_mask in
  ct_weight R t = d_weight d /\ toderiv ex_mask (ct_word R t) = Some (Some (map (fun e => (fst e, nth (snd e) ex_mask (ex_csr 0 [] [] 0))) [([], 0); ([0], 1); ([0; 0], 3); ([0; 1], 4); ([1], 2); ([1; 0], 4)])).
Proof.
  split; [reflexivity|]. split; [reflexivity|]. split; [intros r Hr; repeat (destruct Hr as [<-|Hr]; [discriminate|]); destruct Hr|]. split; [intros r Hr; repeat (destruct Hr as [<-|Hr]; [cbn; lia|]); destruct Hr|].
  split; [reflexivity|]. split; vm_compute; reflexivity.
Qed.
