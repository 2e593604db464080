(* C60: the derivations of the approximation that pass the test for consistency are those of the grammar. *)
From Verif Require Import Base BMap M_Util M_Recog M_Automata M_Agenda M_TreeStack M_Grammar M_Chart M_CSAuto M_ToDeriv S_Grammar S_CS S_RuleMask P_TreeStack P_Grammar P_GrammarCFG P_Conversion P_CSAuto P_FillChart P_ToDeriv Properties_Chart Properties_RuleMask M_Cow S_Cow P_Cow P_CSParse Properties_CSParse M_Consistent S_Consistent P_Consistent Properties_Consistent.

Lemma cow_deriv_ids {N T} {K : ZWeight} (rules : list (prule N T K)) c : forall A k u, cow_deriv rules c A k u -> forall a r, node_at c a r -> r < length rules.
Proof.
  induction c as [i ss IH] using cow_ind2. intros A k u D a r N0. rewrite Forall_forall in IH. inversion N0 as [|? ? i' j' s a' ? Hs N1]; subst.
  - inversion D; subst; apply nth_error_Some; congruence.
  - inversion D as [|? r0 ? ? us Ei Ek F]; subst; [destruct Hs|]. assert (X : exists u', exists B, nth_error (pr_tail r0) i' = Some B /\ cow_deriv rules s B j' u').
    { clear -F Hs. induction F as [|s0 u0 ss us (B & HB & D0) F IHF]; [destruct Hs|]. destruct Hs as [->|Hs]; [exists u0, B; auto|auto]. }
    destruct X as (u' & B & _ & D'). exact (IH _ Hs _ _ _ D' _ _ N1).
Qed.

(* Each derivation t of the approximation for a word is read as a tree c.  If c passes the test, then it comes from a
   derivation of the word by the grammar, with the weight of t: the nodes that a path leads to hold the rule of the
   derivation at that path.  If the rules are pairwise different, then every tree that comes from a derivation passes it. *)
Theorem C60_derivations :
  forall (N T : Type) (K : ZWeight) (neqb : N -> N -> bool) (factorize : K -> nat -> list K) (rules : list (prule N T K)) (init : N) (t : ctree) (word : list T),
    ZWeightLaws K -> EqbSpec neqb -> FactorLaws factorize -> grammar_ok neqb rules init ->
    cderiv (cs_rules factorize rules) (Non init 0) t word ->
    exists c, cow_new (ct_word (cs_rules factorize rules) t) = Some c /\ cow_deriv rules c init 0 word /\
      let holds d := forall addr x, rule_at d addr = Some x <-> exists r, node_at c addr r /\ nth_error rules r = Some x in
      (is_consistent c = Some true -> exists d, deriv (fun r => In r rules) init d /\ yield d = Some [word] /\ d_weight d = ct_weight (cs_rules factorize rules) t /\ holds d) /\
      (NoDup rules -> (exists d, holds d) -> is_consistent c = Some true).
Proof.
  intros N T K neqb factorize rules init t word KL NE FL GO CD. destruct (C30_fallback N T K neqb factorize rules init t word KL NE GO CD) as (c & _ & E & D & W & _). destruct GO as [HN HF HC HS HWt].
  exists c. split; [exact E|]. split; [exact D|]. cbn zeta. pose proof (cow_deriv_ids rules c _ _ _ D) as HR. destruct (C60_toderiv rules c 0 HR) as (_ & T1 & _). rewrite <- W in T1. split.
  - intros IC. destruct (T1 IC) as (tree & ET & HT). destruct (C27_accepted_grammars N T K neqb rules init _ NE HN HF HC) as ((f & FO & FI & _ & LR) & _ & NF). pose proof HN as HN'. apply (lcfrs_new_ok neqb NE) in HN'. destruct HN' as (_ & _ & DT & _).
    assert (HS1 : forall r, In r rules -> length (pr_tail r) <= 256) by (intros r Hr; apply HS; exact Hr).
    destruct (reads KL factorize FL rules init f FO FI LR NF DT HS1 t word CD) as (_ & R2). destruct (R2 tree ET) as (_ & d & D1 & D2 & D3 & D4). exists d. split; [exact D1|]. split; [exact D2|]. split; [exact D3|]. intros addr x. rewrite <- D4. apply HT.
  - intros ND (d & HD). destruct (C60_is_consistent c) as (b & EB & HB). rewrite EB. f_equal. apply HB. intros a r r' N1 N2. pose proof (HR _ _ N1) as L1. pose proof (HR _ _ N2) as L2. destruct (nth_error rules r) as [x|] eqn:E1; [|apply nth_error_None in E1; lia]. destruct (nth_error rules r') as [x'|] eqn:E2; [|apply nth_error_None in E2; lia].
    assert (X1 : rule_at d a = Some x) by (apply HD; eauto). assert (X2 : rule_at d a = Some x') by (apply HD; eauto). rewrite X1 in X2. injection X2 as <-. apply (proj1 (NoDup_nth_error rules) ND r r' L1). congruence.
Qed.
Print Assumptions C60_derivations.

(* the grammar of C28: a tree for 7 9 8 that is a derivation, and one for 7 7 9 8 that takes the components of A from two
   different rules *)
Example C60_derivations_ex :
  let R := cs_rules trop_factorize (ex_p 1 3) in
  let good := CBin 1 (CBin 0 (CUn 4 (CNull 8)) (CNull 10)) (CUn 5 (CNull 9)) in
  let bad := CBin 1 (CBin 0 (CBin 6 (CUn 4 (CNull 8)) (CNull 8)) (CNull 10)) (CUn 5 (CNull 9)) in
  grammar_ok Nat.eqb (ex_p 1 3) 0 /\ NoDup (ex_p 1 3) /\ FactorLaws trop_factorize /\ cderiv R (Non 0 0) good [7; 9; 8] /\ cderiv R (Non 0 0) bad [7; 7; 9; 8] /\
  cow_new (ct_word R good) = Some (Cow 0 [(0, 0, Cow 2 [(0, 0, Cow 4 [])]); (1, 0, Cow 6 []); (0, 1, Cow 2 [(1, 0, Cow 5 [])])]) /\
  cow_new (ct_word R bad) = Some (Cow 0 [(0, 0, Cow 3 [(0, 0, Cow 2 [(0, 0, Cow 4 [])]); (1, 0, Cow 4 [])]); (1, 0, Cow 6 []); (0, 1, Cow 2 [(1, 0, Cow 5 [])])]) /\
  option_map is_consistent (cow_new (ct_word R good)) = Some (Some true) /\ option_map is_consistent (cow_new (ct_word R bad)) = Some (Some false).
Proof.
  cbn zeta. split; [apply ex_p_ok|]. split; [apply ex_p_ok|]. split; [exact trop_factor_laws|]. split; [|split; [|repeat split; vm_compute; reflexivity]].
  - change [7; 9; 8] with (([7] ++ [9]) ++ [8]). eapply cd_bin; [reflexivity| |]; [eapply cd_bin; [reflexivity| |]|]; repeat (first [eapply cd_un; [reflexivity|]|eapply cd_null; reflexivity]).
  - change [7; 7; 9; 8] with ((([7] ++ [7]) ++ [9]) ++ [8]). eapply cd_bin; [reflexivity| |]; [eapply cd_bin; [reflexivity| |]|]; [eapply cd_bin; [reflexivity| |]|..]; repeat (first [eapply cd_un; [reflexivity|]|eapply cd_null; reflexivity]).
Qed.
