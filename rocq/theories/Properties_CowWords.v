(* C30, C60: the bracket words of the approximation are those of its derivation trees. *)
From Verif Require Import Base BMap M_Util M_Recog M_Automata M_Agenda M_TreeStack M_Grammar M_Chart M_CSAuto M_ToDeriv S_Grammar S_CS S_RuleMask P_TreeStack P_Grammar P_GrammarCFG P_Conversion P_CSAuto P_FillChart P_ToDeriv Properties_Chart Properties_RuleMask M_Cow S_Cow P_Cow P_CSParse Properties_CSParse M_Consistent S_Consistent P_Consistent Properties_Consistent Properties_CowDeriv.

Fixpoint k_of (c : cow) (k : nat) : ktree := match c with Cow i ss => KNode i k (map (fun s => k_of (snd s) (snd (fst s))) ss) end.
Lemma k_of_deriv {N T} {K : ZWeight} (rules : list (prule N T K)) c : forall A k u, cow_deriv rules c A k u -> kderiv rules (k_of c k) A k u /\ cow_of rules (k_of c k) = c.
Proof.
  induction c as [i ss IH] using cow_ind2. intros A k u D. rewrite Forall_forall in IH. inversion D as [? r ? t Ei Ek|? r ? ? us Ei Ek F]; subst; cbn [k_of map cow_of kderiv].
  - rewrite (comp_of_nth rules _ _ _ _ Ei Ek). split; [|reflexivity]. split; [reflexivity|]. exists r, [Tm t]. repeat (split; [assumption || reflexivity|]). left. exists t. auto.
  - rewrite (comp_of_nth rules _ _ _ _ Ei Ek).
    assert (X : F3 r (map (kderiv rules) (map (fun s => k_of (snd s) (snd (fst s))) ss)) (map (fun s => Var (fst (fst s)) (snd (fst s))) ss) us /\
      combine (flat_map as_var (map (fun s => Var (T := T) (fst (fst s)) (snd (fst s))) ss)) (map (cow_of rules) (map (fun s => k_of (snd s) (snd (fst s))) ss)) = ss).
    { clear -F IH. induction F as [|[[i j] s] u ss us (B & HB & D0) F IHF]; [split; [exact I|reflexivity]|]. destruct IHF as [X1 X2]; [intros x Hx; apply IH; now right|]. destruct (IH _ (or_introl eq_refl) _ _ _ D0) as [Y1 Y2]. cbn [map fst snd flat_map as_var app combine F3] in *. split; [split; [exists B; auto|exact X1]|]. now rewrite Y2, X2. }
    destruct X as [X1 X2]. split; [|now rewrite X2]. split; [reflexivity|]. eexists r, _. split; [exact Ei|]. split; [reflexivity|]. split; [exact Ek|]. right. exists us. split; [reflexivity|exact X1].
Qed.

(* Every derivation tree of the approximation has its bracket word among those of the automaton, and the tree is read back
   from it.  With C30_fallback: these words, for a word of tokens, are exactly those of its derivation trees. *)
Theorem C30_every_tree :
  forall (N T : Type) (K : ZWeight) (neqb : N -> N -> bool) (factorize : K -> nat -> list K) (rules : list (prule N T K)) (init : N) (c : cow) (word : list T),
    ZWeightLaws K -> EqbSpec neqb -> FactorLaws factorize -> grammar_ok neqb rules init -> cow_deriv rules c init 0 word ->
    exists t, cderiv (cs_rules factorize rules) (Non init 0) t word /\ ct_word (cs_rules factorize rules) t = cow_word c 0 /\ cow_new (cow_word c 0) = Some c.
Proof.
  intros N T K neqb factorize rules init c word KL NE FL [HN HF HC HS HWt] D. destruct (C27_accepted_grammars N T K neqb rules init _ NE HN HF HC) as (_ & _ & NF).
  destruct (k_of_deriv rules c _ _ _ D) as [KD EC]. destruct (of_k KL factorize FL rules NF _ _ _ _ KD) as (t & CD & CW & _). exists t. split; [exact CD|]. split; [|apply cow_new_word].
  rewrite CW, <- EC at 1. rewrite EC. symmetry. rewrite <- EC at 1. eapply (cow_word_of rules); [intros r Hr; apply HS; exact Hr|intros r Hr; apply HS; exact Hr| |exact KD].
  intros r c0 Hr Hc ->. apply In_nth_error in Hr. destruct Hr as (i & Ei). apply In_nth_error in Hc. destruct Hc as (k & Ek). destruct (comp_cases rules NF i r k [] Ei Ek) as [(t0 & _ & X & _)|[X _]]; [discriminate|contradiction].
Qed.
Print Assumptions C30_every_tree.

(* C60: among the derivation trees of the approximation for a word, those that pass the test are those that come from a
   derivation of the word by the grammar *)
Theorem C60_trees :
  forall (N T : Type) (K : ZWeight) (neqb : N -> N -> bool) (factorize : K -> nat -> list K) (rules : list (prule N T K)) (init : N) (c : cow) (word : list T),
    ZWeightLaws K -> EqbSpec neqb -> FactorLaws factorize -> grammar_ok neqb rules init -> NoDup rules -> cow_deriv rules c init 0 word ->
    is_consistent c = Some true <->
    exists d, deriv (fun r => In r rules) init d /\ yield d = Some [word] /\ forall addr x, rule_at d addr = Some x <-> exists r, node_at c addr r /\ nth_error rules r = Some x.
Proof.
  intros N T K neqb factorize rules init c word KL NE FL GO ND D. destruct (C30_every_tree N T K neqb factorize rules init c word KL NE FL GO D) as (t & CD & CW & CN).
  destruct (C60_derivations N T K neqb factorize rules init t word KL NE FL GO CD) as (c' & CN' & _ & P1 & P2). rewrite CW, CN in CN'. injection CN' as <-. split.
  - intros IC. destruct (P1 IC) as (d & D1 & D2 & _ & D4). exists d. auto.
  - intros (d & _ & _ & D4). apply (P2 ND). exists d. exact D4.
Qed.
Print Assumptions C60_trees.

(* the tree for 7 7 9 8 of C60_derivations_ex is a derivation of the approximation, not of the grammar *)
Example C60_trees_ex :
  let c := Cow 0 [(0, 0, Cow 3 [(0, 0, Cow 2 [(0, 0, Cow 4 [])]); (1, 0, Cow 4 [])]); (1, 0, Cow 6 []); (0, 1, Cow 2 [(1, 0, Cow 5 [])])] in
  grammar_ok Nat.eqb (ex_p 1 3) 0 /\ NoDup (ex_p 1 3) /\ cow_deriv (ex_p 1 3) c 0 0 [7; 7; 9; 8] /\ is_consistent c = Some false /\
  exists t, cderiv (cs_rules trop_factorize (ex_p 1 3)) (Non 0 0) t [7; 7; 9; 8] /\ ct_word (cs_rules trop_factorize (ex_p 1 3)) t = cow_word c 0.
Proof.
  cbn zeta. destruct ex_p_ok as (GO & _ & _ & _ & ND).
  assert (D : cow_deriv (ex_p 1 3) (Cow 0 [(0, 0, Cow 3 [(0, 0, Cow 2 [(0, 0, Cow 4 [])]); (1, 0, Cow 4 [])]); (1, 0, Cow 6 []); (0, 1, Cow 2 [(1, 0, Cow 5 [])])]) 0 0 [7; 7; 9; 8]).
  { destruct (C30_fallback nat nat TropWeight Nat.eqb trop_factorize (ex_p 1 3) 0 (CBin 1 (CBin 0 (CBin 6 (CUn 4 (CNull 8)) (CNull 8)) (CNull 10)) (CUn 5 (CNull 9))) [7; 7; 9; 8] TropLaws nat_eqb_spec GO) as (c & tree & E & D & _); [apply C60_derivations_ex|]. vm_compute in E. injection E as <-. exact D. }
  split; [exact GO|]. split; [exact ND|]. split; [exact D|]. split; [vm_compute; reflexivity|]. destruct (C30_every_tree _ _ _ Nat.eqb trop_factorize _ _ _ _ TropLaws nat_eqb_spec trop_factor_laws GO D) as (t & H1 & H2 & _). eauto.
Qed.
