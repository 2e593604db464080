(* C59: renaming the nonterminals of a grammar; C32: the way back from an MCFG to a PMCFG. *)
From Verif Require Import Base BMap M_Agenda M_Search M_Util M_Recog M_Automata M_CFG M_TreeStack M_Grammar M_Conversion M_Rename
  S_Search S_Recog S_CFG S_Grammar P_Agenda P_Search P_Automata P_TreeStack P_Grammar P_GrammarCFG P_Conversion Properties_Grammar.

(* C32: an MCFG used as a PMCFG derives the same words with the same weights; and it is an MCFG again, the same one, precisely
   if its rules are linear; a PMCFG that was accepted as an MCFG comes back unchanged. *)
Theorem C32_into_pmcfg :
  forall (N T : Type) (K : Weight) (g : mcfg N T K),
    (forall w k, pmcfg_derives (pmcfg_from_mcfg g) w k <-> mcfg_derives g w k) /\
    (mcfg_from_pmcfg (pmcfg_from_mcfg g) = Some g <-> forall r, In r (mg_rules g) -> linear r) /\
    (forall p, mcfg_from_pmcfg p = Some g -> pmcfg_from_mcfg g = p).
Proof.
  intros N T K g. split; [|split].
  - intros w k. unfold pmcfg_derives, mcfg_derives, pmcfg_from_mcfg. cbn. split.
    + intros (A & d & [<-|[]] & H). exists d. exact H.
    + intros (d & H). exists (mg_initial g), d. split; [now left|exact H].
  - rewrite C32_from_pmcfg. cbn. split; [intros (H & _); exact H|auto].
  - intros [i rs] H. apply C32_from_pmcfg in H. destruct H as (_ & H1 & H2). cbn in *. unfold pmcfg_from_mcfg. congruence.
Qed.
Print Assumptions C32_into_pmcfg.
Example C32_into_pmcfg_ex :
  pmcfg_from_mcfg ex_mcfg = PMCFG [0] (mg_rules ex_mcfg) /\ (forall r, In r (mg_rules ex_mcfg) -> linear r).
Proof. split; [reflexivity|]. intros r [<-|[<-|[<-|[<-|[]]]]]; unfold linear; cbn; repeat constructor; cbn; intuition discriminate. Qed.

(* the grammar in which every nonterminal A is called f A *)
Definition renamed {N M T W} (f : N -> M) (g : pmcfg N T W) : pmcfg M T W :=
  PMCFG (map f (pg_initial g)) (map (map_nonterminals f) (pg_rules g)).
(* A occurs in the grammar *)
Definition occurs {N T W} (g : pmcfg N T W) (A : N) : Prop :=
  In A (pg_initial g) \/ exists r, In r (pg_rules g) /\ (pr_head r = A \/ In A (pr_tail r)).

Fixpoint d_map {N M T W} (f : N -> M) (d : dtree N T W) : dtree M T W :=
  match d with DNode r ts => DNode (map_nonterminals f r) (map (d_map f) ts) end.
Lemma yield_d_map {N M T W} (f : N -> M) (d : dtree N T W) : yield (d_map f d) = yield d.
Proof.
  induction d as [r ts IH] using dtree_ind2. cbn. rewrite map_map. replace (map (fun x => yield (d_map f x)) ts) with (map yield ts); [reflexivity|].
  apply map_ext_in. intros t Ht. rewrite Forall_forall in IH. now rewrite IH.
Qed.
Lemma rules_d_map {N M T W} (f : N -> M) (d : dtree N T W) : d_rules (d_map f d) = map (map_nonterminals f) (d_rules d).
Proof.
  induction d as [r ts IH] using dtree_ind2. cbn. f_equal. induction IH as [|t ts Ht H IH2]; [reflexivity|]. cbn. now rewrite map_app, Ht, IH2.
Qed.
Lemma weight_d_map {N M T} {K : Weight} (f : N -> M) (d : dtree N T K) : d_weight (d_map f d) = d_weight d.
Proof. unfold d_weight. rewrite rules_d_map, map_map. reflexivity. Qed.
Lemma deriv_d_map {N M T W} (f : N -> M) (rs : list (prule N T W)) d : forall A, deriv (fun r => In r rs) A d -> deriv (fun r => In r (map (map_nonterminals f) rs)) (f A) (d_map f d).
Proof.
  induction d as [r ts IH] using dtree_ind2. intros A D. inversion D as [r1 ts1 HP HF E1 E2]; subst. cbn [d_map].
  refine (deriv_node _ (map_nonterminals f r) _ _ _); [now apply in_map|]. cbn [map_nonterminals pr_tail]. clear HP D. induction HF as [|B t Bs ts HB HF IH2]; cbn; [constructor|].
  inversion IH; subst. constructor; auto.
Qed.

(* C59.  Renaming nonterminals keeps every derivation: each word is still derived with each of its weights; and nothing is
   added if no two nonterminals that occur in the grammar get the same name. *)
Theorem C59_renaming :
  forall (N M T : Type) (K : Weight) (f : N -> M) (g : pmcfg N T K),
    (forall w k, pmcfg_derives g w k -> pmcfg_derives (renamed f g) w k) /\
    ((forall A B, occurs g A -> occurs g B -> f A = f B -> A = B) ->
     forall w k, pmcfg_derives (renamed f g) w k -> pmcfg_derives g w k).
Proof.
  intros N M T K f g. split.
  - intros w k (A & d & HA & D & Y & Wt). exists (f A), (d_map f d). split; [now apply in_map|]. split; [now apply deriv_d_map|]. rewrite yield_d_map, weight_d_map. auto.
  - intros INJ. assert (G : forall d' A, occurs g A -> deriv (fun r => In r (map (map_nonterminals f) (pg_rules g))) (f A) d' -> exists d, d' = d_map f d /\ deriv (fun r => In r (pg_rules g)) A d).
    { induction d' as [r' ts' IH] using dtree_ind2. intros A HA D. inversion D as [r1 ts1 HP HF E1 E2]; subst. apply in_map_iff in HP. destruct HP as (r & <- & Hr). cbn [map_nonterminals pr_head pr_tail] in *.
      assert (pr_head r = A) by (apply INJ; [right; exists r; auto|assumption|assumption]). subst A.
      assert (GS : forall Bs, (forall B, In B Bs -> occurs g B) -> Forall2 (deriv (fun r => In r (map (map_nonterminals f) (pg_rules g)))) (map f Bs) ts' ->
                   exists ts, ts' = map (d_map f) ts /\ Forall2 (deriv (fun r => In r (pg_rules g))) Bs ts).
      { clear -IH. induction IH as [|t ts' Ht H IH2]; intros [|B Bs] HB F; inversion F; subst; [exists []; split; [reflexivity|constructor]|].
        destruct (Ht B (HB B (or_introl eq_refl)) ltac:(assumption)) as (d & -> & Hd). destruct (IH2 Bs (fun B' HB' => HB B' (or_intror HB')) ltac:(assumption)) as (ts & -> & Hts).
        exists (d :: ts). split; [reflexivity|now constructor]. }
      destruct (GS (pr_tail r)) as (ts & -> & Hts); [intros B HB; right; exists r; auto|exact HF|]. exists (DNode r ts). split; [reflexivity|now constructor]. }
    intros w k (A' & d' & HA & D & Y & Wt). cbn in HA, D. apply in_map_iff in HA. destruct HA as (A & <- & HA). destruct (G d' A (or_introl HA) D) as (d & -> & Hd).
    exists A, d. rewrite yield_d_map in Y. rewrite weight_d_map in Wt. auto.
Qed.
Print Assumptions C59_renaming.

(* Renaming in steps is renaming by the composition, and renaming by the identity changes nothing. *)
Theorem C59_composes :
  forall (N M L T W : Type) (f : N -> M) (h : M -> L) (r : prule N T W),
    map_nonterminals h (map_nonterminals f r) = map_nonterminals (fun A => h (f A)) r /\ map_nonterminals (fun A => A) r = r.
Proof. intros N M L T W f h [A t c w]. unfold map_nonterminals. cbn. rewrite map_map, map_id. auto. Qed.
Print Assumptions C59_composes.

(* 0 -> [x00 x10](1, 2), 1 -> [5], 2 -> [6]: renaming 1 and 2 apart keeps the language, giving both the same name adds 5 5 *)
Definition ex_ren : pmcfg nat nat CostWeight :=
  PMCFG [0] [PRule (W:=CostWeight) 0 [1; 2] [[Var 0 0; Var 1 0]] 1; PRule (W:=CostWeight) 1 [] [[Tm 5]] 1; PRule (W:=CostWeight) 2 [] [[Tm 6]] 1].
Example C59_ex :
  (forall A B, occurs ex_ren A -> occurs ex_ren B -> A + 7 = B + 7 -> A = B) /\ pmcfg_derives ex_ren [5; 6] 3 /\
  pmcfg_derives (renamed (fun n => Nat.min n 1) ex_ren) [5; 5] 3 /\ ~ pmcfg_derives ex_ren [5; 5] 3.
Proof.
  split; [intros; lia|]. split; [|split].
  - exists 0, (DNode (PRule (W:=CostWeight) 0 [1; 2] [[Var 0 0; Var 1 0]] 1) [DNode (PRule (W:=CostWeight) 1 [] [[Tm 5]] 1) []; DNode (PRule (W:=CostWeight) 2 [] [[Tm 6]] 1) []]).
    split; [now left|]. split; [|split; reflexivity].
    repeat match goal with |- deriv _ _ (DNode ?r ?ts) => refine (deriv_node _ r ts _ _); [cbn; auto 8|cbn [pr_tail]] | |- Forall2 _ _ _ => constructor end.
  - exists 0, (DNode (PRule (W:=CostWeight) 0 [1; 1] [[Var 0 0; Var 1 0]] 1) [DNode (PRule (W:=CostWeight) 1 [] [[Tm 5]] 1) []; DNode (PRule (W:=CostWeight) 1 [] [[Tm 5]] 1) []]).
    split; [now left|]. split; [|split; reflexivity].
    repeat match goal with |- deriv _ _ (DNode ?r ?ts) => refine (deriv_node _ r ts _ _); [cbn; auto 8|cbn [pr_tail]] | |- Forall2 _ _ _ => constructor end.
  - intros (A & d & [<-|[]] & D & Y & _). inversion D as [r ts HP HF E1 E2]; subst. destruct HP as [<-|[<-|[<-|[]]]]; try discriminate E1. cbn [pr_tail] in HF.
    inversion HF as [|? d1 ? l1 H1 HF1]; subst. inversion HF1 as [|? d2 ? l2 H2 HF2]; subst. inversion HF2; subst.
    inversion H2 as [r2 ts2 HP2 HF3 E3 E4]; subst. destruct HP2 as [<-|[<-|[<-|[]]]]; try discriminate E3. inversion H1 as [r3 ts3 HP3 HF4 E5 E6]; subst. destruct HP3 as [<-|[<-|[<-|[]]]]; try discriminate E5.
    cbn in Y. discriminate Y.
Qed.
