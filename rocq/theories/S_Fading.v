(* Specification: weights that fade, and sentences with enough derivations. *)
From Verif Require Import M_Nom Base M_Util M_Recog M_CFG M_Grammar M_Chart M_Text S_Recog S_Grammar S_CFG S_CfgCommand S_Mcfg.

(* products of many weights of rules are below k *)
Definition fades {N T : Type} {K : Weight} (rules : list (cfg_rule N T K)) (k : K) : Prop :=
  exists m, forall rs, (forall r, In r rs -> In r rules) -> m <= length rs -> wleb k (derivation_weight rs) = false.

(* a sentence has at least n derivations *)
Definition enough {K : Weight} (init : list bytes) (rules : list (cfg_rule bytes bytes K)) (n : nat) (tokens : list bytes) : Prop :=
  exists dss, NoDup dss /\ n <= length dss /\ forall ds, In ds dss -> cfg_derivation init rules tokens ds.
(* a sentence with a token that no rule mentions *)
Definition foreign {K : Weight} (rules : list (cfg_rule bytes bytes K)) (tokens : list bytes) : Prop :=
  exists x, In x tokens /\ forall r, In r rules -> ~ In (Value x) (cr_rhs r).

(* products of many weights of rules of a PMCFG are below k *)
Definition pmcfg_fades {N T : Type} {K : Weight} (rules : list (prule N T K)) (k : K) : Prop :=
  exists m, forall rs, (forall r, In r rs -> In r rules) -> m <= length rs -> wleb k (lprod (map pr_weight rs)) = false.

(* a sentence has at least n derivations of a PMCFG *)
Definition enough_parses {K : ZWeight} (init : list bytes) (rules : list (prule bytes bytes K)) (n : nat) (tokens : list bytes) : Prop :=
  exists dss, NoDup dss /\ n <= length dss /\ forall d, In d dss -> parse_from init rules tokens d.
(* a rule for an initial nonterminal or for one that occurs in a right-hand side *)
Definition in_use {N T : Type} {K : Weight} (init : list N) (rules : list (prule N T K)) (r : prule N T K) : Prop :=
  In (pr_head r) init \/ exists r', In r' rules /\ In (pr_head r) (pr_tail r').
(* a sentence with a token that no rule mentions *)
Definition foreign_token {N T : Type} {K : Weight} (rules : list (prule N T K)) (tokens : list T) : Prop :=
  exists x, In x tokens /\ forall r, In r rules -> ~ In (Tm x) (List.concat (pr_comp r)).
