(* Specification of the command cfg parse: what is printed for a sentence. *)
From Coq Require Import Sorted.
From Verif Require Import M_Nom Base M_Util M_Recog M_CFG M_Negra M_Text M_Command S_Recog S_CFG.

Section Answer.
  Context {K : Weight} (init : list bytes) (rules : list (cfg_rule bytes bytes K)).
  (* ds is a leftmost derivation of the tokens from an initial nonterminal *)
  Definition cfg_derivation (tokens : list bytes) (ds : list (cfg_rule bytes bytes K)) : Prop :=
    exists s, In s init /\ leftmost (fun r => In r rules) [Label s] ds tokens.
  (* no weight exceeds one *)
  Definition bounded_weights : Prop := forall r, In r rules -> wleb (cr_weight r) wone = true.
  (* [dss] are n derivations of the tokens, or all of them if there are fewer; if no weight exceeds one, no other derivation is
     better *)
  Definition cfg_best_of (n : nat) (tokens : list bytes) (dss : list (list (cfg_rule bytes bytes K))) : Prop :=
    (length dss < n -> forall ds, cfg_derivation tokens ds -> In ds dss) /\
    (bounded_weights -> forall ds ds', cfg_derivation tokens ds -> ~ In ds dss -> In ds' dss ->
       wleb (derivation_weight ds) (derivation_weight ds') = true).
  (* what is printed for a sentence: a line for each of at most n different derivations, with its weight, the better ones first
     (if no weight exceeds one), the best ones if [exact], and an empty line *)
  Definition cfg_printed (exact : Prop) (n : nat) (line_of : K -> bytes) (tokens : list bytes) (out : bytes) : Prop :=
    exists dss, length dss <= n /\ (forall ds, In ds dss -> cfg_derivation tokens ds) /\ NoDup dss /\
      (bounded_weights -> StronglySorted (fun x y => wleb (derivation_weight y) (derivation_weight x) = true) dss) /\
      (exact -> cfg_best_of n tokens dss) /\
      out = List.concat (map (fun ds => line_of (derivation_weight ds)) dss) ++ newline.
End Answer.
