(* Specification of the command mcfg parse: what is printed for a sentence. *)
From Verif Require Import M_Nom Base M_Util M_Recog M_TreeStack M_Grammar M_Chart M_Negra M_Text S_Recog S_Grammar S_FromPmcfg S_Negra S_Text S_AutText S_Command.

Section Answer.
  Context {K : ZWeight} (init : list bytes) (rules : list (prule bytes bytes K)).
  (* d is a derivation of the tokens *)
  Definition parse_from (tokens : list bytes) (d : dtree bytes bytes K) : Prop :=
    exists A, In A init /\ deriv (fun r => In r rules) A d /\ yield d = Some [tokens].
  (* each derivation is listed once (if no rule is listed twice), and they are sorted (if no weight exceeds one); the weight of
     a derivation is the product in the order of reading *)
  Definition in_order (ds : list (dtree bytes bytes K)) : Prop :=
    (NoDup rules -> NoDup ds) /\
    ((forall r, In r rules -> wleb (pr_weight r) wone = true) -> StronglySorted (fun x y => wleb (read_weight y) (read_weight x) = true) ds).
  (* [ds] are n derivations of the tokens, or all of them if there are fewer; if no weight exceeds one, no other derivation is
     better *)
  Definition best_of (n : nat) (tokens : list bytes) (ds : list (dtree bytes bytes K)) : Prop :=
    (length ds < n -> forall d, parse_from tokens d -> In d ds) /\
    ((forall r, In r rules -> wleb (pr_weight r) wone = true) ->
       forall d d', parse_from tokens d -> ~ In d ds -> In d' ds -> wleb (read_weight d) (read_weight d') = true).
  (* what is printed for a sentence: texts for at most n of its derivations, in order, the best ones if [exact], and an empty
     line *)
  Definition printed (exact : Prop) (n : nat) (text_of : dtree bytes bytes K -> bytes -> Prop) (tokens : list bytes) (out : bytes) : Prop :=
    exists ds texts, length ds <= n /\ (forall d, In d ds -> parse_from tokens d) /\ in_order ds /\ (exact -> best_of n tokens ds) /\
      Forall2 text_of ds texts /\ out = List.concat texts ++ newline.
End Answer.
(* the lines of the text are the given sentences *)
Definition sentences (text : bytes) (sents : list (list bytes)) : Prop := exists ls, text_lines text ls /\ Forall2 words ls sents.
