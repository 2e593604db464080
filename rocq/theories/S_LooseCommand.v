(* Specification of what csparsing parse prints without conditions on the tokens of the grammar. *)
From Verif Require Import M_Nom Base M_Util M_Recog M_TreeStack M_Grammar M_Chart M_CSParse M_Negra M_Text S_Recog S_Grammar S_Negra S_Text S_Cow S_CSParse S_AutText S_Command S_Loose.

Section Answer.
  Context {K : ZWeight} (rules : list (prule bytes bytes K)) (init : bytes).
  (* a derivation of the tokens or of a word near them (see S_Loose) *)
  Definition near_derivation (tokens : list bytes) (d : dtree bytes bytes K) : Prop :=
    deriv (fun r => In r rules) init d /\ exists word', near rules init tokens word' /\ yield d = Some [word'].
  (* the text shows the derivation d: with POS tags with the words of the input at its leaves, otherwise with its own tokens *)
  Definition shows_near (with_pos : bool) (id : nat) (shown : list bytes) (d : dtree bytes bytes K) (text : bytes) : Prop :=
    exists word', yield d = Some [word'] /\ shows id (if with_pos then shown else word') d text.
  (* What is printed for a sentence.  As in S_Command, but there may be derivations of words near the sentence among the
     candidates, they may be repeated, and nothing is said about their order. *)
  Definition near_answer (complete : Prop) (candidates : option nat) (k : nat) (with_pos fallback : bool) (id : nat) (tokens shown : list bytes) (out : bytes) : Prop :=
    exists ds n, (forall d, In d ds -> near_derivation tokens d) /\ (complete -> forall d w, parse_of rules init tokens d w -> In d ds) /\
      match candidates with None => n = length ds | Some c => n <= c end /\
      match firstn k (firstn n ds) with
      | [] => (out = no_parse id with_pos tokens shown /\ (fallback = true -> complete -> candidates <> Some 0 -> forall d w, ~ parse_of rules init tokens d w)) \/
              (fallback = true /\ exists word' d, near rules init tokens word' /\ fallback_of rules init word' d /\ shows id (if with_pos then shown else word') d out)
      | best => exists texts, Forall2 (shows_near with_pos id shown) best texts /\ out = concat texts
      end.
End Answer.
