(* Specification of merged rules: what the rules of a fallback tree are. *)
From Verif Require Import Base M_Util M_Grammar M_Chart M_CSAuto M_Cow.

(* Var i j becomes Var (s i) j *)
Definition rename_succ {T} (s : nat -> nat) (x : vart T) : vart T := match x with Var i j => Var (s i) j | Tm t => Tm t end.
(* r is put together from rules for the same nonterminal: component j is either empty or component j of the rule number
   [from j], with the successors renumbered by [re (from j)]; successors keep their nonterminals, different successors
   stay different and there are no others *)
Definition merged_by {N T} {K : ZWeight} (rules : list (prule N T K)) (from : nat -> option nat) (re : nat -> nat -> nat) (r : prule N T K) : Prop :=
  let uses o i := exists j r0 c0 l, from j = Some o /\ nth_error rules o = Some r0 /\ nth_error (pr_comp r0) j = Some c0 /\ In (Var i l) c0 in
  (forall j c, nth_error (pr_comp r) j = Some c ->
     match from j with
     | None => c = []
     | Some o => exists r0 c0, nth_error rules o = Some r0 /\ pr_head r0 = pr_head r /\ nth_error (pr_comp r0) j = Some c0 /\ c = map (rename_succ (re o)) c0
     end) /\
  (forall j, from j <> None -> j < length (pr_comp r)) /\
  (forall o i, uses o i -> exists r0, nth_error rules o = Some r0 /\ i < length (pr_tail r0) /\ nth_error (pr_tail r) (re o i) = nth_error (pr_tail r0) i) /\
  (forall o i o' i', uses o i -> uses o' i' -> re o i = re o' i' -> o = o' /\ i = i') /\
  (forall k, k < length (pr_tail r) -> exists o i, uses o i /\ re o i = k).
Definition merged {N T} {K : ZWeight} (rules : list (prule N T K)) (r : prule N T K) : Prop :=
  exists from re, merged_by rules from re r.

(* Derivations of the approximation: like derivations, but each component of a successor has a rule of its own.  The tree
   c derives the word u as component k of A: its root is the rule number i for A, and the k-th component of that rule is
   either a token or a sequence of variables, one successor for each. *)
Inductive cow_deriv {N T} {K : ZWeight} (rules : list (prule N T K)) : cow -> N -> nat -> list T -> Prop :=
| cow_token i r k t : nth_error rules i = Some r -> nth_error (pr_comp r) k = Some [Tm t] -> cow_deriv rules (Cow i []) (pr_head r) k [t]
| cow_vars i r k ss us : nth_error rules i = Some r -> nth_error (pr_comp r) k = Some (map (fun s => Var (fst (fst s)) (snd (fst s))) ss) ->
    Forall2 (fun s u => exists B, nth_error (pr_tail r) (fst (fst s)) = Some B /\ cow_deriv rules (snd s) B (snd (fst s)) u) ss us ->
    cow_deriv rules (Cow i ss) (pr_head r) k (concat us).
(* its bracket word, for component k *)
Fixpoint cow_word (c : cow) (k : nat) : list (bracket bcontent) :=
  match c with
  | Cow i ss =>
      Open (BComp i k) ::
      match ss with
      | [] => [Open Terminal; Close Terminal]
      | _ => concat (map (fun s => Open (BVar i (fst (fst s)) (snd (fst s))) :: cow_word (snd s) (snd (fst s)) ++ [Close (BVar i (fst (fst s)) (snd (fst s)))]) ss)
      end ++ [Close (BComp i k)]
  end.
