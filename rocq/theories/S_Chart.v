(* Specification of the chart: per span the entries in insertion order, at most [beam] of them. *)
From Verif Require Import Base M_Chart.

(* a span of a sentence of length n *)
Definition span (n i j : nat) : Prop := i < j <= n.
(* the part of the sentence covered by a span *)
Definition sub {T} (word : list T) (l r : nat) : list T := firstn (r - l) (skipn l word).
Section Spec.
  Context {K : ZWeight}.
  (* one insertion: span, state, weight *)
  Definition entry := (nat * nat * (nat * K))%type.
  (* what is kept of a list of insertions for the span (i, j) *)
  Definition kept_entries (beam : nat) (h : list entry) (i j : nat) : list (nat * K) :=
    firstn beam (map snd (filter (fun e => Nat.eqb (fst (fst e)) i && Nat.eqb (snd (fst e)) j) h)).
  (* the last weight stored for q, if it is not zero *)
  Definition last_weight (l : list (nat * K)) (q : nat) : option K :=
    match find (fun e => Nat.eqb (fst e) q) (rev l) with Some e => if weqb (snd e) wzero then None else Some (snd e) | None => None end.
  Definition add_entries (h : list entry) (c : chart K) : option (chart K) :=
    fold_left (fun oc e => match oc with Some c => add_entry (fst (fst e)) (snd (fst e)) (fst (snd e)) (snd (snd e)) c | None => None end) h (Some c).
End Spec.
