(* Operation histories of the heaps and what a caller observes. *)
From Verif Require Import Base M_Agenda.

(* ---- LimitedHeap: histories of push/pop/clear ---- *)
Inductive lh_op (I W : Type) := LPush (e : I) (p : W) | LPop | LClear.
Arguments LPush {I W}. Arguments LPop {I W}. Arguments LClear {I W}.

Section LH.
  Context {I W : Type} {leb : W -> W -> bool} (H : minmax_heap (I * W) (wi_leb leb)).

  (* one operation and the item it hands to the caller, if any *)
  Definition lh_step (h : limited_heap H) (o : lh_op I W) : option I * limited_heap H :=
    match o with
    | LPush e p => lh_push H e p h
    | LPop => match lh_pop H h with Some (x, h') => (Some x, h') | None => (None, h) end
    | LClear => (None, lh_clear H h)
    end.

  Fixpoint lh_run (h : limited_heap H) (ops : list (lh_op I W)) : list (option I) * limited_heap H :=
    match ops with
    | [] => ([], h)
    | o :: ops => let '(r, h1) := lh_step h o in let '(rs, h2) := lh_run h1 ops in (r :: rs, h2)
    end.
End LH.

Definition pushed_items {I W : Type} (ops : list (lh_op I W)) : list I :=
  flat_map (fun o => match o with LPush e _ => [e] | _ => [] end) ops.

Definition handed_out {I : Type} (rs : list (option I)) : list I :=
  flat_map (fun r => match r with Some x => [x] | None => [] end) rs.

(* ---- BeamHeap: histories of push/pop ---- *)
Inductive bh_op (I W : Type) := BPush (e : I) (p : W) | BPop.
Arguments BPush {I W}. Arguments BPop {I W}.
Inductive bh_out (I : Type) := BPushed (accepted : bool) | BPopped (x : option I).
Arguments BPushed {I}. Arguments BPopped {I}.

Section BH.
  Context {I W : Type} {leb : W -> W -> bool} (mul : W -> W -> W) (H : max_heap (I * W) (wi_leb leb)).

  Definition bh_step (h : beam_heap H) (o : bh_op I W) : bh_out I * beam_heap H :=
    match o with
    | BPush e p => let '(ok, h') := bh_push mul H e p h in (BPushed ok, h')
    | BPop => match bh_pop H h with Some (x, h') => (BPopped (Some x), h') | None => (BPopped None, h) end
    end.

  Fixpoint bh_run (h : beam_heap H) (ops : list (bh_op I W)) : list (bh_out I) * beam_heap H :=
    match ops with
    | [] => ([], h)
    | o :: ops => let '(r, h1) := bh_step h o in let '(rs, h2) := bh_run h1 ops in (r :: rs, h2)
    end.
End BH.

(* items whose push was reported as accepted / items returned by pop *)
Definition bh_accepted {I W : Type} (ops : list (bh_op I W)) (outs : list (bh_out I)) : list I :=
  flat_map (fun oo => match oo with (BPush e _, BPushed true) => [e] | _ => [] end) (combine ops outs).
Definition bh_popped {I : Type} (outs : list (bh_out I)) : list I :=
  flat_map (fun r => match r with BPopped (Some x) => [x] | _ => [] end) outs.

(* ---- UniqueHeap: histories of push/pop ---- *)
Inductive uh_op (It Wt : Type) := UPush (i : It) (w : Wt) | UPop.
Arguments UPush {It Wt}. Arguments UPop {It Wt}.

Section UH.
  Context {It Wt : Type} (eqb : It -> It -> bool) {leb : (Wt * It) -> (Wt * It) -> bool} (H : max_heap (Wt * It) leb).

  Definition uh_step (h : unique_heap H) (o : uh_op It Wt) : unique_heap H :=
    match o with
    | UPush i w => snd (uh_push eqb H i w h)
    | UPop => match uh_pop eqb H h with Some (_, h') => h' | None => h end
    end.

  Definition uh_run (h : unique_heap H) (ops : list (uh_op It Wt)) : unique_heap H := fold_left uh_step ops h.
End UH.

(* the derived order of Rust on pairs: first component, ties broken by the second *)
Definition lex_leb {A B : Type} (la : A -> A -> bool) (lb : B -> B -> bool) (p q : A * B) : bool :=
  if la (fst p) (fst q) then (if la (fst q) (fst p) then lb (snd p) (snd q) else true) else false.
