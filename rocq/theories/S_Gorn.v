(* Specification for GornTree: a partial function from addresses to values, and the order of the nodes of a tree. *)
From Verif Require Import Base M_Gorn.

(* a comes before b: a is an ancestor of b, or at the node where the paths part a goes to a child further left *)
Definition before (a b : list nat) : Prop :=
  (exists x s, b = a ++ x :: s) \/ (exists p x y s s', a = p ++ x :: s /\ b = p ++ y :: s' /\ x < y).

Section Spec.
  Context {V : Type}.
  Definition pmap := list nat -> option V.
  Definition same_addr := list_eq_dec Nat.eq_dec.
  Definition upd (k : list nat) (o : option V) (f : pmap) : pmap := fun a => if same_addr a k then o else f a.
  (* the last pair for an address counts *)
  Fixpoint last_of (l : list (list nat * V)) : pmap := fun a =>
    match l with [] => None | (k, v) :: l => match last_of l a with Some w => Some w | None => if same_addr a k then Some v else None end end.
  (* one step: [rel o f r g]: operation o on the map f returns r and leaves g *)
  Definition does (o : gop V) (f : pmap) (r : option V) (g : pmap) : Prop :=
    match o with
    | OClear => r = None /\ forall a, g a = None
    | OInsert k v => r = f k /\ forall a, g a = upd k (Some v) f a
    | ORemove k => r = f k /\ forall a, g a = upd k None f a
    | OSet k v => r = None /\ forall a, g a = match f k with Some _ => upd k (Some v) f a | None => f a end
    | OOrInsert k v => match f k with
                       | Some w => r = Some w /\ forall a, g a = f a
                       | None => r = Some v /\ forall a, g a = upd k (Some v) f a
                       end
    | OUpdate h => r = None /\ forall a, g a = option_map (h a) (f a)
    | OAppend l => r = None /\ forall a, g a = match last_of l a with Some v => Some v | None => f a end
    | OSplitOff k => r = None /\ forall a, (before a k -> g a = f a) /\ (~ before a k -> g a = None)
    | OSplitTake k => r = None /\ forall a, (before a k -> g a = None) /\ (~ before a k -> g a = f a)
    | OCloned => r = None /\ forall a, g a = f a
    end.
  (* a history: the values returned and the map in the end *)
  Inductive history : list (gop V) -> pmap -> list (option V) -> pmap -> Prop :=
  | hi_nil f g : (forall a, g a = f a) -> history [] f [] g
  | hi_cons o ops f r f' rs g : does o f r f' -> history ops f' rs g -> history (o :: ops) f (r :: rs) g.
End Spec.
