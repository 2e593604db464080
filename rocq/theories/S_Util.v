(* Specifications for the utility types. *)
From Verif Require Import Base M_Util.

(* ---- VecMultiMap: histories; the abstract state is a total map from indices to lists ---- *)
Inductive vmm_op (T : Type) := PushTo (i : nat) (v : T) | Get (i : nat) | GetOrFail (i : nat) | GetMut (i : nat) (f : list T -> list T).
Arguments PushTo {T}. Arguments Get {T}. Arguments GetOrFail {T}. Arguments GetMut {T}.

(* None = the operation panics or reads out of bounds; otherwise what it returns (if anything) and the new state *)
Definition vmm_step {T} (m : vmm T) (o : vmm_op T) : option (option (list T) * vmm T) :=
  match o with
  | PushTo i v => match vmm_push_to i v m with Some m' => Some (None, m') | None => None end
  | Get i => match vmm_get i m with (Some v, m') => Some (Some v, m') | (None, _) => None end
  | GetOrFail i => Some (vmm_get_or_fail i m, m)
  | GetMut i f => match vmm_get_mut i f m with Some m' => Some (None, m') | None => None end
  end.

Fixpoint vmm_run {T} (m : vmm T) (ops : list (vmm_op T)) : option (list (option (list T)) * vmm T) :=
  match ops with
  | [] => Some ([], m)
  | o :: ops => match vmm_step m o with
                | None => None
                | Some (r, m1) => match vmm_run m1 ops with
                                  | None => None
                                  | Some (rs, m2) => Some (r :: rs, m2)
                                  end
                end
  end.

(* the abstract map *)
Definition mm_map (T : Type) := nat -> list T.
Definition mm_step {T} (f : mm_map T) (o : vmm_op T) : mm_map T :=
  match o with
  | PushTo i v => fun j => if Nat.eqb j i then f i ++ [v] else f j
  | GetMut i g => fun j => if Nat.eqb j i then g (f i) else f j
  | _ => f
  end.
Definition mm_run {T} (f : mm_map T) (ops : list (vmm_op T)) : mm_map T := fold_left mm_step ops f.

(* what a read may return: get gives the list; get_or_fail gives the list or, if that is empty, possibly None *)
Definition mm_reads {T} (f : mm_map T) (o : vmm_op T) (r : option (list T)) : Prop :=
  match o with
  | Get i => r = Some (f i)
  | GetOrFail i => r = Some (f i) \/ (r = None /\ f i = [])
  | _ => r = None
  end.
Fixpoint mm_reads_all {T} (f : mm_map T) (ops : list (vmm_op T)) (rs : list (option (list T))) : Prop :=
  match ops, rs with
  | [], [] => True
  | o :: ops, r :: rs => mm_reads f o r /\ mm_reads_all (mm_step f o) ops rs
  | _, _ => False
  end.

(* ---- Partition: no symbol occurs in two (positions of the list of) cells ---- *)
Definition disjoint_cells {T : Type} (cells : list (list T)) : Prop :=
  forall i j a b x, nth_error cells i = Some a -> nth_error cells j = Some b -> In x a -> In x b -> i = j.

(* ---- Dyck language: epsilon, concatenation, bracketing ---- *)
Inductive dyck {A : Type} : list (bracket A) -> Prop :=
| dyck_eps : dyck []
| dyck_app u v : dyck u -> dyck v -> dyck (u ++ v)
| dyck_wrap a u : dyck u -> dyck (Open a :: u ++ [Close a]).

(* ---- Pushdown: its elements, top first ---- *)
Fixpoint elements {A : Type} (p : pushdown A) : list A :=
  match p with Empty => [] | Cons a b => a :: elements b end.
