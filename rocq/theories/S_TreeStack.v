(* Specification of tree stacks: a finite map from addresses (sequences of child indices) to values, and a pointer. *)
From Verif Require Import Base M_Util M_TreeStack.

(* the value at an address below the current node *)
Fixpoint sub {A} (t : tstack A) (addr : list nat) : option A :=
  match addr with
  | [] => Some (ts_value t)
  | n :: r => match nth_error (ts_children t) n with Some (Some c) => sub c r | _ => None end
  end.

(* the address of the current node *)
Fixpoint pointer {A} (t : tstack A) : list nat :=
  match t with TStack None _ _ => [] | TStack (Some (n, p)) _ _ => pointer p ++ [n] end.

(* strip p addr = Some r if addr = p ++ r *)
Fixpoint strip (p addr : list nat) : option (list nat) :=
  match p, addr with
  | [], _ => Some addr
  | n :: p, m :: addr => if Nat.eqb n m then strip p addr else None
  | _ :: _, [] => None
  end.

(* the value at an address: at or above the pointer it is found in the current node, elsewhere in what is below *)
Fixpoint node {A} (t : tstack A) (addr : list nat) : option A :=
  match t with
  | TStack par v ch =>
      match strip (pointer (TStack par v ch)) addr with
      | Some r => sub (TStack par v ch) r
      | None => match par with Some (_, p) => node p addr | None => None end
      end
  end.

(* the tree stacks that can be built with the public functions *)
Inductive built {A} : tstack A -> Prop :=
| b_new a : built (ts_new a)
| b_set t a : built t -> built (ts_set t a)
| b_push t n a t' : built t -> ts_push t n a = Ok t' \/ ts_push t n a = Err t' -> built t'
| b_push_next t a t' : built t -> ts_push_next t a = Some t' -> built t'
| b_up t n t' : built t -> ts_up t n = Ok t' \/ ts_up t n = Err t' -> built t'
| b_ups t l t' : built t -> ts_ups t = Some l -> In t' l -> built t'
| b_down t t' : built t -> ts_down t = Ok t' \/ ts_down t = Err t' -> built t'.

(* f with the value at address k replaced *)
Definition put {A} (f : list nat -> option A) (k : list nat) (a : A) : list nat -> option A :=
  fun k' => if list_eq_dec Nat.eq_dec k' k then Some a else f k'.
