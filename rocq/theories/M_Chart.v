(* Model of src/grammars/lcfrs/csparsing/automaton/chart.rs. *)
From Coq Require Import NArith.
From Verif Require Import Base.

(* W: Zero + PartialEq in addition to the operations of Weight.  LogDomain<f64> and () are the implementors. *)
Record ZWeight := mkZWeight { zw :> Weight; wzero : zw; weqb : zw -> zw -> bool }.
Arguments wzero {_}. Arguments weqb {_} _ _.
Record ZWeightLaws (K : ZWeight) : Prop := {
  zl_weight : WeightLaws K;
  zl_eqb : EqbSpec (@weqb K);
  zl_zero_mul : forall a : K, wmul wzero a = wzero;
  zl_nodiv : forall a b : K, wmul a b = wzero -> a = wzero \/ b = wzero;
  zl_zero_le : forall a : K, wleb wzero a = true
}.
(* a concrete instance: costs with infinity; None = infinite cost = weight zero *)
Definition TropWeight : ZWeight :=
  mkZWeight (mkWeight (option nat) (fun a b => match a, b with Some x, Some y => Some (x + y) | _, _ => None end) (Some 0)
                      (fun a b => match a, b with None, _ => true | _, None => false | Some x, Some y => Nat.leb y x end))
            None (fun a b => match a, b with None, None => true | Some x, Some y => Nat.eqb x y | _, _ => false end).

(* StateT = u32 and RangeT = u8 are numbers; usize arithmetic that would go below zero is a panic (None) *)

(* chart.rs:16-21 *)
Definition chart_size (n : nat) : nat := n * (n + 1) / 2.
Definition chart_size_with_states (n states : nat) : nat := n * (n + 1) * states / 2.

(* chart.rs:23-26 *)
Definition index (i j n : nat) : option nat :=
  if Nat.leb i j && Nat.leb (j - i) n && Nat.leb ((n - (j - i) + 1) * (n - (j - i) + 2)) (n * (n + 1))
  then Some ((n * (n + 1) - (n - (j - i) + 1) * (n - (j - i) + 2)) / 2 + i) else None.
(* chart.rs:27-30 *)
Definition index_with_state (i j q n states : nat) : option nat :=
  if Nat.leb i j && Nat.leb (j - i) n && Nat.leb ((n - (j - i) + 1) * (n - (j - i) + 2)) (n * (n + 1))
  then Some (((n * (n + 1) - (n - (j - i) + 1) * (n - (j - i) + 2)) / 2 + i) * states + q) else None.

(* v[i] = x *)
Fixpoint vset {X} (v : list X) (i : nat) (x : X) : option (list X) :=
  match v, i with
  | [], _ => None
  | _ :: v, 0 => Some (x :: v)
  | y :: v, S i => option_map (cons y) (vset v i x)
  end.
(* &v[a..b] *)
Definition slice {X} (v : list X) (a b : nat) : option (list X) :=
  if Nat.leb a b && Nat.leb b (length v) then Some (firstn (b - a) (skipn a v)) else None.

(* chart.rs:5-14 *)
Record chart (W : Type) := Chart {
  ch_counts : list nat; ch_entries : list (nat * W); ch_weights : list W; ch_n : nat; ch_states : nat; ch_beam : nat }.
Arguments Chart {W}. Arguments ch_counts {W}. Arguments ch_entries {W}. Arguments ch_weights {W}.
Arguments ch_n {W}. Arguments ch_states {W}. Arguments ch_beam {W}.

Section Chart.
  Context {K : ZWeight}.
  (* chart.rs:35-48 *)
  Definition chart_new (n states bt_per_cell : nat) : option (chart K) :=
    if N.leb (N.of_nat bt_per_cell) 65535 then
      Some (Chart (repeat 0 (chart_size n)) (repeat (0, wzero) (chart_size n * bt_per_cell))
                  (repeat wzero (chart_size_with_states n states)) n states bt_per_cell)
    else None.
  (* chart.rs:51-59 *)
  Definition add_entry (i j state : nat) (weight : K) (c : chart K) : option (chart K) :=
    match index i j (ch_n c) with
    | None => None
    | Some tri =>
        match nth_error (ch_counts c) tri with
        | None => None
        | Some nts =>
            if Nat.ltb nts (ch_beam c) then
              match vset (ch_entries c) (tri * ch_beam c + nts) (state, weight), vset (ch_weights c) (tri * ch_states c + state) weight,
                    vset (ch_counts c) tri (nts + 1) with
              | Some es, Some ws, Some cs => Some (Chart cs es ws (ch_n c) (ch_states c) (ch_beam c))
              | _, _, _ => None
              end
            else Some c
        end
    end.
  (* chart.rs:62-72; outer None = panic *)
  Definition get_weight (c : chart K) (i j q : nat) : option (option K) :=
    match index_with_state i j q (ch_n c) (ch_states c) with
    | None => None
    | Some k => option_map (fun w => if weqb w wzero then None else Some w) (nth_error (ch_weights c) k)
    end.
  (* chart.rs:95-104 *)
  Definition iterate_nont (c : chart K) (i j : nat) : option (list (nat * K)) :=
    match index i j (ch_n c) with
    | None => None
    | Some tri =>
        match nth_error (ch_counts c) tri with
        | None => None
        | Some nts => slice (ch_entries c) (tri * ch_beam c) (tri * ch_beam c + nts)
        end
    end.
End Chart.
