(* Model of src/grammars/lcfrs/csparsing/automaton/estimates.rs. *)
From Verif Require Import Base M_Util M_Agenda M_Chart M_CSAuto.

Section Estimates.
  Context {T : Type} {K : ZWeight} (H : max_heap (K * nat) (@item_leb K)).
  Definition is_zero (w : K) : bool := weqb w wzero.

  (* estimates.rs:11: the table and the number of states *)
  Record sx_inside := SxInside { si_tab : list K; si_states : nat }.
  (* estimates.rs:21-23; range - 1 underflows for range 0 *)
  Definition si_index (s : sx_inside) (q range : nat) : option nat :=
    match range with 0 => None | S r => Some (si_states s * r + q) end.
  (* estimates.rs:25-27 *)
  Definition si_with_capacity (states maxrange : nat) : sx_inside := SxInside (repeat wzero (states * maxrange)) states.
  (* estimates.rs:29-38, without the returned flag, which is never used *)
  Definition si_insert (q range : nat) (w : K) (s : sx_inside) : option sx_inside :=
    let? i := si_index s q range in
    let? old := nth_error (si_tab s) i in
    if is_zero old then let? t := vset (si_tab s) i w in Some (SxInside t (si_states s)) else Some s.
  (* estimates.rs:40-47 *)
  Definition si_get (s : sx_inside) (q range : nat) : option (option K) :=
    let? i := si_index s q range in
    let? w := nth_error (si_tab s) i in
    Some (if is_zero w then None else Some w).
  (* enumerate, then keep the entries that are not zero *)
  Definition nonzero_states (ws : list K) : list (nat * K) :=
    filter (fun x => negb (is_zero (snd x))) (combine (seq 0 (length ws)) ws).
  (* estimates.rs:49-61 *)
  Definition si_iterate (s : sx_inside) (range_size : nat) : option (list (nat * K)) :=
    match range_size with
    | 0 => None
    | S r => option_map nonzero_states (slice (si_tab s) (r * si_states s) (r * si_states s + si_states s))
    end.

  (* the while loops estimates.rs:93-109 and 225-237, which differ in the items added for a state and in the table written:
     pop; skip states seen before; insert; add the items of [step] whose state has not been seen.
     Every iteration removes an element of the queue and every state adds its items at most once: see the fuel given below. *)
  Section Close.
    Context {S_ : Type} (step : nat -> K -> option (list (K * nat))) (ins : nat -> K -> S_ -> option S_).
    Fixpoint close_queue (fuel : nat) (filter_ : list bool) (queue : mh_T H) (s : S_) : option S_ :=
      match fuel with
      | 0 => None
      | S fuel =>
          match mh_pop H queue with
          | None => Some s
          | Some ((w1, q1), queue) =>
              let? seen := nth_error filter_ q1 in
              let? filter_ := vset filter_ q1 true in
              if seen then close_queue fuel filter_ queue s else
              let? s := ins q1 w1 s in
              let? items := step q1 w1 in
              let? items := filter_map_p (fun x => let? f := nth_error filter_ (snd x) in Some (if f then None else Some x)) items in
              close_queue fuel filter_ (extend H items queue) s
          end
      end.
  End Close.

  Section Auto.
    Context (a : automaton T K).
    (* estimates.rs:99-107: the weight of the rule alone *)
    Definition inside_step (q1 : nat) (w1 : K) : option (list (K * nat)) :=
      let? rules := nth_error (au_un a) q1 in
      Some (map (fun x => let '(_, (w0, q0)) := x in (w0, q0)) rules).
    (* estimates.rs:79-90 *)
    Definition inside_binary (s : sx_inside) (range_size : nat) (queue : mh_T H) : option (mh_T H) :=
      fold_p (fun queue left_portion =>
        let? lefts := si_iterate s left_portion in
        fold_p (fun queue left =>
          let? rules := nth_error (au_bin a) (fst left) in
          let? items := filter_map_p (fun x => let '(_, qr, (w0, q0)) := x in
            let? wr := si_get s qr (range_size - left_portion) in
            Some (match wr with Some wr => Some (wmul (wmul (snd left) w0) wr, q0) | None => None end)) rules in
          Some (extend H items queue)) lefts queue) (seq 1 (range_size - 1)) queue.
    (* estimates.rs:70-109; the queue is empty at the start of every round *)
    Definition inside_round (s : sx_inside) (range_size : nat) : option sx_inside :=
      let queue := if Nat.eqb range_size 1 then extend H (map snd (concat (map snd (au_term a)))) (mh_empty H) else mh_empty H in
      let? queue := inside_binary s range_size queue in
      close_queue inside_step (fun q w s => si_insert q range_size w s) (S (mh_len H queue + length (concat (au_un a))))
                  (repeat false (si_states s)) queue s.
    (* estimates.rs:65-112 *)
    Definition inside_from_automaton (maxrange : nat) : option sx_inside :=
      fold_p inside_round (seq 1 maxrange) (si_with_capacity (states a) maxrange).
  End Auto.

  (* estimates.rs:18: the table, the maximal width and the number of states *)
  Record sx_outside := SxOutside { so_tab : list K; so_max : nat; so_states : nat }.
  (* estimates.rs:116-127: both variants *)
  Definition so_index (s : sx_outside) (q i j : nat) : option nat := index_with_state i j q (so_max s) (so_states s).
  (* estimates.rs:129-135 *)
  Definition so_with_capacity (states maxrange : nat) : sx_outside :=
    SxOutside (repeat wzero (states * maxrange * (maxrange + 1) / 2)) maxrange states.
  (* estimates.rs:137-146 *)
  Definition so_insert (q i j : nat) (w : K) (s : sx_outside) : option sx_outside :=
    let? k := so_index s q i j in
    let? old := nth_error (so_tab s) k in
    if is_zero old then let? t := vset (so_tab s) k w in Some (SxOutside t (so_max s) (so_states s)) else Some s.
  (* estimates.rs:148-162 *)
  Definition so_iterate (s : sx_outside) (left_front right_front : nat) : option (list (nat * K)) :=
    let? start := so_index s 0 left_front right_front in
    option_map nonzero_states (slice (so_tab s) start (start + so_states s)).
  (* estimates.rs:169-182 *)
  Definition so_get (s : sx_outside) (q i j n : nat) : option (option K) :=
    if Nat.ltb (i + n) j then None else                                  (* i + n - j *)
    if Nat.leb (so_max s) (i + n - j) then Some (Some wone) else
    if Nat.ltb (j + so_max s) n then None else                           (* j + self.1 - n *)
    let? k := so_index s q i (j + so_max s - n) in
    let? w := nth_error (so_tab s) k in
    Some (if is_zero w then None else Some w).

  Section AutoOut.
    Context (a : automaton T K) (insides : sx_inside) (maxrange : nat).
    (* estimates.rs:202-211 *)
    Definition outside_left (s : sx_outside) (left_front right_front : nat) (queue : mh_T H) : option (mh_T H) :=
      fold_p (fun queue ext =>
        let? parents := so_iterate s ext right_front in
        fold_p (fun queue p =>
          let? rules := nth_error (au_tdbin a) (fst p) in
          let? items := filter_map_p (fun x => let '(_, ql, qr, w0) := x in
            let? wl := si_get insides ql (left_front - ext) in
            Some (match wl with Some wl => Some (wmul (wmul wl w0) (snd p), qr) | None => None end)) rules in
          Some (extend H items queue)) parents queue) (seq 0 left_front) queue.
    (* estimates.rs:213-222; right_front + 1 is u8 arithmetic *)
    Definition outside_right (s : sx_outside) (left_front right_front : nat) (queue : mh_T H) : option (mh_T H) :=
      if Nat.leb 255 right_front then None else
      fold_p (fun queue ext =>
        let? parents := so_iterate s left_front ext in
        fold_p (fun queue p =>
          let? rules := nth_error (au_tdbin a) (fst p) in
          let? items := filter_map_p (fun x => let '(_, ql, qr, w0) := x in
            let? wr := si_get insides qr (ext - right_front) in
            Some (match wr with Some wr => Some (wmul (wmul w0 wr) (snd p), ql) | None => None end)) rules in
          Some (extend H items queue)) parents queue) (seq (S right_front) (maxrange - right_front)) queue.
    (* estimates.rs:230-236 *)
    Definition outside_step (q0 : nat) (w0 : K) : option (list (K * nat)) :=
      let? rules := nth_error (au_tdun a) q0 in
      Some (map (fun x => let '(_, q1, w1) := x in (wmul w1 w0, q1)) rules).
    (* estimates.rs:196-237; the queue is empty at the start of every round *)
    Definition outside_round (range_size : nat) (s : sx_outside) (left_front : nat) : option sx_outside :=
      let right_front := left_front + range_size in
      let queue := if Nat.eqb range_size maxrange then mh_push H (wone, au_initial a) (mh_empty H) else mh_empty H in
      let? queue := outside_left s left_front right_front queue in
      let? queue := outside_right s left_front right_front queue in
      close_queue outside_step (fun q w s => so_insert q left_front right_front w s) (S (mh_len H queue + length (concat (au_tdun a))))
                  (repeat false (so_states s)) queue s.
  End AutoOut.
  (* estimates.rs:186-241 *)
  Definition outside_from_automaton (a : automaton T K) (maxrange : nat) : option sx_outside :=
    let? insides := inside_from_automaton a maxrange in
    fold_p (fun s range_size => fold_p (outside_round a insides maxrange range_size) (seq 0 (maxrange - range_size + 1)) s)
           (rev (seq 1 maxrange)) (so_with_capacity (states a) maxrange).
End Estimates.
