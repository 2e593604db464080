(* Model of src/grammars/lcfrs/csparsing/automaton/kbest/{backtrace,mod}.rs: lazy enumeration of the derivations in a chart.
   Indices are u32 in the code and numbers without wrap-around here. *)
From Verif Require Import Base M_Util M_Agenda M_Grammar M_Chart M_CSAuto.

(* backtrace.rs:9-14 *)
Inductive bt (W : Type) :=
| BBin (r q1 m q2 : nat) (w : W) (i1 i2 : nat)
| BUn (r q1 : nat) (w : W) (i1 : nat)
| BNull (r : nat) (w : W).
Arguments BBin {W}. Arguments BUn {W}. Arguments BNull {W}.

(* backtrace.rs:17-29 *)
Definition bt_eqb {W} (a b : bt W) : bool :=
  match a, b with
  | BNull r1 _, BNull r2 _ => Nat.eqb r1 r2
  | BUn r1 _ _ i1, BUn r2 _ _ i2 => Nat.eqb r1 r2 && Nat.eqb i1 i2
  | BBin r1 _ m1 _ _ i11 i12, BBin r2 _ m2 _ _ i21 i22 => Nat.eqb r1 r2 && Nat.eqb m1 m2 && Nat.eqb i11 i21 && Nat.eqb i12 i22
  | _, _ => false
  end.
(* the derived order on tuples *)
Definition then_cmp (c d : comparison) : comparison := match c with Eq => d | _ => c end.
(* backtrace.rs:46-61 *)
Definition bt_cmp {W} (a b : bt W) : comparison :=
  match a, b with
  | BNull r1 _, BNull r2 _ => Nat.compare r1 r2
  | BNull _ _, _ => Gt
  | _, BNull _ _ => Lt
  | BUn r1 _ _ i1, BUn r2 _ _ i2 => then_cmp (Nat.compare i2 i1) (Nat.compare r1 r2)
  | BUn _ _ _ _, _ => Gt
  | BBin r1 _ m1 _ _ i11 i12, BBin r2 _ m2 _ _ i21 i22 =>
      then_cmp (Nat.compare i21 i11) (then_cmp (Nat.compare i22 i12) (then_cmp (Nat.compare r1 r2) (Nat.compare m1 m2)))
  | _, _ => Lt
  end.
(* the order of BinaryHeap<(W, IndexedBacktrace<W>)> *)
Definition kb_cmp {K : ZWeight} (a b : K * bt K) : comparison :=
  if weqb (fst a) (fst b) then bt_cmp (snd a) (snd b) else if wleb (fst a) (fst b) then Lt else Gt.
Definition kb_leb {K : ZWeight} (a b : K * bt K) : bool := match kb_cmp a b with Gt => false | _ => true end.

(* backtrace.rs:63-111: the next worse items *)
Definition bt_succ {W} (a : bt W) : list (bt W) :=
  match a with
  | BBin r q1 m q2 w i1 i2 => [BBin r q1 m q2 w i1 (i2 + 1); BBin r q1 m q2 w (i1 + 1) i2]
  | BUn r q w i => [BUn r q w (i + 1)]
  | BNull _ _ => []
  end.

(* kbest/mod.rs:28-34: the cache, a HashMap from span and state to the derivations found so far and the candidates *)
Definition knode := (nat * nat * nat)%type.
Definition knode_eqb (u v : knode) : bool :=
  Nat.eqb (fst (fst u)) (fst (fst v)) && Nat.eqb (snd (fst u)) (snd (fst v)) && Nat.eqb (snd u) (snd v).
Definition kd_get {X} (v : knode) (d : list (knode * X)) : option X := option_map snd (find (fun e => knode_eqb v (fst e)) d).
Definition kd_set {X} (v : knode) (x : X) (d : list (knode * X)) : list (knode * X) :=
  (v, x) :: filter (fun e => negb (knode_eqb v (fst e))) d.

Section KBest.
  Context {T : Type} {K : ZWeight} (H : max_heap (K * bt K) (@kb_leb K)).
  Context (a : automaton T K) (c : chart K) (rule_filter : list bool).
  Notation uheap := (unique_heap (It := bt K) H).
  Notation kstate := (list (knode * (list (bt K * K) * uheap))).
  Notation push := (uh_push bt_eqb H). Notation pop := (uh_pop bt_eqb H).

  (* kbest/mod.rs:90-135 *)
  Definition backtraces (i j q : nat) : option uheap :=
    let? bins := nth_error (au_tdbin a) q in
    let? h := fold_p (fun h e => let '(r, q1, q2, w) := e in
      let? on := nth_error rule_filter r in
      if on : bool then
        fold_p (fun h mid =>
          let? lew := get_weight c i mid q1 in
          match lew with
          | None => Some h
          | Some lew =>
              let? riw := get_weight c mid j q2 in
              match riw with
              | None => Some h
              | Some riw => Some (snd (push (BBin r q1 mid q2 w 0 0) (wmul w (wmul lew riw)) h))
              end
          end) (seq (S i) (j - S i)) h
      else Some h) bins (uh_default H) in
    let? uns := nth_error (au_tdun a) q in
    let? h := fold_p (fun h e => let '(r, q1, w) := e in
      let? on := nth_error rule_filter r in
      if on : bool then
        let? w1 := get_weight c i j q1 in
        Some (match w1 with Some w1 => snd (push (BUn r q1 w 0) (wmul w1 w) h) | None => h end)
      else Some h) uns h in
    if Nat.eqb (j - i) 1 then
      let? nulls := nth_error (au_tdnull a) q in
      fold_p (fun h e => let '(r, w) := e in
        let? on := nth_error rule_filter r in
        Some (if on : bool then snd (push (BNull r w) w h) else h)) nulls h
    else Some h.

  (* kbest/mod.rs:179-215: the loop; [weight] is the method of mod.rs:70-86.  k + 1 - vec_len iterations are left. *)
  Section Loop.
    Context (weight : kstate -> bt K -> option (option K * kstate)).
    Fixpoint worse (l : list (bt K)) (d : kstate) : option (list (bt K * K) * kstate) :=
      match l with
      | [] => Some ([], d)
      | b :: l =>
          let? (w, d) := weight d b in
          let? (bs, d) := worse l d in
          Some (match w with Some w => (b, w) :: bs | None => bs end, d)
      end.
    Fixpoint kloop (v : knode) (iters : nat) (d : kstate) (last : bt K * K) (vec_len : nat) : option (kstate * (bt K * K) * nat) :=
      match iters with
      | 0 => Some (d, last, vec_len)
      | S iters =>
          let? (ws, d) := worse (bt_succ (fst last)) d in
          let? (derivs, candidates) := kd_get v d in
          let candidates := fold_left (fun h p => snd (push (fst p) (snd p) h)) ws candidates in
          if uh_is_empty H candidates then Some (kd_set v (derivs, candidates) d, last, vec_len)
          else
            let? (x, candidates) := pop candidates in
            kloop v iters (kd_set v (derivs ++ [x], candidates) d) x (S vec_len)
      end.
  End Loop.

  Definition last_opt {X} (l : list X) : option X := match l with [] => None | x :: l => Some (List.last l x) end.

  (* kbest/mod.rs:70-86 and 138-225; the recursion need not end in general, so it is bounded by [fuel]; None = panic or
     not enough fuel *)
  Fixpoint kth (fuel : nat) (d : kstate) (i j q k : nat) : option (option (bt K * K) * kstate) :=
    match fuel with
    | 0 => None
    | S fuel =>
        let weight := fun d b =>
          match b with
          | BNull _ w => Some (Some w, d)
          | BUn _ q1 w ix =>
              let? (r, d) := kth fuel d i j q1 ix in
              Some (option_map (fun p => wmul w (snd p)) r, d)
          | BBin _ q1 m q2 w i1 i2 =>
              let? (r1, d) := kth fuel d i m q1 i1 in
              match r1 with
              | None => Some (None, d)
              | Some p1 =>
                  let? (r2, d) := kth fuel d m j q2 i2 in
                  Some (option_map (fun p2 => wmul (wmul w (snd p1)) (snd p2)) r2, d)
              end
          end in
        let finish := fun d last vec_len =>
          let? (d, last, vec_len) := kloop weight (i, j, q) (S k - vec_len) d last vec_len in
          match Nat.compare vec_len (S k) with
          | Eq => Some (Some last, d)
          | Lt => Some (None, d)
          | Gt =>
              let? (derivs, _) := kd_get (i, j, q) d in
              let? x := nth_error derivs k in
              Some (Some x, d)
          end in
        match kd_get (i, j, q) d with
        | None =>
            let? bts := backtraces i j q in
            match pop bts with
            | Some (first, bts) => finish (kd_set (i, j, q) ([first], bts) d) first 1
            | None => Some (None, kd_set (i, j, q) ([], uh_default H) d)
            end
        | Some (derivs, _) =>
            match last_opt derivs with
            | Some x => finish d x (length derivs)
            | None => Some (None, d)
            end
        end
    end.

  (* kbest/mod.rs:228-285 *)
  Fixpoint read (fuel : nat) (d : kstate) (i j : nat) (b : bt K) : option (list (bracket bcontent) * kstate) :=
    match fuel with
    | 0 => None
    | S fuel =>
        match b with
        | BBin rid ls m rs _ lk rk =>
            let? (ce1, d) := kth (S fuel) d i m ls lk in
            let? ce1 := ce1 in
            let? (ce2, d) := kth (S fuel) d m j rs rk in
            let? ce2 := ce2 in
            let? (ob, lb, rb) := nth_error (au_brackets a) rid in
            let? (w1, d) := read fuel d i m (fst ce1) in
            let? (w2, d) := read fuel d m j (fst ce2) in
            let w1 := if is_ignore lb then w1 else Open lb :: w1 ++ [Close lb] in
            let w1 := w1 ++ Open rb :: w2 ++ [Close rb] in
            Some (if is_ignore ob then w1 else Open ob :: w1 ++ [Close ob], d)
        | BUn rid q _ k =>
            let? (ice, d) := kth (S fuel) d i j q k in
            let? ice := ice in
            let? (w, d) := read fuel d i j (fst ice) in
            let? (ob, ib, _) := nth_error (au_brackets a) rid in
            Some (Open ob :: Open ib :: w ++ [Close ib; Close ob], d)
        | BNull rid _ =>
            let? (ob, ib, _) := nth_error (au_brackets a) rid in
            Some ([Open ob; Open ib; Close ib; Close ob], d)
        end
    end.

  (* kbest/mod.rs:15-64: chart, tables and filter are fixed, what remains is the cache and k *)
  Record kiter := KIter { ki_d : kstate; ki_k : nat }.
  Definition kiter_new : kiter := KIter [] 0.
  (* kbest/mod.rs:288-297 *)
  Definition kiter_next (fuel : nat) (s : kiter) : option (option (list (bracket bcontent)) * kiter) :=
    let? (r, d) := kth fuel (ki_d s) 0 (u8 (ch_n c)) (au_initial a) (ki_k s) in
    match r with
    | None => Some (None, KIter d (S (ki_k s)))
    | Some p =>
        let? (w, d) := read fuel d 0 (u8 (ch_n c)) (fst p) in
        Some (Some w, KIter d (S (ki_k s)))
    end.
  (* the results of the first m calls *)
  Fixpoint kiter_run (fuel m : nat) (s : kiter) : option (list (option (list (bracket bcontent)))) :=
    match m with
    | 0 => Some []
    | S m =>
        let? (r, s) := kiter_next fuel s in
        let? rs := kiter_run fuel m s in
        Some (r :: rs)
    end.
End KBest.
