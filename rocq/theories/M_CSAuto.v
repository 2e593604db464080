(* Model of src/grammars/lcfrs/csparsing/automaton/mod.rs: the automaton extracted from a grammar and fill_chart.
   u32 identifiers of rules and states are numbers without wrap-around; the casts to u8 are modelled. *)
From Coq Require Import NArith.
From Verif Require Import Base M_Util M_Agenda M_Grammar M_Chart.

(* a panicking computation *)
Notation "'let?' x ':=' a 'in' b" := (match a with Some x => b | None => None end) (at level 200, x pattern, right associativity).

(* x as u8 *)
Definition u8 (x : nat) : nat := x mod 256.

(* csparsing/mod.rs:24-32 *)
Inductive bcontent := Ignore | Terminal | BComp (rule comp : nat) | BVar (rule i j : nat).
(* csparsing/mod.rs:36-41 *)
Definition is_ignore (b : bcontent) : bool := match b with Ignore => true | _ => false end.
(* automaton/mod.rs:40 *)
Definition brackets3 := (bcontent * bcontent * bcontent)%type.

(* iter().filter_map(f) where f may panic *)
Fixpoint filter_map_p {X Y} (f : X -> option (option Y)) (l : list X) : option (list Y) :=
  match l with
  | [] => Some []
  | x :: l => let? y := f x in let? ys := filter_map_p f l in Some (match y with Some y => y :: ys | None => ys end)
  end.
(* for x in l { s = f(s, x) } where f may panic *)
Fixpoint fold_p {X St} (f : St -> X -> option St) (l : list X) (s : St) : option St :=
  match l with
  | [] => Some s
  | x :: l => let? s := f s x in fold_p f l s
  end.

(* automaton/mod.rs:69-72 *)
Inductive cstate (N : Type) := Non (n : N) (comp : nat) | Uniq (rule comp off : nat).
Arguments Non {N}. Arguments Uniq {N}.
Definition cstate_eqb {N} (neqb : N -> N -> bool) (a b : cstate N) : bool :=
  match a, b with
  | Non n c, Non n' c' => neqb n n' && Nat.eqb c c'
  | Uniq r c o, Uniq r' c' o' => Nat.eqb r r' && Nat.eqb c c' && Nat.eqb o o'
  | _, _ => false
  end.

(* automaton/mod.rs:48-63; the mirrored table (field 6) is never read and not modelled *)
Record automaton (T W : Type) := Automaton {
  au_bin : list (list (nat * nat * (W * nat)));     (* 0: left state -> [(rule, right state, (weight, lhs))] *)
  au_un : list (list (nat * (W * nat)));            (* 1: state -> [(rule, (weight, lhs))] *)
  au_term : list (T * list (nat * (W * nat)));      (* 2: terminal -> [(rule, (weight, lhs))], a HashMap *)
  au_tdbin : list (list (nat * nat * nat * W));     (* 3: lhs -> [(rule, left, right, weight)] *)
  au_tdun : list (list (nat * nat * W));            (* 4: lhs -> [(rule, state, weight)] *)
  au_tdnull : list (list (nat * W));                (* 5: lhs -> [(rule, weight)] *)
  au_initial : nat;                                 (* 7 *)
  au_brackets : list brackets3 }.                   (* 8 *)
Arguments Automaton {T W}. Arguments au_bin {T W}. Arguments au_un {T W}. Arguments au_term {T W}. Arguments au_tdbin {T W}.
Arguments au_tdun {T W}. Arguments au_tdnull {T W}. Arguments au_initial {T W}. Arguments au_brackets {T W}.

Section FromGrammar.
  Context {N T : Type} {K : ZWeight} (neqb : N -> N -> bool) (teqb : T -> T -> bool).
  (* the trait Factorizable (src/util/factorizable.rs) *)
  Context (factorize : K -> nat -> list K).

  (* the local variables of from_grammar, mod.rs:88-96 *)
  Record builder := Builder {
    b_ints : list (cstate N);
    b_bin : vmm (nat * nat * (K * nat)); b_un : vmm (nat * (K * nat)); b_term : list (T * list (nat * (K * nat)));
    b_tdbin : vmm (nat * nat * nat * K); b_tdun : vmm (nat * nat * K); b_tdnull : vmm (nat * K);
    b_br : list brackets3 }.
  Definition builder_new : builder := Builder [] vmm_new vmm_new [] vmm_new vmm_new vmm_new [].
  Definition b_integerise (s : cstate N) (b : builder) : builder * nat :=
    let '(ints, k) := int_integerise (cstate_eqb neqb) (b_ints b) s in
    (Builder ints (b_bin b) (b_un b) (b_term b) (b_tdbin b) (b_tdun b) (b_tdnull b) (b_br b), k).

  (* entry(t).or_default().push(x) *)
  Fixpoint hm_push {X} (t : T) (x : X) (m : list (T * list X)) : list (T * list X) :=
    match m with
    | [] => [(t, [x])]
    | (t', xs) :: m => if teqb t t' then (t', xs ++ [x]) :: m else (t', xs) :: hm_push t x m
    end.
  Fixpoint hm_get {X} (t : T) (m : list (T * list X)) : option (list X) :=
    match m with [] => None | (t', xs) :: m => if teqb t t' then Some xs else hm_get t m end.

  (* mod.rs:110-118 *)
  Definition add_terminal (t : T) (w : K) (q : nat) (br : brackets3) (b : builder) : option builder :=
    let rid := length (b_br b) in
    let? tdnull := vmm_push_to q (rid, w) (b_tdnull b) in
    Some (Builder (b_ints b) (b_bin b) (b_un b) (hm_push t (rid, (w, q)) (b_term b)) (b_tdbin b) (b_tdun b) tdnull (b_br b ++ [br])).
  (* mod.rs:124-139 *)
  Definition add_unary (q1 : nat) (w : K) (q : nat) (br : brackets3) (b : builder) : option builder :=
    let rid := length (b_br b) in
    let? un := vmm_push_to q1 (rid, (w, q)) (b_un b) in
    let? tdun := vmm_push_to q (rid, q1, w) (b_tdun b) in
    Some (Builder (b_ints b) (b_bin b) un (b_term b) (b_tdbin b) tdun (b_tdnull b) (b_br b ++ [br])).
  (* mod.rs:164-181 and 200-217 *)
  Definition add_binary (q1 q2 : nat) (w : K) (q : nat) (br : brackets3) (b : builder) : option builder :=
    let rid := length (b_br b) in
    let? bin := vmm_push_to q1 (rid, q2, (w, q)) (b_bin b) in
    let? tdbin := vmm_push_to q (rid, q1, q2, w) (b_tdbin b) in
    Some (Builder (b_ints b) bin (b_un b) (b_term b) tdbin (b_tdun b) (b_tdnull b) (b_br b ++ [br])).

  Section Rule.
    Context (rule_id : nat) (r : prule N T K).
    (* unwrap_var, rule.tail[i], integerise(Non(&rule.tail[i], j)) and the bracket Variable(rule_id, i as u8, j as u8) *)
    Definition successor (x : vart T) (b : builder) : option (builder * nat * bcontent) :=
      match x with
      | Tm _ => None
      | Var i j =>
          let? a := nth_error (pr_tail r) i in
          let '(b, q) := b_integerise (Non a j) b in
          Some (b, q, BVar rule_id (u8 i) (u8 j))
      end.
    (* mod.rs:183-218 *)
    Fixpoint fg_rest (cid state_i : nat) (component_t : bcontent) (off : nat) (target : nat) (rest : list (vart T)) (b : builder) : option builder :=
      match rest with
      | [] => Some b
      | x :: rest =>
          let? (b, qr, vt) := successor x b in
          let '(b, target', outer_t) := match rest with
                                        | [] => (b, state_i, component_t)
                                        | _ => let '(b, u) := b_integerise (Uniq rule_id cid off) b in (b, u, Ignore)
                                        end in
          let? b := add_binary target qr wone target' (outer_t, Ignore, vt) b in
          fg_rest cid state_i component_t (S off) target' rest b
      end.
    (* mod.rs:103-219 *)
    Definition fg_component (cid : nat) (c : list (vart T)) (w : K) (b : builder) : option builder :=
      let component_t := BComp rule_id (u8 cid) in
      let '(b, state_i) := b_integerise (Non (pr_head r) cid) b in
      match c with
      | [] => None
      | [Tm t] => add_terminal t w state_i (component_t, Terminal, Ignore) b
      | [Var i j] =>
          let? (b, q1, vt) := successor (Var i j) b in
          add_unary q1 w state_i (component_t, vt, Ignore) b
      | x :: y :: rest =>
          let? (b, q1, vt1) := successor x b in
          let? (b, q2, vt2) := successor y b in
          let '(b, target, outer_t) := match rest with
                                       | [] => (b, state_i, component_t)
                                       | _ => let '(b, u) := b_integerise (Uniq rule_id cid 0) b in (b, u, Ignore)
                                       end in
          let? b := add_binary q1 q2 w target (outer_t, vt1, vt2) b in
          fg_rest cid state_i component_t 1 target rest b
      end.
    (* mod.rs:100-220 *)
    Fixpoint fg_components (cid : nat) (cs : list (list (vart T) * K)) (b : builder) : option builder :=
      match cs with
      | [] => Some b
      | (c, w) :: cs => let? b := fg_component cid c w b in fg_components (S cid) cs b
      end.
  End Rule.
  (* mod.rs:98-221 with the rules numbered as in csparsing/mod.rs:219 *)
  Fixpoint fg_rules (rule_id : nat) (rules : list (prule N T K)) (b : builder) : option builder :=
    match rules with
    | [] => Some b
    | r :: rules =>
        let? b := fg_components rule_id r 0 (combine (pr_comp r) (factorize (pr_weight r) (length (pr_comp r)))) b in
        fg_rules (S rule_id) rules b
    end.
  (* mod.rs:76-243; the second component is the integeriser, which only proofs look at *)
  Definition from_grammar_ints (rules : list (prule N T K)) (init : N) : option (automaton T K * list (cstate N)) :=
    let? b := fg_rules 0 rules builder_new in
    let size := length (b_ints b) in
    let '(b', initial) := b_integerise (Non init 0) b in
    Some (Automaton (vmm_into_vec_with_size size (b_bin b)) (vmm_into_vec_with_size size (b_un b)) (b_term b)
                    (vmm_into_vec_with_size size (b_tdbin b)) (vmm_into_vec_with_size size (b_tdun b))
                    (vmm_into_vec_with_size size (b_tdnull b)) initial (b_br b), b_ints b').
  Definition from_grammar (rules : list (prule N T K)) (init : N) : option (automaton T K) :=
    option_map fst (from_grammar_ints rules init).
End FromGrammar.

(* mod.rs:262-264 *)
Definition states {T W} (a : automaton T W) : nat := length (au_bin a).

(* (W, StateT) are ordered lexicographically *)
Definition item_leb {K : ZWeight} (a b : K * nat) : bool :=
  if wleb (fst a) (fst b) then (if wleb (fst b) (fst a) then Nat.leb (snd a) (snd b) else true) else false.

Section FillChart.
  Context {T : Type} {K : ZWeight} (teqb : T -> T -> bool) (H : max_heap (K * nat) (@item_leb K)).
  (* BinaryHeap::extend *)
  Definition extend (l : list (K * nat)) (h : mh_T H) : mh_T H := fold_left (fun h x => mh_push H x h) l h.

  Section Auto.
    Context (a : automaton T K) (word : list T) (beam : nat) (delta : K)
            (outside : nat -> nat -> nat -> nat -> option (option K))     (* SxOutside::get *)
            (rule_filter : list bool).
    Definition n := length word.

    (* if !rule_filter[rid] { return None }; let _ = outsides.get(q, l, r, n)?; Some((w, q)) *)
    Definition allowed (l r rid : nat) (item : K * nat) : option (option (K * nat)) :=
      let? on := nth_error rule_filter rid in
      if on then let? o := outside (snd item) l r n in Some (match o with Some _ => Some item | None => None end)
      else Some None.

    (* mod.rs:291-301 *)
    Definition terminal_items (l r : nat) : option (list (K * nat)) :=
      let? t := nth_error word l in
      match hm_get teqb t (au_term a) with
      | None => Some []
      | Some initials => filter_map_p (fun x => allowed l r (fst x) (snd x)) initials
      end.
    (* mod.rs:306-321 *)
    Definition binary_items_left (c : chart K) (l mid r : nat) (left : nat * K) : option (list (K * nat)) :=
      let? rules := nth_error (au_bin a) (fst left) in
      filter_map_p (fun x =>
        let '(rid, rnt, (ruw, lhs)) := x in
        let? on := nth_error rule_filter rid in
        if on then
          let? riw := get_weight c (u8 mid) (u8 r) rnt in
          match riw with
          | None => Some None
          | Some riw => let? o := outside lhs l r n in
                        Some (match o with Some _ => Some (wmul (wmul (snd left) ruw) riw, lhs) | None => None end)
          end
        else Some None) rules.
    (* mod.rs:303-323 *)
    Definition binary_step (c : chart K) (l r : nat) (h : mh_T H) : option (mh_T H) :=
      fold_p (fun h mid =>
        let? lefts := iterate_nont c (u8 l) (u8 mid) in
        fold_p (fun h left => let? items := binary_items_left c l mid r left in Some (extend items h)) lefts h)
        (seq (S l) (r - S l)) h.
    (* mod.rs:335-343 *)
    Definition unary_items (l r q : nat) (w : K) : option (list (K * nat)) :=
      let? rules := nth_error (au_un a) q in
      filter_map_p (fun x => let '(rid, (rw, q')) := x in allowed l r rid (wmul rw w, q')) rules.
    (* mod.rs:330-348; every iteration removes an element of the heap and every state adds its unary rules at most once,
       so length of the heap + number of unary rules iterations suffice *)
    Fixpoint close_span (fuel : nat) (l r : nat) (worst : K) (skip : list bool) (i : nat) (h : mh_T H) (c : chart K) : option (chart K) :=
      match fuel with
      | 0 => None
      | S fuel =>
          match mh_pop H h with
          | None => Some c
          | Some ((w, q), h) =>
              let? skipped := nth_error skip q in
              let? skip := vset skip q true in
              if skipped then close_span fuel l r worst skip i h c else
              let? c := add_entry (u8 l) (u8 r) q w c in
              let? items := unary_items l r q w in
              let h := extend items h in
              match i with
              | 0 => None                                             (* i -= 1 *)
              | S i => if Nat.eqb i 0 || negb (wleb worst w) then Some c else close_span fuel l r worst skip i h c
              end
          end
      end.
    (* mod.rs:286-349 *)
    Definition fill_span (c : chart K) (l r : nat) : option (chart K) :=
      let? h := (if Nat.eqb (r - l) 1 then let? items := terminal_items l r in Some (extend items (mh_empty H)) else Some (mh_empty H)) in
      let? h := binary_step c l r h in
      let worst := wmul delta (match mh_peek H h with Some (w, _) => w | None => wzero end) in
      close_span (S (mh_len H h + length (concat (au_un a)))) l r worst (repeat false (states a)) beam h c.
    (* mod.rs:269-353 *)
    Definition fill_chart : option (chart K) :=
      let? c := chart_new n (states a) beam in
      fold_p (fun c range => fold_p (fun c l => fill_span c l (l + range)) (seq 0 (n - range + 1)) c) (seq 1 n) c.
  End Auto.
End FillChart.
