(* Model of src/automata/tree_stack_automaton/{tree_stack,tree_stack_instruction,mod}.rs and of the map inside
   src/util/tree.rs (GornTree). *)
From Verif Require Import Base BMap M_Agenda M_Search M_Util M_Recog M_Automata.

(* tree_stack.rs:11-16  (Rc is not observable) *)
Inductive tstack (A : Type) :=
  TStack (parent : option (nat * tstack A)) (value : A) (children : list (option (tstack A))).
Arguments TStack {A}.
Definition ts_parent {A} (t : tstack A) := match t with TStack p _ _ => p end.
Definition ts_value {A} (t : tstack A) := match t with TStack _ v _ => v end.
Definition ts_children {A} (t : tstack A) := match t with TStack _ _ c => c end.

(* v[n] = x *)
Fixpoint set_nth {X : Type} (n : nat) (x : X) (l : list X) : list X :=
  match n, l with
  | _, [] => []
  | 0, _ :: r => x :: r
  | S n, y :: r => y :: set_nth n x r
  end.

Section TreeStack.
  Context {A : Type}.
  Notation ts := (tstack A).

  (* tree_stack.rs:20-26 *)
  Definition ts_new (a : A) : ts := TStack None a [].
  (* tree_stack.rs:53-55 *)
  Definition ts_is_at_bottom (t : ts) : bool := match ts_parent t with None => true | Some _ => false end.
  (* tree_stack.rs:58-60 *)
  Definition ts_current_symbol (t : ts) : A := ts_value t.
  (* tree_stack.rs:63-66 *)
  Definition ts_set (t : ts) (a : A) : ts := TStack (ts_parent t) a (ts_children t).

  (* tree_stack.rs:71-75, 93-97  fill up the vector of children *)
  Definition ts_fill (t : ts) (n : nat) : ts :=
    if Nat.leb (length (ts_children t)) n
    then TStack (ts_parent t) (ts_value t) (ts_children t ++ repeat None (n - length (ts_children t) + 1))
    else t.

  (* tree_stack.rs:70-86 (push) and 89-108 (push_with, which differs only in evaluating a() late).
     children[n] exists after ts_fill; the outer None stands for the index panic. *)
  Definition ts_push_p (t : ts) (n : nat) (a : A) : option (result ts ts) :=
    let t := ts_fill t n in
    match nth_error (ts_children t) n with
    | None => None
    | Some None => Some (Ok (TStack (Some (n, t)) a []))
    | Some (Some _) => Some (Err t)
    end.
  (* the same without the panic, which P_TreeStack.push_spec shows impossible *)
  Definition ts_push (t : ts) (n : nat) (a : A) : result ts ts :=
    match ts_push_p t n a with Some r => r | None => Err t end.

  (* iter().enumerate().filter(|e| e.is_none()).next() *)
  Fixpoint first_none (l : list (option ts)) : option nat :=
    match l with
    | [] => None
    | None :: _ => Some 0
    | Some _ :: r => option_map S (first_none r)
    end.
  (* tree_stack.rs:111-129; None = panic "could not push into index" *)
  Definition ts_push_next (t : ts) (a : A) : option ts :=
    let index := match first_none (ts_children t) with None => length (ts_children t) | Some i => i end in
    match ts_push t index a with Ok t' => Some t' | Err _ => None end.

  (* tree_stack.rs:132-144 *)
  Fixpoint ts_all (p : A -> bool) (t : ts) : bool :=
    match t with
    | TStack _ v ch => p v && forallb (fun o => match o with Some c => ts_all p c | None => true end) ch
    end.

  (* Vec::push(None); Vec::swap_remove(n) for n < len: the removed element is replaced by the last one *)
  Definition swap_remove_none (n : nat) (l : list (option ts)) : option ts * list (option ts) :=
    match nth_error l n with
    | Some x => (x, set_nth n None l)
    | None => (None, l)
    end.
  (* tree_stack.rs:179-197 *)
  Definition ts_up (t : ts) (n : nat) : result ts ts :=
    if Nat.ltb n (length (ts_children t)) then
      let '(c, ch) := swap_remove_none n (ts_children t) in
      let t' := TStack (ts_parent t) (ts_value t) ch in
      match c with
      | Some tn => Ok (TStack (Some (n, t')) (ts_value tn) (ts_children tn))
      | None => Err t'
      end
    else Err t.

  (* iter().enumerate().filter(|e| !e.is_none()).map(|(i, _)| i) *)
  Fixpoint occupied (i : nat) (l : list (option ts)) : list nat :=
    match l with
    | [] => []
    | None :: r => occupied (S i) r
    | Some _ :: r => i :: occupied (S i) r
    end.
  (* tree_stack.rs:200-210; None = panic "up failed" *)
  Definition ts_ups (t : ts) : option (list ts) :=
    opt_all (fun i => match ts_up t i with Ok t' => Some t' | Err _ => None end) (occupied 0 (ts_children t)).

  (* tree_stack.rs:214-227; the index panic of new_pch[n] is None in ts_down_p *)
  Definition ts_down_p (t : ts) : option (result ts ts) :=
    match ts_parent t with
    | Some (n, pn) =>
        let self := TStack None (ts_value t) (ts_children t) in
        if Nat.ltb n (length (ts_children pn))
        then Some (Ok (TStack (ts_parent pn) (ts_value pn) (set_nth n (Some self) (ts_children pn))))
        else None
    | None => Some (Err (TStack None (ts_value t) (ts_children t)))
    end.
  Definition ts_down (t : ts) : result ts ts := match ts_down_p t with Some r => r | None => Err t end.
End TreeStack.

(* children.iter().map(|o| o.clone().map(g)).collect(), for a stateful closure and for one that may panic *)
Section Opts.
  Context {S X Y : Type} (g : S -> X -> S * Y) (h : X -> option Y).
  Fixpoint opts_map_st (s : S) (l : list (option X)) : S * list (option Y) :=
    match l with
    | [] => (s, [])
    | None :: r => let '(s', r') := opts_map_st s r in (s', None :: r')
    | Some c :: r => let '(s1, c') := g s c in
                     let '(s2, r') := opts_map_st s1 r in (s2, Some c' :: r')
    end.
  Fixpoint opts_map_opt (l : list (option X)) : option (list (option Y)) :=
    match l with
    | [] => Some []
    | None :: r => match opts_map_opt r with Some r' => Some (None :: r') | None => None end
    | Some c :: r => match h c, opts_map_opt r with
                     | Some c', Some r' => Some (Some c' :: r')
                     | _, _ => None
                     end
    end.
End Opts.

(* tree_stack.rs:29-50  map with a stateful closure (FnMut): node, then what is below, then the children *)
Section TSMap.
  Context {A B S : Type} (f : S -> A -> S * B).
  Fixpoint ts_map_st (s : S) (t : tstack A) : S * tstack B :=
    match t with
    | TStack par v ch =>
        let '(s1, v') := f s v in
        let '(s2, par') := match par with
                           | None => (s1, None)
                           | Some (n, p) => let '(s2, p') := ts_map_st s1 p in (s2, Some (n, p'))
                           end in
        let '(s3, ch') := opts_map_st ts_map_st s2 ch in
        (s3, TStack par' v' ch')
    end.
End TSMap.

(* the same for a stateless closure *)
Fixpoint ts_map {A B : Type} (f : A -> B) (t : tstack A) : tstack B :=
  match t with
  | TStack par v ch =>
      TStack (match par with None => None | Some (n, p) => Some (n, ts_map f p) end) (f v)
             (map (fun o => match o with None => None | Some c => Some (ts_map f c) end) ch)
  end.

(* the same for a closure that may panic (None), e.g. find_value(v).unwrap() *)
Fixpoint ts_map_opt {A B : Type} (f : A -> option B) (t : tstack A) : option (tstack B) :=
  match t with
  | TStack par v ch =>
      match f v,
            match par with
            | None => Some None
            | Some (n, p) => match ts_map_opt f p with Some p' => Some (Some (n, p')) | None => None end
            end,
            opts_map_opt (ts_map_opt f) ch with
      | Some v', Some par', Some ch' => Some (TStack par' v' ch')
      | _, _, _ => None
      end
  end.

(* Vec<usize>: Ord, lexicographic *)
Definition addr_cmp : list nat -> list nat -> comparison := lex_cmp Nat.compare.

(* util/tree.rs:9-11  GornTree: a BTreeMap *)
Definition gorn (A : Type) := list (list nat * A).
Definition gt_insert {A} (k : list nat) (v : A) (m : gorn A) : gorn A := bm_insert addr_cmp k v m.
Definition gt_get {A} (k : list nat) (m : gorn A) : option A := bm_get addr_cmp k m.

Section ToTree.
  Context {A : Type}.
  (* for (path, value) in map { tree_map.insert(f(path), value) } *)
  Definition gt_insert_all (f : list nat -> list nat) (src dst : gorn A) : gorn A :=
    fold_left (fun m e => gt_insert (f (fst e)) (snd e) m) src dst.
  (* tree_stack.rs:229-258 *)
  Fixpoint ts_to_tree (t : tstack A) : gorn A * list nat :=
    match t with
    | TStack par v ch =>
        let '(tree_map, curr_path) :=
          match par with
          | None => ([], [])
          | Some (num, p) => let '(pm, pp) := ts_to_tree p in (gt_insert_all (fun x => x) pm [], pp ++ [num])
          end in
        let tree_map := gt_insert curr_path v tree_map in
        ((fix go (num : nat) (l : list (option (tstack A))) (m : gorn A) : gorn A :=
            match l with
            | [] => m
            | None :: r => go (S num) r m
            | Some c :: r => go (S num) r (gt_insert_all (fun path => (curr_path ++ [num]) ++ path) (fst (ts_to_tree c)) m)
            end) 0 ch tree_map,
         curr_path)
    end.
End ToTree.

(* tree_stack_instruction.rs:11-29 *)
Inductive ts_instr (A : Type) :=
| IUp (n : nat) (current_val old_val new_val : A)
| IPush (n : nat) (current_val new_val : A)
| IDown (current_val old_val new_val : A).
Arguments IUp {A}. Arguments IPush {A}. Arguments IDown {A}.

Definition tsi_current {A} (i : ts_instr A) : A := match i with IUp _ c _ _ | IPush _ c _ | IDown c _ _ => c end.

Section TSInstr.
  Context {A : Type} (eqb : A -> A -> bool).
  (* tree_stack_instruction.rs:69-131 *)
  Definition tsi_apply (i : ts_instr A) (t : tstack A) : list (tstack A) :=
    match i with
    | IUp n current_val old_val new_val =>
        if eqb (ts_current_symbol t) current_val then
          match ts_up t n with
          | Ok child => if eqb (ts_current_symbol child) old_val then [ts_set child new_val] else []
          | Err _ => []
          end
        else []
    | IPush n current_val new_val =>
        if eqb (ts_current_symbol t) current_val then
          match ts_push t n new_val with Ok t' => [t'] | Err _ => [] end
        else []
    | IDown current_val old_val new_val =>
        if eqb (ts_current_symbol t) current_val then
          match ts_down t with
          | Ok parent => if eqb (ts_current_symbol parent) old_val then [ts_set parent new_val] else []
          | Err _ => []
          end
        else []
    end.

  (* tree_stack_instruction.rs:32-64, 137-139 *)
  Definition tsi_integerise (l : list A) (i : ts_instr A) : list A * ts_instr nat :=
    match i with
    | IUp n c o v => let '(l1, c') := int_integerise eqb l c in
                     let '(l2, o') := int_integerise eqb l1 o in
                     let '(l3, v') := int_integerise eqb l2 v in (l3, IUp n c' o' v')
    | IPush n c v => let '(l1, c') := int_integerise eqb l c in
                     let '(l2, v') := int_integerise eqb l1 v in (l2, IPush n c' v')
    | IDown c o v => let '(l1, c') := int_integerise eqb l c in
                     let '(l2, o') := int_integerise eqb l1 o in
                     let '(l3, v') := int_integerise eqb l2 v in (l3, IDown c' o' v')
    end.
  (* tree_stack_instruction.rs:141-143; None = panic *)
  Definition tsi_un_integerise (l : list A) (i : ts_instr nat) : option (ts_instr A) :=
    match i with
    | IUp n c o v => match int_find_value l c, int_find_value l o, int_find_value l v with
                     | Some c, Some o, Some v => Some (IUp n c o v) | _, _, _ => None end
    | IPush n c v => match int_find_value l c, int_find_value l v with
                     | Some c, Some v => Some (IPush n c v) | _, _ => None end
    | IDown c o v => match int_find_value l c, int_find_value l o, int_find_value l v with
                     | Some c, Some o, Some v => Some (IDown c o v) | _, _, _ => None end
    end.
End TSInstr.

(* mod.rs:32-42 *)
Record tsa (A T : Type) (K : Weight) := TSA {
  ta_a : list A; ta_t : list T;
  ta_map : list (nat * list (transition (ts_instr nat) nat K));
  ta_init : tstack nat
}.
Arguments TSA {A T K}. Arguments ta_a {A T K}. Arguments ta_t {A T K}. Arguments ta_map {A T K}. Arguments ta_init {A T K}.

Section TSA.
  Context {A T : Type} {K : Weight} (aeqb : A -> A -> bool) (teqb : T -> T -> bool).

  (* mod.rs:50-92  TreeStackAutomaton::new *)
  Definition tsa_new (transitions : list (transition (ts_instr A) T K)) (initial : tstack A) : tsa A T K :=
    let '(a1, init) := ts_map_st (int_integerise aeqb) [] initial in
    let '((lt, la), ts) := trs_integerise teqb (tsi_integerise aeqb) [] a1 transitions in
    TSA la lt (fold_left (fun m t => hm_push (tsi_current (t_ins t)) t m) ts []) init.

  (* mod.rs:94-102  list_transitions; None = panic *)
  Definition tsa_list_transitions (a : tsa A T K) : option (list (transition (ts_instr A) T K)) :=
    opt_all (tr_un_integerise tsi_un_integerise (ta_t a) (ta_a a)) (flat_map snd (ta_map a)).

  (* mod.rs:104-107, 178-181  initial(); None = panic *)
  Definition ts_un (l : list A) (t : tstack nat) : option (tstack A) := ts_map_opt (int_find_value l) t.
  Definition tsa_initial (a : tsa A T K) : option (tstack A) := ts_un (ta_a a) (ta_init a).

  (* mod.rs:150-231  the Automaton instance *)
  Definition tsa_automaton (shuffle : list (transition (ts_instr nat) nat K) -> list (transition (ts_instr nat) nat K))
             (a : tsa A T K) : automaton := {|
    au_S := tstack nat; au_I := ts_instr nat; au_T := nat; au_K := K; au_Key := nat;
    au_teqb := Nat.eqb;
    au_apply := tsi_apply Nat.eqb;
    au_key := fun c => Some (ts_current_symbol (c_storage c));                             (* :218-222 *)
    au_terminal := fun c => match c_word c with [] => ts_is_at_bottom (c_storage c) | _ => false end;  (* :168-170 *)
    au_tmap := fun k => shuffle (hm_get k (ta_map a));
    au_init := ta_init a
  |}.
  Definition tsa_recognise shuffle (a : tsa A T K) H word n :=
    recognise_with (tsa_automaton shuffle a) (int_find_key teqb (ta_t a))
                   (item_un tsi_un_integerise ts_un (ta_t a) (ta_a a)) H word n.
  Definition tsa_recognise_beam shuffle (a : tsa A T K) H beam word n :=
    recognise_beam_with (tsa_automaton shuffle a) (int_find_key teqb (ta_t a))
                   (item_un tsi_un_integerise ts_un (ta_t a) (ta_a a)) H beam word n.
End TSA.
