(* Model of src/dyck/multiple/{mod,automaton/mod,automaton/instruction}.rs. *)
From Verif Require Import Base BMap M_Agenda M_Search M_Util M_Recog M_Automata M_TreeStack M_CSAuto M_CSParse M_Approx.

(* instruction.rs:7-10  MDTreeElem; a BTreeSet is the list of its elements *)
Inductive mdelem (T : Type) := MRoot | MNode (symbol : option T) (set : list T).
Arguments MRoot {T}. Arguments MNode {T}.
(* instruction.rs:16-22 *)
Definition mde_is_empty {T : Type} (e : mdelem T) : bool :=
  match e with
  | MRoot => true
  | MNode None set => match set with [] => true | _ => false end
  | _ => false
  end.

(* instruction.rs:28-39  MultipleDyckInstruction *)
Inductive md_instr (T : Type) :=
| MUp (symbol : T) (cell : list T)
| MUpAt (position : nat) (symbol : T) (cell : list T)
| MDown (symbol : T).
Arguments MUp {T}. Arguments MUpAt {T}. Arguments MDown {T}.

(* the weights are u8; only 0 (transitions) and 1 (initial) occur, with their product and order *)
Definition U8Weight : Weight := mkWeight nat Nat.mul 1 Nat.leb.

Section MultipleDyck.
  Context {T : Type} (cmp : T -> T -> comparison).
  Notation ts := (tstack (mdelem T)).
  (* ==, BTreeSet::contains, BTreeSet::remove *)
  Definition teq (x y : T) : bool := match cmp x y with Eq => true | _ => false end.
  Definition set_contains (s : T) (l : list T) : bool := existsb (teq s) l.
  Definition set_remove (s : T) (l : list T) : list T := filter (fun x => negb (teq s x)) l.

  (* instruction.rs:59-74 and 91-100  enter a child that is not in use and whose set contains the symbol *)
  Definition md_reenter (symbol : T) (ts_ : ts) : list ts :=
    match ts_current_symbol ts_ with
    | MNode None subset =>
        if set_contains symbol subset then [ts_set ts_ (MNode (Some symbol) (set_remove symbol subset))] else []
    | _ => []
    end.
  (* instruction.rs:44-126  apply; None = panic *)
  Definition md_apply_p (i : md_instr T) (t : ts) : option (list ts) :=
    match i with
    | MUpAt position symbol cell =>
        match ts_push_p t position (MNode (Some symbol) (set_remove symbol cell)) with
        | None => None
        | Some (Ok t') => Some [t']
        | Some (Err t') => match ts_up t' position with
                           | Ok ts_ => Some (md_reenter symbol ts_)
                           | Err _ => None
                           end
        end
    | MUp symbol cell =>
        let? pushed := ts_push_next t (MNode (Some symbol) (set_remove symbol cell)) in
        let? ups := ts_ups t in
        Some (pushed :: flat_map (md_reenter symbol) ups)
    | MDown symbol =>
        match ts_current_symbol t with
        | MNode (Some symbol_) subset =>
            if negb (teq symbol symbol_) then Some []
            else match ts_down_p (ts_set t (MNode None subset)) with
                 | None => None
                 | Some (Ok t') => Some [t']
                 | Some (Err _) => Some []
                 end
        | _ => Some []
        end
    end.
  (* the same without the panic, which C23_never_panics shows impossible *)
  Definition md_apply (i : md_instr T) (t : ts) : list ts := match md_apply_p i t with Some l => l | None => [] end.

  (* automaton/mod.rs:28-52 (new: [up] = MUp) and 55-86 (sorted: [up symbol] = MUpAt (sort symbol) symbol);
     collapse gives the cells *)
  Definition md_transitions (up : T -> list T -> md_instr T) (cells : list (list T)) : list (transition (md_instr T) (bracket T) U8Weight) :=
    flat_map (fun cell => flat_map (fun symbol =>
      [Trans (K:=U8Weight) [Open symbol] 0 (up symbol cell); Trans (K:=U8Weight) [Close symbol] 0 (MDown symbol)]) cell) cells.

  Definition brk_eqb (a b : bracket T) : bool :=
    match a, b with
    | Open x, Open y => teq x y
    | Close x, Close y => teq x y
    | _, _ => false
    end.

  (* automaton/mod.rs:91-145; [shuffle] is the order in which the heap of transitions is iterated over *)
  Definition md_automaton (shuffle : list (transition (md_instr T) (bracket T) U8Weight) -> list (transition (md_instr T) (bracket T) U8Weight))
             (transitions : list (transition (md_instr T) (bracket T) U8Weight)) : M_Recog.automaton := {|
    au_S := ts; au_I := md_instr T; au_T := bracket T; au_K := U8Weight; au_Key := unit; au_teqb := brk_eqb;
    au_apply := md_apply;
    au_key := fun _ => Some tt;
    au_terminal := fun c => (match c_word c with [] => true | _ => false end) && ts_is_at_bottom (c_storage c) &&
                            ts_all mde_is_empty (c_storage c);
    au_tmap := fun _ => shuffle transitions;
    au_init := ts_new MRoot |}.

  (* mod.rs:15-17, 21-26  MultipleDyckLanguage::new and sorted *)
  Definition md_new (p : partition (T := T)) : list (transition (md_instr T) (bracket T) U8Weight) := md_transitions MUp (part_collapse cmp p).
  Definition md_sorted (p : partition (T := T)) (sort : T -> nat) : list (transition (md_instr T) (bracket T) U8Weight) :=
    md_transitions (fun symbol cell => MUpAt (sort symbol) symbol cell) (part_collapse cmp p).

  (* mod.rs:29-34  recognize: recognise(..).next().is_some(); at most fuel items are taken from the search *)
  Definition md_recognize shuffle (H : max_heap (item ts (md_instr T) (bracket T) U8Weight * U8Weight) (wi_leb wleb)) (fuel : nat)
             (transitions : list (transition (md_instr T) (bracket T) U8Weight)) (word : list (bracket T)) : option bool :=
    let a := md_automaton shuffle transitions in
    match rec_next a (fun i => Some i) H fuel (rec_start a (fun t : bracket T => Some t) H word) with
    | Some (Some _, _) => Some true
    | Some (None, _) => Some false
    | None => None
    end.
End MultipleDyck.
