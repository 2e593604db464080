(* Model of src/approximation/{mod,relabel,tts,equivalence_classes}.rs and src/recognisable/coarse_to_fine.rs. *)
From Verif Require Import Base M_Agenda M_Search M_Util M_Recog M_Automata M_TreeStack M_CSAuto M_CSParse.

(* ---------- equivalence_classes.rs -------------------------------------------------------------------------------- *)
(* :13-20  EquivalenceClass; a HashSet is the list of its elements in the order of iteration *)
Record eqclass (A B : Type) := EqClass { ec_label : B; ec_set : option (list A) }.
Arguments EqClass {A B}. Arguments ec_label {A B}. Arguments ec_set {A B}.

(* :35-42  EquivalenceRelation; a HashMap is an association list without repeated keys *)
Record eqrel (A B : Type) := EqRel { er_map : list (A * B); er_default : B }.
Arguments EqRel {A B}. Arguments er_map {A B}. Arguments er_default {A B}.

Section EqRel.
  Context {A B : Type} (aeqb : A -> A -> bool) (beqb : B -> B -> bool).

  (* HashMap::get *)
  Fixpoint am_get {V : Type} (k : A) (m : list (A * V)) : option V :=
    match m with
    | [] => None
    | (k', v) :: r => if aeqb k k' then Some v else am_get k r
    end.
  (* HashMap::insert *)
  Fixpoint am_insert {V : Type} (k : A) (v : V) (m : list (A * V)) : list (A * V) :=
    match m with
    | [] => [(k, v)]
    | (k', v') :: r => if aeqb k k' then (k', v) :: r else (k', v') :: am_insert k v r
    end.

  (* :75-87  the inner loop; the error is not looked at further *)
  Fixpoint er_members (class_name : B) (members : list A) (m : list (A * B)) : result (list (A * B)) unit :=
    match members with
    | [] => Ok m
    | value :: r => match am_get value m with
                    | None => er_members class_name r (am_insert value class_name m)
                    | Some _ => Err tt
                    end
    end.
  (* :66-87  the outer loop *)
  Fixpoint er_classes (default : B) (map : list (B * list A)) (m : list (A * B)) : result (list (A * B)) unit :=
    match map with
    | [] => Ok m
    | (class_name, members) :: r =>
        if beqb class_name default then Err tt
        else match er_members class_name members m with
             | Ok m1 => er_classes default r m1
             | Err e => Err e
             end
    end.
  (* :64-94  new_safe; the HashMap from labels to classes is a list in the order of its iteration *)
  Definition er_new_safe (map : list (B * list A)) (default : B) : result (eqrel A B) unit :=
    match er_classes default map [] with
    | Ok m => Ok (EqRel m default)
    | Err e => Err e
    end.
  (* :57-62  new; None = panic *)
  Definition er_new (map : list (B * list A)) (default : B) : option (eqrel A B) :=
    match er_new_safe map default with Ok r => Some r | Err _ => None end.
  (* :97-102  project *)
  Definition er_project (r : eqrel A B) (key : A) : B :=
    match am_get key (er_map r) with None => er_default r | Some e => e end.

  (* :105-129  From<Vec<EquivalenceClass>>; None = panic of default.unwrap() *)
  Definition er_from_loop (s : list (A * B) * option B) (c : eqclass A B) : list (A * B) * option B :=
    let '(map, default) := s in
    match ec_set c with
    | Some elements => (fold_left (fun m e => am_insert e (ec_label c) m) elements map, default)
    | None => (map, Some (ec_label c))
    end.
  Definition er_from (classes : list (eqclass A B)) : option (eqrel A B) :=
    let '(map, default) := fold_left er_from_loop classes ([], None) in
    match default with Some d => Some (EqRel map d) | None => None end.
End EqRel.

Section EqRelStr.
  Context {A B : Type} (aeqb : A -> A -> bool) (beqb : B -> B -> bool)
          (order : list (B * list A) -> list (B * list A)).
  (* :140-170  FromStr, after the lines have been parsed into classes (parse_class, parse_set, :185-218: see M_ApproxCommand):
     the classes are collected in a HashMap whose iteration order is [order] *)
  Definition er_str_loop (s : list (B * list A) * option B) (c : eqclass A B) : list (B * list A) * option B :=
    let '(map, default) := s in
    match ec_set c with
    | Some elements => (am_insert beqb (ec_label c) elements map, default)
    | None => (map, Some (ec_label c))
    end.
  Definition er_from_str (lines : list (eqclass A B)) : result (eqrel A B) unit :=
    let '(map, default) := fold_left er_str_loop lines ([], None) in
    match default with
    | Some label => er_new_safe aeqb beqb (order map) label
    | None => Err tt
    end.
End EqRelStr.

(* ---------- the strategies ---------------------------------------------------------------------------------------- *)
(* mod.rs:13-34  trait ApproximationStrategy; None = panic *)
Record strategy (S1 I1 S2 I2 : Type) := Strategy { st_storage : S1 -> option S2; st_ins : I1 -> I2 }.
Arguments Strategy {S1 I1 S2 I2}. Arguments st_storage {S1 I1 S2 I2}. Arguments st_ins {S1 I1 S2 I2}.

(* relabel.rs:34-36, push_down_automaton/mod.rs:339-346 *)
Definition rlb_storage {A B : Type} (mapping : A -> B) (pd : list A) : list B := map mapping pd.
(* relabel.rs:38-48 *)
Definition rlb_ins {A B : Type} (mapping : A -> B) (i : pd_instr A) : pd_instr B :=
  Replace (map mapping (pi_current i)) (map mapping (pi_new i)).
Definition rlb {A B : Type} (mapping : A -> B) : strategy (list A) (pd_instr A) (list B) (pd_instr B) :=
  Strategy (fun pd => Some (rlb_storage mapping pd)) (rlb_ins mapping).

(* the number of nodes below the current one: bounds the iterations of the loop in tts.rs:38-41 *)
Fixpoint ts_depth {A : Type} (t : tstack A) : nat :=
  match t with TStack None _ _ => 0 | TStack (Some (_, p)) _ _ => S (ts_depth p) end.
(* tts.rs:38-44  the loop and what follows *)
Fixpoint tts_loop {A : Type} (fuel : nat) (ts : tstack A) (pd : list A) : option (list A) :=
  match fuel with
  | 0 => None
  | S fuel =>
      match ts_down_p ts with
      | None => None
      | Some (Ok smaller) => tts_loop fuel smaller (pd ++ [ts_current_symbol smaller])
      | Some (Err _) => Some (rev pd)
      end
  end.
(* tts.rs:34-45 *)
Definition tts_storage {A : Type} (ts : tstack A) : option (list A) := tts_loop (S (ts_depth ts)) ts [ts_current_symbol ts].
(* tts.rs:47-72 *)
Definition tts_ins {A : Type} (i : ts_instr A) : pd_instr A :=
  match i with
  | IUp _ current_val _ new_val | IPush _ current_val new_val => Replace [current_val] [current_val; new_val]
  | IDown current_val old_val new_val => Replace [current_val; old_val] [new_val]
  end.
Definition tts {A : Type} : strategy (tstack A) (ts_instr A) (list A) (pd_instr A) := Strategy tts_storage tts_ins.

(* ---------- ApproximationInstance (mod.rs:51-134) ----------------------------------------------------------------- *)
Definition pdi_eqb {A : Type} (aeqb : A -> A -> bool) (i j : pd_instr A) : bool :=
  list_eqb aeqb (pi_current i) (pi_current j) && list_eqb aeqb (pi_new i) (pi_new j).

Section Instance.
  Context {I1 I2 T : Type} {K : Weight} (i2eqb : I2 -> I2 -> bool) (teqb : T -> T -> bool).
  Notation tr1 := (transition I1 T K).
  Notation tr2 := (transition I2 T K).

  (* transition.rs:125-142  Transition::cmp returns Equal: weight, word and instruction are equal *)
  Definition tr_same (a b : tr2) : bool :=
    wleb (t_weight a) (t_weight b) && wleb (t_weight b) (t_weight a) && list_eqb teqb (t_word a) (t_word b) && i2eqb (t_ins a) (t_ins b).

  (* mod.rs:57-58  reverse_transition_map: a BTreeMap, here an association list up to tr_same *)
  Definition rtmap : Type := list (tr2 * list tr1).
  Fixpoint rt_push (t2 : tr2) (t1 : tr1) (m : rtmap) : rtmap :=
    match m with
    | [] => [(t2, [t1])]
    | (k, v) :: r => if tr_same t2 k then (k, v ++ [t1]) :: r else (k, v) :: rt_push t2 t1 r
    end.
  Fixpoint rt_get (t2 : tr2) (m : rtmap) : option (list tr1) :=
    match m with
    | [] => None
    | (k, v) :: r => if tr_same t2 k then Some v else rt_get t2 r
    end.

  (* mod.rs:90-105  approximate_transition *)
  Definition approximate_transition (ins : I1 -> I2) (m : rtmap) (t1 : tr1) : rtmap * tr2 :=
    let t2 := Trans (t_word t1) (t_weight t1) (ins (t_ins t1)) in
    (rt_push t2 t1 m, t2).
  (* mod.rs:40-44  transitions().map(approximate_transition).collect() *)
  Fixpoint approximate_transitions (ins : I1 -> I2) (m : rtmap) (ts : list tr1) : rtmap * list tr2 :=
    match ts with
    | [] => (m, [])
    | t1 :: r => let '(m1, t2) := approximate_transition ins m t1 in
                 let '(m2, r2) := approximate_transitions ins m1 r in
                 (m2, t2 :: r2)
    end.

  (* mod.rs:107-115  unapproximate_transition *)
  Definition unapproximate_transition (m : rtmap) (t2 : tr2) : list tr1 :=
    match rt_get t2 m with None => [] | Some v => v end.

  (* mod.rs:117-136  unapproximate_run; [heap_order] is the order in which a BinaryHeap is iterated over *)
  Context (heap_order : list (pushdown tr1) -> list (pushdown tr1)).
  Definition unapproximate_run (m : rtmap) (run2 : pushdown tr2) : list (pushdown tr1) :=
    let f (h : list (pushdown tr1)) (ts1 : list tr1) :=
      heap_order (flat_map (fun run => map (fun t1 => pd_push run t1) ts1) h) in
    fold_left f (map (unapproximate_transition m) (pd_iter run2)) (heap_order [Empty]).
End Instance.

(* mod.rs:36-48  approximate_automaton, for the two strategies.  [order] is the order in which transitions() lists the
   transitions; None = panic.  Returns the approximated automaton and the reverse transition map. *)
Section ApproxPDA.
  Context {A B T : Type} {K : Weight} (wadd : K -> K -> K) (wzero : K) (beqb : B -> B -> bool) (teqb : T -> T -> bool).
  Definition rlb_approximate (order : list (transition (pd_instr A) T K) -> list (transition (pd_instr A) T K))
             (mapping : A -> B) (automaton1 : pda A T K)
    : option (pda B T K * rtmap (I1 := pd_instr A) (I2 := pd_instr B)) :=
    let? ts1 := pda_list_transitions automaton1 in
    let (m, transitions2) := approximate_transitions (pdi_eqb beqb) teqb (st_ins (rlb mapping)) [] (order ts1) in
    let? initial1 := pda_initial automaton1 in
    let? initial2 := st_storage (rlb mapping) initial1 in
    let? automaton2 := pda_new wadd wzero beqb teqb transitions2 initial2 in
    Some (automaton2, m).
  Definition tts_approximate (order : list (transition (ts_instr B) T K) -> list (transition (ts_instr B) T K))
             (automaton1 : tsa B T K)
    : option (pda B T K * rtmap (I1 := ts_instr B) (I2 := pd_instr B)) :=
    let? ts1 := tsa_list_transitions automaton1 in
    let (m, transitions2) := approximate_transitions (pdi_eqb beqb) teqb (st_ins tts) [] (order ts1) in
    let? initial1 := tsa_initial automaton1 in
    let? initial2 := st_storage tts initial1 in
    let? automaton2 := pda_new wadd wzero beqb teqb transitions2 initial2 in
    Some (automaton2, m).
End ApproxPDA.

(* ---------- recognise as an iterator ------------------------------------------------------------------------------- *)
(* automaton.rs:142-157  search.filter(is_terminal).map(item_map): one call to next.  The number of items taken from the
   search is bounded by fuel; None = panic (or not enough fuel). *)
Section RecogniseIter.
  Context {S I T : Type} (a : M_Recog.automaton) (tti : T -> option (au_T a))
          (item_map : item (au_S a) (au_I a) (au_T a) (au_K a) -> option (item S I T (au_K a)))
          (H : max_heap (item (au_S a) (au_I a) (au_T a) (au_K a) * au_K a) (wi_leb wleb)).
  Definition rec_start (word : list T) : mh_T H := heap_collect item_weight wleb H (init_items a (opt_all tti word)).
  Definition rec_next (fuel : nat) : iter (mh_T H) (item S I T (au_K a)) :=
    filter_map_next (fun i => if au_terminal a (fst i) then let? x := item_map i in Some (Some x) else Some None)
                    (search_next_p (heap_agenda item_weight wleb H) (item_succs a)) fuel.
End RecogniseIter.

(* ---------- coarse_to_fine.rs --------------------------------------------------------------------------------------- *)
Section CoarseToFine.
  Context {S1 I1 S2 I2 T : Type} {K : Weight} (i2eqb : I2 -> I2 -> bool) (teqb : T -> T -> bool).
  Notation item1 := (item S1 I1 T K).
  Notation item2 := (item S2 I2 T K).
  (* the fine automaton (what check_run uses of it), the approximation instance, the iterator over the coarse parses, the
     heap of fine parses *)
  Context (apply1 : I1 -> S1 -> list S1) (initial1 : S1) (m : rtmap (I1 := I1) (I2 := I2) (T := T) (K := K))
          (heap_order : list (pushdown (transition I1 T K)) -> list (pushdown (transition I1 T K)))
          {St : Type} (sub_next : iter St item2) (ileb : item1 -> item1 -> bool) (OH : max_heap item1 ileb).

  (* :30-44  CoarseToFineParseForest *)
  Record ctf := CTF { cf_sub : St; cf_in : option (option item2); cf_out : mh_T OH }.

  (* :54-65  peek_input *)
  Definition peek_input (s : ctf) : option (option item2 * ctf) :=
    let? s := match cf_in s with
              | None => let? (x, st) := sub_next (cf_sub s) in Some (CTF st (Some x) (cf_out s))
              | Some _ => Some s
              end in
    match cf_in s with
    | Some x => Some (x, s)
    | None => None
    end.
  (* :67-77  next_input: take() leaves Some(None) in the buffer *)
  Definition next_input (s : ctf) : option (option item2 * ctf) :=
    let? s := match cf_in s with
              | None => let? (x, st) := sub_next (cf_sub s) in Some (CTF st (Some x) (cf_out s))
              | Some _ => Some s
              end in
    match cf_in s with
    | Some x => Some (x, CTF (cf_sub s) (Some None) (cf_out s))
    | None => None
    end.

  (* :97-102  the fine parses for one coarse parse *)
  Definition fine_items (r2 : pushdown (transition I2 T K)) : list item1 :=
    flat_map (check_run apply1 initial1) (unapproximate_run i2eqb teqb heap_order m r2).
  (* :91-110  next; the loop is bounded by fuel *)
  Fixpoint ctf_next (fuel : nat) (s : ctf) : option (option item1 * ctf) :=
    match fuel with
    | 0 => None
    | S fuel =>
        let body s :=
          let? (x, s) := next_input s in
          match x with
          | Some (_, r2) => ctf_next fuel (CTF (cf_sub s) (cf_in s) (fold_left (fun h i => mh_push OH i h) (fine_items r2) (cf_out s)))
          | None => Some (None, s)
          end in
        let finish s :=
          match mh_pop OH (cf_out s) with
          | Some (x, h) => Some (Some x, CTF (cf_sub s) (cf_in s) h)
          | None => Some (None, s)
          end in
        match mh_peek OH (cf_out s) with
        | None => body s
        | Some o =>
            let? (p, s) := peek_input s in
            match p with
            | None => finish s
            | Some i2 => if negb (wleb (item_weight i2) (item_weight o)) then body s else finish s
            end
        end
    end.
  (* :131-139  recognise *)
  Definition ctf_new (st : St) : ctf := CTF st None (mh_empty OH).
End CoarseToFine.

(* ---------- coarse_to_fine_recogniser! (:148-170), for one strategy ------------------------------------------------- *)
(* the results of the first m calls to next of the iterator that recognise returns; None = panic *)
Section Macro.
  Context {A T : Type} {K : Weight} (wadd : K -> K -> K) (wzero : K) (aeqb : A -> A -> bool) (teqb : T -> T -> bool).
  Context (shuffle : list (transition (pd_instr nat) nat K) -> list (transition (pd_instr nat) nat K))
          (H : max_heap (item (list nat) (pd_instr nat) nat K * K) (wi_leb wleb)) (fuel : nat).
  (* TTSElement *)
  Definition ctf_tts order heap_order ileb (OH : max_heap (item (tstack A) (ts_instr A) T K) ileb)
             (automaton1 : tsa A T K) (word : list T) (n : nat) : option (list (option (item (tstack A) (ts_instr A) T K))) :=
    let? (aut0, m) := tts_approximate wadd wzero aeqb teqb order automaton1 in
    let? initial1 := tsa_initial automaton1 in
    let AU := pda_automaton shuffle aut0 in
    run (ctf_next (pdi_eqb aeqb) teqb (tsi_apply aeqb) initial1 m heap_order
                  (rec_next AU (item_un pdi_un_integerise un_list (pa_t aut0) (pa_a aut0)) H fuel) ileb OH fuel)
        n (ctf_new ileb OH (rec_start AU (int_find_key teqb (pa_t aut0)) H word)).
End Macro.
Section MacroRlb.
  Context {A B T : Type} {K : Weight} (wadd : K -> K -> K) (wzero : K) (aeqb : A -> A -> bool) (beqb : B -> B -> bool)
          (teqb : T -> T -> bool) (mapping : A -> B).
  Context (shuffle : list (transition (pd_instr nat) nat K) -> list (transition (pd_instr nat) nat K))
          (H : max_heap (item (list nat) (pd_instr nat) nat K * K) (wi_leb wleb)) (fuel : nat).
  (* RlbElement *)
  Definition ctf_rlb order heap_order ileb (OH : max_heap (item (list A) (pd_instr A) T K) ileb)
             (automaton1 : pda A T K) (word : list T) (n : nat) : option (list (option (item (list A) (pd_instr A) T K))) :=
    let? (aut0, m) := rlb_approximate wadd wzero beqb teqb order mapping automaton1 in
    let? initial1 := pda_initial automaton1 in
    let AU := pda_automaton shuffle aut0 in
    run (ctf_next (pdi_eqb beqb) teqb (pdi_apply aeqb) initial1 m heap_order
                  (rec_next AU (item_un pdi_un_integerise un_list (pa_t aut0) (pa_a aut0)) H fuel) ileb OH fuel)
        n (ctf_new ileb OH (rec_start AU (int_find_key teqb (pa_t aut0)) H word)).
End MacroRlb.
