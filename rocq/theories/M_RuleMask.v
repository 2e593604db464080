(* Model of src/grammars/lcfrs/csparsing/automaton/rulemask.rs. *)
From Verif Require Import Base M_Util M_Automata M_Grammar M_Chart M_CSAuto.

(* for t in l { f(t)?; } with && : iter().all(p) where p may panic *)
Fixpoint all_p {X} (p : X -> option bool) (l : list X) : option bool :=
  match l with
  | [] => Some true
  | x :: l => let? b := p x in if b then all_p p l else Some false
  end.

Section RuleMask.
  Context {N T : Type} (neqb : N -> N -> bool) (teqb : T -> T -> bool).
  (* iter().collect::<HashSet<_>>().into_iter().collect::<Vec<_>>(): the elements without repetition, in any order *)
  Context (distinct : list nat -> list nat).

  (* rulemask.rs:12-24; terminal is a FnvHashMap *)
  Record rule_mask_builder := RuleMaskBuilder {
    rm_initial : nat;
    rm_terminal : list (T * list nat);
    rm_inner : list (list (list nat * nat));
    rm_td_inner : list (list (list nat * list nat));
    rm_ruleids : nat;
    rm_states : nat }.

  (* the local variables of new, rulemask.rs:39-44 *)
  Record rm_state := RmState { rs_rid : nat; rs_ints : list N; rs_terminal : list (T * list nat); rs_inner : vmm (list nat * nat); rs_td : vmm (list nat * list nat) }.

  (* rulemask.rs:60-67: the identifiers of the parts of each component; component.len() - 1 underflows for an empty one *)
  Fixpoint component_rids (rid : nat) (cs : composition T) : option (list nat * nat) :=
    match cs with
    | [] => Some ([], rid)
    | c :: cs =>
        match length c with
        | 0 => None
        | S l => let new_rids := Nat.max l 1 in
                 let? (rids, rid') := component_rids (rid + new_rids) cs in Some (seq rid new_rids ++ rids, rid')
        end
    end.
  (* rulemask.rs:76-82: Vec::remove for each index *)
  Fixpoint removals (front l : list nat) : list (nat * list nat) :=
    match l with [] => [] | x :: l => (x, front ++ l) :: removals (front ++ [x]) l end.
  (* rulemask.rs:46-85 *)
  Definition rm_rule {W} (s : rm_state) (r : prule N T W) : option rm_state :=
    let '(ints, nid) := int_integerise neqb (rs_ints s) (pr_head r) in
    match pr_comp r with
    | [[Tm t]] =>
        let? td := vmm_push_to nid ([rs_rid s], []) (rs_td s) in
        Some (RmState (rs_rid s + 1) ints (hm_push teqb t nid (rs_terminal s)) (rs_inner s) td)
    | _ =>
        let? (rids, rid') := component_rids (rs_rid s) (pr_comp r) in
        let '(ints, codes) := int_list neqb ints (pr_tail r) in
        let i_rhs := distinct codes in
        let? inner := fold_p (fun inner x => vmm_push_to (fst x) (snd x, nid) inner) (removals [] i_rhs) (rs_inner s) in
        let? td := vmm_push_to nid (rids, i_rhs) (rs_td s) in
        Some (RmState rid' ints (rs_terminal s) inner td)
    end.
  (* rulemask.rs:31-98; find_key(initial).unwrap() *)
  Definition rm_new {W} (rules : list (prule N T W)) (init : N) : option rule_mask_builder :=
    let? s := fold_p rm_rule rules (RmState 0 [] [] vmm_new vmm_new) in
    let? initial := int_find_key neqb (rs_ints s) init in
    let size := length (rs_ints s) in
    Some (RuleMaskBuilder initial (rs_terminal s) (vmm_into_vec_with_size size (rs_inner s)) (vmm_into_vec_with_size size (rs_td s)) (rs_rid s) size).

  (* ---- build, rulemask.rs:100-151; a stack is a list with its top in front, extend pushes one element after the other ---- *)
  Definition push_all (l st : list nat) : list nat := rev l ++ st.
  Section Build.
    Context (m : rule_mask_builder).
    (* rulemask.rs:110-114 *)
    Definition initial_stack (word : list T) : list nat :=
      fold_left (fun st t => match hm_get teqb t (rm_terminal m) with Some v => push_all v st | None => st end) word [].
    (* rulemask.rs:116-130; every iteration pops an element and every nonterminal pushes its elements at most once *)
    Fixpoint productive_loop (fuel : nat) (stack : list nat) (productive : list bool) : option (list bool) :=
      match fuel with
      | 0 => None
      | S fuel =>
          match stack with
          | [] => Some productive
          | nt :: stack =>
              let? seen := nth_error productive nt in
              let? productive := vset productive nt true in
              if seen then productive_loop fuel stack productive else
              let? parents := nth_error (rm_inner m) nt in
              let? tops := filter_map_p (fun x => let '(other_nts, top) := x in
                let? p := nth_error productive top in
                if p then Some None else
                let? all := all_p (nth_error productive) other_nts in
                Some (if all then Some top else None)) parents in
              productive_loop fuel (push_all tops stack) productive
          end
      end.
    (* rulemask.rs:140-145 *)
    Definition enable_rule (productive : list bool) (s : list nat * list bool) (x : list nat * list nat) : option (list nat * list bool) :=
      let '(stack, mask) := s in
      let '(ruleids, bottom_states) := x in
      let? all := all_p (nth_error productive) bottom_states in
      if all then
        let? mask := fold_p (fun mask rid => vset mask rid true) ruleids mask in
        Some (push_all bottom_states stack, mask)
      else Some (stack, mask).
    (* rulemask.rs:135-147 *)
    Fixpoint reachable_loop (fuel : nat) (productive : list bool) (stack : list nat) (reachable : list bool) (mask : list bool) : option (list bool) :=
      match fuel with
      | 0 => None
      | S fuel =>
          match stack with
          | [] => Some mask
          | nt :: stack =>
              let? seen := nth_error reachable nt in
              let? reachable := vset reachable nt true in
              let? skip := (if seen then Some true else let? p := nth_error productive nt in Some (negb p)) in
              if skip then reachable_loop fuel productive stack reachable mask else
              let? rules := nth_error (rm_td_inner m) nt in
              let? (stack, mask) := fold_p (enable_rule productive) rules (stack, mask) in
              reachable_loop fuel productive stack reachable mask
          end
      end.
    Definition rm_build (word : list T) : option (list bool) :=
      let stack := initial_stack word in
      let? productive := productive_loop (S (length stack + length (concat (rm_inner m)))) stack (repeat false (rm_states m)) in
      reachable_loop (S (1 + length (concat (concat (map (map snd) (rm_td_inner m)))))) productive [rm_initial m] (repeat false (rm_states m)) (repeat false (rm_ruleids m)).
  End Build.
End RuleMask.
