(* Model of src/grammars/lcfrs/csparsing/cowderiv.rs: derivations of the context-free approximation as trees, and the tree
   of merged rules that is returned if no derivation of the grammar is found. *)
From Verif Require Import Base BMap M_Util M_Recog M_TreeStack M_Grammar M_Chart M_CSAuto.

(* cowderiv.rs:7-11 and 46 *)
Inductive cow := Cow (content : nat) (successors : list (nat * nat * cow)).
Definition cow_content (t : cow) : nat := match t with Cow c _ => c end.
Definition cow_successors (t : cow) : list (nat * nat * cow) := match t with Cow _ s => s end.

(* cowderiv.rs:49-83.  [pos] is a stack of pointers, each to the last successor of the node below it; it is modelled by
   the nodes themselves, top first, each with the label under which it becomes the last successor of the next one.  The
   root stays in place if its pointer is popped, after which pos.last().unwrap() panics. *)
Definition frame := (nat * nat * cow)%type.
Definition close_frame (x y : frame) : frame := let '(l, Cow c s) := y in (l, Cow c (s ++ [x])).
Fixpoint cow_close (top : frame) (pos : list frame) : cow :=
  match pos with [] => snd top | y :: pos => cow_close (close_frame top y) pos end.
Fixpoint cow_done (v : list (bracket bcontent)) (root : cow) : option cow :=
  match v with
  | [] => Some root
  | Open (BComp _ _) :: _ => None
  | Open (BVar _ _ _) :: _ => None
  | _ :: v => cow_done v root
  end.
Fixpoint cow_loop (v : list (bracket bcontent)) (top : frame) (pos : list frame) : option cow :=
  match v with
  | [] => Some (cow_close top pos)
  | Open (BComp rule _) :: v => cow_loop v (fst top, Cow rule (cow_successors (snd top))) pos
  | Open (BVar _ i j) :: v => cow_loop v (i, j, Cow 0 []) (top :: pos)
  | Close (BVar _ _ _) :: v =>
      match pos with
      | [] => cow_done v (snd top)
      | y :: pos => cow_loop v (close_frame top y) pos
      end
  | _ :: v => cow_loop v top pos
  end.
Definition cow_new (v : list (bracket bcontent)) : option cow := cow_loop v (0, 0, Cow 0 []) [].

(* cowderiv.rs:47: HashMap<(usize, usize), usize> *)
Definition nt_reindex := list (nat * nat * nat).
Definition re_get (k : nat * nat) (m : nt_reindex) : option nat :=
  option_map snd (find (fun e => Nat.eqb (fst k) (fst (fst e)) && Nat.eqb (snd k) (snd (fst e))) m).

Section Cow.
  Context {N T : Type} {K : ZWeight}.
  Notation rule := (prule N T K).

  (* cowderiv.rs:198-210: the body of the inner loop of the first pass *)
  Definition merge_var (ruleid : nat) (r : rule) (s : nt_reindex * list N) (x : vart T) : option (nt_reindex * list N) :=
    let '(re, tail) := s in
    match x with
    | Tm _ => Some s
    | Var i _ =>
        match re_get (ruleid, i) re with
        | Some _ => Some s
        | None => let? B := nth_error (pr_tail r) i in Some (re ++ [(ruleid, i, length tail)], tail ++ [B])
        end
    end.
  (* cowderiv.rs:194-213 *)
  Definition merge_first (s : nt_reindex * list N * nat) (x : nat * nat * rule) : option (nt_reindex * list N * nat) :=
    let '(component, ruleid, r) := x in
    let '(re, tail, fanout) := s in
    let? c := nth_error (pr_comp r) component in
    let? (re, tail) := fold_p (merge_var ruleid r) c (re, tail) in
    Some (re, tail, Nat.max fanout (component + 1)).
  (* cowderiv.rs:221-226 *)
  Definition rename_var (re : nt_reindex) (ruleid : nat) (x : vart T) : option (vart T) :=
    match x with
    | Tm t => Some (Tm t)
    | Var i j => option_map (fun i' => Var i' j) (re_get (ruleid, i) re)
    end.
  (* cowderiv.rs:220-227 *)
  Definition merge_second (re : nt_reindex) (comp : composition T) (x : nat * nat * rule) : option (composition T) :=
    let '(component, ruleid, r) := x in
    let? c := nth_error (pr_comp r) component in
    let? c' := opt_all (rename_var re ruleid) c in
    if Nat.ltb component (length comp) then Some (update component (fun old => old ++ c') comp) else None.
  (* cowderiv.rs:182-238 *)
  Definition merge_rules (head : N) (roots : list (nat * nat * rule)) : option (nt_reindex * rule) :=
    let? (re, tail, fanout) := fold_p merge_first roots ([], [], 0) in
    let? comp := fold_p (merge_second re) roots (repeat [] fanout) in
    Some (re, PRule head tail comp wzero).

  (* cowderiv.rs:148-162 *)
  Definition collect_children (trees : list cow) (re : nt_reindex) : option (vmm (nat * cow)) :=
    fold_p (fun m t => fold_p (fun m e => let '(i, j, s) := e in
      let? index := re_get (cow_content t, i) re in vmm_push_to index (j, s) m) (cow_successors t) m) trees [].

  Context (int : list rule).
  (* cowderiv.rs:253-262: the loop over the groups with their numbers *)
  Fixpoint each_group {X} (f : nat -> list (nat * cow) -> X -> option X) (sidx : nat) (groups : list (list (nat * cow))) (s : X) : option X :=
    match groups with
    | [] => Some s
    | [] :: groups => each_group f (S sidx) groups s
    | g :: groups => let? s := f sidx g s in each_group f (S sidx) groups s
    end.
  (* cowderiv.rs:241-267; the recursion goes down the trees, fuel bounds their height *)
  Fixpoint fallback_vec (fuel : nat) (roots : list (nat * cow)) (tree : gorn rule) (pos : list nat) : option (gorn rule) :=
    match fuel with
    | 0 => None
    | S fuel =>
        let? root := nth_error roots 0 in
        let? root_rule := nth_error int (cow_content (snd root)) in
        let? rs := opt_all (fun x => option_map (fun r => (fst x, cow_content (snd x), r)) (nth_error int (cow_content (snd x)))) roots in
        let? (re, root_node) := merge_rules (pr_head root_rule) rs in
        let? groups := collect_children (map snd roots) re in
        let? tree := each_group (fun sidx g tree => fallback_vec fuel g tree (pos ++ [sidx])) 0 groups tree in
        Some (gt_insert pos root_node tree)
    end.
  Fixpoint cow_height (t : cow) : nat :=
    match t with Cow _ s => S (fold_right Nat.max 0 (map (fun e => cow_height (snd e)) s)) end.
  (* cowderiv.rs:165-174 *)
  Definition fallback (t : cow) : option (gorn rule) := fallback_vec (cow_height t) [(0, t)] [] [].
End Cow.
