(* Model of the integerised automata: src/util/integerisable.rs, src/recognisable/transition.rs:20-53,
   src/automata/finite_state_automaton/mod.rs, src/automata/push_down_automaton/mod.rs.
   HashIntegeriser is a list of the symbols seen so far (see M_Util.int_integerise). *)
From Verif Require Import Base M_Agenda M_Search M_Util M_Recog.

Section IntList.
  Context {A : Type} (eqb : A -> A -> bool).
  (* iter().map(|t| integeriser.integerise(t.clone())).collect(), push_down_automaton/mod.rs:99-108 (map_vec_mut) *)
  Fixpoint int_list (l : list A) (xs : list A) : list A * list nat :=
    match xs with
    | [] => (l, [])
    | x :: r => let '(l1, k) := int_integerise eqb l x in
                let '(l2, ks) := int_list l1 r in
                (l2, k :: ks)
    end.
  (* iter().map(|i| integeriser.find_value(i).unwrap().clone()).collect(); None = panic *)
  Definition un_list (l : list A) (ks : list nat) : option (list A) := opt_all (int_find_value l) ks.
End IntList.

(* HashMap<usize, Vec<X>>, as an association list without repeated keys *)
Fixpoint hm_get {X : Type} (k : nat) (m : list (nat * list X)) : list X :=
  match m with
  | [] => []
  | (k', v) :: r => if Nat.eqb k k' then v else hm_get k r
  end.
(* map.entry(k).or_insert_with(new).push(x) *)
Fixpoint hm_push {X : Type} (k : nat) (x : X) (m : list (nat * list X)) : list (nat * list X) :=
  match m with
  | [] => [(k, [x])]
  | (k', v) :: r => if Nat.eqb k k' then (k', x :: v) :: r else (k', v) :: hm_push k x r
  end.

Section TransInt.
  Context {I I' T Q : Type} {K : Weight} (teqb : T -> T -> bool)
          (ins_int : list Q -> I -> list Q * I') (ins_un : list Q -> I' -> option I).
  (* transition.rs:25-39  Transition::integerise(integeriser1, integeriser2) *)
  Definition tr_integerise (lt : list T) (lq : list Q) (t : transition I T K)
    : (list T * list Q) * transition I' nat K :=
    let '(lt1, w) := int_list teqb lt (t_word t) in
    let '(lq1, i) := ins_int lq (t_ins t) in
    ((lt1, lq1), Trans w (t_weight t) i).
  (* transition.rs:41-52 *)
  Definition tr_un_integerise (lt : list T) (lq : list Q) (t : transition I' nat K) : option (transition I T K) :=
    match un_list lt (t_word t), ins_un lq (t_ins t) with
    | Some w, Some i => Some (Trans w (t_weight t) i)
    | _, _ => None
    end.
  (* transitions.into_iter().map(|t| t.integerise(&mut t_inter, &mut q_inter)) *)
  Fixpoint trs_integerise (lt : list T) (lq : list Q) (ts : list (transition I T K))
    : (list T * list Q) * list (transition I' nat K) :=
    match ts with
    | [] => ((lt, lq), [])
    | t :: r => let '((lt1, lq1), t') := tr_integerise lt lq t in
                let '(ls, r') := trs_integerise lt1 lq1 r in
                (ls, t' :: r')
    end.
  (* item_map of the three automata (e.g. push_down_automaton/mod.rs:245-278); None = panic *)
  Definition item_un {S S' : Type} (st_un : list Q -> S' -> option S) (lt : list T) (lq : list Q) (i : item S' I' nat K)
    : option (item S I T K) :=
    let '(c, pd) := i in
    match opt_all (tr_un_integerise lt lq) (pd_to_vec pd), un_list lt (c_word c), st_un lq (c_storage c) with
    | Some ts, Some w, Some s => Some (Conf w s (c_weight c), pd_from ts)
    | _, _, _ => None
    end.
End TransInt.

(* automaton.rs:115-157  recognise, in the outer representation: the word is translated with terminal_to_int (unknown
   symbol: no initial item), the items with item_map.  None = panic. *)
Definition recognise_with {S I T : Type} (a : automaton) (tti : T -> option (au_T a))
           (item_map : item (au_S a) (au_I a) (au_T a) (au_K a) -> option (item S I T (au_K a)))
           (H : max_heap (item (au_S a) (au_I a) (au_T a) (au_K a) * au_K a) (wi_leb wleb))
           (word : list T) (n : nat) : option (list (item S I T (au_K a))) :=
  match recognise_int a H (opt_all tti word) n with
  | Some outs => opt_all item_map outs
  | None => None
  end.
(* automaton.rs:159-207 *)
Definition recognise_beam_with {S I T : Type} (a : automaton) (tti : T -> option (au_T a))
           (item_map : item (au_S a) (au_I a) (au_T a) (au_K a) -> option (item S I T (au_K a)))
           (H : minmax_heap (item (au_S a) (au_I a) (au_T a) (au_K a) * au_K a) (wi_leb wleb))
           (beam : nat) (word : list T) (n : nat) : option (list (item S I T (au_K a))) :=
  match recognise_beam_int a H beam (opt_all tti word) n with
  | Some outs => opt_all item_map outs
  | None => None
  end.

(* ---------- finite state automata (finite_state_automaton/mod.rs) ------------------------------------------------ *)
(* :34-38 *)
Record fs_instr (Q : Type) := FSI { fs_source : Q; fs_target : Q }.
Arguments FSI {Q}. Arguments fs_source {Q}. Arguments fs_target {Q}.

(* :65-71  Instruction::apply *)
Definition fs_apply {Q : Type} (qeqb : Q -> Q -> bool) (i : fs_instr Q) (p : Q) : list Q :=
  if qeqb (fs_source i) p then [fs_target i] else [].

(* :44-49 *)
Definition fsi_integerise {Q : Type} (qeqb : Q -> Q -> bool) (l : list Q) (i : fs_instr Q) : list Q * fs_instr nat :=
  let '(l1, a) := int_integerise qeqb l (fs_source i) in
  let '(l2, b) := int_integerise qeqb l1 (fs_target i) in
  (l2, FSI a b).
(* :51-56 *)
Definition fsi_un_integerise {Q : Type} (l : list Q) (i : fs_instr nat) : option (fs_instr Q) :=
  match int_find_value l (fs_source i), int_find_value l (fs_target i) with
  | Some a, Some b => Some (FSI a b)
  | _, _ => None
  end.

(* :21-32 *)
Record fsa (Q T : Type) (K : Weight) := FSA {
  fa_q : list Q; fa_t : list T;
  fa_map : list (nat * list (transition (fs_instr nat) nat K));
  fa_init : nat; fa_final : list nat
}.
Arguments FSA {Q T K}. Arguments fa_q {Q T K}. Arguments fa_t {Q T K}. Arguments fa_map {Q T K}.
Arguments fa_init {Q T K}. Arguments fa_final {Q T K}.

Section FSA.
  Context {Q T : Type} {K : Weight} (qeqb : Q -> Q -> bool) (teqb : T -> T -> bool).

  (* :80-108  FiniteStateAutomaton::new *)
  Definition fsa_new (transitions : list (transition (fs_instr Q) T K)) (initial : Q) (finals : list Q) : fsa Q T K :=
    let '(q1, init) := int_integerise qeqb [] initial in
    let '(q2, fin) := int_list qeqb q1 finals in
    let '((lt, lq), ts) := trs_integerise teqb (fsi_integerise qeqb) [] q2 transitions in
    FSA lq lt (fold_left (fun m t => hm_push (fs_source (t_ins t)) t m) ts []) init fin.

  (* :132-137  Automaton::from_transitions *)
  Definition fsa_from_transitions (transitions : list (transition (fs_instr Q) T K)) (initial : Q) : fsa Q T K :=
    fsa_new transitions initial [].

  (* :145-150  initial(); None = panic *)
  Definition fsa_initial (a : fsa Q T K) : option Q := int_find_value (fa_q a) (fa_init a).

  (* :110-119  list_transitions; None = panic.  The iteration order is that of the hash map and the heaps, here that of
     the association list. *)
  Definition fsa_list_transitions (a : fsa Q T K) : option (list (transition (fs_instr Q) T K)) :=
    opt_all (tr_un_integerise fsi_un_integerise (fa_t a) (fa_q a)) (flat_map snd (fa_map a)).

  (* :121-206  the Automaton instance; [shuffle] is the iteration order of the binary heaps *)
  Definition fsa_automaton (shuffle : list (transition (fs_instr nat) nat K) -> list (transition (fs_instr nat) nat K))
             (a : fsa Q T K) : automaton := {|
    au_S := nat; au_I := fs_instr nat; au_T := nat; au_K := K; au_Key := nat;
    au_teqb := Nat.eqb;
    au_apply := fs_apply Nat.eqb;
    au_key := fun c => Some (c_storage c);                                               (* :191-193 *)
    au_terminal := fun c => match c_word c with [] => memb Nat.eqb (c_storage c) (fa_final a) | _ => false end; (* :195-197 *)
    au_tmap := fun k => shuffle (hm_get k (fa_map a));
    au_init := fa_init a
  |}.
  Definition fsa_recognise shuffle (a : fsa Q T K) H word n :=
    recognise_with (fsa_automaton shuffle a) (int_find_key teqb (fa_t a))
                   (item_un fsi_un_integerise int_find_value (fa_t a) (fa_q a)) H word n.
  Definition fsa_recognise_beam shuffle (a : fsa Q T K) H beam word n :=
    recognise_beam_with (fsa_automaton shuffle a) (int_find_key teqb (fa_t a))
                   (item_un fsi_un_integerise int_find_value (fa_t a) (fa_q a)) H beam word n.
End FSA.

(* ---------- pushdown automata (push_down_automaton/mod.rs) -------------------------------------------------------- *)
(* :59-65 *)
Record pd_instr (A : Type) := Replace { pi_current : list A; pi_new : list A }.
Arguments Replace {A}. Arguments pi_current {A}. Arguments pi_new {A}.

(* slice::ends_with *)
Definition ends_with {A : Type} (eqb : A -> A -> bool) (v s : list A) : bool := starts_with eqb (rev v) (rev s).

Section PDReplace.
  Context {A : Type} (eqb : A -> A -> bool).
  (* :394-406  PushDown::replace; a PushDown is the vector of its elements, bottom first *)
  Definition pds_replace (p cur_sym new_sym : list A) : result (list A) (list A) :=
    let new_cur_sym := rev cur_sym in
    if ends_with eqb p new_cur_sym then Ok (firstn (length p - length cur_sym) p ++ new_sym)
    else Err p.
  (* :201-215  PushDownInstruction::apply *)
  Definition pdi_apply (i : pd_instr A) (p : list A) : list (list A) :=
    match pds_replace p (pi_current i) (pi_new i) with
    | Ok p' => [p']
    | Err _ => []
    end.
  (* :110-121 with :67-97 (map, map_mut) *)
  Definition pdi_integerise (l : list A) (i : pd_instr A) : list A * pd_instr nat :=
    let '(l1, c) := int_list eqb l (pi_current i) in
    let '(l2, n) := int_list eqb l1 (pi_new i) in
    (l2, Replace c n).
  Definition pdi_un_integerise (l : list A) (i : pd_instr nat) : option (pd_instr A) :=
    match un_list l (pi_current i), un_list l (pi_new i) with
    | Some c, Some n => Some (Replace c n)
    | _, _ => None
    end.
End PDReplace.

Fixpoint list_eqb {A : Type} (eqb : A -> A -> bool) (a b : list A) : bool :=
  match a, b with
  | [], [] => true
  | x :: a, y :: b => eqb x y && list_eqb eqb a b
  | _, _ => false
  end.

(* HashMap<(Vec<usize>, PushDownInstruction<usize>), W> *)
Definition wi_key : Type := list nat * pd_instr nat.
Definition wi_eqb (a b : wi_key) : bool :=
  list_eqb Nat.eqb (fst a) (fst b) && list_eqb Nat.eqb (pi_current (snd a)) (pi_current (snd b)) &&
  list_eqb Nat.eqb (pi_new (snd a)) (pi_new (snd b)).

Section Merge.
  Context {K : Weight} (wadd : K -> K -> K) (wzero : K).
  (* entry((t.word, t.instruction)).or_insert(W::zero()) += t.weight *)
  Fixpoint hm_add (k : wi_key) (w : K) (m : list (wi_key * K)) : list (wi_key * K) :=
    match m with
    | [] => [(k, wadd wzero w)]
    | (k', v) :: r => if wi_eqb k k' then (k', wadd v w) :: r else (k', v) :: hm_add k w r
    end.
  (* transition_map.entry(a).or_insert(HashMap::new()) … *)
  Fixpoint hm_add2 (a : nat) (k : wi_key) (w : K) (m : list (nat * list (wi_key * K))) : list (nat * list (wi_key * K)) :=
    match m with
    | [] => [(a, hm_add k w [])]
    | (a', v) :: r => if Nat.eqb a a' then (a', hm_add k w v) :: r else (a', v) :: hm_add2 a k w r
    end.
  (* :142-160  the loop; None = panic of current_val.first().unwrap() *)
  Fixpoint pda_map (ts : list (transition (pd_instr nat) nat K)) (m : list (nat * list (wi_key * K)))
    : option (list (nat * list (wi_key * K))) :=
    match ts with
    | [] => Some m
    | t :: r => match pi_current (t_ins t) with
                | [] => None
                | a :: _ => pda_map r (hm_add2 a (t_word t, t_ins t) (t_weight t) m)
                end
    end.
End Merge.

(* :28-38 *)
Record pda (A T : Type) (K : Weight) := PDA {
  pa_a : list A; pa_t : list T;
  pa_map : list (nat * list (transition (pd_instr nat) nat K));
  pa_init : list nat
}.
Arguments PDA {A T K}. Arguments pa_a {A T K}. Arguments pa_t {A T K}. Arguments pa_map {A T K}. Arguments pa_init {A T K}.

Section PDA.
  Context {A T : Type} {K : Weight} (wadd : K -> K -> K) (wzero : K) (aeqb : A -> A -> bool) (teqb : T -> T -> bool).

  (* :135-181  PushDownAutomaton::new; None = panic *)
  Definition pda_new (transitions : list (transition (pd_instr A) T K)) (initial : list A) : option (pda A T K) :=
    let '(a1, init) := int_list aeqb [] initial in
    let '((lt, la), ts) := trs_integerise teqb (pdi_integerise aeqb) [] a1 transitions in
    match pda_map wadd wzero ts [] with
    | None => None
    | Some m => Some (PDA la lt (map (fun e => (fst e, map (fun x => Trans (fst (fst x)) (snd x) (snd (fst x))) (snd e))) m) init)
    end.

  (* :241-243  initial(); None = panic *)
  Definition pda_initial (a : pda A T K) : option (list A) := un_list (pa_a a) (pa_init a).

  (* :190-198  list_transitions *)
  Definition pda_list_transitions (a : pda A T K) : option (list (transition (pd_instr A) T K)) :=
    opt_all (tr_un_integerise pdi_un_integerise (pa_t a) (pa_a a)) (flat_map snd (pa_map a)).

  (* slice::last *)
  Definition last_opt {B : Type} (l : list B) : option B := match rev l with [] => None | x :: _ => Some x end.

  (* :217-299  the Automaton instance *)
  Definition pda_automaton (shuffle : list (transition (pd_instr nat) nat K) -> list (transition (pd_instr nat) nat K))
             (a : pda A T K) : automaton := {|
    au_S := list nat; au_I := pd_instr nat; au_T := nat; au_K := K; au_Key := nat;
    au_teqb := Nat.eqb;
    au_apply := pdi_apply Nat.eqb;
    au_key := fun c => last_opt (c_storage c);                                           (* :284-286, :326-328 *)
    au_terminal := fun c => match c_word c with [] => Nat.eqb (length (c_storage c)) 1 | _ => false end;  (* :288-290, :331-333 *)
    au_tmap := fun k => shuffle (hm_get k (pa_map a));
    au_init := pa_init a
  |}.
  Definition pda_recognise shuffle (a : pda A T K) H word n :=
    recognise_with (pda_automaton shuffle a) (int_find_key teqb (pa_t a))
                   (item_un pdi_un_integerise un_list (pa_t a) (pa_a a)) H word n.
  Definition pda_recognise_beam shuffle (a : pda A T K) H beam word n :=
    recognise_beam_with (pda_automaton shuffle a) (int_find_key teqb (pa_t a))
                   (item_un pdi_un_integerise un_list (pa_t a) (pa_a a)) H beam word n.
End PDA.
