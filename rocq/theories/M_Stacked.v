(* Model of coarse-to-fine recognisers with several approximation strategies: the nested recogniser that
   coarse_to_fine_recogniser!(automaton; strategy1, strategy2, ...) builds. *)
From Verif Require Import Base M_Agenda M_Util M_Recog M_Automata M_TreeStack M_CSAuto M_CSParse M_Approx.

(* Box<dyn Iterator<Item = X>>, as recognise returns it: a state and its next *)
Record source (X : Type) := Source { so_state : Type; so_next : iter so_state X; so_start : so_state }.
Arguments Source {X}. Arguments so_state {X}. Arguments so_next {X}. Arguments so_start {X}.
(* the results of the first n calls to next; None = panic (or the fuel of the searches is used up) *)
Definition so_run {X} (s : source X) (n : nat) : option (list (option X)) := run (so_next s) n (so_start s).

(* One RlbElement (approximation/relabel.rs:9-21) with the orders in which the level iterates over its hash maps, and
   the BinaryHeap of the parse forest of the level. *)
Record rlb_level (A B T : Type) (K : Weight) := Level {
  lv_eqb : B -> B -> bool;
  lv_map : A -> B;
  lv_order : list (transition (pd_instr A) T K) -> list (transition (pd_instr A) T K);
  lv_heap_order : list (pushdown (transition (pd_instr A) T K)) -> list (pushdown (transition (pd_instr A) T K));
  lv_leb : item (list A) (pd_instr A) T K -> item (list A) (pd_instr A) T K -> bool;
  lv_heap : max_heap (item (list A) (pd_instr A) T K) lv_leb
}.
Arguments Level {A B T K}. Arguments lv_eqb {A B T K}. Arguments lv_map {A B T K}. Arguments lv_order {A B T K}.
Arguments lv_heap_order {A B T K}. Arguments lv_leb {A B T K}. Arguments lv_heap {A B T K}.
(* the strategies in the order in which the macro gets them: each has its own stack alphabet *)
Inductive levels (T : Type) (K : Weight) : Type -> Type :=
| Coarsest (A : Type) : levels T K A
| Finer (A B : Type) : rlb_level A B T K -> levels T K B -> levels T K A.
Arguments Coarsest {T K A}. Arguments Finer {T K A B}.

Section Stacked.
  Context {T : Type} {K : Weight} (wadd : K -> K -> K) (wzero : K) (teqb : T -> T -> bool).
  Context (shuffle : list (transition (pd_instr nat) nat K) -> list (transition (pd_instr nat) nat K))
          (H : max_heap (item (list nat) (pd_instr nat) nat K * K) (wi_leb wleb)) (fuel : nat).

  (* recognisable/coarse_to_fine.rs:148-170 with :130-138.  With no strategy left the recogniser is the automaton itself
     (recognisable/automaton.rs:100-155).  Otherwise: approximate the automaton, build the recogniser for the result and
     the other strategies, and map its parses back.  The approximations are computed when the recogniser is built. *)
  Fixpoint pda_stack {A : Type} (L : levels T K A) {struct L} : (A -> A -> bool) -> pda A T K -> list T -> option (source (item (list A) (pd_instr A) T K)) :=
    match L in levels _ _ X return (X -> X -> bool) -> pda X T K -> list T -> option (source (item (list X) (pd_instr X) T K)) with
    | Coarsest => fun aeqb M word =>
        let AU := pda_automaton shuffle M in
        Some (Source _ (rec_next AU (item_un pdi_un_integerise un_list (pa_t M) (pa_a M)) H fuel) (rec_start AU (int_find_key teqb (pa_t M)) H word))
    | Finer lv L' => fun aeqb M word =>
        let? (aut0, m) := rlb_approximate wadd wzero (lv_eqb lv) teqb (lv_order lv) (lv_map lv) M in
        let? initial1 := pda_initial M in
        let? sub := pda_stack L' (lv_eqb lv) aut0 word in
        Some (Source _ (ctf_next (pdi_eqb (lv_eqb lv)) teqb (pdi_apply aeqb) initial1 m (lv_heap_order lv) (so_next sub) (lv_leb lv) (lv_heap lv) fuel)
                       (ctf_new (lv_leb lv) (lv_heap lv) (so_start sub)))
    end.

  (* the same for a tree stack automaton: TTSElement first, then the other strategies (tests/pmcfg.rs:72) *)
  Definition tsa_stack {A : Type} (L : levels T K A) (aeqb : A -> A -> bool) order heap_order ileb (OH : max_heap (item (tstack A) (ts_instr A) T K) ileb)
             (M : tsa A T K) (word : list T) : option (source (item (tstack A) (ts_instr A) T K)) :=
    let? (aut0, m) := tts_approximate wadd wzero aeqb teqb order M in
    let? initial1 := tsa_initial M in
    let? sub := pda_stack L aeqb aut0 word in
    Some (Source _ (ctf_next (pdi_eqb aeqb) teqb (tsi_apply aeqb) initial1 m heap_order (so_next sub) ileb OH fuel)
                   (ctf_new ileb OH (so_start sub))).
End Stacked.
(* :140-146  recognise_beam_search is unimplemented!() and is not modelled: it panics on every recogniser with at least one
   strategy. *)
