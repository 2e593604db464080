(* Model of src/grammars/cfg/mod.rs (the data types) and src/automata/push_down_automaton/from_cfg.rs. *)
From Verif Require Import Base M_Agenda M_Search M_Util M_Recog M_Automata.

(* cfg/mod.rs:8-12 *)
Inductive lettert (N T : Type) := Label (n : N) | Value (t : T).
Arguments Label {N T}. Arguments Value {N T}.

(* cfg/mod.rs:45-50  (composition = the vector inside CFGComposition) *)
Record cfg_rule (N T : Type) (K : Weight) := CFGRule { cr_head : N; cr_rhs : list (lettert N T); cr_weight : K }.
Arguments CFGRule {N T K}. Arguments cr_head {N T K}. Arguments cr_rhs {N T K}. Arguments cr_weight {N T K}.

(* cfg/mod.rs  struct CFG *)
Record cfg (N T : Type) (K : Weight) := CFG { cg_initial : list N; cg_rules : list (cfg_rule N T K) }.
Arguments CFG {N T K}. Arguments cg_initial {N T K}. Arguments cg_rules {N T K}.

(* from_cfg.rs:16-22 *)
Inductive push_state (N T : Type) := Designated | Initial | PNt (n : N) | PT (t : T).
Arguments Designated {N T}. Arguments Initial {N T}. Arguments PNt {N T}. Arguments PT {N T}.

(* derived PartialEq *)
Definition ps_eqb {N T : Type} (neqb : N -> N -> bool) (teqb : T -> T -> bool) (a b : push_state N T) : bool :=
  match a, b with
  | Designated, Designated => true
  | Initial, Initial => true
  | PNt x, PNt y => neqb x y
  | PT x, PT y => teqb x y
  | _, _ => false
  end.

Section FromCFG.
  Context {N T : Type} {K : Weight} (teqb : T -> T -> bool).

  (* from_cfg.rs:74-84  the inner loop: st.insert(0, …), t_buffer.insert(…) *)
  Definition st_step (acc : list T * list (push_state N T)) (v : lettert N T) : list T * list (push_state N T) :=
    let '(t_buffer, st) := acc in
    match v with
    | Value x => ((if memb teqb x t_buffer then t_buffer else t_buffer ++ [x]), PT x :: st)
    | Label x => (t_buffer, PNt x :: st)
    end.

  (* from_cfg.rs:72-94  one transition per rule *)
  Fixpoint rule_transitions (rules : list (cfg_rule N T K)) (t_buffer : list T)
    : list T * list (transition (pd_instr (push_state N T)) T K) :=
    match rules with
    | [] => (t_buffer, [])
    | r :: rest => let '(b1, st) := fold_left st_step (cr_rhs r) (t_buffer, []) in
                   let '(b2, ts) := rule_transitions rest b1 in
                   (b2, Trans [] (cr_weight r) (Replace [PNt (cr_head r)] st) :: ts)
    end.

  (* from_cfg.rs:66-122  all transitions; [order] is the iteration order of the hash set t_buffer *)
  Definition cfg_transitions (order : list T -> list T) (g : cfg N T K) : list (transition (pd_instr (push_state N T)) T K) :=
    let '(t_buffer, rules) := rule_transitions (cg_rules g) [] in
    rules ++ map (fun t => Trans [t] wone (Replace [PT t] [])) (order t_buffer)
          ++ map (fun ini => Trans [] wone (Replace [Initial] [PNt ini])) (cg_initial g).

  (* from_cfg.rs:66-127  From<CFG> *)
  Definition pda_from_cfg (wadd : K -> K -> K) (wzero : K) (neqb : N -> N -> bool) (order : list T -> list T) (g : cfg N T K)
    : option (pda (push_state N T) T K) :=
    pda_new wadd wzero (ps_eqb neqb teqb) teqb (cfg_transitions order g) [Designated; Initial].
End FromCFG.
