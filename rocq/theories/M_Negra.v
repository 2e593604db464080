(* Model of separate_terminal_rules (src/grammars/pmcfg/mod.rs:435-552) and of src/grammars/pmcfg/negra.rs. *)
From Verif Require Import Base BMap M_Util M_Recog M_Automata M_CFG M_TreeStack M_Grammar.

Section Separate.
  Context {HT W : Type} (heqb : HT -> HT -> bool).
  Context (ext : HT -> HT -> HT).                 (* terminal.extend(vec![original]): for String, concatenation *)
  Notation rule := (prule HT HT W).

  (* position of t in the list of terminals seen so far; the HashMap terminal_child_num maps t to tail.len() + this *)
  Fixpoint index_of (t : HT) (l : list HT) : option nat :=
    match l with
    | [] => None
    | x :: l => if heqb t x then Some 0 else option_map S (index_of t l)
    end.

  (* pmcfg/mod.rs:474-507  the loops over components and symbols.  State: terminal_children, first_variable,
     contains_only_one_terminal *)
  Definition sep_state := (list HT * bool * bool)%type.
  Definition sep_symbol (n : nat) (st : sep_state) (x : vart HT) : vart HT * sep_state :=
    let '(seen, first, only) := st in
    match x with
    | Var i j => (Var i j, (seen, false, only))
    | Tm t => match index_of t seen with
              | Some k => (Var (n + k) 0, (seen, false, first))
              | None => (Var (n + length seen) 0, (seen ++ [t], false, first))
              end
    end.
  Fixpoint sep_component (n : nat) (st : sep_state) (c : list (vart HT)) : list (vart HT) * sep_state :=
    match c with
    | [] => ([], st)
    | x :: c => let '(y, st) := sep_symbol n st x in let '(c', st) := sep_component n st c in (y :: c', st)
    end.
  Fixpoint sep_composition (n : nat) (st : sep_state) (cs : composition HT) : composition HT * sep_state :=
    match cs with
    | [] => ([], st)
    | c :: cs => let '(c', st) := sep_component n st c in let '(cs', st) := sep_composition n st cs in (c' :: cs', st)
    end.

  (* pmcfg/mod.rs:522-524  while old_heads.contains(&terminal) { terminal.extend(..) }, at most [fuel] tests;
     None = still running *)
  Fixpoint fresh_head (fuel : nat) (old_heads : list HT) (original terminal : HT) : option HT :=
    match fuel with
    | 0 => None
    | S fuel => if memb heqb terminal old_heads then fresh_head fuel old_heads original (ext terminal original) else Some terminal
    end.

  (* pmcfg/mod.rs:459-548  one tree node: the new rule and the rules of the new children tail.len(), tail.len()+1, ... *)
  Definition sep_rule (fuel : nat) (old_heads : list HT) (r : rule) : option (rule * list rule) :=
    let '(comp, (terminals, _, only)) := sep_composition (length (pr_tail r)) ([], true, false) (pr_comp r) in
    if only then Some (r, [])
    else match opt_all (fun t => fresh_head fuel old_heads t t) terminals with
         | None => None
         | Some names => Some (PRule (pr_head r) (pr_tail r ++ names) comp (pr_weight r),
                               map (fun p => PRule (snd p) [] [[Tm (fst p)]] (pr_weight r)) (combine terminals names))
         end.

  (* what one node inserts into new_tree: its new children first, then itself *)
  Definition sep_entries (e : list nat * rule) (x : rule * list rule) : list (list nat * rule) :=
    combine (map (fun k => fst e ++ [k]) (seq (length (pr_tail (snd e))) (length (snd x)))) (snd x) ++ [(fst e, fst x)].

  (* pmcfg/mod.rs:435-552 *)
  Definition separate (fuel : nat) (tree_map : gorn rule) : option (gorn rule) :=
    let old_heads := map (fun e => pr_head (snd e)) tree_map in
    option_map (fun xs => fold_left (fun m e => gt_insert (fst e) (snd e) m) (concat xs) [])
      (opt_all (fun e => option_map (sep_entries e) (sep_rule fuel old_heads (snd e))) tree_map).
End Separate.

(* ---- negra.rs ---- *)
(* negra.rs:127-162  the two flags while reading the symbols of one rule *)
Fixpoint negra_symbols {T} (nonterminal terminal : bool) (l : list (vart T)) : bool :=
  match l with
  | [] => true
  | Var _ _ :: l => if terminal then false else negra_symbols true terminal l
  | Tm _ :: l => if nonterminal || terminal then false else negra_symbols nonterminal true l
  end.
Definition meets_negra_criteria {N T W} (tree_map : gorn (prule N T W)) : bool :=
  forallb (fun e => negra_symbols false false (concat (pr_comp (snd e)))) tree_map.

(* negra.rs:5-9 *)
Definition term_id := (list nat * nat)%type.
Definition tid_eqb (a b : term_id) : bool := list_eqb (fst a) (fst b) && Nat.eqb (snd a) (snd b).
Section Identify.
  Context {T : Type}.
  (* negra.rs:37-62  one component: symbols numbered from pos; returns the identified component, the pairs inserted into
     terminal_map and the next position *)
  Fixpoint id_component (addr : list nat) (pos : nat) (c : list (vart T)) : list (vart term_id) * list (term_id * T) * nat :=
    match c with
    | [] => ([], [], pos)
    | Var i j :: c => let '(c', tm, p) := id_component addr (S pos) c in (Var i j :: c', tm, p)
    | Tm t :: c => let '(c', tm, p) := id_component addr (S pos) c in (Tm (addr, pos) :: c', ((addr, pos), t) :: tm, p)
    end.
  Fixpoint id_composition (addr : list nat) (pos : nat) (cs : composition T) : composition term_id * list (term_id * T) :=
    match cs with
    | [] => ([], [])
    | c :: cs => let '(c', tm, p) := id_component addr pos c in let '(cs', tm') := id_composition addr p cs in (c' :: cs', tm ++ tm')
    end.
  (* negra.rs:26-68; terminal_map as an association list (a term_id is inserted at most once) *)
  Definition identify_terminals (tree_map : gorn (composition T)) : gorn (composition term_id) * list (term_id * T) :=
    fold_left (fun acc e => let '(cs, tm) := id_composition (fst e) 0 (snd e) in (gt_insert (fst e) cs (fst acc), snd acc ++ tm))
              tree_map ([], []).
  Fixpoint tm_get (k : term_id) (l : list (term_id * T)) : option T :=
    match l with [] => None | (k', v) :: l => if tid_eqb k k' then Some v else tm_get k l end.
End Identify.

(* negra.rs: the first column: a word, or "#n" *)
Inductive ncol (T : Type) := NWord (t : T) | NNode (n : nat).
Arguments NWord {T}. Arguments NNode {T}.
(* negra.rs:70-74 *)
Inductive dump_mode (T : Type) := FromPos (words : list T) | Default.
Arguments FromPos {T}. Arguments Default {T}.

Section Negra.
  Context {N T W : Type}.
  Definition nline := (ncol T * N * nat)%type.
  (* rule_queue, rule_number_map, rule_counter *)
  Record nstate := NState { ns_queue : list (list nat * nat); ns_numbers : gorn nat; ns_counter : nat }.
  (* negra.rs:235-259 *)
  Definition get_rule_number (addr : list nat) (s : nstate) : nat * nstate :=
    match gt_get addr (ns_numbers s) with
    | Some n => (n, s)
    | None =>
        let '(n, c) := match addr with [] => (0, ns_counter s) | _ => (ns_counter s, S (ns_counter s)) end in
        (n, NState (ns_queue s ++ [(addr, n)]) (gt_insert addr n (ns_numbers s)) c)
    end.
  (* Vec::pop: the parent of an address *)
  Definition parent (addr : list nat) : option (list nat) :=
    match addr with [] => None | _ => Some (removelast addr) end.

  (* negra.rs:180-211  the words; None = panic *)
  Fixpoint negra_words (heads : gorn N) (tm : list (term_id * T)) (mode : dump_mode T) (l : list (vart term_id)) (s : nstate)
    : option (list nline * nstate) :=
    match l with
    | [] => Some ([], s)
    | Var _ _ :: _ => None
    | Tm tid :: l =>
        match (match mode with
               | FromPos [] => None
               | FromPos (w :: ws) => Some (w, FromPos ws)
               | Default => option_map (fun w => (w, Default)) (tm_get tid tm)
               end), gt_get (fst tid) heads, parent (fst tid) with
        | Some (w, mode), Some label, Some p =>
            let '(n, s) := get_rule_number p s in
            option_map (fun r => ((NWord w, label, n) :: fst r, snd r)) (negra_words heads tm mode l s)
        | _, _, _ => None
        end
    end.
  (* negra.rs:213-230  the inner nodes; outer None = panic, stops after [fuel] nodes *)
  Fixpoint negra_nodes (fuel : nat) (heads : gorn N) (s : nstate) : option (list nline) :=
    match fuel, ns_queue s with
    | _, [] => Some []
    | 0, _ => None
    | S fuel, (addr, n) :: q =>
        let s := NState q (ns_numbers s) (ns_counter s) in
        match parent addr with
        | None => negra_nodes fuel heads s
        | Some p =>
            let '(pn, s) := get_rule_number p s in
            match gt_get addr heads with
            | None => None
            | Some label => option_map (cons (NNode n, label, pn)) (negra_nodes fuel heads s)
            end
        end
    end.
  (* negra.rs:164-233 *)
  Definition to_negra_vector (fuel : nat) (tree_map : gorn (prule N T W)) (mode : dump_mode T) : option (list nline) :=
    let '(term_map, heads) := to_term tree_map in
    let '(identified, tm) := identify_terminals term_map in
    match evaluate identified with
    | None => None
    | Some comps =>
        match negra_words heads tm mode (concat comps) (NState [] [] 500) with
        | None => None
        | Some (lines, s) => option_map (app lines) (negra_nodes fuel heads s)
        end
    end.
  (* negra.rs:78-104  to_negra without the text formatting of the lines *)
  Definition to_negra (fuel : nat) (tree_map : gorn (prule N T W)) (mode : dump_mode T) : option (list nline) :=
    if meets_negra_criteria tree_map then to_negra_vector fuel tree_map mode else None.
End Negra.
