(* Model of src/automata/tree_stack_automaton/from_pmcfg.rs. *)
From Verif Require Import Base BMap M_Agenda M_Search M_Util M_Recog M_Automata M_CFG M_TreeStack M_Grammar.

(* from_pmcfg.rs:19-24 *)
Inductive posstate (X : Type) := Designated | Initial | Position (x : X) (i j : nat).
Arguments Designated {X}. Arguments Initial {X}. Arguments Position {X}.
(* from_pmcfg.rs:19  derived PartialEq *)
Definition posstate_eqb {X : Type} (xeqb : X -> X -> bool) (a b : posstate X) : bool :=
  match a, b with
  | Designated, Designated => true
  | Initial, Initial => true
  | Position x i j, Position y k l => xeqb x y && Nat.eqb i k && Nat.eqb j l
  | _, _ => false
  end.
(* from_pmcfg.rs:26-37 *)
Definition posstate_map {X Y : Type} (f : X -> Y) (a : posstate X) : posstate Y :=
  match a with Designated => Designated | Initial => Initial | Position x i j => Position (f x) i j end.

Section From.
  Context {N T : Type} {K : Weight} (neqb : N -> N -> bool).
  Notation rule := (prule N T K).
  Notation trans := (transition (ts_instr (posstate rule)) T K).

  (* from_pmcfg.rs:80-91  one token: the counter i and down_buffer.  The buffer is cleared before every token (81). *)
  Definition down_step (st : nat * list T) (x : vart T) : nat * list T :=
    match x with Var _ _ => (S (fst st), []) | Tm t => (fst st, [t]) end.
  (* from_pmcfg.rs:77-93  down_buffer lives across the components *)
  Fixpoint down_infos (buffer : list T) (cs : composition T) : list (nat * list T) :=
    match cs with
    | [] => []
    | c :: cs => let st := fold_left down_step c (0, buffer) in st :: down_infos (snd st) cs
    end.
  (* down_info[r] (65, 94).  Every rule looked up in the map is one of the grammar's, whose entry is a function of the rule. *)
  Definition down_info (r : rule) : list (nat * list T) := down_infos [] (pr_comp r).

  (* rule_map[n] (59-63, 73, 128); None = the indexing panics because n has no rule *)
  Definition rules_of (rules : list rule) (n : N) : option (list rule) :=
    match filter (fun r => neqb (pr_head r) n) rules with [] => None | l => Some l end.

  (* from_pmcfg.rs:98-120  the two transitions of an initial rule; None = down_info[&r][0] panics *)
  Definition initial_transitions (r : rule) : option (list trans) :=
    match nth_error (down_info r) 0 with
    | None => None
    | Some (j, word) => Some [Trans [] (pr_weight r) (IPush 0 Initial (Position r 0 0));
                              Trans word wone (IDown (Position r 0 j) Initial Designated)]
    end.

  (* from_pmcfg.rs:147-184  the two transitions for the variable (i1, j1) at position k of component j of r and the rule ri of
     the successor; prev is previous_component[i1]; None = an index panics *)
  Definition var_transitions (r : rule) (j k : nat) (buffer : list T) (prev : option nat) (i1 j1 : nat) (ri : rule) : option (list trans) :=
    match (match prev with
           | None => Some (pr_weight ri, IPush i1 (Position r j k) (Position ri j1 0))
           | Some j0 => match nth_error (down_info ri) j0 with
                        | Some (e0, _) => Some (wone, IUp i1 (Position r j k) (Position ri j0 e0) (Position ri j1 0))
                        | None => None
                        end
           end), nth_error (down_info ri) j1 with
    | Some (weight, instruction), Some (e1, word1) =>
        Some [Trans buffer weight instruction;
              Trans word1 wone (IDown (Position ri j1 e1) (Position r j k) (Position r j (S k)))]
    | _, _ => None
    end.

  (* from_pmcfg.rs:141-196  the tokens of component j; returns the transitions and previous_component.
     None = an index panics (rss[i1], previous_component[i1], down_info) *)
  Fixpoint component_transitions (r : rule) (rss : list (list rule)) (j k : nat) (prev : list (option nat)) (buffer : list T)
           (c : list (vart T)) : option (list trans * list (option nat)) :=
    match c with
    | [] => Some ([], prev)
    | Tm t :: c => component_transitions r rss j k prev (buffer ++ [t]) c
    | Var i1 j1 :: c =>
        match nth_error rss i1, nth_error prev i1 with
        | Some rs, Some p =>
            match opt_all (var_transitions r j k buffer p i1 j1) rs,
                  component_transitions r rss j (S k) (set_nth i1 (Some j1) prev) [] c with
            | Some l, Some (l', prev') => Some (concat l ++ l', prev')
            | _, _ => None
            end
        | _, _ => None
        end
    end.
  (* from_pmcfg.rs:138-199 *)
  Fixpoint components_transitions (r : rule) (rss : list (list rule)) (j : nat) (prev : list (option nat)) (cs : composition T)
    : option (list trans) :=
    match cs with
    | [] => Some []
    | c :: cs => match component_transitions r rss j 0 prev [] c with
                 | Some (l, prev') => match components_transitions r rss (S j) prev' cs with
                                      | Some l' => Some (l ++ l')
                                      | None => None
                                      end
                 | None => None
                 end
    end.
  (* from_pmcfg.rs:126-129, 137-200 *)
  Definition rule_transitions (rules : list rule) (r : rule) : option (list trans) :=
    match opt_all (rules_of rules) (pr_tail r) with
    | Some rss => components_transitions r rss 0 (map (fun _ => None) rss) (pr_comp r)
    | None => None
    end.

  (* from_pmcfg.rs:56-201; None = the conversion panics.  69-72, 97: the initial rules are those whose head is initial. *)
  Definition pmcfg_transitions (g : pmcfg N T K) : option (list trans) :=
    match opt_all initial_transitions (filter (fun r => memb neqb (pr_head r) (pg_initial g)) (pg_rules g)),
          opt_all (rule_transitions (pg_rules g)) (pg_rules g) with
    | Some l1, Some l2 => Some (concat l1 ++ concat l2)
    | _, _ => None
    end.
  (* from_pmcfg.rs:202 *)
  Definition tsa_from_pmcfg (reqb : rule -> rule -> bool) (teqb : T -> T -> bool) (g : pmcfg N T K) : option (tsa (posstate rule) T K) :=
    option_map (fun ts => tsa_new (posstate_eqb reqb) teqb ts (ts_new Initial)) (pmcfg_transitions g).
End From.

(* from_pmcfg.rs:206-233  (the iteration is over a BTreeMap); None = panic *)
Fixpoint ast_entries {X : Type} (l : list (list nat * posstate X)) (acc : gorn X) : option (gorn X) :=
  match l with
  | [] => Some acc
  | ([], _) :: l => ast_entries l acc
  | (first :: rest, p) :: l =>
      if Nat.eqb first 0 then
        match p with
        | Position value _ _ => ast_entries l (gt_insert rest value acc)
        | _ => None
        end
      else ast_entries l acc
  end.
Definition to_abstract_syntax_tree {X : Type} (t : gorn (posstate X) * list nat) : option (gorn X) := ast_entries (fst t) [].
