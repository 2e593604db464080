(* Model of src/grammars/pmcfg/mod.rs (data types, evaluate, to_term), src/grammars/mcfg/mod.rs,
   src/grammars/lcfrs/mod.rs, src/grammars/cfg/from_pmcfg.rs. *)
From Verif Require Import Base BMap M_Util M_Recog M_Automata M_CFG M_TreeStack.

(* pmcfg/mod.rs:15-22 *)
Inductive vart (T : Type) := Var (i j : nat) | Tm (t : T).
Arguments Var {T}. Arguments Tm {T}.
(* pmcfg/mod.rs:55-58 *)
Definition composition (T : Type) := list (list (vart T)).

(* pmcfg/mod.rs:132-138 *)
Record prule (N T W : Type) := PRule { pr_head : N; pr_tail : list N; pr_comp : composition T; pr_weight : W }.
Arguments PRule {N T W}. Arguments pr_head {N T W}. Arguments pr_tail {N T W}. Arguments pr_comp {N T W}. Arguments pr_weight {N T W}.

(* pmcfg/mod.rs:182-187 *)
Record pmcfg (N T W : Type) := PMCFG { pg_initial : list N; pg_rules : list (prule N T W) }.
Arguments PMCFG {N T W}. Arguments pg_initial {N T W}. Arguments pg_rules {N T W}.

(* mcfg/mod.rs:5-9 and lcfrs/mod.rs:14-18: both are rules and one initial nonterminal *)
Record mcfg (N T W : Type) := MCFG { mg_rules : list (prule N T W); mg_initial : N }.
Arguments MCFG {N T W}. Arguments mg_rules {N T W}. Arguments mg_initial {N T W}.

(* .flat_map(|component| component.iter()).filter_map(Var(i, j) => Some((i, j))) *)
Definition as_var {T} (x : vart T) : list (nat * nat) := match x with Var i j => [(i, j)] | Tm _ => [] end.
Definition variables {T} (c : composition T) : list (nat * nat) := flat_map as_var (concat c).

(* ---- evaluate ---- *)
Section Evaluate.
  Context {T : Type}.
  (* the largest length of an address, used to bound the recursion depth *)
  Definition max_len {X} (m : gorn X) : nat := fold_right (fun e n => Nat.max (length (fst e)) n) 0 m.

  Section Eval1.
    Context (sub_eval : nat -> option (composition T)).   (* evaluate_pos at a child *)
    (* mod.rs:315-345  one pass over a component; the BTreeMap expanded_nonterminals is threaded *)
    Fixpoint ev_component (cache : list (nat * composition T)) (c : list (vart T)) (acc : list (vart T))
      : option (list (nat * composition T) * list (vart T)) :=
      match c with
      | [] => Some (cache, acc)
      | Tm t :: c => ev_component cache c (acc ++ [Tm t])
      | Var i j :: c =>
          match (match bm_get Nat.compare i cache with
                 | Some x => Some (cache, x)
                 | None => match sub_eval i with Some x => Some (bm_insert Nat.compare i x cache, x) | None => None end
                 end) with
          | None => None
          | Some (cache, x) => match nth_error x j with
                               | Some comp => ev_component cache c (acc ++ comp)
                               | None => None                      (* panic *)
                               end
          end
      end.
    (* mod.rs:314-349 *)
    Fixpoint ev_components (cache : list (nat * composition T)) (cs : composition T) (acc : composition T) : option (composition T) :=
      match cs with
      | [] => Some acc
      | c :: cs => match ev_component cache c [] with
                   | Some (cache, x) => ev_components cache cs (acc ++ [x])
                   | None => None
                   end
      end.
  End Eval1.

  (* mod.rs:305-352  evaluate_pos.  None = panic.  [fuel] only has to exceed the longest address minus the current one:
     below that depth term_map.get fails anyway. *)
  Fixpoint evaluate_pos (fuel : nat) (term_map : gorn (composition T)) (address : list nat) : option (composition T) :=
    match fuel with
    | 0 => None
    | S f => match gt_get address term_map with
             | None => None                                        (* unwrap panics *)
             | Some comp => ev_components (fun i => evaluate_pos f term_map (address ++ [i])) [] comp []
             end
    end.
  (* mod.rs:298-303 *)
  Definition evaluate (term_map : gorn (composition T)) : option (composition T) :=
    evaluate_pos (S (max_len term_map)) term_map [].
End Evaluate.

(* mod.rs:354-379 *)
Definition to_term {N T W} (tree_map : gorn (prule N T W)) : gorn (composition T) * gorn N :=
  fold_left (fun acc e => (gt_insert (fst e) (pr_comp (snd e)) (fst acc), gt_insert (fst e) (pr_head (snd e)) (snd acc)))
            tree_map ([], []).

(* ---- Mcfg::from_pmcfg ---- *)
Definition pair_eqb (a b : nat * nat) : bool := Nat.eqb (fst a) (fst b) && Nat.eqb (snd a) (snd b).
(* mcfg/mod.rs:35-46  inserting every variable into a BTreeSet; false = some insert returned false *)
Fixpoint insert_all_fresh (seen : list (nat * nat)) (l : list (nat * nat)) : bool :=
  match l with
  | [] => true
  | x :: l => if memb pair_eqb x seen then false else insert_all_fresh (x :: seen) l
  end.
(* mcfg/mod.rs:29-60 *)
Definition mcfg_from_pmcfg {N T W} (g : pmcfg N T W) : option (mcfg N T W) :=
  if forallb (fun r => insert_all_fresh [] (variables (pr_comp r))) (pg_rules g) then
    if Nat.eqb (length (pg_initial g)) 1 then
      match rev (pg_initial g) with i :: _ => Some (MCFG (pg_rules g) i) | [] => None end
    else None
  else None.
(* pmcfg/mod.rs:189-197  From<Mcfg> for PMCFG *)
Definition pmcfg_from_mcfg {N T W} (g : mcfg N T W) : pmcfg N T W := PMCFG [mg_initial g] (mg_rules g).

(* ---- Lcfrs::new ---- *)
Section Lcfrs.
  Context {N T W : Type} (neqb : N -> N -> bool).
  Fixpoint fan_get (n : N) (m : list (N * nat)) : option nat :=
    match m with [] => None | (k, v) :: m => if neqb n k then Some v else fan_get n m end.
  (* lcfrs/mod.rs:91-108  the HashMap as an association list *)
  Fixpoint read_fanouts_from (m : list (N * nat)) (rules : list (prule N T W)) : option (list (N * nat)) :=
    match rules with
    | [] => Some m
    | r :: rules =>
        let l := length (pr_comp r) in
        match fan_get (pr_head r) m with
        | Some f => if Nat.eqb f l then read_fanouts_from m rules else None
        | None => read_fanouts_from ((pr_head r, l) :: m) rules
        end
    end.
  Definition read_fanouts (rules : list (prule N T W)) := read_fanouts_from [] rules.

  (* VecMultiMapAdapter(&mut v)[i].push(j): the vector is extended to hold index i *)
  Fixpoint vmm_push (v : list (list nat)) (i j : nat) : list (list nat) :=
    match v, i with
    | [], 0 => [[j]]
    | js :: v, 0 => (js ++ [j]) :: v
    | [], S i => [] :: vmm_push [] i j
    | js :: v, S i => js :: vmm_push v i j
    end.
  Fixpoint ins (x : nat) (l : list nat) : list nat :=
    match l with [] => [x] | y :: r => if Nat.leb x y then x :: l else y :: ins x r end.
  (* slice::sort *)
  Definition isort (l : list nat) : list nat := fold_right ins [] l.
  Fixpoint list_eqb (a b : list nat) : bool :=
    match a, b with [], [] => true | x :: a, y :: b => Nat.eqb x y && list_eqb a b | _, _ => false end.
  Fixpoint zip_check (v : list (list nat)) (fanouts : list nat) : bool :=
    match v, fanouts with
    | js :: v, f :: fanouts => list_eqb (isort js) (seq 0 f) && zip_check v fanouts
    | _, _ => true
    end.
  (* lcfrs/mod.rs:112-136 *)
  Definition check_composition (c : composition T) (fanouts : list nat) : bool :=
    let occ := fold_left (fun v ij => vmm_push v (fst ij) (snd ij)) (variables c) [] in
    Nat.eqb (length occ) (length fanouts) && zip_check occ fanouts.

  (* rules.iter().all(check_fanouts); None = panic of fanouts[nt] *)
  Fixpoint all_check (m : list (N * nat)) (rules : list (prule N T W)) : option bool :=
    match rules with
    | [] => Some true
    | r :: rules => match opt_all (fun n => fan_get n m) (pr_tail r) with
                    | None => None
                    | Some fs => if check_composition (pr_comp r) fs then all_check m rules else Some false
                    end
    end.
  (* lcfrs/mod.rs:29-50; outer None = panic *)
  Definition lcfrs_new (rules : list (prule N T W)) (init : N) : option (option (mcfg N T W)) :=
    match read_fanouts rules with
    | None => Some None
    | Some m =>
        match fan_get init m with
        | Some 1 => match all_check m rules with
                    | None => None
                    | Some true => Some (Some (MCFG rules init))
                    | Some false => Some None
                    end
        | _ => Some None
        end
    end.
End Lcfrs.

Definition is_t {T} (x : vart T) : bool := match x with Tm _ => true | Var _ _ => false end.
Definition is_var {T} (x : vart T) : bool := negb (is_t x).
Definition is_nil {X} (l : list X) : bool := match l with [] => true | _ => false end.
(* lcfrs/mod.rs:52-65 *)
Definition in_normal_form {N T W} (rules : list (prule N T W)) : bool :=
  forallb (fun r => forallb (fun c => negb (is_nil c)) (pr_comp r) &&
                    (forallb is_var (concat (pr_comp r)) ||
                     match pr_comp r with [[x]] => is_t x | _ => false end)) rules.

(* ---- CFG from PMCFG ---- *)
(* cfg/from_pmcfg.rs:20-30; None = panic *)
Fixpoint cfg_letters {N T} (tail : list N) (c : list (vart T)) : option (list (lettert N T)) :=
  match c with
  | [] => Some []
  | x :: c =>
      match (match x with
             | Tm t => Some (Value t)
             | Var i 0 => option_map Label (nth_error tail i)
             | Var _ _ => None
             end), cfg_letters tail c with
      | Some l, Some ls => Some (l :: ls)
      | _, _ => None
      end
  end.
(* cfg/from_pmcfg.rs:11-37 *)
Definition cfg_rule_from {N T} {K : Weight} (r : prule N T K) : option (cfg_rule N T K) :=
  match pr_comp r with
  | [c] => option_map (fun l => CFGRule (pr_head r) l (pr_weight r)) (cfg_letters (pr_tail r) c)
  | _ => None
  end.
(* cfg/from_pmcfg.rs:7-44 *)
Definition cfg_from_pmcfg {N T} {K : Weight} (g : pmcfg N T K) : option (cfg N T K) :=
  option_map (CFG (pg_initial g)) (opt_all cfg_rule_from (pg_rules g)).
