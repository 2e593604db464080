(* Model of src/grammars/lcfrs/conversion.rs. *)
From Verif Require Import Base BMap M_Agenda M_Search M_Util M_Recog M_Automata M_CFG M_TreeStack M_Grammar.

Section Conversion.
  Context {N T W : Type} (neqb : N -> N -> bool).
  Notation rule := (prule N T W).
  (* (N, BTreeSet<usize>): a nonterminal with the set of its deleted components *)
  Definition dnt := (N * list nat)%type.
  Definition dnt_eqb (a b : dnt) : bool := neqb (fst a) (fst b) && list_eqb (snd a) (snd b).

  (* .enumerate().filter_map(|(j, c)| if deletions.contains(&j) { None } else { Some(c) }), counting from k *)
  Fixpoint kept_from {X} (k : nat) (deletions : list nat) (l : list X) : list X :=
    match l with
    | [] => []
    | c :: l => if memb Nat.eqb k deletions then kept_from (S k) deletions l else c :: kept_from (S k) deletions l
    end.
  Definition kept {X} (deletions : list nat) (l : list X) : list X := kept_from 0 deletions l.

  (* conversion.rs:98-100  deletions[i].remove(&j); None = index panic *)
  Definition remove_at (i j : nat) (ds : list (list nat)) : option (list (list nat)) :=
    match nth_error ds i with
    | Some d => Some (set_nth i (filter (fun x => negb (Nat.eqb x j)) d) ds)
    | None => None
    end.
  Fixpoint remove_all (vs : list (nat * nat)) (ds : list (list nat)) : option (list (list nat)) :=
    match vs with
    | [] => Some ds
    | (i, j) :: vs => match remove_at i j ds with Some ds => remove_all vs ds | None => None end
    end.
  (* conversion.rs:84-105 *)
  Definition composition_deletes (c : composition T) (fanouts : list nat) : option (list (list nat)) :=
    remove_all (variables c) (map (seq 0) fanouts).

  (* conversion.rs:26-32  rulemap.get(a) *)
  Definition rules_of (rules : list rule) (a : N) : list rule := filter (fun r => neqb a (pr_head r)) rules.

  (* conversion.rs:39-65  the successor closure; None = panic *)
  Definition conv_succs1 (fan : list (N * nat)) (deletions : list nat) (r : rule) : option (list dnt) :=
    match opt_all (fun n => fan_get neqb n fan) (pr_tail r) with
    | Some fs => option_map (fun ds => combine (pr_tail r) ds) (composition_deletes (kept deletions (pr_comp r)) fs)
    | None => Some []
    end.
  Definition conv_succs (fan : list (N * nat)) (rules : list rule) (x : dnt) : option (list dnt) :=
    option_map (@concat _) (opt_all (conv_succs1 fan (snd x)) (rules_of rules (fst x))).

  (* conversion.rs:107-167; None = panic *)
  Definition rank (d : list nat) (j : nat) : nat := j - length (filter (fun x => Nat.ltb x j) d).
  Definition renumber (ds : list (list nat)) (x : vart T) : option (vart T) :=
    match x with
    | Var i j => match nth_error ds i with Some d => Some (Var i (rank d j)) | None => None end
    | Tm t => Some (Tm t)
    end.
  Definition to_lcfrs_rule (r : rule) (deletions : list nat) (fan : list (N * nat)) : option (prule dnt T W) :=
    let rem_comp := kept deletions (pr_comp r) in
    match opt_all (fun n => fan_get neqb n fan) (pr_tail r) with
    | None => None
    | Some fs =>
        match composition_deletes rem_comp fs with
        | None => None
        | Some ds =>
            match opt_all (opt_all (renumber ds)) rem_comp with
            | None => None
            | Some comp => Some (PRule (pr_head r, deletions) (combine (pr_tail r) ds) comp (pr_weight r))
            end
        end
    end.

  (* the items produced by Search::bfs(…).uniques() in n calls of next(); a panicking closure call is treated as having
     no successors here and makes the whole conversion panic below *)
  Definition conv_calls (fan : list (N * nat)) (rules : list rule) (init : N) (n : nat) : list (option dnt) :=
    fst (unique_calls (deque_agenda dnt) (fun x => match conv_succs fan rules x with Some l => l | None => [] end) dnt_eqb n
                      (unique_from (deque_agenda dnt) (bfs_init [(init, [])]))).
  Definition conv_items (fan : list (N * nat)) (rules : list rule) (init : N) (n : nat) : list dnt :=
    until_none (conv_calls fan rules init n).

  (* conversion.rs:22-81  From<Mcfg>, cut off after n calls of next(); None = panic *)
  Definition lcfrs_from_mcfg (n : nat) (g : mcfg N T W) : option (mcfg dnt T W) :=
    match read_fanouts neqb (mg_rules g) with
    | None => None                                          (* unwrap *)
    | Some fan =>
        let items := conv_items fan (mg_rules g) (mg_initial g) n in
        match opt_all (conv_succs fan (mg_rules g)) items with
        | None => None
        | Some _ =>
            match opt_all (fun x => opt_all (fun r => to_lcfrs_rule r (snd x) fan) (rules_of (mg_rules g) (fst x))) items with
            | None => None
            | Some rs => Some (MCFG (concat rs) (mg_initial g, []))
            end
        end
    end.
End Conversion.
