(* Model of src/util/tree.rs: GornTree, a map from Gorn addresses to values.  The BTreeMap inside is a list of pairs with
   increasing keys (see BMap); the keys are compared as Vec<usize>, that is lexicographically (addr_cmp in M_TreeStack). *)
From Verif Require Import Base BMap M_Util M_TreeStack.

Section Gorn.
  Context {V : Type}.
  (* tree.rs:15-19 *)
  Definition gn_new : gorn V := [].
  (* tree.rs:21-23 *)
  Definition gn_clear (m : gorn V) : gorn V := [].
  (* tree.rs:25-30 *)
  Definition gn_get (k : list nat) (m : gorn V) : option V := gt_get k m.
  (* tree.rs:32-37 *)
  Definition gn_contains_key (k : list nat) (m : gorn V) : bool := match gn_get k m with Some _ => true | None => false end.
  (* tree.rs:39-44, with an assignment to what the reference points to; nothing happens if there is none *)
  Definition gn_set (k : list nat) (v : V) (m : gorn V) : gorn V := match gn_get k m with Some _ => gt_insert k v m | None => m end.
  (* tree.rs:46-48; BTreeMap::insert returns the old value *)
  Definition gn_insert (k : list nat) (v : V) (m : gorn V) : option V * gorn V := (gn_get k m, gt_insert k v m).
  (* tree.rs:50-55; BTreeMap::remove returns the value removed *)
  Definition gn_remove (k : list nat) (m : gorn V) : option V * gorn V := (gn_get k m, bm_remove addr_cmp k m).
  (* tree.rs:57-59; BTreeMap::append moves all elements of the other map and leaves it empty: (self, other) *)
  Definition gn_append (m other : gorn V) : gorn V * gorn V := (fold_left (fun m e => gt_insert (fst e) (snd e) m) other m, []).
  (* tree.rs:61-63, for entry(key).or_insert(value); the value is what or_insert returns a reference to *)
  Definition gn_or_insert (k : list nat) (v : V) (m : gorn V) : V * gorn V :=
    match gn_get k m with Some v' => (v', m) | None => (v, gt_insert k v m) end.
  (* tree.rs:65-72; BTreeMap::split_off: what is before the key stays, the rest is returned: (self, returned) *)
  Definition gn_split_off (k : list nat) (m : gorn V) : gorn V * gorn V :=
    (filter (fun e => match addr_cmp (fst e) k with Lt => true | _ => false end) m,
     filter (fun e => match addr_cmp (fst e) k with Lt => false | _ => true end) m).
  (* tree.rs:74-76, 78-80 *)
  Definition gn_keys (m : gorn V) : list (list nat) := map fst m.
  Definition gn_values (m : gorn V) : list V := map snd m.
  (* tree.rs:82-84 and 120-127: a loop that replaces each value v at k by f k v *)
  Definition gn_update (f : list nat -> V -> V) (m : gorn V) : gorn V := map (fun e => (fst e, f (fst e) (snd e))) m.
  (* tree.rs:86-92 *)
  Definition gn_len (m : gorn V) : nat := length m.
  Definition gn_is_empty (m : gorn V) : bool := match m with [] => true | _ => false end.
  (* tree.rs:102-118 *)
  Definition gn_iter (m : gorn V) : list (list nat * V) := m.
  (* tree.rs:135-144; collect for BTreeMap sorts stably and keeps the last of equal keys, that is it inserts one by one *)
  Definition gn_from_iter (l : list (list nat * V)) : gorn V := fold_left (fun m e => gt_insert (fst e) (snd e) m) l [].
  (* tree.rs:95-99; V.clone() is the value *)
  Definition gn_cloned (m : gorn V) : gorn V := gn_from_iter (gn_iter m).
  (* tree.rs:129-133; BTreeMap::eq compares the two iterations *)
  Fixpoint gn_eq (veqb : V -> V -> bool) (m1 m2 : gorn V) : bool :=
    match m1, m2 with
    | [], [] => true
    | e1 :: m1, e2 :: m2 => (match addr_cmp (fst e1) (fst e2) with Eq => true | _ => false end) && veqb (snd e1) (snd e2) && gn_eq veqb m1 m2
    | _, _ => false
    end.

  (* what can be done to a tree *)
  Inductive gop :=
  | OClear | OInsert (k : list nat) (v : V) | ORemove (k : list nat) | OSet (k : list nat) (v : V) | OOrInsert (k : list nat) (v : V)
  | OUpdate (f : list nat -> V -> V)
  | OAppend (l : list (list nat * V))      (* append a tree that was collected from l *)
  | OSplitOff (k : list nat)               (* split_off, going on with self *)
  | OSplitTake (k : list nat)              (* split_off, going on with what is returned *)
  | OCloned.
  (* the value returned, if any, and the new tree *)
  Definition gn_step (o : gop) (m : gorn V) : option V * gorn V :=
    match o with
    | OClear => (None, gn_clear m)
    | OInsert k v => gn_insert k v m
    | ORemove k => gn_remove k m
    | OSet k v => (None, gn_set k v m)
    | OOrInsert k v => let '(v, m) := gn_or_insert k v m in (Some v, m)
    | OUpdate f => (None, gn_update f m)
    | OAppend l => (None, fst (gn_append m (gn_from_iter l)))
    | OSplitOff k => (None, fst (gn_split_off k m))
    | OSplitTake k => (None, snd (gn_split_off k m))
    | OCloned => (None, gn_cloned m)
    end.
  Fixpoint gn_run (ops : list gop) (m : gorn V) : list (option V) * gorn V :=
    match ops with
    | [] => ([], m)
    | o :: ops => let '(r, m) := gn_step o m in let '(rs, m) := gn_run ops m in (r :: rs, m)
    end.
End Gorn.
Arguments gop : clear implicits.
