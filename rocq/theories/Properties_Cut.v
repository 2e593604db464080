(* C30: bracket words whose closing brackets at the end are missing or too many.  C54: tree stacks whose rules are renamed. *)
From Verif Require Import M_Nom Base BMap M_Util P_Util M_Recog M_TreeStack M_Grammar M_Chart M_CSAuto M_Cow M_FromPmcfg M_Text M_Command M_TsaCommand M_ConfText P_TreeStack.

(* ---- C30 ---- *)
Definition closing (b : bracket bcontent) : Prop := exists x, b = Close x.

Lemma done_closing v' : Forall closing v' -> forall root, cow_done v' root = Some root.
Proof. induction 1 as [|b v' [x ->] F IH]; intros root; [reflexivity|]. destruct x; cbn; apply IH. Qed.
Lemma loop_closing v' : Forall closing v' -> forall top pos, cow_loop v' top pos = Some (cow_close top pos).
Proof.
  induction 1 as [|b v' [x ->] F IH]; intros top pos; [reflexivity|]. destruct x; cbn; try apply IH.
  destruct pos as [|y pos]; [now apply done_closing|exact (IH (close_frame top y) pos)].
Qed.
Lemma done_cut v v' : Forall closing v' -> forall root, cow_done (v ++ v') root = cow_done v root.
Proof. intros F. induction v as [|b v IH]; intros root; cbn; [now apply done_closing|]. destruct b as [[]|[]]; auto. Qed.
Lemma loop_cut v v' : Forall closing v' -> forall top pos, cow_loop (v ++ v') top pos = cow_loop v top pos.
Proof.
  intros F. induction v as [|b v IH]; intros top pos; cbn [app]; [now apply loop_closing|]. destruct b as [[]|[]]; cbn [cow_loop]; try apply IH.
  destruct pos; [now apply done_cut|apply IH].
Qed.

(* The tree that is read from a bracket word does not depend on the closing brackets at its end: they may be missing, or there
   may be more of them than there are open brackets. *)
Theorem C30_cut :
  forall (v v' : list (bracket bcontent)), Forall closing v' -> cow_new (v ++ v') = cow_new v.
Proof. intros v v' F. now apply loop_cut. Qed.
Print Assumptions C30_cut.

(* Two levels are open at the end. *)
Example C30_cut_example :
  let v := [Open (BComp 7 0); Open (BVar 7 0 1); Open (BComp 3 1); Open (BVar 3 2 0); Open (BComp 5 0)] in
  let v' := [Close (BComp 5 0); Close (BVar 3 2 0); Close (BComp 3 1); Close (BVar 7 0 1); Close (BComp 7 0); Close (BVar 1 1 1)] in
  Forall closing v' /\ cow_new v = Some (Cow 7 [(0, 1, Cow 3 [(2, 0, Cow 5 [])])]) /\ cow_new (v ++ v') = cow_new v.
Proof. split; [repeat constructor; eexists; reflexivity|]. split; vm_compute; reflexivity. Qed.

(* ---- C54 ---- *)
Section Relabel.
  Context {A B : Type} (f : A -> B).
  Definition relabel_map : gorn A -> gorn B := map (fun e => (fst e, f (snd e))).
  Lemma insert_relabel k v (m : gorn A) : gt_insert k (f v) (relabel_map m) = relabel_map (gt_insert k v m).
  Proof. unfold gt_insert. induction m as [|[k0 v0] m IH]; cbn; [reflexivity|]. destruct (addr_cmp k k0); cbn; [reflexivity|reflexivity|]. f_equal. exact IH. Qed.
  Lemma insert_all_relabel g (src : gorn A) : forall dst, gt_insert_all g (relabel_map src) (relabel_map dst) = relabel_map (gt_insert_all g src dst).
  Proof. unfold gt_insert_all. induction src as [|e src IH]; intros dst; cbn; [reflexivity|]. rewrite insert_relabel. apply IH. Qed.
  Fixpoint to_tree_relabel (t : tstack A) : ts_to_tree (ts_map f t) = (relabel_map (fst (ts_to_tree t)), snd (ts_to_tree t)).
  Proof.
    destruct t as [par v ch]. cbn [ts_map]. rewrite !to_tree_eq.
    assert (PAR : match (match par with None => None | Some (n, p) => Some (n, ts_map f p) end) with
                  | None => ([], []) | Some (num, p) => let '(pm, pp) := ts_to_tree p in (gt_insert_all (fun x => x) pm [], pp ++ [num]) end =
                  let '(tm, cp) := match par with None => ([], []) | Some (num, p) => let '(pm, pp) := ts_to_tree p in (gt_insert_all (fun x => x) pm [], pp ++ [num]) end in (relabel_map tm, cp)).
    { destruct par as [[n p]|]; [|reflexivity]. rewrite (to_tree_relabel p). destruct (ts_to_tree p) as [pm pp]. cbn [fst snd]. change (@nil (list nat * B)) with (relabel_map []). now rewrite insert_all_relabel. }
    rewrite PAR. clear PAR. destruct (match par with None => _ | Some _ => _ end) as [tm cp]. cbn [fst snd]. f_equal.
    rewrite insert_relabel. generalize (gt_insert cp v tm) as m. generalize 0 as num. clear tm v par.
    induction ch as [|[c|] ch IH]; intros num m; cbn [map tree_children]; [reflexivity| |apply IH].
    rewrite (to_tree_relabel c). cbn [fst]. rewrite insert_all_relabel. apply IH.
  Qed.
End Relabel.

Lemma entry_relabel {A B : Type} (f : A -> B) show p e : entry_text show p (fst e, f (snd e)) = entry_text (fun x => show (f x)) p e.
Proof. destruct e. reflexivity. Qed.

(* Renaming what the nodes of a tree stack hold (TreeStack::map and PosState::map) changes the text of these and nothing else:
   the lines, the marked line, the numbers of children, the counters and the special nodes @ and I stay.  The derivation
   read from the renamed stack is the renamed derivation, and there is one in the same cases. *)
Theorem C54_relabelled :
  forall (X Y : Type) (f : X -> Y) (show : Y -> bytes) (t : tstack (posstate X)),
    tree_stack_text (posstate_text show) (ts_map (posstate_map f) t) = tree_stack_text (posstate_text (fun x => show (f x))) t /\
    to_abstract_syntax_tree (ts_to_tree (ts_map (posstate_map f) t)) = option_map (map (fun e => (fst e, f (snd e)))) (to_abstract_syntax_tree (ts_to_tree t)).
Proof.
  intros X Y f show t. unfold tree_stack_text, to_abstract_syntax_tree. rewrite (to_tree_relabel (posstate_map f) t). destruct (ts_to_tree t) as [tree p]. cbn [fst snd]. split.
  - unfold relabel_map. rewrite map_map. f_equal. apply map_ext. intros [path []]; reflexivity.
  - assert (G : forall (l : gorn (posstate X)) acc, ast_entries (relabel_map (posstate_map f) l) (relabel_map f acc) = option_map (relabel_map f) (ast_entries l acc)).
    { induction l as [|[[|k rest] q] l IH]; intros acc; cbn; [reflexivity|apply IH|]. destruct (Nat.eqb k 0); [|apply IH]. destruct q; cbn; try reflexivity. rewrite insert_relabel. apply IH. }
    apply (G tree []).
Qed.
Print Assumptions C54_relabelled.

Example C54_relabelled_example :
  let t := TStack None Initial [Some (TStack None (Position 3 0 1) []); None; Some (TStack None Designated [])] in
  tree_stack_text (posstate_text (fun b : bool => if b then «"odd"» else «"even"»)) (ts_map (posstate_map Nat.odd) t) =
    concat (map (fun l => l ++ newline) [«" "»; «"*I"»; «" |"»; «" +-0: (odd, 0, 1)"»; «" |"»; «" +-2: @"»]).
Proof. vm_compute. reflexivity. Qed.
