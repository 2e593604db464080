(* C04, C33: graphs in which no node is entered twice, where stopping at the first repetition loses nothing. *)
From Verif Require Import Base BMap M_Agenda M_Search M_Util M_Recog M_Automata M_CFG M_TreeStack M_Grammar M_Conversion
  S_Search S_Recog S_CFG S_Grammar S_Enter P_Agenda P_Search P_Automata P_TreeStack P_Grammar P_GrammarCFG P_Conversion P_Enter P_EnterConv Properties_Grammar.

(* C04.  Whatever the agenda: if no node is entered by two forward edges, the only None of uniques() is the one at the end:
   no value comes after a None, and once next() has returned None, what a loop has seen is exactly the reachable nodes.
   Loops and edges back to a node every walk has visited are allowed.  C04_uniques_stop_early_refuted shows that without
   the condition nodes are lost. *)
Theorem C04_entered_once :
  forall (I : Type) (eqb : I -> I -> bool), EqbSpec eqb ->
  forall (A : agenda I) (content : ag_T A -> list I), agenda_lossless A content ->
  forall (succs : I -> list I) (a : ag_T A), entered_once succs (content a) ->
  forall n, let r := fst (unique_calls A succs eqb n (unique_from A a)) in
    returned r = until_none r /\ (In None r -> forall x, In x (until_none r) <-> reachable succs (content a) x).
Proof.
  intros I eqb E A c AL succs a EO n r. destruct (once_calls eqb E A c AL succs (c a) EO n (unique_from A a)) as [R1 R2]; [now apply once_init|]. subst r.
  split; [assumption|]. intros HN x. split.
  - rewrite <- R1. intros Hx. unfold returned in Hx. apply in_flat_map in Hx. destruct Hx as ([z|] & Hz & Hx); [|destruct Hx]. destruct Hx as [<-|[]].
    eapply (unique_reachable A c (lossless_sound _ _ AL) succs eqb) with (s := unique_from A a); [|exact Hz]. intros y Hy. now constructor.
  - intros Hx. rewrite <- R1. eapply (unique_exhaustive A c AL succs eqb E n a (c a)); [reflexivity|exact (R2 HN)|exact Hx].
Qed.
Print Assumptions C04_entered_once.
(* 0 -> 1, 2;  1 -> 0, 1;  2 -> 3, 2;  3 -> 2, 0: loops and edges back, every node entered once; on a stack and on a queue *)
Definition ex_back (x : nat) : list nat := match x with 0 => [1; 2] | 1 => [0; 1] | 2 => [3; 2] | 3 => [2; 0] | _ => [] end.
Example C04_entered_once_ex :
  entered_once ex_back [0] /\
  fst (unique_calls (deque_agenda nat) ex_back Nat.eqb 6 (unique_from (deque_agenda nat) (bfs_init [0]))) = [Some 0; Some 1; Some 2; Some 3; None; None] /\
  fst (unique_calls (vec_agenda nat) ex_back Nat.eqb 6 (unique_from (vec_agenda nat) (dfs_init [0]))) = [Some 0; Some 2; Some 3; Some 1; None; None].
Proof.
  split; [|split; reflexivity].
  assert (Z : forall p, walk ex_back [0] p -> In 0 p).
  { induction 1 as [x [<-|[]]|x y p W IH Hy]; [now left|now right]. }
  assert (F : forall x y, forward ex_back [0] x y -> (x = 0 /\ (y = 1 \/ y = 2)) \/ (x = 2 /\ y = 3)).
  { intros x y (_ & Hy & ND). destruct x as [|[|[|[|x]]]]; cbn in Hy; [left; intuition auto|exfalso|right|exfalso|contradiction].
    - destruct Hy as [<-|[<-|[]]]; apply ND; intros p Wp; [now apply Z|now left].
    - destruct Hy as [<-|[<-|[]]]; [auto|]. exfalso. apply ND. intros p Wp. now left.
    - destruct Hy as [<-|[<-|[]]]; apply ND; intros p Wp; [|now apply Z]. inversion Wp as [? [H|[]]|x0 ? q Wq H]; subst; try discriminate.
      destruct x0 as [|[|[|[|x0]]]]; cbn in H; intuition (try discriminate). all: right; left; reflexivity. }
  split; [repeat constructor; intros []|]. intros x y HF. split; [|split].
  - intros [<-|[]]. apply F in HF. intuition discriminate.
  - intros x' HF'. apply F in HF. apply F in HF'. intuition congruence.
  - intros l r Eq Hin. assert (ND : NoDup (ex_back x)) by (apply F in HF; destruct HF as [[-> _]|[-> _]]; cbn; repeat constructor; cbn; intuition discriminate).
    rewrite Eq in ND. now apply NoDup_remove_2 in ND.
Qed.

(* C33.  For an MCFG in whose right-hand sides every nonterminal occurs at most once in all, and the initial one never, the
   conversion to an LCFRS finishes, does not panic, and the result derives the same words with the same weights. *)
Theorem C33_used_once :
  forall (N T : Type) (K : Weight) (neqb : N -> N -> bool), EqbSpec neqb ->
  forall (g : mcfg N T K) (f : N -> nat), fanouts_ok (mg_rules g) f -> (forall r, In r (mg_rules g) -> vars_exist f r) ->
  defined_tails (mg_rules g) -> NoDup (mg_initial g :: flat_map pr_tail (mg_rules g)) ->
  exists n0, forall n, n0 <= n -> exists g', lcfrs_from_mcfg neqb n g = Some g' /\
    forall w k, mcfg_derives g' w k <-> mcfg_derives g w k.
Proof.
  intros N T K neqb E g f FO VX DT ND. apply (once_language neqb E g f FO VX DT). intros fan _ _ _. now apply used_once_entered.
Qed.
Print Assumptions C33_used_once.
(* a grammar that deletes a component and a whole successor meets the conditions *)
Example C33_used_once_ex :
  fanouts_ok (mg_rules ex_mcfg) (fun n => match n with 0 => 1 | _ => 2 end) /\
  (forall r, In r (mg_rules ex_mcfg) -> vars_exist (fun n => match n with 0 => 1 | _ => 2 end) r) /\
  defined_tails (mg_rules ex_mcfg) /\ NoDup (mg_initial ex_mcfg :: flat_map pr_tail (mg_rules ex_mcfg)) /\
  (exists r, In r (mg_rules ex_mcfg) /\ ~ nondeleting (fun n => match n with 0 => 1 | _ => 2 end) r) /\
  mcfg_derives ex_mcfg [3; 1; 5] 5.
Proof.
  split; [intros r [<-|[<-|[<-|[<-|[]]]]]; reflexivity|]. split; [|split; [|split; [|split]]].
  - intros r [<-|[<-|[<-|[<-|[]]]]] i j Hij; cbn in Hij; intuition (try discriminate); repeat match goal with H : (_, _) = (_, _) |- _ => injection H as <- <- end;
      eexists; (split; [reflexivity|cbn; lia]).
  - intros r B [<-|[<-|[<-|[<-|[]]]]] HB; cbn in HB; exists (nth B (mg_rules ex_mcfg) (PRule (W:=CostWeight) 0 [] [] 1)); intuition subst; cbn; tauto.
  - cbn. repeat constructor; cbn; intuition discriminate.
  - eexists. split; [now left|]. intros H. specialize (H 0 1 1 eq_refl). cbn in H. destruct H as [H|[]]; [lia|]. discriminate.
  - exists (DNode (PRule (W:=CostWeight) 0 [1] [[Var 0 0; Tm 5]] 1) [DNode (PRule (W:=CostWeight) 1 [2; 3] [[Var 0 0; Tm 1]; [Tm 2; Var 1 0; Var 0 1]] 2)
      [DNode (PRule (W:=CostWeight) 2 [] [[Tm 3]; [Tm 4]] 1) []; DNode (PRule (W:=CostWeight) 3 [] [[Tm 6]; [Tm 7]] 1) []]]).
    split; [|split; [reflexivity|reflexivity]]. repeat match goal with |- deriv _ _ (DNode ?r ?ts) => refine (deriv_node _ r ts _ _); [cbn; auto 8|cbn [pr_tail]] | |- Forall2 _ _ _ => constructor end.
Qed.

(* C33.  The same for an MCFG without deletions in whose graph of nonterminals (from a left-hand side to the nonterminals of
   its right-hand sides) no nonterminal is entered twice; recursion back to a nonterminal above is allowed. *)
Theorem C33_nondeleting :
  forall (N T : Type) (K : Weight) (neqb : N -> N -> bool), EqbSpec neqb ->
  forall (g : mcfg N T K) (f : N -> nat), fanouts_ok (mg_rules g) f -> (forall r, In r (mg_rules g) -> vars_exist f r /\ nondeleting f r) ->
  defined_tails (mg_rules g) ->
  entered_once (fun A => flat_map pr_tail (filter (fun r => neqb A (pr_head r)) (mg_rules g))) [mg_initial g] ->
  exists n0, forall n, n0 <= n -> exists g', lcfrs_from_mcfg neqb n g = Some g' /\
    forall w k, mcfg_derives g' w k <-> mcfg_derives g w k.
Proof.
  intros N T K neqb E g f FO VX DT EO. apply (once_language neqb E g f FO (fun r Hr => proj1 (VX r Hr)) DT). intros fan HF FR FF.
  apply (entered_map (fun B : N => (B, []) : @dnt N) _ _ [mg_initial g]) with (3 := EO); [intros x y H; congruence|].
  intros A. exact (nondel_succs neqb g f (fun r Hr => proj1 (VX r Hr)) DT fan (fun r Hr => proj2 (VX r Hr)) FR FF A).
Qed.
Print Assumptions C33_nondeleting.
(* S -> [x00](A), A -> [1 x00 2](A), A -> [3]: recursive, infinitely many words *)
Definition ex_rec : mcfg nat nat CostWeight :=
  MCFG [PRule (W:=CostWeight) 0 [1] [[Var 0 0]] 1; PRule (W:=CostWeight) 1 [1] [[Tm 1; Var 0 0; Tm 2]] 1; PRule (W:=CostWeight) 1 [] [[Tm 3]] 1] 0.
Example C33_nondeleting_ex :
  fanouts_ok (mg_rules ex_rec) (fun _ => 1) /\ (forall r, In r (mg_rules ex_rec) -> vars_exist (fun _ => 1) r /\ nondeleting (fun _ => 1) r) /\
  defined_tails (mg_rules ex_rec) /\
  entered_once (fun A => flat_map pr_tail (filter (fun r => Nat.eqb A (pr_head r)) (mg_rules ex_rec))) [mg_initial ex_rec].
Proof.
  split; [intros r [<-|[<-|[<-|[]]]]; reflexivity|]. split; [|split].
  - intros r [<-|[<-|[<-|[]]]]; (split; [intros i j Hij|intros [|i] B j HB Hj]); cbn in *; try discriminate; try (destruct i; discriminate); try contradiction.
    all: try (destruct Hij as [H|[]]; injection H as <- <-; exists 1; split; [reflexivity|lia]). all: left; f_equal; lia.
  - intros r B [<-|[<-|[<-|[]]]] HB; cbn in HB; exists (nth B (mg_rules ex_rec) (PRule (W:=CostWeight) 0 [] [] 1)); intuition subst; cbn; tauto.
  - set (s := fun A => _).
    assert (F : forall x y, forward s [mg_initial ex_rec] x y -> x = 0 /\ y = 1).
    { intros x y (_ & Hy & ND). destruct x as [|[|x]]; cbn in Hy; [intuition auto| |contradiction]. destruct Hy as [<-|[]]. exfalso. apply ND. intros p Wp. now left. }
    split; [repeat constructor; intros []|]. intros x y HF. apply F in HF as HF0. destruct HF0 as [-> ->]. split; [|split].
    + cbn. intuition discriminate.
    + intros x' HF'. now apply F in HF'.
    + intros l r Eq Hin. cbn in Eq. destruct l as [|a [|b l]]; cbn in Eq; [|discriminate|discriminate]. injection Eq as <-. contradiction.
Qed.
