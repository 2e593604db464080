(* Specification for the tree stack automaton of a grammar. *)
From Verif Require Import Base M_Util M_Recog M_Automata M_TreeStack M_Grammar M_FromPmcfg S_Recog S_Grammar.

(* the variables of one successor occur in increasing order of their components *)
Definition monotone {N T W} (r : prule N T W) : Prop :=
  forall l1 l2 l3 i j j', variables (pr_comp r) = l1 ++ (i, j) :: l2 ++ (i, j') :: l3 -> j < j'.

(* the grammars the conversion is meant for: fanouts f, every variable exactly once and in increasing order, every
   nonterminal of a right-hand side has a rule, every rule has a component, initial nonterminals have fanout one *)
Definition ordered_grammar {N T} {K : Weight} (f : N -> nat) (g : pmcfg N T K) : Prop :=
  fanouts_ok (pg_rules g) f /\ (forall r, In r (pg_rules g) -> lcfrs_rule f r /\ monotone r /\ pr_comp r <> []) /\
  defined_tails (pg_rules g) /\ (forall A, In A (pg_initial g) -> f A = 1).

(* a component without the terminals at its end, and these terminals *)
Fixpoint drop_tail {T} (c : list (vart T)) : list (vart T) :=
  match c with
  | [] => []
  | Var i j :: c => Var i j :: drop_tail c
  | Tm t :: c => match variables [c] with [] => [] | _ => Tm t :: drop_tail c end
  end.
Fixpoint tail_of {T} (c : list (vart T)) : list T :=
  match c with
  | [] => []
  | Var _ _ :: c => tail_of c
  | Tm t :: c => match variables [c] with [] => t :: tail_of c | _ => tail_of c end
  end.

(* the last token of c, if it is a terminal *)
Definition last_terminal {T} (c : list (vart T)) : list T :=
  match rev c with Tm t :: _ => [t] | _ => [] end.

(* What the automaton reads instead of a composition: the terminals at the end of a component are replaced by the terminal,
   if any, that is the last token of the components so far. *)
Fixpoint read_comps {T} (before : list (vart T)) (cs : composition T) : composition T :=
  match cs with
  | [] => []
  | c :: cs => (drop_tail c ++ map Tm (last_terminal (before ++ c))) :: read_comps (before ++ c) cs
  end.
Definition read_rule {N T W} (r : prule N T W) : prule N T W :=
  PRule (pr_head r) (pr_tail r) (read_comps [] (pr_comp r)) (pr_weight r).
Fixpoint read_tree {N T W} (d : dtree N T W) : dtree N T W :=
  match d with DNode r ts => DNode (read_rule r) (map read_tree ts) end.

(* no component ends with two terminals after its last variable, and no empty component follows a terminal *)
Definition short_tails {N T W} (r : prule N T W) : Prop :=
  (forall c, In c (pr_comp r) -> length (tail_of c) <= 1) /\
  (forall before after pre t, pr_comp r = before ++ [] :: after -> concat before <> pre ++ [Tm t]).

(* the abstract syntax tree read from the storage s is the derivation d *)
Definition shows {N T W} (s : tstack (posstate (prule N T W))) (d : dtree N T W) : Prop :=
  exists m, to_abstract_syntax_tree (ts_to_tree s) = Some m /\ forall addr, gt_get addr m = rule_at d addr.

(* No component of a rule is empty, and no nonterminal begins with itself: whenever a component j of a rule for A begins with
   component k of the nonterminal B, (B, k) has a smaller rank than (A, j). *)
Definition no_left_recursion {N T W} (rules : list (prule N T W)) (rank : N -> nat -> nat) : Prop :=
  forall r j c, In r rules -> nth_error (pr_comp r) j = Some c ->
    c <> [] /\ forall i k rest B, c = Var i k :: rest -> nth_error (pr_tail r) i = Some B -> rank B k < rank (pr_head r) j.

(* the rules of d in the order in which they are entered when component j of d is read from left to right; a rule is entered
   with its first component *)
Fixpoint entered {N T W} (d : dtree N T W) (j : nat) : list (prule N T W) :=
  match d with
  | DNode r ts =>
      (match j with 0 => [r] | S _ => [] end) ++
      flat_map (fun x => match x with
                         | Tm _ => []
                         | Var i k => match nth_error (map entered ts) i with Some e => e k | None => [] end
                         end) (nth j (pr_comp r) [])
  end.
(* the weights of the rules of d, multiplied one after the other in this order *)
Definition read_weight {N T} {K : Weight} (d : dtree N T K) : K := lprod (map pr_weight (entered d 0)).
