(* Specification for Chomsky-Schützenberger parsing: the context-free approximation of an LCFRS as a list of rules,
   its derivation trees, their weights and the bracket words read off them. *)
From Verif Require Import Base M_Util M_Grammar M_Chart M_CSAuto S_Grammar.

Inductive crhs (Q T : Type) := RT (t : T) | RU (q : Q) | RB (q1 q2 : Q).
Arguments RT {Q T}. Arguments RU {Q T}. Arguments RB {Q T}.
(* one rule lhs -> rhs with its weight and its three brackets (around the whole, the first and the second part) *)
Record crule (Q T W : Type) := CRule { cr_lhs : Q; cr_rhs : crhs Q T; cr_weight : W; cr_br : brackets3 }.
Arguments CRule {Q T W}. Arguments cr_lhs {Q T W}. Arguments cr_rhs {Q T W}. Arguments cr_weight {Q T W}. Arguments cr_br {Q T W}.

(* derivation trees; rules are named by their position in the list of rules *)
Inductive ctree := CNull (r : nat) | CUn (r : nat) (t : ctree) | CBin (r : nat) (t1 t2 : ctree).

(* t is a derivation tree of the terminal word u from state q *)
Inductive cderiv {Q T W : Type} (R : list (crule Q T W)) : Q -> ctree -> list T -> Prop :=
| cd_null r q t w b : nth_error R r = Some (CRule q (RT t) w b) -> cderiv R q (CNull r) [t]
| cd_un r q q1 w b t u : nth_error R r = Some (CRule q (RU q1) w b) -> cderiv R q1 t u -> cderiv R q (CUn r t) u
| cd_bin r q q1 q2 w b t1 t2 u1 u2 :
    nth_error R r = Some (CRule q (RB q1 q2) w b) -> cderiv R q1 t1 u1 -> cderiv R q2 t2 u2 -> cderiv R q (CBin r t1 t2) (u1 ++ u2).

(* the same over a part l..r of a fixed word, where each constituent must in addition be admitted by [okc rule state l r] *)
Inductive aderiv {Q T W : Type} (R : list (crule Q T W)) (okc : nat -> Q -> nat -> nat -> Prop) (word : list T) : Q -> ctree -> nat -> nat -> Prop :=
| ad_null r q t w b l : nth_error R r = Some (CRule q (RT t) w b) -> nth_error word l = Some t -> okc r q l (S l) -> aderiv R okc word q (CNull r) l (S l)
| ad_un r q q1 w b t i j : nth_error R r = Some (CRule q (RU q1) w b) -> okc r q i j -> aderiv R okc word q1 t i j -> aderiv R okc word q (CUn r t) i j
| ad_bin r q q1 q2 w b t1 t2 i m j :
    nth_error R r = Some (CRule q (RB q1 q2) w b) -> okc r q i j -> aderiv R okc word q1 t1 i m -> aderiv R okc word q2 t2 m j ->
    aderiv R okc word q (CBin r t1 t2) i j.
(* the rules a tree uses *)
Fixpoint ct_rules (t : ctree) : list nat :=
  match t with CNull r => [r] | CUn r t => r :: ct_rules t | CBin r t1 t2 => r :: ct_rules t1 ++ ct_rules t2 end.

Definition rule_weight {Q T} {K : ZWeight} (R : list (crule Q T K)) (r : nat) : K :=
  match nth_error R r with Some x => cr_weight x | None => wzero end.
Fixpoint ct_weight {Q T} {K : ZWeight} (R : list (crule Q T K)) (t : ctree) : K :=
  match t with
  | CNull r => rule_weight R r
  | CUn r t => wmul (rule_weight R r) (ct_weight R t)
  | CBin r t1 t2 => wmul (rule_weight R r) (wmul (ct_weight R t1) (ct_weight R t2))
  end.

(* the bracket word; Ignore stands for "no bracket" *)
Definition wrap (b : bcontent) (u : list (bracket bcontent)) : list (bracket bcontent) :=
  if is_ignore b then u else Open b :: u ++ [Close b].
Definition rule_brackets {Q T W} (R : list (crule Q T W)) (r : nat) : brackets3 :=
  match nth_error R r with Some x => cr_br x | None => (Ignore, Ignore, Ignore) end.
Fixpoint ct_word {Q T W} (R : list (crule Q T W)) (t : ctree) : list (bracket bcontent) :=
  match t with
  | CNull r => let '(ob, ib, _) := rule_brackets R r in wrap ob (wrap ib [])
  | CUn r t => let '(ob, ib, _) := rule_brackets R r in wrap ob (wrap ib (ct_word R t))
  | CBin r t1 t2 => let '(ob, lb, rb) := rule_brackets R r in wrap ob (wrap lb (ct_word R t1) ++ wrap rb (ct_word R t2))
  end.

(* ---- the approximation of a grammar ---- *)
Section Approx.
  Context {N T : Type} {K : ZWeight} (factorize : K -> nat -> list K).
  Section Rule.
    Context (rid : nat) (r : prule N T K) (cid : nat).
    Definition var_state (x : vart T) : cstate N := match x with Var i j => Non (nth i (pr_tail r) (pr_head r)) j | Tm _ => Non (pr_head r) cid end.
    Definition var_bracket (x : vart T) : bcontent := match x with Var i j => BVar rid (u8 i) (u8 j) | Tm _ => Ignore end.
    Definition comp_bracket : bcontent := BComp rid (u8 cid).
    (* the state that stands for the first part of the component if [rest] is left; off = number of binary rules so far *)
    Definition part_state (off : nat) (rest : list (vart T)) : cstate N := match rest with [] => Non (pr_head r) cid | _ => Uniq rid cid off end.
    Definition part_bracket (rest : list (vart T)) : bcontent := match rest with [] => comp_bracket | _ => Ignore end.
    (* x1 x2 ... xk is binarised from the left; the first rule carries the weight *)
    Fixpoint cs_rest (off : nat) (left : cstate N) (rest : list (vart T)) : list (crule (cstate N) T K) :=
      match rest with
      | [] => []
      | x :: rest => CRule (part_state off rest) (RB left (var_state x)) wone (part_bracket rest, Ignore, var_bracket x)
                     :: cs_rest (S off) (part_state off rest) rest
      end.
    Definition cs_component (c : list (vart T)) (w : K) : list (crule (cstate N) T K) :=
      match c with
      | [] => []
      | [Tm t] => [CRule (Non (pr_head r) cid) (RT t) w (comp_bracket, Terminal, Ignore)]
      | [x] => [CRule (Non (pr_head r) cid) (RU (var_state x)) w (comp_bracket, var_bracket x, Ignore)]
      | x :: y :: rest => CRule (part_state 0 rest) (RB (var_state x) (var_state y)) w (part_bracket rest, var_bracket x, var_bracket y)
                          :: cs_rest 1 (part_state 0 rest) rest
      end.
  End Rule.
  Fixpoint cs_components (rid : nat) (r : prule N T K) (cid : nat) (cs : list (list (vart T) * K)) : list (crule (cstate N) T K) :=
    match cs with [] => [] | (c, w) :: cs => cs_component rid r cid c w ++ cs_components rid r (S cid) cs end.
  Definition cs_rule (rid : nat) (r : prule N T K) : list (crule (cstate N) T K) :=
    cs_components rid r 0 (combine (pr_comp r) (factorize (pr_weight r) (length (pr_comp r)))).
  Fixpoint cs_rules_from (rid : nat) (rules : list (prule N T K)) : list (crule (cstate N) T K) :=
    match rules with [] => [] | r :: rules => cs_rule rid r ++ cs_rules_from (S rid) rules end.
  Definition cs_rules (rules : list (prule N T K)) : list (crule (cstate N) T K) := cs_rules_from 0 rules.
End Approx.

(* what src/util/factorizable.rs promises: n factors with the given product (and each as nice as the whole) *)
Record FactorLaws {K : ZWeight} (factorize : K -> nat -> list K) : Prop := {
  fl_len : forall w n, length (factorize w n) = n;
  fl_prod : forall w n, n <> 0 -> wprod (factorize w n) = w;
  fl_one : forall w n x, wleb w wone = true -> In x (factorize w n) -> wleb x wone = true;
  fl_zero : forall w n x, w <> wzero -> In x (factorize w n) -> x <> wzero
}.

(* grammars the parser accepts: every variable refers to a successor, terminals are separated, no empty component *)
Definition rule_nf {N T W} (r : prule N T W) : Prop :=
  (exists t, pr_comp r = [[Tm t]]) \/
  (forall c, In c (pr_comp r) -> c <> [] /\ forall x, In x c -> exists i j, x = Var i j /\ i < length (pr_tail r)).

(* the tables of an automaton list exactly the rules R, with states renamed to numbers below [ns] *)
Definition au_terms {T W} (teqb : T -> T -> bool) (a : automaton T W) (t : T) : list (nat * (W * nat)) :=
  match hm_get teqb t (au_term a) with Some l => l | None => [] end.
Record presents {T W} (teqb : T -> T -> bool) (a : automaton T W) (R : list (crule nat T W)) (ns : nat) : Prop := {
  pz_len : length (au_bin a) = ns /\ length (au_un a) = ns /\ length (au_tdbin a) = ns /\ length (au_tdun a) = ns /\ length (au_tdnull a) = ns;
  pz_br : au_brackets a = map cr_br R;
  pz_bin : forall q1 rid q2 w q, In (rid, q2, (w, q)) (nth q1 (au_bin a) []) <-> exists b, nth_error R rid = Some (CRule q (RB q1 q2) w b);
  pz_un : forall q1 rid w q, In (rid, (w, q)) (nth q1 (au_un a) []) <-> exists b, nth_error R rid = Some (CRule q (RU q1) w b);
  pz_term : forall t rid w q, In (rid, (w, q)) (au_terms teqb a t) <-> exists b, nth_error R rid = Some (CRule q (RT t) w b);
  pz_tdbin : forall q1 rid q2 w q, In (rid, q1, q2, w) (nth q (au_tdbin a) []) <-> exists b, nth_error R rid = Some (CRule q (RB q1 q2) w b);
  pz_tdun : forall q1 rid w q, In (rid, q1, w) (nth q (au_tdun a) []) <-> exists b, nth_error R rid = Some (CRule q (RU q1) w b);
  pz_tdnull : forall rid w q, In (rid, w) (nth q (au_tdnull a) []) <-> exists t b, nth_error R rid = Some (CRule q (RT t) w b);
  pz_values : forall t l, In (t, l) (au_term a) -> l = au_terms teqb a t;
  pz_states : forall x, In x R -> cr_lhs x < ns /\ match cr_rhs x with RT _ => True | RU q => q < ns | RB q1 q2 => q1 < ns /\ q2 < ns end
}.
