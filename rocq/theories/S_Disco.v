(* Specification: which files of disco-dop are grammars. *)
From Verif Require Import M_Nom Base M_Recog M_CFG M_Grammar M_Chart M_Text S_Text M_Import S_Import.

Section Disco.
  Context {K : ZWeight}.
  Notation irule := (import_rule bytes K).
  (* the nonterminals of the right-hand side *)
  Definition successors (r : irule) : list bytes := ir_rhs1 r :: match ir_rhs2 r with Some n => [n] | None => [] end.
  (* the number of variables of a successor: of bits 0 for the first, of bits 1 for the second *)
  Definition bits (b : bool) (y : yield) : nat := length (filter (Bool.eqb b) (concat y)).
  (* a nonterminal without rules *)
  Definition preterminal (rs : list irule) (A : bytes) : Prop := (exists r, In r rs /\ In A (successors r)) /\ ~ exists r, In r rs /\ ir_lhs r = A.
  (* The rules rs are a grammar, if the nonterminals in [lexed] stand for words: there are fan-outs such that every rule has
     as many components as its left-hand side says and uses as many variables of each successor as the successor says;
     words and the root have fan-out one; the root has a rule; every nonterminal that is used has a rule or stands for words.
     No weight is zero, and the numbers fit into the machine words of the implementation. *)
  Record disco_grammar (rs : list irule) (lexed : bytes -> Prop) (root : bytes) : Prop := {
    dg_fanouts : exists f : bytes -> nat, f root = 1 /\ (forall A, lexed A -> f A = 1) /\
      forall r, In r rs -> length (ir_yield r) = f (ir_lhs r) /\ bits false (ir_yield r) = f (ir_rhs1 r) /\
        bits true (ir_yield r) = match ir_rhs2 r with Some n => f n | None => 0 end;
    dg_root : exists r, In r rs /\ ir_lhs r = root;
    dg_used : forall r A, In r rs -> In A (successors r) -> lexed A \/ exists r', In r' rs /\ ir_lhs r' = A;
    dg_weight : forall r, In r rs -> ir_weight r <> wzero;
    dg_size : forall r, In r rs -> length (ir_yield r) <= 256 /\ forall c, In c (ir_yield r) -> length c <= 64
  }.

  (* the arithmetic of weights: a part of a sum, divided by the sum, is between zero (exclusive) and one *)
  Record count_laws (ops : num_ops K) : Prop := {
    cl_one : n_one ops = wone;
    cl_ones : n_div ops wone wone = wone;
    cl_part : forall ws w s, (forall v, In v ws -> v <> wzero) -> In w ws -> total ops ws s -> wleb (n_div ops w s) wone = true /\ n_div ops w s <> wzero
  }.
End Disco.
