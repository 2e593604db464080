(* Specification: the file formats of disco-dop and rparse, and what an imported grammar is. *)
From Coq Require Import QArith.
From Verif Require Import M_Nom Base M_Recog M_CFG M_Grammar M_Text S_Text M_Import.
Open Scope nat_scope.

(* elements with separators between them *)
Inductive listing {X : Type} (Sep : bytes -> Prop) (E : bytes -> X -> Prop) : bytes -> list X -> Prop :=
| l_one e x : E e x -> listing Sep E e [x]
| l_cons e s t x xs : E e x -> Sep s -> listing Sep E t xs -> listing Sep E (e ++ s ++ t) (x :: xs).
(* a file: lines, the last one with or without its line break *)
Definition file {X : Type} (E : bytes -> X -> Prop) (text : bytes) (xs : list X) : Prop :=
  ((text = [] \/ text = newline) /\ xs = []) \/ exists t, listing (eq newline) E t xs /\ (text = t \/ text = t ++ newline).

Definition word (s : bytes) : Prop := s <> [] /\ forall a, In a s -> is_white a = false.
Definition blanks (s : bytes) : Prop := s <> [] /\ spaces s.
Definition digits (s : bytes) : Prop := s <> [] /\ forall a, In a s -> is_digit a = true.
Definition named {X : Type} (io : text_io X) (s : bytes) (x : X) : Prop := word s /\ of_text io s = Some x.

(* A yield function: one bit for every variable, the bit selects the successor. *)
Definition yield := list (list bool).
(* Every bit gives one variable of the successor it selects; the variables of each successor are numbered from left to right. *)
Definition from_successor {T : Type} (s : nat) (v : vart T) : bool := match v with Var i _ => Nat.eqb i s | Tm _ => false end.
Definition reads_as {T : Type} (y : yield) (c : composition T) : Prop :=
  Forall2 (Forall2 (fun b v => exists j, v = Var (if b : bool then 1 else 0) j)) y c /\
  forall s, exists n, filter (from_successor s) (concat c) = map (Var s) (seq 0 n).

Record import_rule (N W : Type) := IRule { ir_lhs : N; ir_rhs1 : N; ir_rhs2 : option N; ir_yield : yield; ir_weight : W }.
Arguments IRule {N W}. Arguments ir_lhs {N W}. Arguments ir_rhs1 {N W}. Arguments ir_rhs2 {N W}. Arguments ir_yield {N W}. Arguments ir_weight {N W}.

Section Disco.
  Context {N T W : Type} (ops : num_ops W) (ion : text_io N) (iot : text_io T) (iow : text_io W).
  (* num or num/den *)
  Definition count (t : bytes) (w : W) : Prop :=
    (digits t /\ of_text iow t = Some w) \/
    exists num den n d, digits num /\ digits den /\ t = num ++ «"/"» ++ den /\ of_text iow num = Some n /\ of_text iow den = Some d /\ w = n_div ops n d.
  (* 01,10 *)
  Definition bit (b : bool) : ascii := if b then "1" else "0".
  Definition yield_text : bytes -> yield -> Prop := listing (eq «","») (fun e c => c <> [] /\ e = map bit c).
  (* lhs rhs1 [rhs2] yield weight *)
  Definition disco_line (t : bytes) (r : import_rule N W) : Prop :=
    exists l s1 a s2 m y s4 w, blanks s1 /\ blanks s2 /\ blanks s4 /\ t = l ++ s1 ++ a ++ s2 ++ m ++ y ++ s4 ++ w /\
      named ion l (ir_lhs r) /\ named ion a (ir_rhs1 r) /\ yield_text y (ir_yield r) /\ count w (ir_weight r) /\
      match ir_rhs2 r with None => m = [] | Some n => exists b s3, blanks s3 /\ named ion b n /\ m = b ++ s3 end.
  (* word pos weight pos weight ... *)
  Definition lexer_line (t : bytes) (e : list (T * N * W)) : Prop :=
    exists wd s x a, named iot wd x /\ blanks s /\ t = wd ++ s ++ a /\
      listing blanks (fun t e => exists p s w n v, named ion p n /\ blanks s /\ count w v /\ t = p ++ s ++ w /\ e = (x, n, v)) a e.

  (* the weights of a nonterminal in the files, and their sum *)
  Context (neq : N -> N -> bool).
  Definition weights (rs : list (import_rule N W)) (ls : list (T * N * W)) (n : N) : list W :=
    map ir_weight (filter (fun r => neq (ir_lhs r) n) rs) ++ map snd (filter (fun e => neq (snd (fst e)) n) ls).
  (* the weights of a nonterminal in parsed files *)
  Definition weights_in (cs : disco_constituents (N := N) (W := W)) (lex : list (T * N * W)) (n : N) : list W :=
    map snd (filter (fun x => neq (get_lhs (fst (fst x))) n) cs) ++ map snd (filter (fun e => neq (snd (fst e)) n) lex).
  Definition total (ws : list W) (s : W) : Prop := match ws with [] => False | w :: ws => s = fold_left (n_add ops) ws w end.
  Definition imported (rs : list (import_rule N W)) (ls : list (T * N * W)) (r : import_rule N W) (p : prule N T W) : Prop :=
    pr_head p = ir_lhs r /\ pr_tail p = ir_rhs1 r :: match ir_rhs2 r with Some n => [n] | None => [] end /\
    reads_as (ir_yield r) (pr_comp p) /\ exists s, total (weights rs ls (ir_lhs r)) s /\ pr_weight p = n_div ops (ir_weight r) s.
  Definition imported_word (rs : list (import_rule N W)) (ls : list (T * N * W)) (e : T * N * W) (p : prule N T W) : Prop :=
    let '(t, n, w) := e in
    pr_head p = n /\ pr_tail p = [] /\ pr_comp p = [[Tm t]] /\ exists s, total (weights rs ls n) s /\ pr_weight p = n_div ops w s.
End Disco.

(* exact arithmetic *)
Definition q_ops : num_ops Q := NumOps Q Qplus Qdiv 1%Q.
Definition sum_q (l : list Q) : Q := fold_right Qplus 0%Q l.

(* the nonterminals of right-hand sides and left-hand sides *)
Definition on_rhs {N W : Type} (cs : disco_constituents (N := N) (W := W)) (n : N) : Prop :=
  exists d y w, In (d, y, w) cs /\ match d with Chain _ a => n = a | Binary _ a b => n = a \/ n = b end.
Definition on_lhs {N W : Type} (cs : disco_constituents (N := N) (W := W)) (n : N) : Prop :=
  exists d y w, In (d, y, w) cs /\ match d with Chain l _ => n = l | Binary l _ _ => n = l end.

Section Rparse.
  Context {N W : Type} (ion : text_io N) (iow : text_io W).
  Definition truth (b : bool) : bytes := if b then «"true"» else «"false"».
  Definition rparse_component_text (t : bytes) (c : list bool) : Prop :=
    (t = «"[]"» /\ c = []) \/ exists e, listing (eq «", "») (fun t b => t = truth b) e c /\ t = «"["» ++ e ++ «"]"».
  Definition rparse_yield_text (t : bytes) (y : yield) : Prop :=
    exists e, listing (eq «", "») rparse_component_text e y /\ t = «"[["» ++ e ++ «"]]"».
  (* number weight:lhs --> rhs1 [rhs2] yield *)
  Definition rparse_line (t : bytes) (r : import_rule N W) : Prop :=
    exists k s0 w l s1 s2 a s3 m y, digits k /\ blanks s0 /\ blanks s1 /\ blanks s2 /\ blanks s3 /\
      t = k ++ s0 ++ w ++ «":"» ++ l ++ s1 ++ «"-->"» ++ s2 ++ a ++ s3 ++ m ++ y /\
      named iow w (ir_weight r) /\ ~ In ":"%char w /\ named ion l (ir_lhs r) /\ named ion a (ir_rhs1 r) /\ rparse_yield_text y (ir_yield r) /\
      match ir_rhs2 r with None => m = [] | Some n => exists b s4, blanks s4 /\ named ion b n /\ (forall z, b <> «"[[["» ++ z) /\ m = b ++ s4 end.
  Definition rparse_imported (r : import_rule N W) (p : prule N unit W) : Prop :=
    pr_head p = ir_lhs r /\ pr_tail p = ir_rhs1 r :: match ir_rhs2 r with Some n => [n] | None => [] end /\
    reads_as (ir_yield r) (pr_comp p) /\ pr_weight p = ir_weight r.
End Rparse.
