(* Model of the comparisons of src/recognisable/{configuration,transition,mod}.rs and src/util/push_down.rs, and of
   src/util/reverse.rs. *)
From Verif Require Import Base BMap M_Agenda M_Search M_Util M_Recog M_Automata.

(* a match that goes on to the next comparison on Equal; on None | Equal for partial_cmp *)
Definition then_cmp (c d : comparison) : comparison := match c with Eq => d | c => c end.
Definition then_pcmp (c d : option comparison) : option comparison := match c with None | Some Eq => d | c => c end.
(* what derive does: on Equal only *)
Definition derive_pcmp (c d : option comparison) : option comparison := match c with Some Eq => d | c => c end.
(* PartialOrd for Vec: the first pair that is not Equal decides *)
Fixpoint lex_pcmp {X} (pcmp : X -> X -> option comparison) (a b : list X) : option comparison :=
  match a, b with
  | [], [] => Some Eq
  | [], _ :: _ => Some Lt
  | _ :: _, [] => Some Gt
  | x :: a, y :: b => derive_pcmp (pcmp x y) (lex_pcmp pcmp a b)
  end.

Section Conf.
  Context {S T I : Type} {K : Weight}.
  (* ---- configuration.rs ---- *)
  (* configuration.rs:20-25 *)
  Definition conf_eqb (teqb : T -> T -> bool) (seqb : S -> S -> bool) (a b : configuration S T K) : bool :=
    list_eqb teqb (c_word a) (c_word b) && seqb (c_storage a) (c_storage b).
  (* configuration.rs:13-18: what is fed to the hasher *)
  Definition conf_hash {X} (hash_word : list T -> X) (hash_storage : S -> X) (a : configuration S T K) : list X := [hash_word (c_word a); hash_storage (c_storage a)].
  (* configuration.rs:29-47 *)
  Definition conf_pcmp (wp : K -> K -> option comparison) (tp : T -> T -> option comparison) (sp : S -> S -> option comparison) (a b : configuration S T K) : option comparison :=
    then_pcmp (wp (c_weight a) (c_weight b)) (then_pcmp (Some (Nat.compare (length (c_word b)) (length (c_word a)))) (then_pcmp (lex_pcmp tp (c_word a) (c_word b)) (sp (c_storage a) (c_storage b)))).
  (* configuration.rs:49-67 *)
  Definition conf_cmp (wc : K -> K -> comparison) (tc : T -> T -> comparison) (sc : S -> S -> comparison) (a b : configuration S T K) : comparison :=
    then_cmp (wc (c_weight a) (c_weight b)) (then_cmp (Nat.compare (length (c_word b)) (length (c_word a))) (then_cmp (lex_cmp tc (c_word a) (c_word b)) (sc (c_storage a) (c_storage b)))).

  (* ---- transition.rs ---- *)
  (* transition.rs:65-74 *)
  Definition tr_eqb (teqb : T -> T -> bool) (ieqb : I -> I -> bool) (a b : transition I T K) : bool :=
    list_eqb teqb (t_word a) (t_word b) && ieqb (t_ins a) (t_ins b).
  (* transition.rs:54-63 *)
  Definition tr_hash {X} (hash_word : list T -> X) (hash_ins : I -> X) (a : transition I T K) : list X := [hash_word (t_word a); hash_ins (t_ins a)].
  (* transition.rs:111-126 *)
  Definition tr_pcmp (wp : K -> K -> option comparison) (tp : T -> T -> option comparison) (ip : I -> I -> option comparison) (a b : transition I T K) : option comparison :=
    then_pcmp (wp (t_weight a) (t_weight b)) (then_pcmp (lex_pcmp tp (t_word a) (t_word b)) (ip (t_ins a) (t_ins b))).
  (* transition.rs:128-143 *)
  Definition tr_cmp (wc : K -> K -> comparison) (tc : T -> T -> comparison) (ic : I -> I -> comparison) (a b : transition I T K) : comparison :=
    then_cmp (wc (t_weight a) (t_weight b)) (then_cmp (lex_cmp tc (t_word a) (t_word b)) (ic (t_ins a) (t_ins b))).

  (* push_down.rs:9: derive(PartialOrd, Ord): Empty is less than Cons, value before below *)
  Fixpoint pd_cmp {A} (c : A -> A -> comparison) (p q : pushdown A) : comparison :=
    match p, q with
    | Empty, Empty => Eq
    | Empty, Cons _ _ => Lt
    | Cons _ _, Empty => Gt
    | Cons x p, Cons y q => then_cmp (c x y) (pd_cmp c p q)
    end.
  Fixpoint pd_pcmp {A} (c : A -> A -> option comparison) (p q : pushdown A) : option comparison :=
    match p, q with
    | Empty, Empty => Some Eq
    | Empty, Cons _ _ => Some Lt
    | Cons _ _, Empty => Some Gt
    | Cons x p, Cons y q => derive_pcmp (c x y) (pd_pcmp c p q)
    end.
  (* mod.rs:24-28: derive(PartialEq, PartialOrd, Ord) for Item *)
  Definition item_eqb teqb seqb ieqb (a b : item S I T K) : bool := conf_eqb teqb seqb (fst a) (fst b) && pd_eqb (tr_eqb teqb ieqb) (snd a) (snd b).
  Definition item_cmp wc tc sc ic (a b : item S I T K) : comparison := then_cmp (conf_cmp wc tc sc (fst a) (fst b)) (pd_cmp (tr_cmp wc tc ic) (snd a) (snd b)).
  Definition item_pcmp wp tp sp ip (a b : item S I T K) : option comparison := derive_pcmp (conf_pcmp wp tp sp (fst a) (fst b)) (pd_pcmp (tr_pcmp wp tp ip) (snd a) (snd b)).
End Conf.

(* ---- reverse.rs ---- *)
(* reverse.rs:8-9 *)
Inductive reversed (W : Type) := Reverse (w : W).
Arguments Reverse {W}.
Section Reverse.
  Context {W : Type}.
  (* reverse.rs:182-190 (unwrap and inner), 176-180 *)
  Definition rev_unwrap (a : reversed W) : W := let 'Reverse w := a in w.
  Definition rev_from (w : W) : reversed W := Reverse w.
  (* reverse.rs:11-18, 20-27 *)
  Definition rev_pcmp (p : W -> W -> option comparison) (a b : reversed W) : option comparison := p (rev_unwrap b) (rev_unwrap a).
  Definition rev_cmp (c : W -> W -> comparison) (a b : reversed W) : comparison := c (rev_unwrap b) (rev_unwrap a).
  (* reverse.rs:71-164: the binary operations Add, Sub, Mul, Div, Rem and their assigning forms *)
  Definition rev_op (op : W -> W -> W) (a b : reversed W) : reversed W := Reverse (op (rev_unwrap a) (rev_unwrap b)).
  (* reverse.rs:49-69 *)
  Definition rev_const (w : W) : reversed W := Reverse w.
  Definition rev_is_zero (is_zero : W -> bool) (a : reversed W) : bool := is_zero (rev_unwrap a).
  (* reverse.rs:29-36, 38-47 *)
  Definition rev_display {B} (display : W -> B) (a : reversed W) : B := display (rev_unwrap a).
  Definition rev_from_str {B E} (from_str : B -> result W E) (s : B) : result (reversed W) E := match from_str s with Ok w => Ok (Reverse w) | Err e => Err e end.
  (* reverse.rs:166-174 *)
  Definition rev_factorize (factorize : W -> nat -> list W) (a : reversed W) (n : nat) : list (reversed W) := map Reverse (factorize (rev_unwrap a) n).
End Reverse.
(* everything that comes out of a BinaryHeap by repeated pop *)
Fixpoint drain {X} {leb : X -> X -> bool} (H : max_heap X leb) (n : nat) (h : mh_T H) : list X :=
  match n with 0 => [] | S n => match mh_pop H h with Some (x, h) => x :: drain H n h | None => [] end end.
