(* Specification of the command tsa recognise: what is printed for a sentence. *)
From Coq Require Import Sorted.
From Verif Require Import M_Nom Base M_Util M_Recog M_TreeStack M_Text S_Recog.

Section Best.
  Context {S I T : Type} {K : Weight} (apply : I -> S -> list S) (init : S) (tr : transition I T K -> Prop) (final : S -> Prop).
  (* the run is an accepting run on the word *)
  Definition accepts (word : list T) (run : list (transition I T K)) : Prop := exists s, accepting_run apply init tr final word run s.
  (* no weight exceeds one *)
  Definition no_weight_exceeds_one : Prop := forall t, tr t -> wleb (t_weight t) wone = true.
  (* [runs] are at most n accepting runs on the word, different ones if [distinct], the better ones first (if no weight exceeds
     one); if [exact] they are n of them or all, and (if no weight exceeds one) no other accepting run is better than one of them *)
  Definition best_runs (exact distinct : Prop) (n : nat) (word : list T) (runs : list (list (transition I T K))) : Prop :=
    length runs <= n /\ (forall run, In run runs -> accepts word run) /\ (distinct -> NoDup runs) /\
    (no_weight_exceeds_one -> StronglySorted (fun x y => wleb (run_weight y) (run_weight x) = true) runs) /\
    (exact -> (length runs < n -> forall run, accepts word run -> In run runs) /\
              (no_weight_exceeds_one -> forall run run', accepts word run -> ~ In run runs -> In run' runs -> wleb (run_weight run) (run_weight run') = true)).
  (* what is printed for a word: a header, a text for each of these runs, and an empty line *)
  Definition runs_printed (exact distinct : Prop) (n : nat) (header : list T -> bytes) (text_of : list (transition I T K) -> bytes) (word : list T) (out : bytes) : Prop :=
    exists runs, best_runs exact distinct n word runs /\ out = header word ++ List.concat (map text_of runs) ++ newline.
End Best.

(* a run is shown as a nested list, its last transition outermost *)
Definition nested {X : Type} (shown : X -> bytes) (run : list X) : bytes :=
  fold_left (fun below t => «"Cons { value: "» ++ shown t ++ «", below: "» ++ below ++ «" }"») run «"Empty"».

(* ---- what derive(Debug) prints ---- *)
(* separated by commas; a list in brackets; a record with its name and the names of its fields *)
Fixpoint commas (l : list bytes) : bytes := match l with [] => [] | [x] => x | x :: l => x ++ «", "» ++ commas l end.
Definition list_text {X : Type} (shown : X -> bytes) (l : list X) : bytes := «"["» ++ commas (map shown l) ++ «"]"».
Definition record_text (name : bytes) (fields : list (bytes * bytes)) : bytes :=
  name ++ «" { "» ++ commas (map (fun f => fst f ++ «": "» ++ snd f) fields) ++ «" }"».
Definition step_text {I T : Type} {K : Weight} (shown : I -> bytes) (shown_symbol : T -> bytes) (shown_weight : K -> bytes) (t : transition I T K) : bytes :=
  record_text «"Transition"» [(«"word"», list_text shown_symbol (t_word t)); («"weight"», shown_weight (t_weight t)); («"instruction"», shown (t_ins t))].
Definition ts_instr_text (shown : bytes -> bytes) (i : ts_instr bytes) : bytes :=
  match i with
  | IUp n current old new => record_text «"Up"» [(«"n"», usize_text n); («"current_val"», shown current); («"old_val"», shown old); («"new_val"», shown new)]
  | IPush n current new => record_text «"Push"» [(«"n"», usize_text n); («"current_val"», shown current); («"new_val"», shown new)]
  | IDown current old new => record_text «"Down"» [(«"current_val"», shown current); («"old_val"», shown old); («"new_val"», shown new)]
  end.
