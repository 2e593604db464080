(* Specification: the syntax of transitions and automata, as in examples/example.tsa and the tests of the three from_str.rs files. *)
From Verif Require Import M_Nom Base M_Recog M_CFG M_Grammar M_Automata M_TreeStack M_Text S_Text.

(* a text that consists of the given words, separated by white space *)
Inductive words : bytes -> list bytes -> Prop :=
| wd_nil s : whites s -> words s []
| wd_cons s w t ws : whites s -> w <> [] -> (forall a, In a w -> is_white a = false) ->
    (t = [] \/ exists a t', t = a :: t' /\ is_white a = true) -> words t ws -> words (s ++ w ++ t) (w :: ws).

(* source -> target *)
Definition fs_syntax {Q} (io : text_io Q) (text : bytes) (i : fs_instr Q) : Prop :=
  exists p a q, words text [p; a; q] /\ (a = «"->"» \/ a = «"→"») /\ of_text io p = Some (fs_source i) /\ of_text io q = Some (fs_target i).
(* Up n current old new, Push n current new, Down current old new *)
Definition ts_syntax {A} (io : text_io A) (text : bytes) (i : ts_instr A) : Prop :=
  match i with
  | IUp n c o v => exists n' c' o' v', words text [«"Up"»; n'; c'; o'; v'] /\ usize_of_text n' = Some n /\ of_text io c' = Some c /\ of_text io o' = Some o /\ of_text io v' = Some v
  | IPush n c v => exists n' c' v', words text [«"Push"»; n'; c'; v'] /\ usize_of_text n' = Some n /\ of_text io c' = Some c /\ of_text io v' = Some v
  | IDown c o v => exists c' o' v', words text [«"Down"»; c'; o'; v'] /\ of_text io c' = Some c /\ of_text io o' = Some o /\ of_text io v' = Some v
  end.

(* Transition [terminal, ..., terminal] (instruction) # weight % comment *)
Definition transition_syntax {I T} {K : Weight} (instruction : bytes -> I -> Prop) (iot : text_io T) (iow : text_io K)
    (text : bytes) (t : transition I T K) : Prop :=
  exists sp1 v sp2 i sp3 w sp4 z, spaces sp1 /\ spaces sp2 /\ spaces sp3 /\ spaces sp4 /\
    text = «"Transition"» ++ sp1 ++ v ++ sp2 ++ «"("» ++ i ++ «")"» ++ sp3 ++ w ++ sp4 ++ z /\
    vec (token iot) «"["» «"]"» «","» (sp2 ++ «"("» ++ i ++ «")"» ++ sp3 ++ w ++ sp4 ++ z) v (t_word t) /\
    ~ In ")"%char i /\ instruction i (t_ins t) /\ weight_part iow (sp4 ++ z) w (t_weight t) /\ comment z.

(* What a line contributes: initial states, sets of final states, transitions.  [finals] says whether there are final states. *)
Section Automaton.
  Context {Q R : Type} (finals : Prop) (io : text_io Q) (transition_syntax : bytes -> R -> Prop).
  Inductive automaton_line : bytes -> list Q -> list (list Q) -> list R -> Prop :=
  | al_initial b sp e z q : whites b -> spaces sp -> token io z e q -> automaton_line (b ++ «"initial:"» ++ sp ++ e ++ z) [q] [] []
  | al_final b sp v z qs : finals -> whites b -> spaces sp -> vec (token io) «"["» «"]"» «","» z v qs -> automaton_line (b ++ «"final:"» ++ sp ++ v ++ z) [] [qs] []
  | al_empty : automaton_line [] [] [] []
  | al_comment b z : whites b -> automaton_line (b ++ «"%"» ++ z) [] [] []
  | al_transition b t b' r : whites b -> whites b' -> transition_syntax t r -> (forall a t', t = t' ++ [a] -> is_white a = false) ->
      automaton_line (b ++ t ++ b') [] [] [r].
  (* lines end with a newline, except possibly the last one *)
  Inductive automaton_text : bytes -> list Q -> list (list Q) -> list R -> Prop :=
  | at_nil : automaton_text [] [] [] []
  | at_last l is fs ts : l <> [] -> ~ In "010"%char l -> automaton_line l is fs ts -> automaton_text l is fs ts
  | at_line l is fs ts s is' fs' ts' : ~ In "010"%char l -> (forall l', l <> l' ++ ["013"%char]) -> automaton_line l is fs ts -> automaton_text s is' fs' ts' ->
      automaton_text (l ++ newline ++ s) (is ++ is') (fs ++ fs') (ts ++ ts').
End Automaton.
(* a repeated declaration replaces the earlier ones *)
Definition last_of {X} (l : list X) : option X := match rev l with [] => None | x :: _ => Some x end.

(* ---- what Display writes ---- *)
(* the text of a label is a word without a closing parenthesis *)
Definition showable_label {X} (io : text_io X) (x : X) : Prop :=
  readable io x /\ to_text io x <> [] /\ forall a, In a (to_text io x) -> is_white a = false /\ a <> ")"%char.
(* the Debug text of a terminal is a token for it *)
Definition showable_terminal {T} (iot : text_io T) (debug : T -> bytes) (t : T) : Prop :=
  ~ In "010"%char (debug t) /\ forall rest, at_stop rest -> token iot rest (debug t) t.
Definition labels {A} (i : ts_instr A) : list A := match i with IUp _ c o v => [c; o; v] | IPush _ c v => [c; v] | IDown c o v => [c; o; v] end.
Definition child {A} (i : ts_instr A) : option nat := match i with IUp n _ _ _ | IPush n _ _ => Some n | IDown _ _ _ => None end.
Definition showable_ts_transition {A T} {K : Weight} (ioa : text_io A) (iot : text_io T) (iow : text_io K) (debug : T -> bytes) (t : transition (ts_instr A) T K) : Prop :=
  (forall x, In x (labels (t_ins t)) -> showable_label ioa x) /\ (forall n, child (t_ins t) = Some n -> (N.of_nat n < usize_bound)%N) /\
  (forall x, In x (t_word t) -> showable_terminal iot debug x) /\ showable_weight iow (t_weight t).
