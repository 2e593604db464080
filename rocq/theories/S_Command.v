(* Specification of the command csparsing parse: what a line of the input stands for, and what is printed for it. *)
From Coq Require Export Sorted.
From Verif Require Import M_Nom Base M_Util M_Recog M_TreeStack M_Grammar M_Chart M_CSParse M_Negra M_Text S_Recog S_Grammar S_Negra S_Text S_Cow S_CSParse S_AutText.

(* ---- the input ---- *)
(* lines end with a newline, except possibly the last one (which must not be empty); a carriage return before the newline is not part of the line *)
Inductive text_lines : bytes -> list bytes -> Prop :=
| tl_nil : text_lines [] []
| tl_last l : l <> [] -> ~ In "010"%char l -> (forall l', l <> l' ++ ["013"%char]) -> text_lines l [l]
| tl_cons l cr text ls : ~ In "010"%char l -> (forall l', l <> l' ++ ["013"%char]) -> (cr = [] \/ cr = ["013"%char]) -> text_lines text ls ->
    text_lines (l ++ cr ++ newline ++ text) (l :: ls).
(* The i-th line (counted from 0) stands for the sentence with number [id], the tokens that are parsed and the words that are
   shown at the leaves.  With line numbers the first word of the line is the number; with POS tags every word is
   word/tag (the tag contains no slash) and the tags are parsed. *)
Definition sentence_of (with_lines with_pos : bool) (i : nat) (line : bytes) (id : nat) (tokens shown : list bytes) : Prop :=
  exists ws,
    (if with_lines then exists n, words line (n :: ws) /\ usize_of_text n = Some id else words line ws /\ id = i) /\
    (if with_pos then length shown = length tokens /\ (forall t, In t tokens -> ~ In "/"%char t) /\ ws = map (fun p => fst p ++ «"/"» ++ snd p) (combine shown tokens)
     else tokens = ws /\ shown = ws).
(* the text is a corpus of sentences, one per line *)
Definition corpus (with_lines with_pos : bool) (text : bytes) (sents : list (nat * list bytes * list bytes)) : Prop :=
  exists ls, text_lines text ls /\
    Forall2 (fun il s => sentence_of with_lines with_pos (fst il) (snd il) (fst (fst s)) (snd (fst s)) (snd s)) (combine (seq 0 (length ls)) ls) sents.

(* ---- the output ---- *)
(* a column: no tab and no newline *)
Definition column_ok (c : bytes) : Prop := ~ In "009"%char c /\ ~ In "010"%char c.
(* a table: rows of five columns *)
Definition table (rows : list (list bytes)) : Prop := forall row, In row rows -> length row = 5 /\ forall c, In c row -> column_ok c.
(* columns separated by tabs *)
Fixpoint row_text (cols : list bytes) : bytes :=
  match cols with [] => newline | [c] => c ++ newline | c :: cols => c ++ ["009"%char] ++ row_text cols end.
(* one sentence in the export format *)
Definition block (id : nat) (rows : list (list bytes)) : bytes :=
  «"#BOS "» ++ usize_text id ++ newline ++ concat (map row_text rows) ++ «"#EOS "» ++ usize_text id ++ newline.
(* word or node, label, two unused columns, parent *)
Definition row_of (l : ncol bytes * bytes * nat) : list bytes :=
  [match fst (fst l) with NWord w => w | NNode n => «"#"» ++ usize_text n end; snd (fst l); «"--"»; «"--"»; usize_text (snd l)].
(* the text shows the derivation d with the given words at its leaves *)
Definition shows {W} (id : nat) (shown : list bytes) (d : dtree bytes bytes W) (text : bytes) : Prop :=
  exists ls lines, leaves d = Some ls /\ negra_export d (map fst ls) shown lines /\ text = block id (map row_of lines).
(* the text for a sentence without a parse: all words below a node 500 *)
Definition no_parse (id : nat) (with_pos : bool) (tokens shown : list bytes) : bytes :=
  block id (map (fun p => [snd p; if with_pos then fst p else «"--"»; «"--"»; «"--"»; «"500"»]) (combine tokens shown) ++ [[«"#500"»; «"NOPARSE"»; «"--"»; «"--"»; «"0"»]]).

Section Answer.
  Context {K : ZWeight} (rules : list (prule bytes bytes K)) (init : bytes).
  (* d is a derivation of the tokens, of weight w *)
  Definition parse_of (tokens : list bytes) (d : dtree bytes bytes K) (w : K) : Prop :=
    deriv (fun r => In r rules) init d /\ yield d = Some [tokens] /\ d_weight d = w.
  (* d is put together from components of rules, see S_Cow *)
  Definition fallback_of (tokens : list bytes) (d : dtree bytes bytes K) : Prop :=
    deriv (fun r => merged rules r /\ pr_weight r = wzero) init d /\ yield d = Some [tokens].
  (* [ds] are derivations of the tokens, best first, each of them once (if no rule is listed twice); all of them if [complete] *)
  Definition best_parses (complete : Prop) (tokens : list bytes) (ds : list (dtree bytes bytes K * K)) : Prop :=
    (forall d w, In (d, w) ds -> parse_of tokens d w) /\ StronglySorted (fun x y => wleb (snd y) (snd x) = true) ds /\ (NoDup rules -> NoDup (map fst ds)) /\
    (complete -> forall d w, parse_of tokens d w -> In (d, w) ds).
  (* What is printed for a sentence: the first k derivations among the first c candidates; if there is none, a fallback (if
     wanted and there is one) or the sentence without a tree. *)
  Definition answer (complete : Prop) (candidates : option nat) (k : nat) (with_pos fallback : bool) (id : nat) (tokens shown : list bytes) (out : bytes) : Prop :=
    exists ds n, best_parses complete tokens ds /\ match candidates with None => n = length ds | Some c => n <= c end /\
      match firstn k (map fst (firstn n ds)) with
      | [] => (out = no_parse id with_pos tokens shown /\ (fallback = true -> complete -> candidates <> Some 0 -> forall d w, ~ parse_of tokens d w)) \/
              (fallback = true /\ exists d, fallback_of tokens d /\ shows id shown d out)
      | best => exists texts, Forall2 (shows id shown) best texts /\ out = concat texts
      end.
End Answer.
