(* Specification: the documented syntax of tokens, rules and grammars (parsing.rs:5-9, 37-38, 64, 95, 110, 115-119; the examples
   in cfg/mod.rs:28-44, 52-70 and pmcfg/mod.rs). *)
From Verif Require Import M_Nom Base M_Recog M_CFG M_Grammar M_Text.

(* A syntax says which texts mean x when they are followed by rest. *)
Notation syntax X := (bytes -> bytes -> X -> Prop).

(* numbers: decimal digits, which are the bytes 48 to 57, with or without a plus sign *)
Definition decimal (s : bytes) : N := fold_left (fun v a => 10 * v + (N_of_ascii a - 48))%N s 0%N.
Definition number (s : bytes) (n : N) : Prop :=
  exists ds, (s = ds \/ s = "+"%char :: ds) /\ ds <> [] /\ (forall a, In a ds -> (48 <= N_of_ascii a <= 57)%N) /\ decimal ds = n.

(* every backslash is followed by a backslash or a quotation mark, every quotation mark is preceded by one *)
Inductive well_escaped : bytes -> Prop :=
| we_nil : well_escaped []
| we_plain a s : a <> """"%char -> a <> "\"%char -> well_escaped s -> well_escaped (a :: s)
| we_esc b s : b = """"%char \/ b = "\"%char -> well_escaped s -> well_escaped ("\"%char :: b :: s).

(* bytes that cannot occur in a token without quotation marks *)
Definition stops : bytes := « " \""-→,;)]%#" ».
Definition bare (s : bytes) : Prop := s <> [] /\ forall a, In a s -> ~ In a stops /\ a <> "009"%char.
Definition at_stop (rest : bytes) : Prop := rest = [] \/ exists a rest', rest = a :: rest' /\ In a stops.
Definition token {X} (io : text_io X) : syntax X :=
  fun rest t x => exists s, of_text io s = Some x /\
    ((t = quote ++ s ++ quote /\ well_escaped s) \/ (t = s /\ bare s /\ at_stop rest)).

Definition spaces (s : bytes) : Prop := forall a, In a s -> a = " "%char \/ a = "009"%char.

(* elements separated by [sep], with blanks anywhere between them; [rest] is what follows *)
Inductive more_items {X} (P : syntax X) (sep rest : bytes) : bytes -> list X -> Prop :=
| mi_nil : more_items P sep rest [] []
| mi_cons sp e sp' t x xs : spaces sp -> spaces sp' -> P (sp' ++ t ++ rest) e x -> more_items P sep rest t xs ->
    more_items P sep rest (sep ++ sp ++ e ++ sp' ++ t) (x :: xs).
Inductive items {X} (P : syntax X) (sep rest : bytes) : bytes -> list X -> Prop :=
| it_nil : items P sep rest [] []
| it_cons e sp' t x xs : spaces sp' -> P (sp' ++ t ++ rest) e x -> more_items P sep rest t xs -> items P sep rest (e ++ sp' ++ t) (x :: xs).
Definition vec {X} (P : syntax X) (opening closing sep : bytes) : syntax (list X) :=
  fun rest text xs => exists sp t, spaces sp /\ items P sep (closing ++ rest) t xs /\ text = opening ++ sp ++ t ++ closing.

(* the weight at the end of a rule; a missing weight is [one] *)
Definition weight_part {K : Weight} (io : text_io K) (rest t : bytes) (w : K) : Prop :=
  (t = [] /\ w = wone) \/
  exists sp s, spaces sp /\ s <> [] /\ (forall a, In a s -> a <> " "%char /\ a <> "009"%char) /\ of_text io s = Some w /\
    t = «"#"» ++ sp ++ s /\ (rest = [] \/ exists rest', rest = " "%char :: rest').
Definition comment (t : bytes) : Prop := t = [] \/ exists s, t = «"%"» ++ s.
Definition an_arrow (a : bytes) : Prop := a = «"→"» \/ a = «"->"» \/ a = «"=>"».

Section Syntax.
  Context {N T : Type} {K : Weight} (ion : text_io N) (iot : text_io T) (iow : text_io K).
  Definition letter : syntax (lettert N T) :=
    fun rest t x => exists sp e, spaces sp /\
      match x with Label n => t = «"Nt"» ++ sp ++ e /\ token ion rest e n | Value a => t = «"T"» ++ sp ++ e /\ token iot rest e a end.
  (* head -> [letter, ..., letter] # weight % comment *)
  Definition cfg_rule_syntax (text : bytes) (r : cfg_rule N T K) : Prop :=
    exists h sp1 a sp2 c sp3 w sp4 z, spaces sp1 /\ spaces sp2 /\ spaces sp3 /\ spaces sp4 /\
      text = h ++ sp1 ++ a ++ sp2 ++ c ++ sp3 ++ w ++ sp4 ++ z /\
      token ion (sp1 ++ a ++ sp2 ++ c ++ sp3 ++ w ++ sp4 ++ z) h (cr_head r) /\ an_arrow a /\
      vec letter «"["» «"]"» «","» (sp3 ++ w ++ sp4 ++ z) c (cr_rhs r) /\
      weight_part iow (sp4 ++ z) w (cr_weight r) /\ comment z.

  Definition variable_or_terminal : syntax (vart T) :=
    fun rest t x => exists sp, spaces sp /\
      match x with
      | Var i j => exists sp', spaces sp' /\ sp' <> [] /\ (N.of_nat i < usize_bound)%N /\ (N.of_nat j < usize_bound)%N /\
          t = «"Var"» ++ sp ++ usize_text i ++ sp' ++ usize_text j /\ (forall d rest', rest = d :: rest' -> is_digit d = false)
      | Tm a => exists e, t = «"T"» ++ sp ++ e /\ token iot rest e a
      end.
  Definition component : syntax (list (vart T)) := vec variable_or_terminal «"["» «"]"» «","».
  (* head -> [[...], ..., [...]] (successor, ..., successor) # weight % comment *)
  Definition pmcfg_rule_syntax (text : bytes) (r : prule N T K) : Prop :=
    exists h sp1 a sp2 c sp3 s sp4 w sp5 z, spaces sp1 /\ spaces sp2 /\ spaces sp3 /\ spaces sp4 /\ spaces sp5 /\
      text = h ++ sp1 ++ a ++ sp2 ++ c ++ sp3 ++ s ++ sp4 ++ w ++ sp5 ++ z /\
      token ion (sp1 ++ a ++ sp2 ++ c ++ sp3 ++ s ++ sp4 ++ w ++ sp5 ++ z) h (pr_head r) /\ an_arrow a /\
      vec component «"["» «"]"» «","» (sp3 ++ s ++ sp4 ++ w ++ sp5 ++ z) c (pr_comp r) /\
      vec (token ion) «"("» «")"» «","» (sp4 ++ w ++ sp5 ++ z) s (pr_tail r) /\
      weight_part iow (sp5 ++ z) w (pr_weight r) /\ comment z.
End Syntax.

(* ---- lines of a grammar: what each contributes ---- *)
Section Grammar.
  Context {I R : Type} (io : text_io I) (rule_syntax : bytes -> R -> Prop).
  Definition whites (s : bytes) : Prop := forall a, In a s -> is_white a = true.
  Inductive line_means : bytes -> list I -> list R -> Prop :=
  | lm_initial sp v z is : spaces sp -> vec (token io) «"["» «"]"» «","» z v is -> line_means («"initial:"» ++ sp ++ v ++ z) is []
  | lm_empty : line_means [] [] []
  | lm_comment w z : whites w -> line_means (w ++ «"%"» ++ z) [] []
  | lm_rule w t w' r : whites w -> whites w' -> rule_syntax t r ->
      (forall a t', t = a :: t' -> is_white a = false) -> (forall a t', t = t' ++ [a] -> is_white a = false) ->
      (forall z, t <> «"initial:"» ++ z) -> (forall z, t <> «"%"» ++ z) -> line_means (w ++ t ++ w') [] [r].
  (* lines do not contain the end of a line, which is a newline, possibly after a carriage return; the last line may lack it *)
  Inductive text_means : bytes -> list I -> list R -> Prop :=
  | tm_nil : text_means [] [] []
  | tm_line l is rs s is' rs' : ~ In "010"%char l -> (forall l', l <> l' ++ ["013"%char]) -> line_means l is rs -> text_means s is' rs' ->
      text_means (l ++ newline ++ s) (is ++ is') (rs ++ rs')
  | tm_last l is rs : l <> [] -> ~ In "010"%char l -> (forall l', l <> l' ++ ["013"%char]) -> line_means l is rs -> text_means l is rs
  | tm_crlf l is rs s is' rs' : ~ In "010"%char l -> line_means l is rs -> text_means s is' rs' ->
      text_means (l ++ ["013"%char] ++ newline ++ s) (is ++ is') (rs ++ rs').
End Grammar.

(* ---- what Display writes can be read back if ... ---- *)
Definition readable {X} (io : text_io X) (x : X) : Prop := of_text io (to_text io x) = Some x.
Definition showable {X} (io : text_io X) (x : X) : Prop := readable io x /\ well_escaped (to_text io x).
Definition showable_weight {X} (io : text_io X) (x : X) : Prop :=
  readable io x /\ to_text io x <> [] /\ forall a, In a (to_text io x) -> is_white a = false.
Definition showable_cfg_rule {N T} {K : Weight} (ion : text_io N) (iot : text_io T) (iow : text_io K) (r : cfg_rule N T K) : Prop :=
  showable ion (cr_head r) /\ showable_weight iow (cr_weight r) /\
  forall x, In x (cr_rhs r) -> match x with Label n => showable ion n | Value t => showable iot t end.
Definition showable_rule {N T} {K : Weight} (ion : text_io N) (iot : text_io T) (iow : text_io K) (r : prule N T K) : Prop :=
  showable ion (pr_head r) /\ showable_weight iow (pr_weight r) /\ (forall n, In n (pr_tail r) -> showable ion n) /\
  forall c x, In c (pr_comp r) -> In x c ->
    match x with Var i j => (N.of_nat i < usize_bound)%N /\ (N.of_nat j < usize_bound)%N | Tm t => showable iot t end.
(* the text does not contain the end of a line *)
Definition one_line {X} (io : text_io X) (x : X) : Prop := ~ In "010"%char (to_text io x).
Definition one_line_rule {N T} {K : Weight} (ion : text_io N) (iot : text_io T) (r : prule N T K) : Prop :=
  one_line ion (pr_head r) /\ (forall n, In n (pr_tail r) -> one_line ion n) /\
  forall c t, In c (pr_comp r) -> In (Tm t) c -> one_line iot t.
