(* Specification of the commands approximation relabel parse and approximation tts parse: the coarse grammar, the syntax of
   equivalence relations, and what is printed for a line. *)
From Verif Require Import M_Nom Base M_Util M_Recog M_Automata M_CFG M_TreeStack M_Grammar M_FromPmcfg M_Negra M_Text M_Command S_Recog S_CFG S_Grammar S_Approx S_Text S_AutText S_Command S_TsaCommand.

(* the grammar with every nonterminal replaced by its class *)
Section Coarse.
  Context {A B T : Type} {K : Weight} (f : A -> B).
  Definition coarse_letter (x : lettert A T) : lettert B T := match x with Label n => Label (f n) | Value t => Value t end.
  Definition coarse_rule (r : cfg_rule A T K) : cfg_rule B T K := CFGRule (f (cr_head r)) (map coarse_letter (cr_rhs r)) (cr_weight r).
  Definition coarse (g : cfg A T K) : cfg B T K := CFG (map f (cg_initial g)) (map coarse_rule (cg_rules g)).
End Coarse.

(* ---- the text of an equivalence relation: label [member, ..., member] on one line, label * for everything else ---- *)
Section Classes.
  Context {A B : Type} (ioa : text_io A) (iob : text_io B).
  Notation class := (B * option (list A))%type.
  Definition class_syntax (text : bytes) (c : class) : Prop :=
    exists h sp body, spaces sp /\ text = h ++ sp ++ body /\ token iob (sp ++ body) h (fst c) /\
      match snd c with None => body = «"*"» | Some members => vec (token ioa) «"["» «"]"» «","» [] body members end.
  Inductive class_line : bytes -> list class -> Prop :=
  | cl_empty : class_line [] []
  | cl_class w t w' c : whites w -> whites w' -> class_syntax t c -> (forall a t', t = a :: t' -> is_white a = false) -> class_line (w ++ t ++ w') [c].
  Definition classes_text (text : bytes) (cs : list class) : Prop :=
    exists ls css, text_lines text ls /\ Forall2 class_line ls css /\ cs = List.concat css.
  (* the classes with members *)
  Definition listed (cs : list class) : list (B * list A) :=
    flat_map (fun c => match snd c with Some ms => [(fst c, ms)] | None => [] end) cs.
  (* the last line with a star gives the default; no label is used twice, no member has two classes *)
  Definition partition_of (cs : list class) (default : B) : Prop :=
    (exists before after, cs = before ++ (default, None) :: after /\ forall c, In c after -> snd c <> None) /\
    NoDup (map fst (listed cs)) /\ ~ In default (map fst (listed cs)) /\ disjoint_classes (listed cs).
  (* f maps everything to the label of its class *)
  Definition classifies (cs : list class) (default : B) (f : A -> B) : Prop :=
    (forall x label, in_class (listed cs) x label -> f x = label) /\ (forall x, (forall label, ~ in_class (listed cs) x label) -> f x = default).
End Classes.

(* ---- what is printed for a line ---- *)
Definition same_steps {A T : Type} {K : Weight} (us vs : list (transition (pd_instr A) T K)) : Prop :=
  Forall2 (fun u v => t_word u = t_word v /\ t_ins u = t_ins v) us vs.

Section Printed.
  Context {K : Weight}.
  (* "None" if the grammar does not derive the words of the line; otherwise a run for one of its leftmost derivations.  If no two
     rules coincide up to weight then the weights are those of the derivation, and if moreover no weight exceeds one, then no
     derivation is better. *)
  Definition relabel_printed (g : cfg bytes bytes K) (shown_weight : K -> bytes) (shown : transition (pd_instr (push_state bytes bytes)) bytes K -> bytes)
             (line : bytes) (word : list bytes) (out : bytes) : Prop :=
    let derivation s ds := In s (cg_initial g) /\ leftmost (fun r => In r (cg_rules g)) [Label s] ds word in
    (~ cfg_language g word /\ out = «"None: "» ++ line ++ newline) \/
    exists s ds us, derivation s ds /\ same_steps us (init_trans s :: derivation_run ds [Label s]) /\
      (cfg_distinct g -> us = init_trans s :: derivation_run ds [Label s] /\ run_weight us = derivation_weight ds /\
         ((forall r, In r (cg_rules g) -> wleb (cr_weight r) wone = true) -> forall s' ds', derivation s' ds' -> wleb (derivation_weight ds') (derivation_weight ds) = true)) /\
      out = «"Some(Item(Configuration { word: [], storage: PushDown { elements: [Designated] }, weight: "» ++ shown_weight (run_weight us) ++ «" }, "» ++ nested shown us ++ «")): "» ++ line ++ newline.
  (* "None" only if [derived] does not hold of the words; otherwise a run of an automaton with the given transitions that accepts
     the words *)
  Definition path_printed {A : Type} (aeqb : A -> A -> bool) (init : list A) (ts : list (transition (ts_instr A) bytes K)) (derived : list bytes -> Prop)
             (shown_weight : K -> bytes) (shown_stack : list A -> bytes) (shown : transition (pd_instr A) bytes K -> bytes) (line : bytes) (word : list bytes) (out : bytes) : Prop :=
    (~ derived word /\ out = «"None: "» ++ line ++ newline) \/
    exists us s, executes (pdi_apply aeqb) init us s /\ length s = 1 /\ run_word us = word /\
      (forall u, In u us -> exists t, In t ts /\ t_word u = t_word t /\ t_ins u = path_instr (t_ins t)) /\
      out = «"Some(Item(Configuration { word: [], storage: PushDown { elements: "» ++ shown_stack s ++ «" }, weight: "» ++ shown_weight (run_weight us) ++ «" }, "» ++ nested shown us ++ «")): "» ++ line ++ newline.
End Printed.

(* the texts of instructions and stack symbols *)
Definition replace_text {A : Type} (shown : A -> bytes) (i : pd_instr A) : bytes :=
  record_text «"Replace"» [(«"current_val"», list_text shown (pi_current i)); («"new_val"», list_text shown (pi_new i))].
Definition symbol_text (shown : bytes -> bytes) (s : push_state bytes bytes) : bytes :=
  match s with
  | M_CFG.Designated => «"Designated"» | M_CFG.Initial => «"Initial"»
  | PNt n => «"Nt"» ++ «"("» ++ commas [shown n] ++ «")"» | PT x => «"T"» ++ «"("» ++ commas [shown x] ++ «")"»
  end.
Definition position_text {R : Type} (shown : R -> bytes) (p : posstate R) : bytes :=
  match p with
  | M_FromPmcfg.Designated => «"Designated"» | M_FromPmcfg.Initial => «"Initial"»
  | Position r i j => «"Position"» ++ «"("» ++ commas [shown r; usize_text i; usize_text j] ++ «")"»
  end.
