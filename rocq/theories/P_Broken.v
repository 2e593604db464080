(* The parsers of disco-dop files on arbitrary texts. *)
From Verif Require Import M_Nom Base M_Recog M_CFG M_Grammar M_Text S_Text P_Text M_Import M_Command S_Import P_Import.
Open Scope nat_scope.

(* a parser that never panics and never returns more than it got *)
Definition tame {X : Type} (p : parser X) : Prop := forall i, p i <> Panic /\ forall r x, p i = Done r x -> length r <= length i.
Definition shorter_by {X : Type} (p : parser X) : Prop := forall i r x, p i = Done r x -> length r < length i.

Lemma span_length f : forall i, length (snd (span f i)) + length (fst (span f i)) = length i.
Proof. induction i as [|a i IH]; [reflexivity|]. cbn. destruct (f a); [|cbn; lia]. destruct (span f i) as [x r]. cbn in *. lia. Qed.
Lemma tame_take_while f : tame (take_while f).
Proof. intros i. unfold take_while. pose proof (span_length f i) as L. destruct (span f i) as [x r]. cbn in L. split; [discriminate|]. intros ? ? E. injection E as <- <-. lia. Qed.
Lemma tame_take_while1 f : tame (take_while1 f).
Proof.
  intros i. unfold take_while1. destruct i as [|a i]; [split; discriminate|]. pose proof (span_length f (a :: i)) as L. destruct (span f (a :: i)) as [[|b x] r]; [split; discriminate|]. cbn in L. split; [discriminate|].
  intros ? ? E. injection E as <- <-. cbn. lia.
Qed.
Lemma shorter_take_while1 f : shorter_by (take_while1 f).
Proof.
  intros i r x. unfold take_while1. destruct i as [|a i]; [discriminate|]. pose proof (span_length f (a :: i)) as L. destruct (span f (a :: i)) as [[|b y] s]; [discriminate|]. cbn in L. intros E. injection E as <- <-. cbn. lia.
Qed.
Lemma tame_tag t : tame (tag t).
Proof. induction t as [|b t IH]; intros i; cbn; [split; [discriminate|intros r x E; injection E as <- _; lia]|]. destruct i as [|a i]; [split; discriminate|]. destruct (beqb a b); [|split; discriminate]. destruct (IH i) as [P L]. split; [exact P|]. intros r x E. specialize (L r x E). cbn. lia. Qed.
Lemma tame_ret {X} (x : X) : tame (pret x).
Proof. intros i. split; [discriminate|]. intros r y E. injection E as <- _. lia. Qed.
Lemma tame_bind {X Y} (p : parser X) (q : X -> parser Y) : tame p -> (forall x, tame (q x)) -> tame (pbind p q).
Proof.
  intros TP TQ i. unfold pbind. destruct (TP i) as [P L]. destruct (p i) as [r x| | |]; try (split; congruence). destruct (TQ x r) as [P' L']. split; [exact P'|]. intros s y E. specialize (L r x eq_refl). specialize (L' s y E). lia.
Qed.
Lemma tame_opt {X} (p : parser X) : tame p -> tame (opt (complete p)).
Proof.
  intros TP i. unfold opt, complete. destruct (TP i) as [P L]. destruct (p i) as [r x| | |]; split; try congruence; intros s y E; injection E as <- _; [exact (L r x eq_refl)|lia|lia].
Qed.
Lemma tame_map_opt {X Y} (p : parser X) (f : X -> option Y) : tame p -> tame (map_opt p f).
Proof. intros TP i. unfold map_opt. destruct (TP i) as [P L]. destruct (p i) as [r x| | |]; try (split; congruence). destruct (f x); split; try congruence. intros s z E. injection E as <- _. exact (L r x eq_refl). Qed.
Lemma tame_loop {X} sep (p : parser X) : tame sep -> tame p -> forall fuel i, exists r xs, sep_loop sep p fuel i = Done r xs /\ length r <= length i.
Proof.
  intros TS TP. induction fuel as [|fuel IH]; intros i; cbn; [eauto|]. destruct (TS i) as [PS LS]. destruct (sep i) as [i2 u| | |]; try congruence; [|eauto|eauto]. specialize (LS i2 u eq_refl).
  destruct (Nat.eqb (length i2) (length i)); [eauto|]. destruct (TP i2) as [PP LP]. destruct (p i2) as [i3 x| | |]; try congruence; [|eauto|eauto]. specialize (LP i3 x eq_refl).
  destruct (Nat.eqb (length i3) (length i2)); [eauto|]. destruct (IH i3) as (r & xs & -> & L). exists r, (x :: xs). split; [reflexivity|lia].
Qed.
Lemma tame_nonempty {X} sep (p : parser X) : tame sep -> tame p -> tame (separated_nonempty_list sep p).
Proof.
  intros TS TP i. unfold separated_nonempty_list. destruct (TP i) as [P L]. destruct (p i) as [r x| | |]; try (split; congruence). specialize (L r x eq_refl). destruct (Nat.eqb (length r) (length i)); [split; congruence|].
  destruct (tame_loop sep p TS TP (length r) r) as (s & xs & -> & L'). split; [discriminate|]. intros s' y E. injection E as <- _. lia.
Qed.
(* an element that always consumes something: a list of them is always read *)
Lemma list_read {X} sep (p : parser X) : tame sep -> tame p -> shorter_by p -> forall i, exists r xs, separated_list sep p i = Done r xs.
Proof.
  intros TS TP SP i. unfold separated_list. destruct (TP i) as [P _]. destruct (p i) as [r x| | |] eqn:E; try congruence; [|eauto|eauto]. apply SP in E. replace (Nat.eqb (length r) (length i)) with false by (symmetry; apply Nat.eqb_neq; lia).
  destruct (tame_loop sep p TS TP (length r) r) as (s & xs & -> & _). eauto.
Qed.

(* A line with at most one field. *)
Definition lone (rest : bytes) : Prop := exists f u, (forall a, In a f -> is_white a = false) /\ line_end u /\ rest = f ++ u.
Lemma space_line_end u : line_end u -> space u = Error \/ space u = Incomplete.
Proof. intros [-> |[t ->]]; [now right|now left]. Qed.
Lemma span_app f (x u : bytes) : (forall a, In a x -> f a = true) -> ends f u -> span f (x ++ u) = (x, u).
Proof.
  induction x as [|a x IH]; intros HX HU; cbn.
  - destruct u as [|b u]; [reflexivity|]. cbn. now rewrite (HU b u eq_refl).
  - rewrite (HX a (or_introl eq_refl)). rewrite IH; [reflexivity| |exact HU]. intros b Hb. apply HX. now right.
Qed.

Section Disco.
  Context {N T W : Type} (ops : num_ops W) (ion : text_io N) (iot : text_io T) (iow : text_io W) (checked : bool).

  Lemma tame_count : tame (parse_pseudocount ops iow).
  Proof.
    apply tame_map_opt. apply tame_bind; [apply tame_take_while1|]. intros num. apply tame_bind; [|intros; apply tame_ret]. apply tame_opt. apply tame_bind; [apply tame_tag|]. intros. apply tame_take_while1.
  Qed.
  Lemma tame_entry : tame (do pos <- take_while is_token; skip space; do w <- parse_pseudocount ops iow; pret (pos, w)).
  Proof. apply tame_bind; [apply tame_take_while|]. intros pos. apply tame_bind; [apply tame_take_while1|]. intros _. apply tame_bind; [apply tame_count|]. intros w. apply tame_ret. Qed.
  Lemma tame_entries : tame (separated_nonempty_list (skip space; pret tt) (do pos <- take_while is_token; skip space; do w <- parse_pseudocount ops iow; pret (pos, w))).
  Proof. apply tame_nonempty; [|apply tame_entry]. apply tame_bind; [apply tame_take_while1|]. intros. apply tame_ret. Qed.
  Lemma tame_lexer_line : tame (parse_lexer_line ops iow).
  Proof. unfold parse_lexer_line. apply tame_bind; [apply tame_take_while|]. intros wd. apply tame_bind; [apply tame_take_while1|]. intros _. apply tame_bind; [apply tame_entries|]. intros. apply tame_ret. Qed.
  Lemma shorter_lexer_line : shorter_by (parse_lexer_line ops iow).
  Proof.
    intros i r x E. unfold parse_lexer_line, pbind in E. destruct (tame_take_while is_token i) as [_ L1]. destruct (take_while is_token i) as [r1 wd| | |]; try discriminate. specialize (L1 r1 wd eq_refl).
    destruct (space r1) as [r2 s| | |] eqn:E2; try discriminate. apply shorter_take_while1 in E2. destruct (tame_entries r2) as [_ L3]. unfold pbind in L3. destruct (separated_nonempty_list _ _ r2) as [r3 pws| | |]; try discriminate. specialize (L3 r3 pws eq_refl).
    injection E as <- _. lia.
  Qed.
  Lemma lexer_line_lone rest : lone rest -> parse_lexer_line ops iow rest = Error \/ parse_lexer_line ops iow rest = Incomplete.
  Proof.
    intros (f & u & Hf & Hu & ->). unfold parse_lexer_line. rewrite (pb _ _ _ u f); [|apply take_while_app; [intros a Ha; unfold is_token; now rewrite (Hf a Ha)|now apply line_end_token]].
    unfold pbind. destruct (space_line_end u Hu) as [-> | ->]; auto.
  Qed.
  Lemma constituent_lone rest : lone rest -> parse_constituent ops ion iow checked rest = Error \/ parse_constituent ops ion iow checked rest = Incomplete.
  Proof.
    intros (f & u & Hf & Hu & ->). unfold parse_constituent. destruct f as [|a f].
    - unfold pbind. destruct Hu as [-> |[t ->]]; [now right|now left].
    - rewrite (pb _ _ _ u (a :: f)); [|apply word1_app; [split; [discriminate|exact Hf]|now apply line_end_token]]. unfold parse_field, pbind. destruct (space_line_end u Hu) as [-> | ->]; auto.
  Qed.

  (* the lines before the first one with at most one field *)
  Lemma lines_before {X} (p : parser X) (E : bytes -> X -> Prop) text rest xs : listing (eq newline) E text xs -> (p rest = Error \/ p rest = Incomplete) ->
    (forall e x, E e x -> e <> []) -> (forall e x rest, E e x -> line_end rest -> p (e ++ rest) = Done rest x) ->
    separated_list (tag newline) p (text ++ newline ++ rest) = Done (newline ++ rest) xs.
  Proof.
    intros HL HR NE HP. apply (listing_app (tag newline) p (eq newline) E line_end (newline ++ rest)).
    - intros s e x u <- _. apply tag_app.
    - exact HP.
    - intros s u <-. right. now exists u.
    - right. now exists rest.
    - intros s <-. discriminate.
    - exact NE.
    - right. exists rest. split; [apply tag_app|]. split; [|exact HR]. rewrite app_length. cbn. lia.
    - exact HL.
  Qed.
  Lemma constituent_total i : parse_constituent ops ion iow checked i = Error \/ parse_constituent ops ion iow checked i = Incomplete \/ parse_constituent ops ion iow checked i = Panic \/
    exists r x, parse_constituent ops ion iow checked i = Done r x /\ length r < length i.
  Proof.
    assert (TF : tame parse_field) by (unfold parse_field; apply tame_bind; [apply tame_take_while1|intros; apply tame_take_while1]).
    destruct (parse_constituent ops ion iow checked i) as [r x| | |] eqn:E; auto. right. right. right. exists r, x. split; [reflexivity|]. unfold parse_constituent, pbind in E.
    destruct (take_while1 is_token i) as [r1 l| | |] eqn:E1; try discriminate. apply shorter_take_while1 in E1.
    destruct (TF r1) as [_ L2]. destruct (parse_field r1) as [r2 a| | |]; try discriminate. specialize (L2 r2 a eq_refl).
    destruct (TF r2) as [_ L3]. destruct (parse_field r2) as [r3 b| | |]; try discriminate. specialize (L3 r3 b eq_refl).
    destruct (TF r3) as [_ L4]. destruct (parse_field r3) as [r4 c| | |]; try discriminate. specialize (L4 r4 c eq_refl).
    destruct (tame_opt parse_field TF r4) as [_ L5]. destruct (opt (complete parse_field) r4) as [r5 d| | |]; try discriminate. specialize (L5 r5 d eq_refl).
    unfold expr_res in E. destruct (of_text ion l); [|discriminate]. destruct (of_text ion a); [|discriminate].
    assert (G : forall dyw : disco_deriv * bytes * bytes, (let '(deriv, y, w) := dyw in
      fun i => match to_result (parse_yield checked y) with
             | FPanic => Panic
             | FErr => Error
             | FOk ys => match to_result (parse_pseudocount ops iow w) with
                         | FOk weight => Done i (deriv, ys, weight)
                         | FErr => Error
                         | FPanic => Panic
                         end
             end) r5 = Done r x -> length r < length i).
    { intros [[deriv y] w] E'. destruct (to_result (parse_yield checked y)); try discriminate. destruct (to_result (parse_pseudocount ops iow w)); try discriminate. injection E' as <- _. lia. }
    destruct d as [d|]; [destruct (of_text ion b); [|discriminate]|]; unfold pret in E; [exact (G (_, _, _) E)|exact (G (_, _, _) E)].
  Qed.
  Lemma constituents_loop fuel : forall i, (exists r xs, sep_loop (tag newline) (parse_constituent ops ion iow checked) fuel i = Done r xs) \/ sep_loop (tag newline) (parse_constituent ops ion iow checked) fuel i = Panic.
  Proof.
    induction fuel as [|fuel IH]; intros i; cbn [sep_loop]; [left; eauto|]. destruct (tame_tag newline i) as [PS _]. destruct (tag newline i) as [i2 u| | |]; try congruence; [|left; eauto|left; eauto].
    destruct (Nat.eqb (length i2) (length i)); [left; eauto|]. destruct (constituent_total i2) as [-> |[-> |[-> |(r & x & -> & L)]]]; [left; eauto|left; eauto|now right|].
    replace (Nat.eqb (length r) (length i2)) with false by (symmetry; apply Nat.eqb_neq; lia). destruct (IH r) as [(s & xs & ->)| ->]; [left; eauto|now right].
  Qed.
  Lemma constituents_no_error text : discodop_of_text ops ion iow checked text <> FErr.
  Proof.
    unfold discodop_of_text, parse_discodop_constituents, separated_list, to_result. destruct (constituent_total text) as [-> |[-> |[-> |(r & x & -> & L)]]]; try discriminate.
    replace (Nat.eqb (length r) (length text)) with false by (symmetry; apply Nat.eqb_neq; lia). destruct (constituents_loop (length r) r) as [(s & xs & ->)| ->]; discriminate.
  Qed.
  Lemma lexer_listing text (ess : list (list (T * N * W))) : listing (eq newline) (lexer_line ops ion iot iow) text ess ->
    exists v, listing (eq newline) (lexer_line' ops ion iot iow) text v /\ lexer_all (W := W) ion iot v = Some (concat ess).
  Proof.
    assert (L1 : forall e es, lexer_line ops ion iot iow e es -> exists l, lexer_line' ops ion iot iow e l /\ lexer_entries (W := W) ion iot (fst l) (snd l) = Some es).
    { intros e es (wd & s & x & a & [Ww Ex] & Bs & -> & HL). destruct (lexer_named ops ion iot iow wd x es a Ex HL) as (pws & HP & HE). exists (wd, pws). split; [|assumption]. exists s, x, a. split; [now split|]. split; [assumption|]. split; [reflexivity|assumption]. }
    intros HL. induction HL as [e es He|e s t es ess He Hs Ht IH].
    - destruct (L1 _ _ He) as ([wd pws] & Hl & HE). exists [(wd, pws)]. split; [now apply l_one|]. cbn in *. now rewrite HE.
    - destruct (L1 _ _ He) as ([wd pws] & Hl & HE). destruct IH as (v & Hv & HA). exists ((wd, pws) :: v). split; [now apply l_cons|]. cbn in *. now rewrite HE, HA.
  Qed.
  Lemma lexer_before text rest ess : listing (eq newline) (lexer_line ops ion iot iow) text ess -> lone rest -> lexer_of_text ops ion iot iow (text ++ newline ++ rest) = FOk (concat ess).
  Proof.
    intros HL HR. destruct (lexer_listing text ess HL) as (v & HV & HA). unfold lexer_of_text, parse_discodop_lexer, map_opt.
    rewrite (lines_before (parse_lexer_line ops iow) (lexer_line' ops ion iot iow) text rest v HV); [now rewrite HA|now apply lexer_line_lone| |].
    - intros e [wd pws] (s & x & a & [[Wd _] _] & _ & -> & _). cbn [fst] in *. destruct wd; [congruence|discriminate].
    - intros e l r Hl Hr. eapply lexer_line_app; eauto.
  Qed.
  Lemma constituents_before text rest rs : listing (eq newline) (disco_line ops ion iow) text rs -> (forall r, In r rs -> narrow r) -> lone rest ->
    discodop_of_text ops ion iow checked (text ++ newline ++ rest) = FOk (map disco_of rs).
  Proof.
    intros HL HN HR. set (E' := fun e (x : disco_deriv * list (nat * BinNums.N) * W) => exists r, disco_line ops ion iow e r /\ narrow r /\ x = disco_of r).
    assert (HL' : listing (eq newline) E' text (map disco_of rs)) by (apply (listing_map disco_of _ _ _ text rs HL); intros e r Hr He; exists r; auto).
    unfold discodop_of_text, parse_discodop_constituents. rewrite (lines_before (parse_constituent ops ion iow checked) E' text rest (map disco_of rs) HL'); [reflexivity|now apply constituent_lone| |].
    - intros e x (r & (l & s1 & a & s2 & m & y & s4 & w & _ & _ & _ & -> & [[Wl _] _] & _) & _). destruct l; [congruence|discriminate].
    - intros e x u (r & Hr & Nr & ->) HU. apply disco_line_app; auto; [now apply line_end_token|now apply line_end_space].
  Qed.
End Disco.
Section Strings.
  Context {W : Type} (ops : num_ops W) (iow : text_io W).
  Lemma entries_strings wd pws : exists l, lexer_entries (W := W) string_io string_io wd pws = Some l.
  Proof. induction pws as [|[p w] pws (l & IH)]; cbn; [eauto|]. rewrite IH. eauto. Qed.
  Lemma all_strings v : exists l, lexer_all (W := W) string_io string_io v = Some l.
  Proof. induction v as [|[wd pws] v (l & IH)]; cbn; [eauto|]. destruct (entries_strings wd pws) as (l' & ->). rewrite IH. eauto. Qed.
  Lemma lexer_no_error text : exists lex, lexer_of_text ops string_io string_io iow text = FOk lex.
  Proof.
    unfold lexer_of_text, parse_discodop_lexer, map_opt. destruct (list_read (tag newline) (parse_lexer_line ops iow) (tame_tag newline) (tame_lexer_line ops iow) (shorter_lexer_line ops iow) text) as (r & v & ->).
    destruct (all_strings v) as (l & ->). eexists. reflexivity.
  Qed.
End Strings.
