(* Proofs about the command csparsing parse. *)
From Verif Require Import M_Nom Base BMap M_Util M_Recog M_Agenda M_Automata M_CFG M_TreeStack M_Grammar M_Chart M_CSAuto M_Estimates M_RuleMask M_ToDeriv M_KBest M_Cow M_CSParse M_Negra M_Text M_Command
  S_Recog S_Grammar S_Negra S_Text S_CS S_Cow S_RuleMask S_CSParse S_AutText S_Command P_Agenda P_Automata P_TreeStack P_Grammar P_Separate P_Negra P_Text P_AutText P_FromPmcfg3 P_CSParse Properties_Negra Properties_RuleMask.

(* ---- the input ---- *)
Lemma text_lines_app text ls : text_lines text ls -> lines [] text = ls.
Proof.
  induction 1 as [|l NE NL NC|l cr text ls NL NC HC HT IH]; [reflexivity|now apply lines_last|].
  destruct HC as [-> | ->]; cbn [app].
  - rewrite lines_app by exact NL. cbn [rev app]. now rewrite strip_cr_id, IH.
  - change ("013"%char :: newline ++ text) with (["013"%char] ++ newline ++ text). rewrite (app_assoc l). rewrite lines_app; [cbn [rev app]; now rewrite strip_cr_app, IH|]. intros C. apply in_app_iff in C. destruct C as [C|[C|[]]]; [now apply NL|discriminate].
Qed.
Lemma rsplit2_none sep t : ~ In sep t -> forall acc, rsplit2 sep acc t = (rev acc ++ t, None).
Proof.
  induction t as [|a t IH]; intros NI acc; cbn; [now rewrite app_nil_r|]. destruct (beqb a sep) eqn:E; [apply beqb_true in E; elim NI; now left|]. rewrite IH by (intros C; apply NI; now right). cbn. now rewrite <- app_assoc.
Qed.
Lemma rsplit2_app sep t : ~ In sep t -> forall w acc, rsplit2 sep acc (w ++ sep :: t) = (t, Some (rev acc ++ w)).
Proof.
  intros NI. induction w as [|a w IH]; intros acc; cbn [app rsplit2].
  - rewrite beqb_refl, (rsplit2_none sep t NI). cbn. now rewrite app_nil_r.
  - destruct (beqb a sep) eqn:E.
    + rewrite (IH []). cbn. apply beqb_true in E. now subst a.
    + rewrite IH. cbn. now rewrite <- app_assoc.
Qed.
Lemma rsplit2_missing sep w : (rsplit2 sep [] w = (w, None) /\ ~ In sep w) \/ exists front last, rsplit2 sep [] w = (last, Some front) /\ w = front ++ sep :: last /\ ~ In sep last.
Proof.
  destruct (in_dec ascii_dec sep w) as [Hin|NI]; [right|left; split; [now rewrite rsplit2_none|exact NI]].
  assert (X : exists front last, w = front ++ sep :: last /\ ~ In sep last).
  { clear -Hin. induction w as [|a w IH]; [destruct Hin|]. destruct (in_dec ascii_dec sep w) as [H|H]; [destruct (IH H) as (f & l & -> & NL); exists (a :: f), l; auto|]. destruct Hin as [->|Hin]; [|contradiction]. exists [], w. auto. }
  destruct X as (f & l & -> & NL). exists f, l. split; [now rewrite rsplit2_app|auto].
Qed.
Definition mode_of (with_pos : bool) (shown : list bytes) : dump_mode bytes := if with_pos then FromPos shown else Default.
Lemma sentence_split wl wp i line id tokens shown : sentence_of wl wp i line id tokens shown ->
  exists ws, split_line line wl i = Some (id, ws) /\ split_pos ws wp = Some (tokens, mode_of wp shown).
Proof.
  intros (ws & HL & HP). exists ws. split.
  - unfold split_line. destruct wl; [destruct HL as (n & HW & En); now rewrite (words_split _ _ HW), En|destruct HL as (HW & ->); now rewrite (words_split _ _ HW)].
  - unfold split_pos. destruct wp; [|destruct HP as (-> & ->); reflexivity]. destruct HP as (LE & NS & ->).
    assert (X : opt_all (fun wp => let '(pos, w) := rsplit2 "/" [] wp in option_map (pair pos) w) (map (fun p => fst p ++ «"/"» ++ snd p) (combine shown tokens)) = Some (combine tokens shown)).
    { clear HL. revert shown LE. induction tokens as [|t tokens IH]; intros [|w shown] LE; try discriminate; [reflexivity|]. cbn [combine map opt_all fst snd]. cbn [list_ascii_of_string app]. rewrite rsplit2_app by (apply NS; now left). cbn [option_map rev app].
      rewrite IH; [reflexivity|intros; apply NS; now right|]. cbn in LE. congruence. }
    rewrite X. unfold mode_of. f_equal. clear -LE. f_equal; [|f_equal]; revert shown LE; induction tokens as [|t tokens IH]; intros [|w shown] LE; try discriminate; try reflexivity; cbn; f_equal; apply IH; cbn in LE; congruence.
Qed.

(* ---- the trees ---- *)
Definition represents {N T W} (tree : gorn (prule N T W)) (d : dtree N T W) : Prop := sorted_keys addr_cmp (map fst tree) /\ forall addr, gt_get addr tree = rule_at d addr.
Fixpoint entries {N T W} (d : dtree N T W) : list (list nat * prule N T W) :=
  match d with
  | DNode r ts => ([], r) :: (fix go (i : nat) (ts : list (dtree N T W)) := match ts with [] => [] | t :: ts => map (fun e => (i :: fst e, snd e)) (entries t) ++ go (S i) ts end) 0 ts
  end.
Lemma in_entries {N T W} (d : dtree N T W) : forall a r, In (a, r) (entries d) <-> rule_at d a = Some r.
Proof.
  induction d as [r0 ts IH] using dtree_ind2. intros a r. cbn [entries In].
  assert (G : forall b, In (a, r) ((fix go (i : nat) (ts : list (dtree N T W)) := match ts with [] => [] | t :: ts => map (fun e => (i :: fst e, snd e)) (entries t) ++ go (S i) ts end) b ts) <->
    exists k a' t, a = (b + k) :: a' /\ nth_error ts k = Some t /\ rule_at t a' = Some r).
  { induction IH as [|t ts H1 H2 IHt]; intros b.
    - split; [intros []|]. intros ([|k] & a' & t & _ & E & _); discriminate.
    - rewrite in_app_iff, in_map_iff, IHt. split.
      + intros [([a' r'] & E & Hin)|(k & a' & t' & -> & E & R)].
        * cbn in E. injection E as <- <-. exists 0, a', t. rewrite Nat.add_0_r. split; [reflexivity|]. split; [reflexivity|]. now apply H1.
        * exists (S k), a', t'. split; [f_equal; lia|]. auto.
      + intros ([|k] & a' & t' & -> & E & R).
        * left. injection E as ->. exists (a', r). rewrite Nat.add_0_r. split; [reflexivity|now apply H1].
        * right. exists k, a', t'. split; [f_equal; lia|]. auto. }
  rewrite (G 0). destruct a as [|k a]; cbn [rule_at d_rule d_children].
  - split; [intros [E|(k & a' & t & E & _)]; [injection E as <-; reflexivity|discriminate]|intros E; left; injection E as <-; reflexivity].
  - split.
    + intros [E|(k2 & a2 & t & E & E1 & E2)]; [discriminate|]. injection E as -> ->. cbn [plus]. rewrite E1. exact E2.
    + intros E. right. destruct (nth_error ts k) as [t|] eqn:Et; [|discriminate]. exists k, a, t. auto.
Qed.
Lemma tree_of {N T W} (d : dtree N T W) : exists tree, represents tree d.
Proof.
  pose proof (fold_insert (entries d) [] I) as FI. cbn zeta in FI. set (t := fold_left (fun (m : gorn (prule N T W)) e => gt_insert (fst e) (snd e) m) (entries d) []) in *. exists t. destruct FI as (F1 & F2 & F3). split; [exact F1|]. intros a.
  destruct (gt_get a t) as [r'|] eqn:Eg.
  - destruct (F2 a r' Eg) as [Hin|Hn]; [|discriminate]. symmetry. now apply in_entries.
  - destruct (rule_at d a) as [r|] eqn:E; [|reflexivity]. exfalso. apply (F3 a); [|exact Eg]. left. exists r. now apply in_entries.
Qed.
Lemma deriv_rules {N T W} (P : prule N T W -> Prop) d : forall A, deriv P A d -> forall r, In r (d_rules d) -> P r.
Proof.
  induction d as [r0 ts IH] using dtree_ind2. intros A D r Hr. inversion D as [r1 ts1 HP HF E1 E2]; subst. cbn in Hr. destruct Hr as [<-|Hr]; [exact HP|]. apply in_flat_map in Hr. destruct Hr as (t & Ht & Hr).
  rewrite Forall_forall in IH. destruct (In_nth_error _ _ Ht) as (i & Ei). clear -IH HF Ht Hr. revert IH. induction HF as [|B t' tl ts D _ IHf]; intros IH; [destruct Ht|]. destruct Ht as [->|Ht]; [eapply (IH t (or_introl eq_refl)); eassumption|]. apply IHf; [exact Ht|]. intros x Hx. apply IH. now right.
Qed.
Lemma leaf_root {N T W} (d : dtree N T W) ls x : leaves d = Some ls -> In x ls -> fst x = [] -> exists r t, rule_at d [] = Some r /\ In (Tm t) (concat (pr_comp r)).
Proof.
  rewrite leaves_tags. destruct (tags d) as [y|] eqn:EY; [|discriminate]. cbn [option_map]. intros E Hx Ex. injection E as <-. apply in_map_iff in Hx. destruct Hx as ([[a p] t] & <- & Hz). cbn [fst] in Ex. subst a.
  destruct (tagged_in d (([], p), t) y EY Hz) as (r & Hr & Hin). cbn [fst] in Hr, Hin. apply tag_composition_pos in Hin. destruct Hin as (_ & k & _ & Hk). exists r, t. split; [exact Hr|eapply nth_error_In; exact Hk].
Qed.

(* rules put together from rules in normal form *)
Section Normal.
  Context {N T : Type} {K : ZWeight} (rules : list (prule N T K)) (f : N -> nat) (FO : fanouts_ok rules f) (NF : forall r, In r rules -> mask_nf r).
  Lemma rule_normal r : In r rules -> negra_normal (pr_comp r).
  Proof.
    intros Hr. destruct (NF r Hr) as (_ & [(t & Et)|A] & _); [right; exists t; now rewrite Et|]. left. intros x Hx. apply in_concat in Hx. destruct Hx as (c & Hc & Hx). destruct (A c Hc) as (_ & CV). destruct (CV x Hx) as (i & j & -> & _). eauto.
  Qed.
  Lemma terminal_rule r t : In r rules -> In (Tm t) (concat (pr_comp r)) -> pr_comp r = [[Tm t]].
  Proof.
    intros Hr Hin. destruct (NF r Hr) as (_ & [(t' & Et)|A] & _); [rewrite Et in *; destruct Hin as [E|[]]; congruence|]. apply in_concat in Hin. destruct Hin as (c & Hc & Hin). destruct (A c Hc) as (_ & CV). destruct (CV _ Hin) as (i & j & E & _). discriminate.
  Qed.
  Lemma merged_terminal r t : merged rules r -> In (Tm t) (concat (pr_comp r)) -> concat (pr_comp r) = [Tm t] /\ exists r0, In r0 rules /\ pr_head r0 = pr_head r /\ pr_comp r0 = [[Tm t]].
  Proof.
    intros (from & re & HC & _) Hin. 
    assert (ONE : forall j c, nth_error (pr_comp r) j = Some c -> In (Tm t) c -> j = 0 /\ c = [Tm t] /\ exists r0, In r0 rules /\ pr_head r0 = pr_head r /\ pr_comp r0 = [[Tm t]]).
    { intros j c Ec Hc. specialize (HC j c Ec). destruct (from j) as [o|]; [|subst c; destruct Hc]. destruct HC as (r0 & c0 & E0 & EH & Ec0 & ->). apply in_map_iff in Hc. destruct Hc as ([i l|t'] & E & Hc); [discriminate|]. cbn in E. injection E as ->.
      apply nth_error_In in E0. assert (P0 : pr_comp r0 = [[Tm t]]) by (apply terminal_rule; [exact E0|]; apply in_concat; exists c0; split; [eapply nth_error_In; exact Ec0|exact Hc]).
      rewrite P0 in Ec0. destruct j as [|[|j]]; cbn in Ec0; try discriminate. injection Ec0 as <-. split; [reflexivity|]. split; [reflexivity|eauto]. }
    apply in_concat in Hin. destruct Hin as (c & Hc & Hin). apply In_nth_error in Hc. destruct Hc as (j & Ej). destruct (ONE j c Ej Hin) as (-> & -> & r0 & Hr0 & EH & P0). split; [|eauto].
    destruct (pr_comp r) as [|c cs] eqn:EC; [discriminate|]. injection Ej as ->. assert (R0 : forall c, In c cs -> c = []).
    { intros c Hc. apply In_nth_error in Hc. destruct Hc as (k & Ek). specialize (HC (S k) c Ek). destruct (from (S k)) as [o|]; [|exact HC]. destruct HC as (r1 & c1 & E1 & EH1 & Ec1 & _). exfalso. apply nth_error_In in E1.
      pose proof (FO r0 Hr0) as L0. pose proof (FO r1 E1) as L1. rewrite EH, <- EH1 in L0. rewrite P0 in L0. assert (S k < length (pr_comp r1)) by (apply nth_error_Some; congruence). cbn in L0. lia. }
    cbn [concat app]. f_equal. clear -R0. induction cs as [|c cs IH]; [reflexivity|]. cbn. rewrite (R0 c) by now left. apply IH. intros; apply R0. now right.
  Qed.
  Lemma merged_normal r : merged rules r -> negra_normal (pr_comp r).
  Proof.
    intros HM. destruct (existsb (fun x => match x with Tm _ => true | _ => false end) (concat (pr_comp r))) eqn:E.
    - apply existsb_exists in E. destruct E as ([i j|t] & Hx & E); [discriminate|]. right. exists t. now apply merged_terminal.
    - left. intros [i j|t] Hx; [eauto|]. exfalso. assert (X : existsb (fun x : vart T => match x with Tm _ => true | _ => false end) (concat (pr_comp r)) = true) by (apply existsb_exists; exists (Tm t); auto). congruence.
  Qed.
End Normal.

(* ---- the output ---- *)
Section Print.
  Context {K : ZWeight}.
  Notation rule := (prule bytes bytes K).
  Notation print_tree := (print_tree (K := K)).
  Lemma line_row (l : ncol bytes * bytes * nat) : line_text (fun x => x) (fun x => x) l = row_text (row_of l).
  Proof. destruct l as [[c a] n]. unfold line_text, row_of, tab. cbn [fst snd row_text]. destruct c; reflexivity. Qed.
  Lemma tree_block id (ls : list (ncol bytes * bytes * nat)) :
    («"#BOS "» ++ usize_text id ++ newline ++ List.concat (map (line_text (fun x => x) (fun x => x)) ls) ++ «"#EOS "» ++ usize_text id) ++ newline = block id (map row_of ls).
  Proof.
    unfold block. rewrite map_map. rewrite (map_ext _ _ line_row). rewrite <- !app_assoc. reflexivity.
  Qed.
  Definition same_length (wp : bool) (tokens shown : list bytes) : Prop := if wp then length shown = length tokens else shown = tokens.
  Lemma sentence_length wl wp i line id tokens shown : sentence_of wl wp i line id tokens shown -> same_length wp tokens shown.
  Proof. intros (ws & _ & HP). destruct wp; [apply HP|destruct HP as (-> & ->); reflexivity]. Qed.
  Lemma noparse_block id wp tokens shown : same_length wp tokens shown -> print_noparse id (mode_of wp shown) tokens = no_parse id wp tokens shown.
  Proof.
    intros SL. unfold print_noparse, noparse, no_parse, block. rewrite map_app, concat_app. rewrite <- !app_assoc. do 3 f_equal. f_equal.
    - unfold mode_of. destruct wp; cbn [same_length] in SL.
      + clear. f_equal. rewrite map_map. apply map_ext. intros [p w]. reflexivity.
      + subst shown. f_equal. induction tokens as [|t ts IH]; [reflexivity|]. cbn [map combine]. f_equal. exact IH.
  Qed.
  Lemma print_shows (tree : gorn rule) d tokens shown wp id : represents tree d -> (forall r, In r (d_rules d) -> negra_normal (pr_comp r)) ->
    (forall r t, rule_at d [] = Some r -> ~ In (Tm t) (concat (pr_comp r))) -> yield d = Some [tokens] -> same_length wp tokens shown ->
    exists F text, (forall fuel, F <= fuel -> print_tree fuel id (mode_of wp shown) tree = Some text) /\ shows id shown d text.
  Proof.
    intros (S0 & HM) HN HR HY HL. pose proof (C37_words _ _ _ d) as CW. rewrite HY in CW. cbn [option_map List.concat] in CW. rewrite app_nil_r in CW. destruct (leaves d) as [ls|] eqn:EL; [|discriminate]. cbn [option_map] in CW. injection CW as CW.
    destruct (C37_export bytes bytes K d tree (mode_of wp shown) ls S0 HM) as (F & lines & E & NX).
    - intros addr r Hin. apply HN. apply d_rules_at. exists addr. rewrite <- HM. apply (bm_get_In addr_cmp addr_ord); assumption.
    - exact EL.
    - intros x Hx Ex. destruct (leaf_root d ls x EL Hx Ex) as (r & t & Hr & Ht). exact (HR r t Hr Ht).
    - intros ws Ew. unfold mode_of in Ew. destruct wp; [|discriminate]. injection Ew as <-. cbn in HL. rewrite HL, CW, map_length. lia.
    - exists F, (block id (map row_of lines)). split.
      + intros fuel HF. unfold M_Command.print_tree, to_negra_text. rewrite (E fuel HF). cbn [option_map]. f_equal. apply tree_block.
      + exists ls, lines. split; [exact EL|]. split; [|reflexivity].
        assert (MW : mode_words (mode_of wp shown) (map snd ls) = shown); [|now rewrite MW in NX]. unfold mode_of, mode_words. destruct wp; cbn in HL; [|congruence]. rewrite <- CW, <- HL. apply firstn_all.
  Qed.
  (* the loop over the trees *)
  Lemma print_trees_gives {St} (next : iter St (gorn rule)) fuel i mode : forall k s l texts, gives next s l -> Forall2 (fun t x => print_tree fuel i mode t = Some x) (firstn k l) texts ->
    print_trees fuel next i mode k s = Some (List.concat texts, negb (is_nil texts)).
  Proof.
    induction k as [|k IH]; intros s l texts G F2; [inversion F2; reflexivity|]. apply gives_iff in G. destruct G as (s' & E & G). cbn [print_trees]. rewrite E. destruct l as [|t l]; cbn [hd_error firstn] in *; [inversion F2; reflexivity|].
    inversion F2 as [|? x ? xs E1 F3]; subst. rewrite E1. rewrite (IH s' l xs G F3). reflexivity.
  Qed.
  Lemma bounded {X} (P : nat -> X -> bytes -> Prop) (Q : X -> bytes -> Prop) l : (forall x, In x l -> exists F y, (forall fuel, F <= fuel -> P fuel x y) /\ Q x y) ->
    exists F ys, (forall fuel, F <= fuel -> Forall2 (P fuel) l ys) /\ Forall2 Q l ys.
  Proof.
    induction l as [|x l IH]; intros HX; [exists 0, []; split; [intros; constructor|constructor]|].
    destruct (HX x (or_introl eq_refl)) as (F1 & y & E1 & Q1). destruct IH as (F2 & ys & E2 & Q2); [intros z Hz; apply HX; now right|].
    exists (Nat.max F1 F2), (y :: ys). split; [intros fuel HF; constructor; [apply E1|apply E2]; lia|constructor; assumption].
  Qed.
End Print.

(* ---- the printed text determines its columns ---- *)
Lemma split_sep (c c' r r' : bytes) a a' : column_ok c -> column_ok c' -> (a = "009"%char \/ a = "010"%char) -> (a' = "009"%char \/ a' = "010"%char) ->
  c ++ a :: r = c' ++ a' :: r' -> c = c' /\ a = a' /\ r = r'.
Proof.
  revert c'. induction c as [|x c IH]; intros [|x' c'] H1 H2 A1 A2 E; cbn in E; injection E as E1 E2.
  - auto.
  - subst x'. exfalso. destruct H2 as (H2 & H3), A1 as [->| ->]; [apply H2|apply H3]; now left.
  - subst x. exfalso. destruct H1 as (H1 & H3), A2 as [->| ->]; [apply H1|apply H3]; now left.
  - subst x'. destruct (IH c') as (-> & -> & ->); auto; split; intros C; [apply (proj1 H1)|apply (proj2 H1)|apply (proj1 H2)|apply (proj2 H2)]; now right.
Qed.
Lemma row_split cols : forall cols' r r', cols <> [] -> cols' <> [] -> (forall c, In c cols -> column_ok c) -> (forall c, In c cols' -> column_ok c) ->
  row_text cols ++ r = row_text cols' ++ r' -> cols = cols' /\ r = r'.
Proof.
  induction cols as [|c cols IH]; intros [|c' cols'] r r' N1 N2 H1 H2 E; try contradiction.
  assert (K : forall (c : bytes) cols, c :: cols <> [] -> exists a t, row_text (c :: cols) = c ++ a :: t /\ match cols with [] => a = "010"%char /\ t = [] | _ => a = "009"%char /\ t = row_text cols end).
  { intros x [|y l] _; [exists "010"%char, []|exists "009"%char, (row_text (y :: l))]; cbn; auto. }
  destruct (K c cols N1) as (a & t & Et & HK), (K c' cols' N2) as (a' & t' & Et' & HK'). clear K. rewrite Et, Et', <- !app_assoc in E. cbn [app] in E.
  apply split_sep in E; [|apply H1; now left|apply H2; now left|destruct cols; tauto|destruct cols'; tauto]. destruct E as (-> & <- & E).
  destruct cols as [|d cols], cols' as [|d' cols']; destruct HK as (-> & ->), HK' as (HA & ->); try discriminate; [cbn in E; now subst|].
  destruct (IH (d' :: cols') r r') as (-> & ->); auto; try discriminate; intros; [apply H1|apply H2]; now right.
Qed.
Lemma usize_text_column n : column_ok (usize_text n).
Proof. destruct (usize_label n) as (_ & W & _ & NL). split; [|exact NL]. intros C. apply W in C. discriminate. Qed.
Lemma rows_split rows : forall rows' e e' r r', table rows -> table rows' -> column_ok e -> column_ok e' ->
  List.concat (map row_text rows) ++ e ++ newline ++ r = List.concat (map row_text rows') ++ e' ++ newline ++ r' -> rows = rows' /\ e = e' /\ r = r'.
Proof.
  assert (X : forall row rows e e' r r', table (row :: rows) -> column_ok e -> column_ok e' -> e ++ newline ++ r = List.concat (map row_text (row :: rows)) ++ e' ++ newline ++ r' -> False).
  { clear rows. intros row rows e e' r r' HT He He' E. destruct (HT row (or_introl eq_refl)) as (L & HC). destruct row as [|c [|c2 row]]; try discriminate. cbn [map List.concat row_text] in E. rewrite <- !app_assoc in E. cbn [app newline list_ascii_of_string] in E.
    apply split_sep in E; [|exact He|apply HC; now left|now right|now left]. destruct E as (_ & E & _). discriminate. }
  induction rows as [|row rows IH]; intros [|row' rows'] e e' r r' H1 H2 He He' E.
  - cbn [map List.concat app] in E. change (e ++ "010"%char :: r = e' ++ "010"%char :: r') in E. apply split_sep in E; auto. destruct E as (-> & _ & ->). auto.
  - exfalso. eapply X; [exact H2|exact He|exact He'|exact E].
  - exfalso. symmetry in E. eapply X; [exact H1|exact He'|exact He|exact E].
  - cbn [map List.concat] in E. rewrite <- !app_assoc in E. destruct (H1 row (or_introl eq_refl)) as (L1 & C1), (H2 row' (or_introl eq_refl)) as (L2 & C2).
    apply row_split in E; auto; [|intros ->; discriminate|intros ->; discriminate]. destruct E as (-> & E). apply IH in E; auto; [|intros x Hx; apply H1; now right|intros x Hx; apply H2; now right]. destruct E as (-> & -> & ->). auto.
Qed.
Lemma blocks_split bs : forall bs', (forall b, In b bs -> (N.of_nat (fst b) < usize_bound)%N /\ table (snd b)) -> (forall b, In b bs' -> (N.of_nat (fst b) < usize_bound)%N /\ table (snd b)) ->
  List.concat (map (fun b => block (fst b) (snd b)) bs) = List.concat (map (fun b => block (fst b) (snd b)) bs') -> bs = bs'.
Proof.
  assert (CO : forall s n, column_ok s -> column_ok (s ++ usize_text n)) by (intros s n (A & B); destruct (usize_text_column n) as (C & D); split; intros E; apply in_app_iff in E; tauto).
  assert (CB : column_ok «"#BOS "» /\ column_ok «"#EOS "») by (split; split; intros C; cbn in C; repeat (destruct C as [C|C]; [discriminate|]); destruct C).
  induction bs as [|[i rows] bs IH]; intros [|[i' rows'] bs'] H1 H2 E; try reflexivity; try discriminate.
  cbn [map List.concat fst snd] in E. unfold block in E. rewrite <- !app_assoc in E. apply app_inv_head in E.
  change (usize_text i ++ "010"%char :: (List.concat (map row_text rows) ++ «"#EOS "» ++ usize_text i ++ newline ++ List.concat (map (fun b => block (fst b) (snd b)) bs)) = usize_text i' ++ "010"%char :: (List.concat (map row_text rows') ++ «"#EOS "» ++ usize_text i' ++ newline ++ List.concat (map (fun b => block (fst b) (snd b)) bs'))) in E.
  apply split_sep in E; auto using usize_text_column. destruct E as (EI & _ & E). rewrite !(app_assoc «"#EOS "») in E.
  destruct (H1 _ (or_introl eq_refl)) as (B1 & T1), (H2 _ (or_introl eq_refl)) as (B2 & T2). cbn [fst snd] in *. apply rows_split in E; auto; try (apply CO; apply CB). destruct E as (-> & _ & E).
  apply usize_text_back in B1, B2. rewrite EI in B1. assert (i = i') as -> by congruence. f_equal. apply IH; auto; intros b Hb; [apply H1|apply H2]; now right.
Qed.

(* ---- what is printed is a table ---- *)
Lemma words_column line ws : words line ws -> forall w, In w ws -> column_ok w.
Proof. induction 1 as [|s w t ws _ _ HW _ _ IH]; intros x []; [subst x|now apply IH]. split; intros C; apply HW in C; discriminate. Qed.
Lemma sentence_columns wl wp i line id tokens shown : sentence_of wl wp i line id tokens shown -> (forall w, In w shown -> column_ok w) /\ (forall w, In w tokens -> column_ok w).
Proof.
  intros (ws & HL & HP). assert (HW : forall w, In w ws -> column_ok w). { destruct wl; [destruct HL as (n & HW & _)|destruct HL as (HW & _)]; intros w Hw; eapply words_column; try exact HW; [now right|exact Hw]. }
  destruct wp; [|destruct HP as (-> & ->); auto]. destruct HP as (LE & _ & ->). 
  assert (X : forall p, In p (combine shown tokens) -> column_ok (fst p) /\ column_ok (snd p)).
  { intros p Hp. assert (C : column_ok (fst p ++ «"/"» ++ snd p)) by (apply HW; apply in_map_iff; eauto). destruct C as (A & B). rewrite !in_app_iff in A, B. unfold column_ok. tauto. }
  split; intros w Hw; apply In_nth_error in Hw; destruct Hw as (k & Ek).
  - destruct (nth_error tokens k) as [t|] eqn:Et; [|exfalso; apply nth_error_None in Et; assert (k < length shown) by (apply nth_error_Some; congruence); lia].
    apply (X (w, t)). clear -Ek Et. revert shown tokens Ek Et. induction k as [|k IH]; intros [|a s] [|b u] E1 E2; try discriminate; [left; cbn in *; congruence|right; now apply IH].
  - destruct (nth_error shown k) as [t|] eqn:Et; [|exfalso; apply nth_error_None in Et; assert (k < length tokens) by (apply nth_error_Some; congruence); lia].
    apply (X (t, w)). clear -Ek Et. revert shown tokens Ek Et. induction k as [|k IH]; intros [|a s] [|b u] E1 E2; try discriminate; [left; cbn in *; congruence|right; now apply IH].
Qed.
Lemma dash_columns : column_ok «"--"» /\ column_ok «"500"» /\ column_ok «"0"» /\ column_ok «"#500"» /\ column_ok «"NOPARSE"».
Proof. repeat split; intros C; cbn in C; repeat (destruct C as [C|C]; [discriminate|]); destruct C. Qed.
Lemma no_parse_table id wp tokens shown : (forall w, In w shown -> column_ok w) -> (forall w, In w tokens -> column_ok w) -> exists rows, table rows /\ no_parse id wp tokens shown = block id rows.
Proof.
  intros HS HT. destruct dash_columns as (D1 & D2 & D3 & D4 & D5). eexists. split; [|reflexivity]. intros row Hr. apply in_app_iff in Hr. destruct Hr as [Hr|[<-|[]]].
  - apply in_map_iff in Hr. destruct Hr as ([t w] & <- & Hp). cbn [fst snd]. split; [reflexivity|]. pose proof (in_combine_l _ _ _ _ Hp). pose proof (in_combine_r _ _ _ _ Hp).
    intros c [<-|[<-|[<-|[<-|[<-|[]]]]]]; auto. destruct wp; auto.
  - split; [reflexivity|]. intros c [<-|[<-|[<-|[<-|[<-|[]]]]]]; assumption.
Qed.
Lemma shows_table {W} id shown (d : dtree bytes bytes W) text : (forall w, In w shown -> column_ok w) -> (forall r, In r (d_rules d) -> column_ok (pr_head r)) -> shows id shown d text ->
  exists rows, table rows /\ text = block id rows.
Proof.
  intros HS HD (ls & lines & _ & (nodes & wl & nl & _ & _ & HWL & HNL & ->) & ->). destruct dash_columns as (D1 & _). eexists. split; [|reflexivity]. intros row Hr. apply in_map_iff in Hr. destruct Hr as (l & <- & Hl). split; [reflexivity|].
  assert (X : column_ok (match fst (fst l) with NWord w => w | NNode n => «"#"» ++ usize_text n end) /\ column_ok (snd (fst l))).
  { apply in_app_iff in Hl. destruct Hl as [Hl|Hl].
    - clear HNL. revert Hl. induction HWL as [|a l' w ws x xs HX _ IH]; [intros []|]. intros [<-|Hl]; [|apply IH; [|exact Hl]; intros; apply HS; now right].
      destruct HX as (r & p & i & n & Er & _ & _ & ->). cbn [fst snd]. split; [apply HS; now left|]. apply HD. apply d_rules_at. eauto.
    - clear HWL. clear HS. induction HNL as [|a x xs nl' HX _ IH]; [destruct Hl|]. destruct Hl as [<-|Hl]; [|now apply IH].
      destruct HX as (r & p & i & n & m & Er & _ & _ & _ & ->). cbn [fst snd]. split; [|apply HD; apply d_rules_at; eauto]. destruct (usize_text_column m) as (A & B). split; intros [C|C]; try discriminate; [now apply A|now apply B]. }
  intros c [<-|[<-|[<-|[<-|[<-|[]]]]]]; try apply X; try exact D1. apply usize_text_column.
Qed.
