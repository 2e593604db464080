From Coq Require Import NArith.
From Verif Require Import M_Nom Base BMap M_Util M_Recog M_Agenda M_Automata M_CFG M_TreeStack M_Grammar M_Chart M_FromPmcfg M_Text M_AutText M_Command M_Mcfg M_CfgCommand M_TsaCommand P_Agenda M_Main S_Main.
From Coq Require Import Lia ZArith.

Ltac Zify.zify_post_hook ::= Z.to_euclidean_division_equations.
Local Open Scope N_scope.
Lemma code_of n : n < 256 -> N_of_ascii (ascii_of_N n) = n.
Proof. apply N_ascii_embedding. Qed.
Lemma of_code a n : N_of_ascii a = n -> a = ascii_of_N n.
Proof. intros <-. symmetry. apply ascii_N_embedding. Qed.
Lemma code_bound a : N_of_ascii a < 256.
Proof. apply N_ascii_bounded. Qed.
Lemma byte_in_spec lo hi a : byte_in lo hi a = true <-> lo <= N_of_ascii a /\ N_of_ascii a <= hi.
Proof. unfold byte_in. rewrite andb_true_iff, !N.leb_le. reflexivity. Qed.
Lemma byte_out_spec lo hi a : byte_in lo hi a = false <-> N_of_ascii a < lo \/ hi < N_of_ascii a.
Proof. unfold byte_in. rewrite andb_false_iff, !N.leb_gt. reflexivity. Qed.
Lemma byte_code lo hi n : n < 256 -> byte_in lo hi (ascii_of_N n) = ((lo <=? n) && (n <=? hi)).
Proof. intros H. unfold byte_in. now rewrite code_of. Qed.
Lemma cont_in n : byte_in 128 191 (continuation n) = true.
Proof. unfold continuation. rewrite byte_code; [|lia]. apply andb_true_iff. rewrite !N.leb_le. lia. Qed.
Lemma cont_byte lo hi n : byte_in lo hi (continuation n) = ((lo <=? 128 + n mod 64) && (128 + n mod 64 <=? hi)).
Proof. unfold continuation. apply byte_code. lia. Qed.
Lemma utf8_step a s : utf8 (a :: s) =
  if byte_in 0 127 a then utf8 s
  else if byte_in 194 223 a then match s with b :: s => byte_in 128 191 b && utf8 s | _ => false end
  else if byte_in 224 239 a then
    match s with
    | b :: c :: s => byte_in (if byte_in 224 224 a then 160 else 128)%N (if byte_in 237 237 a then 159 else 191)%N b && byte_in 128 191 c && utf8 s
    | _ => false
    end
  else if byte_in 240 244 a then
    match s with
    | b :: c :: d :: s => byte_in (if byte_in 240 240 a then 144 else 128)%N (if byte_in 244 244 a then 143 else 191)%N b && byte_in 128 191 c && byte_in 128 191 d && utf8 s
    | _ => false
    end
  else false.
Proof. reflexivity. Qed.
Ltac dec := repeat match goal with
  | |- context [byte_in ?lo ?hi (ascii_of_N ?n)] =>
      let E := fresh in destruct (byte_in lo hi (ascii_of_N n)) eqn:E; [apply byte_in_spec in E|apply byte_out_spec in E]; rewrite code_of in E by lia; try lia
  end.
Lemma encode_ok c s : scalar c -> utf8 (encode c ++ s) = utf8 s.
Proof.
  intros HS. unfold encode, scalar in *.
  destruct (N.ltb_spec c 128); [|destruct (N.ltb_spec c 2048); [|destruct (N.ltb_spec c 65536)]]; cbn [app]; rewrite utf8_step.
  - dec. reflexivity.
  - rewrite cont_in. cbn [andb]. assert (B : 2 <= c / 64 < 32) by lia. generalize dependent (c / 64). intros q B. dec. reflexivity.
  - rewrite !cont_in, !cont_byte. assert (B : c / 4096 < 16) by lia. assert (X1 : c / 4096 = 0 -> 32 <= (c / 64) mod 64) by lia. assert (X2 : c / 4096 = 13 -> (c / 64) mod 64 < 32) by lia. assert (X3 : (c / 64) mod 64 < 64) by lia.
    revert B X1 X2 X3. generalize (c / 4096) ((c / 64) mod 64). intros q r. intros. dec; cbn [andb];
      repeat match goal with |- context [N.leb ?a ?b] => destruct (N.leb_spec a b); try lia end; reflexivity.
  - rewrite !cont_in, !cont_byte. assert (B : c / 262144 < 5) by lia. assert (X1 : c / 262144 = 0 -> 16 <= (c / 4096) mod 64) by lia. assert (X2 : c / 262144 = 4 -> (c / 4096) mod 64 < 16) by lia. assert (X3 : (c / 4096) mod 64 < 64) by lia.
    revert B X1 X2 X3. generalize (c / 262144) ((c / 4096) mod 64). intros q r. intros. dec; cbn [andb];
      repeat match goal with |- context [N.leb ?a ?b] => destruct (N.leb_spec a b); try lia end; reflexivity.
Qed.
Lemma code_cont a n : byte_in 128 191 a = true -> n mod 64 = N_of_ascii a - 128 -> continuation n = a.
Proof. intros HB E. apply byte_in_spec in HB. unfold continuation. rewrite E. symmetry. apply of_code. lia. Qed.
Lemma digits x y z w : y < 64 -> z < 64 -> w < 64 ->
  (x * 262144 + y * 4096 + z * 64 + w) mod 64 = w /\ ((x * 262144 + y * 4096 + z * 64 + w) / 64) mod 64 = z /\
  ((x * 262144 + y * 4096 + z * 64 + w) / 4096) mod 64 = y /\ (x * 262144 + y * 4096 + z * 64 + w) / 262144 = x.
Proof.
  intros HY HZ HW. set (c := x * 262144 + y * 4096 + z * 64 + w).
  assert (E1 : c / 64 = x * 4096 + y * 64 + z) by (symmetry; apply (N.div_unique _ _ _ w); unfold c; lia).
  assert (E2 : c / 4096 = x * 64 + y) by (symmetry; apply (N.div_unique _ _ _ (z * 64 + w)); unfold c; lia).
  assert (E3 : c / 262144 = x) by (symmetry; apply (N.div_unique _ _ _ (y * 4096 + z * 64 + w)); unfold c; lia).
  rewrite E1, E2, E3. repeat split; symmetry.
  - apply (N.mod_unique _ _ (x * 4096 + y * 64 + z)); unfold c; lia.
  - apply (N.mod_unique _ _ (x * 64 + y)); lia.
  - apply (N.mod_unique _ _ x); lia.
Qed.
Lemma utf8_text s : utf8 s = true <-> is_text s.
Proof.
  split.
  - enough (G : forall n s, (length s <= n)%nat -> utf8 s = true -> is_text s) by exact (G _ s (le_n _)).
    clear s. induction n as [|n IH]; intros [|a s] HL HU; try (exists []; split; [constructor|reflexivity]); [cbn in HL; lia|].
    rewrite utf8_step in HU. cbn [length] in HL.
    assert (STEP : forall c s', scalar c -> is_text s' -> is_text (encode c ++ s')).
    { intros c s' HC (cs & F & ->). exists (c :: cs). split; [now constructor|reflexivity]. }
    pose proof (code_bound a) as BA.
    destruct (byte_in 0 127 a) eqn:B1.
    { apply byte_in_spec in B1. replace (a :: s) with (encode (N_of_ascii a) ++ s).
      - apply STEP; [unfold scalar; lia|]. apply IH; [lia|exact HU].
      - unfold encode. destruct (N.ltb_spec (N_of_ascii a) 128); [|lia]. now rewrite ascii_N_embedding. }
    apply byte_out_spec in B1. destruct (byte_in 194 223 a) eqn:B2.
    { apply byte_in_spec in B2. destruct s as [|b s]; [discriminate|]. apply andb_true_iff in HU. destruct HU as [HB HU]. pose proof HB as HB'. apply byte_in_spec in HB'.
      set (c := (N_of_ascii a - 192) * 64 + (N_of_ascii b - 128)). replace (a :: b :: s) with (encode c ++ s).
      - apply STEP; [unfold scalar, c; lia|]. apply IH; [cbn in HL; lia|exact HU].
      - unfold encode. destruct (N.ltb_spec c 128); [unfold c in *; lia|]. destruct (N.ltb_spec c 2048); [|unfold c in *; lia]. cbn [app].
        rewrite (code_cont b) by (try exact HB; unfold c; lia). f_equal. symmetry. apply of_code. unfold c. lia. }
    apply byte_out_spec in B2. destruct (byte_in 224 239 a) eqn:B3.
    { apply byte_in_spec in B3. destruct s as [|b [|d s]]; try discriminate. apply andb_true_iff in HU. destruct HU as [HB HU]. apply andb_true_iff in HB. destruct HB as [HB HD].
      pose proof HD as HD'. apply byte_in_spec in HD'.
      assert (HB1 : byte_in 128 191 b = true). { apply byte_in_spec. apply byte_in_spec in HB. destruct (byte_in 224 224 a), (byte_in 237 237 a); lia. }
      pose proof HB1 as HB2. apply byte_in_spec in HB2. apply byte_in_spec in HB.
      assert (X1 : N_of_ascii a = 224 -> 160 <= N_of_ascii b). { intros E. assert (Y : byte_in 224 224 a = true) by (apply byte_in_spec; lia). rewrite Y in HB. tauto. }
      assert (X2 : N_of_ascii a = 237 -> N_of_ascii b <= 159). { intros E. assert (Y : byte_in 237 237 a = true) by (apply byte_in_spec; lia). rewrite Y in HB. tauto. }
      clear HB. set (c := 0 * 262144 + (N_of_ascii a - 224) * 4096 + (N_of_ascii b - 128) * 64 + (N_of_ascii d - 128)). replace (a :: b :: d :: s) with (encode c ++ s).
      - apply STEP; [unfold scalar, c; lia|]. apply IH; [cbn in HL; lia|exact HU].
      - unfold encode. destruct (N.ltb_spec c 128); [unfold c in *; lia|]. destruct (N.ltb_spec c 2048); [unfold c in *; lia|]. destruct (N.ltb_spec c 65536); [|unfold c in *; lia]. cbn [app].
        destruct (digits 0 (N_of_ascii a - 224) (N_of_ascii b - 128) (N_of_ascii d - 128)) as (D1 & D2 & D3 & D4); [lia..|]. fold c in D1, D2, D3, D4. rewrite N.mod_small in D3 by (apply N.div_lt_upper_bound; lia).
        rewrite (code_cont d _ HD D1), (code_cont b _ HB1 D2), D3. f_equal. symmetry. apply of_code. lia. }
    apply byte_out_spec in B3. destruct (byte_in 240 244 a) eqn:B4; [|discriminate].
    apply byte_in_spec in B4. destruct s as [|b [|d [|e s]]]; try discriminate. apply andb_true_iff in HU. destruct HU as [HB HU]. apply andb_true_iff in HB. destruct HB as [HB HE]. apply andb_true_iff in HB. destruct HB as [HB HD].
    pose proof HD as HD'. apply byte_in_spec in HD'. pose proof HE as HE'. apply byte_in_spec in HE'.
    assert (HB1 : byte_in 128 191 b = true). { apply byte_in_spec. apply byte_in_spec in HB. destruct (byte_in 240 240 a), (byte_in 244 244 a); lia. }
    pose proof HB1 as HB2. apply byte_in_spec in HB2. apply byte_in_spec in HB.
    assert (X1 : N_of_ascii a = 240 -> 144 <= N_of_ascii b). { intros E. assert (Y : byte_in 240 240 a = true) by (apply byte_in_spec; lia). rewrite Y in HB. tauto. }
    assert (X2 : N_of_ascii a = 244 -> N_of_ascii b <= 143). { intros E. assert (Y : byte_in 244 244 a = true) by (apply byte_in_spec; lia). rewrite Y in HB. tauto. }
    clear HB. set (c := (N_of_ascii a - 240) * 262144 + (N_of_ascii b - 128) * 4096 + (N_of_ascii d - 128) * 64 + (N_of_ascii e - 128)). replace (a :: b :: d :: e :: s) with (encode c ++ s).
    + apply STEP; [unfold scalar, c; lia|]. apply IH; [cbn in HL; lia|exact HU].
    + unfold encode. destruct (N.ltb_spec c 128); [unfold c in *; lia|]. destruct (N.ltb_spec c 2048); [unfold c in *; lia|]. destruct (N.ltb_spec c 65536); [unfold c in *; lia|]. cbn [app].
      destruct (digits (N_of_ascii a - 240) (N_of_ascii b - 128) (N_of_ascii d - 128) (N_of_ascii e - 128)) as (D1 & D2 & D3 & D4); [lia..|]. fold c in D1, D2, D3, D4.
      rewrite (code_cont e _ HE D1), (code_cont d _ HD D2), (code_cont b _ HB1 D3), D4. f_equal. symmetry. apply of_code. lia.
  - intros (cs & F & ->). induction F as [|c cs HC F IH]; [reflexivity|]. cbn [map concat]. now rewrite encode_ok.
Qed.
Close Scope N_scope.
Ltac Zify.zify_post_hook ::= idtac.

Lemma same_word (x y : bytes) : word_eqb x y = true <-> x = y.
Proof.
  unfold word_eqb. revert y. induction x as [|a x IH]; intros [|b y]; cbn; try (split; [discriminate|discriminate]); [tauto|].
  rewrite andb_true_iff, IH. unfold beqb. split; [intros [E ->]; f_equal; now apply Ascii.eqb_eq|intros E; injection E as -> ->; split; [apply Ascii.eqb_refl|reflexivity]].
Qed.
Lemma read_text s t : seen s t -> read_ignoring s = t.
Proof.
  unfold read_ignoring, read_to_string. intros [[HT ->]|[HT ->]].
  - apply utf8_text in HT. now rewrite HT.
  - destruct (utf8 s) eqn:E; [|reflexivity]. apply utf8_text in E. contradiction.
Qed.
Lemma seen_exists s : exists t, seen s t.
Proof.
  destruct (utf8 s) eqn:E.
  - exists s. left. split; [now apply utf8_text|reflexivity].
  - exists []. right. split; [|reflexivity]. intros X. apply utf8_text in X. congruence.
Qed.
Lemma lines_nil acc s : lines acc s = [] <-> acc = [] /\ s = [].
Proof.
  revert acc. induction s as [|a s IH]; intros acc; cbn [lines].
  - destruct acc; split; [auto|auto|discriminate|intros [X _]; discriminate].
  - split; [|intros [_ X]; discriminate]. destruct a as [[] [] [] [] [] [] [] []]; try discriminate; intros X; apply IH in X; destruct X; discriminate.
Qed.

(* the search behind an automaton without successors *)
Lemma search_none {I W : Type} (weight : I -> W) (leb : W -> W -> bool) (H : max_heap (I * W) (wi_leb leb)) succs n h :
  mh_content H h = [] -> search_calls_p (heap_agenda weight leb H) succs n h = Some (repeat None n, h).
Proof.
  intros HC. induction n as [|n IH]; [reflexivity|]. cbn [search_calls_p repeat]. unfold search_next_p. cbn [heap_agenda ag_pop].
  apply (mh_pop_none H) in HC. rewrite HC. cbn. now rewrite IH.
Qed.
Lemma collect_nil {I W : Type} (weight : I -> W) (leb : W -> W -> bool) (H : max_heap (I * W) (wi_leb leb)) : mh_content H (heap_collect weight leb H []) = [].
Proof. unfold heap_collect. cbn. apply Permutation_nil. symmetry. apply (mh_of_list_c H). Qed.
Lemma search_one {I W : Type} (weight : I -> W) (leb : W -> W -> bool) (H : max_heap (I * W) (wi_leb leb)) succs n x :
  succs x = Some [] -> exists h, search_calls_p (heap_agenda weight leb H) succs (S n) (heap_collect weight leb H [x]) = Some (Some x :: repeat None n, h).
Proof.
  intros HS. cbn [search_calls_p]. unfold search_next_p. cbn [heap_agenda ag_pop].
  pose proof (mh_of_list_c H [(x, weight x)]) as P. unfold heap_collect. cbn [map].
  destruct (mh_pop H (mh_of_list H [(x, weight x)])) as [[y h]|] eqn:E.
  - pose proof (mh_pop_some H _ _ _ E) as [Q _]. pose proof (Permutation_trans (Permutation_sym Q) P) as R. apply Permutation_sym, Permutation_length_1_inv in R. injection R as -> R.
    exists h. cbn [option_map fst snd]. rewrite HS. unfold ag_extend. cbn [fold_left]. pose proof (search_none weight leb H succs n h R) as X. cbn [heap_agenda ag_T] in *. rewrite X. reflexivity.
  - apply (mh_pop_none H) in E. rewrite E in P. apply Permutation_nil in P. discriminate.
Qed.

Section Blank.
  Context {K : ZWeight} (neqb teqb : bytes -> bytes -> bool) (wadd : K -> K -> K).
  Lemma perm_nil {X : Type} (f : list X -> list X) : (forall l, Permutation (f l) l) -> f [] = [].
  Proof. intros HP. apply Permutation_nil. symmetry. apply HP. Qed.
  Lemma ended_repeat {X Y : Type} (os : list (option X)) n (h : Y) : ended_calls (Some (os ++ repeat None (S n), h)) = true.
  Proof. unfold ended_calls. apply existsb_exists. exists None. split; [|reflexivity]. apply in_or_app. right. now left. Qed.
  Lemma until_repeat {X : Type} n : @M_Search.until_none X (repeat None n) = [].
  Proof. destruct n; reflexivity. Qed.
  (* a context-free grammar without rules has nothing to say about any line *)
  Lemma blank_cfg_line (H : max_heap (item (list nat) (pd_instr nat) nat K * K) (wi_leb wleb)) (Hb : minmax_heap (item (list nat) (pd_instr nat) nat K * K) (wi_leb wleb))
        shuffle order ds dw : (forall l, Permutation (shuffle l) l) -> (forall l, Permutation (order l) l) ->
    exists M, pda_from_cfg teqb wadd wzero neqb order (CFG [] []) = Some M /\
      forall n calls l, cfg_line teqb H Hb shuffle ds dw M n None (S (S calls)) l = Done newline.
  Proof.
    intros HS HO. eexists. split; [unfold pda_from_cfg, cfg_transitions; simpl; rewrite (perm_nil order HO); reflexivity|].
    intros n calls l. unfold cfg_line, cfg_found, pda_recognise, recognise_with, recognise_int. cbn [pa_t].
    destruct (split_whitespace [] l) as [|w ws].
    - cbn [opt_all init_items].
      set (A := pda_automaton shuffle _). set (x := (Conf [] (au_init A) wone, pd_new)).
      assert (HX : item_succs A x = Some []) by (unfold item_succs, x, A; cbn; now rewrite (perm_nil shuffle HS)).
      destruct (search_one item_weight wleb H (item_succs A) (S calls) x HX) as (h & E).
      assert (EE : ended_calls (search_calls_p (heap_agenda item_weight wleb H) (item_succs A) (S (S calls)) (heap_collect item_weight wleb H [x])) = true).
      { etransitivity; [apply f_equal; exact E|]. exact (ended_repeat [Some x] calls h). }
      match goal with |- context [match search_calls_p ?a ?b ?c ?d with Some _ => _ | None => _ end] => replace (search_calls_p a b c d) with (Some (Some x :: repeat None (S calls), h)) by (symmetry; exact E) end.
      change (M_Search.until_none (Some x :: repeat None (S calls))) with [x]. change (filter (fun i : item (list nat) (pd_instr nat) nat K => au_terminal A (fst i)) [x]) with (@nil (item (list nat) (pd_instr nat) nat K)).
      cbn [opt_all or_panic and_then]. match goal with |- context [ended_calls ?u] => replace (ended_calls u) with true by (symmetry; exact EE) end. cbn. now rewrite orb_true_r, firstn_nil.
    - cbn [opt_all int_find_key find_index init_items].
      set (A := pda_automaton shuffle _).
      pose proof (search_none item_weight wleb H (item_succs A) (S (S calls)) (heap_collect item_weight wleb H []) (collect_nil _ _ H)) as E.
      assert (EE : ended_calls (search_calls_p (heap_agenda item_weight wleb H) (item_succs A) (S (S calls)) (heap_collect item_weight wleb H [])) = true).
      { etransitivity; [apply f_equal; exact E|]. exact (ended_repeat [] (S calls) _). }
      match goal with |- context [match search_calls_p ?a ?b ?c ?d with Some _ => _ | None => _ end] => replace (search_calls_p a b c d) with (Some (repeat (@None (item (list nat) (pd_instr nat) nat K)) (S (S calls)), d)) by (symmetry; exact E) end.
      cbn [repeat M_Search.until_none filter opt_all or_panic and_then]. match goal with |- context [ended_calls ?u] => replace (ended_calls u) with true by (symmetry; exact EE) end. cbn. now rewrite orb_true_r, firstn_nil.
  Qed.
  (* nor has a multiple context-free grammar without rules about a line with a word *)
  Lemma blank_mcfg_line (reqb : prule bytes bytes K -> prule bytes bytes K -> bool) (H : max_heap (item (tstack nat) (ts_instr nat) nat K * K) (wi_leb wleb)) (Hb : minmax_heap (item (tstack nat) (ts_instr nat) nat K * K) (wi_leb wleb))
        shuffle display :
    exists M, tsa_from_pmcfg neqb reqb teqb (PMCFG [] []) = Some M /\
      forall n negra calls fuel i l, split_whitespace [] l <> [] -> mcfg_line teqb H Hb shuffle display M n None negra (S calls) fuel i l = Done newline.
  Proof.
    eexists. split; [reflexivity|].
    intros n negra calls fuel i l HL. unfold mcfg_line, found, tsa_recognise, recognise_with, recognise_int.
    destruct (split_whitespace [] l) as [|w ws]; [contradiction|]. cbn [opt_all ta_t tsa_new].
    change (int_find_key teqb (ta_t _) w) with (@None nat). cbn [init_items].
    set (A := tsa_automaton shuffle _).
    pose proof (search_none item_weight wleb H (item_succs A) (S calls) (heap_collect item_weight wleb H []) (collect_nil _ _ H)) as E.
    assert (EE : ended_calls (search_calls_p (heap_agenda item_weight wleb H) (item_succs A) (S calls) (heap_collect item_weight wleb H [])) = true).
    { etransitivity; [apply f_equal; exact E|]. exact (ended_repeat [] calls _). }
    match goal with |- context [match search_calls_p ?a ?b ?c ?d with Some _ => _ | None => _ end] => replace (search_calls_p a b c d) with (Some (repeat (@None (item (tstack nat) (ts_instr nat) nat K)) (S calls), d)) by (symmetry; exact E) end.
    cbn [repeat M_Search.until_none filter opt_all or_panic and_then]. rewrite firstn_nil. cbn [print_parses and_then]. match goal with |- context [ended_calls ?u] => replace (ended_calls u) with true by (symmetry; exact EE) end. cbn. now rewrite orb_true_r.
  Qed.
End Blank.
