(* C28: what the parser returns for grammars without chains of rules, with or without shared tokens: it always answers, the trees
   are a fixed finite list, and no derivation of the sentence is lost. *)
From Coq Require Import NArith.
From Verif Require Import Base BMap M_Util M_Recog M_Automata M_Agenda M_TreeStack M_Grammar M_Chart S_Chart P_Chart M_CSAuto M_Estimates M_RuleMask M_ToDeriv M_KBest M_Cow M_CSParse
  S_Grammar S_CS S_RuleMask S_Cow S_CSParse S_Loose P_TreeStack P_Grammar P_GrammarCFG P_Conversion P_CSAuto P_FillChart P_ToDeriv P_KBest P_KBestChart P_Cow P_CSParse P_Once P_Loose P_Total
  Properties_Chart Properties_Estimates Properties_RuleMask Properties_CSParse Properties_Loose.
Arguments Nat.ltb : simpl never. Arguments Nat.eqb : simpl never.

Section KBChart.
  Context {T : Type} {K : ZWeight} (KL : ZWeightLaws K) (teqb : T -> T -> bool) (H : max_heap (K * nat) (@item_leb K)) (H2 : max_heap (K * bt K) (@kb_leb K)).
  Context (a : automaton T K) (R : list (crule nat T K)) (PZ : presents teqb a R (states a)).
  Context (word : list T) (beam : nat) (delta : K) (outside : nat -> nat -> nat -> nat -> option (option K)) (rule_filter : list bool).
  Notation n := (length word). Notation ns := (states a).
  Context (Hn : n <= 255) (HB0 : beam <> 0) (HB : (N.of_nat beam <= 65535)%N).
  Context (HF : length R <= length rule_filter).
  Context (HO : forall q l r, q < ns -> span n l r -> outside q l r n <> None).
  Context (HW1 : forall x, In x R -> wleb (cr_weight x) wone = true) (HW0 : forall x, In x R -> cr_weight x <> wzero).
  Context (Hinit : au_initial a < ns) (Hne : word <> []).
  Context (rank : nat -> nat)
          (RANK : forall r q q1 w b, nth_error R r = Some (CRule q (RU q1) w b) -> nth_error rule_filter r = Some true -> rank q1 < rank q)
          (BR : forall r x, nth_error R r = Some x -> let '(b1, b2, b3) := cr_br x in match cr_rhs x with RB _ _ => is_br b3 | _ => is_br b1 /\ is_br b2 end).
  Notation rank' := (rank' a rank). Notation maxrank := (maxrank a rank).
  Lemma kbest_chart_total : exists c, fill_chart teqb H a word beam delta outside rule_filter = Some c /\ exists ts F,
    (forall fuel m, F <= fuel -> kiter_run H2 a c rule_filter fuel m (kiter_new H2) = Some (map (nth_error (map (ct_word R) ts)) (seq 0 m))) /\
    (ns <= beam -> delta = wzero -> forall t, aderiv R (ok word outside rule_filter) word (au_initial a) t 0 n -> In t ts).
  Proof.
    destruct (fill_chart_ok KL teqb H a R PZ word beam delta outside rule_filter Hn HB0 HB HF HO HW1 HW0) as (c & f & E & N1 & N2 & N3 & CR & SP & _). exists c. split; [exact E|].
    assert (Hn0 : 0 < n) by (destruct word; [contradiction|cbn; lia]).
    assert (LW : forall i j q w, span n i j -> (last_weight (f i j) q = Some w <-> In (q, w) (f i j))). { intros i j q w HS. apply (last_weight_iff KL); [apply (so_nodup _ _ _ _ _ _ _ _ _ _ (SP i j HS))|]. intros q' w' Hin. apply (so_state _ _ _ _ _ _ _ _ _ _ (SP i j HS)) in Hin. tauto. }
    assert (GW : forall i j q, span n i j -> q < ns -> get_weight c i j q = Some (last_weight (f i j) q)) by (intros i j q HS Hq; apply (get_weight_rep KL c f i j q CR); [now rewrite N1|now rewrite N2]).
    assert (HAS : forall i j q w, span n i j -> q < ns -> In (q, w) (f i j) -> has c i j q) by (intros i j q w HS Hq Hin; exists w; rewrite GW by assumption; f_equal; now apply LW).
    assert (RANK' : forall r q q1 w b, nth_error R r = Some (CRule q (RU q1) w b) -> nth_error rule_filter r = Some true -> rank' q1 < rank' q).
    { intros r q q1 w b Er Ef. destruct (pz_states _ _ _ _ PZ _ (nth_error_In _ _ Er)) as [Q1 Q2]. cbn in Q1, Q2. unfold P_KBestChart.rank'. rewrite (proj2 (Nat.ltb_lt q ns) Q1), (proj2 (Nat.ltb_lt q1 ns) Q2). eapply RANK; eassumption. }
    assert (UN : u8 (ch_n c) = n) by (rewrite N1; apply Nat.mod_small; unfold M_CSAuto.n; cbn; lia).
    destruct (kiter_total H2 teqb a R PZ c n rule_filter rank' maxrank HF (rank_le a R word beam rule_filter Hn HB0 HB HF Hinit rank) RANK') with (word := word) (root := (0, n, au_initial a)) as (ts & RUN & ALL).
    { intros i j q HS Hq. rewrite GW by assumption. discriminate. }
    { intros i j q HS Hq (w & G). rewrite GW in G by assumption. injection G as G. apply (LW _ _ _ _ HS) in G. apply In_nth_error in G. destruct G as (k & Hk). destruct (so_sound _ _ _ _ _ _ _ _ _ _ (SP i j HS) k q w Hk) as [B|(rid & q1 & w1 & rw & b & H1 & Er & [Ef _] & _)].
      - destruct B as [rid t w q b Ej Ew Er [Ef _]|mid rid q q1 q2 w w1 w2 b Hm H1 H3 Er [Ef _]].
        + exists (BNull rid w). split; [|exact I]. split; [unfold span in HS; lia|]. exists t, b. split; assumption.
        + assert (P1 : span n i mid) by (unfold span in *; lia). assert (P2 : span n mid j) by (unfold span in *; lia). destruct (rule_states teqb a R PZ _ _ _ _ _ Er) as (_ & Q1 & Q2). exists (BBin rid q1 mid q2 w 0 0). split; [|split; reflexivity]. split; [exact Hm|]. split; [exists b; split; assumption|]. split; [eapply HAS; eassumption|]. exists w2. rewrite GW by assumption. f_equal. exact H3.
      - destruct (rule_states teqb a R PZ _ _ _ _ _ Er) as (_ & Q1). exists (BUn rid q1 rw 0). split; [|reflexivity]. split; [exists b; split; assumption|]. eapply HAS; [exact HS|exact Q1|]. eapply firstn_In'. exact H1. }
    { exact BR. }
    { now rewrite UN. }
    { split; [split; lia|exact Hinit]. }
    exists ts, (S (mu rank' maxrank (0, n, au_initial a))). split; [intros fuel m HFu; apply RUN; lia|]. intros HB1 HD t D. apply ALL. rewrite UN. eapply aderiv_imp; [exact D|]. intros rid q' t' l' r' Ok D'. split; [apply Ok|]. left.
    assert (ST : span n l' r' /\ q' < ns). { pose proof (aderiv_cderiv _ _ _ _ _ _ _ D') as [L _]. split; [exact L|]. inversion D'; subst; match goal with Er : nth_error R _ = Some _ |- _ => pose proof (pz_states _ _ _ _ PZ _ (nth_error_In _ _ Er)) as X; apply X end. }
    destruct ST as [HS Hq]. destruct (entry_max KL a R word beam delta outside rule_filter Hn HB0 HB HF f SP q' t' l' r' D' (conj HB1 HD)) as (w & Hin & _). eapply HAS; eassumption.
  Qed.
End KBChart.

Section Parser.
  Context {N T : Type} {K : ZWeight} (KL : ZWeightLaws K) (neqb : N -> N -> bool) (teqb : T -> T -> bool) (NE : EqbSpec neqb) (TE : EqbSpec teqb).
  Context (factorize : K -> nat -> list K) (FL : FactorLaws factorize) (H : max_heap (K * nat) (@item_leb K)) (H2 : max_heap (K * bt K) (@kb_leb K)).
  Context (distinct : list nat -> list nat) (HD : forall l, NoDup (distinct l) /\ forall x, In x (distinct l) <-> In x l).
  Context (rules : list (prule N T K)) (init : N) (width : nat).
  Context (GO : grammar_ok neqb rules init) (HW : width <= 254) (CF : chain_free rules).
  Notation R := (cs_rules factorize rules).

  Lemma total_words : exists rep, cs_new neqb teqb factorize H distinct rules init width = Some rep /\ rep_rules rep = rules /\
    forall word beam delta, length word <= 255 -> settings_ok (states (rep_generator rep)) (Settings None beam delta) ->
    exists c mask us F, (forall cand, generate teqb H rep (Settings cand beam delta) word = Some (c, mask)) /\
      (forall fuel, F <= fuel -> gives (words_next H2 fuel rep c mask) (kiter_new H2) us) /\
      (no_pruning (states (rep_generator rep)) (Settings None beam delta) -> forall t, cderiv R (Non init 0) t word -> (forall rid, In rid (ct_rules t) -> nth_error mask rid = Some true) -> In (ct_word R t) us) /\
      exists m, rm_new neqb teqb distinct rules init = Some m /\ rm_build teqb m word = Some mask.
  Proof.
    destruct GO as [HN HF HC HS HWt]. destruct (C27_accepted_grammars N T K neqb rules init _ NE HN HF HC) as (IL & OC & NF). pose proof IL as (f & FO & FI & (ri & Hri & Hin0) & LR). pose proof HN as HN'. apply (lcfrs_new_ok neqb NE) in HN'. destruct HN' as (_ & _ & DT & _).
    destruct (from_grammar_presents neqb teqb NE TE factorize rules init) as (a & ints & E & ND & ST & PZ & II & EI & LI); [intros r Hr; apply NF; exact Hr|].
    assert (LIa : au_initial a < states a) by (apply LI; [|exact FL]; exists ri; split; [exact Hri|]; split; [exact Hin0|now apply HC]). clear LI.
    set (CR := map (code_rule neqb ints) R) in *.
    assert (W1 : forall x, In x CR -> wleb (cr_weight x) wone = true).
    { intros x Hx. apply in_map_iff in Hx. destruct Hx as (y & <- & Hy). cbn. revert y Hy. apply (cs_rules_weights factorize rules (fun w : K => wleb w wone = true)); [apply (w_refl KL)|]. intros r x Hr Hx. eapply (fl_one _ FL); [|exact Hx]. apply HWt. exact Hr. }
    assert (NZ : (wone : K) <> wzero).
    { intros E1. destruct (HWt ri Hri) as (_ & Hz). apply Hz. rewrite <- (wl_one_l _ (zl_weight _ KL) (pr_weight ri)), E1. apply (zl_zero_mul _ KL). }
    assert (W0 : forall x, In x CR -> cr_weight x <> wzero).
    { intros x Hx. apply in_map_iff in Hx. destruct Hx as (y & <- & Hy). cbn. revert y Hy. apply (cs_rules_weights factorize rules (fun w : K => w <> wzero)); [exact NZ|]. intros r x Hr Hx. eapply (fl_zero _ FL); [|exact Hx]. apply HWt. exact Hr. }
    destruct (outside_tables KL teqb H a CR PZ W1 W0 NZ LIa width HW) as (s & ES & OB).
    destruct (C27_mask_exact N T K neqb teqb distinct factorize rules init NE TE FL HD NF OC) as (m & EM & MB).
    exists (CSRep a s m rules). split; [|split; [reflexivity|]].
    { unfold cs_new. rewrite (proj2 (Nat.ltb_ge 255 width) ltac:(lia)), HF. cbn [negb]. unfold from_grammar. rewrite E. cbn [option_map fst]. now rewrite EM, ES. }
    cbn [rep_generator]. intros word beam delta Hn SO. destruct (MB word) as (mask & EB & LM & ME).
    set (b := match beam with Some b => b | None => states a end). unfold settings_ok in SO. cbn [s_beam] in SO.
    assert (HB : b <> 0 /\ (N.of_nat b <= 65535)%N) by (unfold b; destruct beam; [exact SO|split; [lia|exact SO]]). destruct HB as [HB0 HB].
    destruct (list_eq_nil word) as [Ew|Hne].
    { subst word. assert (OFF : forall k, nth_error mask k <> Some true). { intros k Hk. apply ME in Hk. destruct Hk as (i & r & _ & _ & _ & (d & D & HT) & _). destruct (nothing_usable rules width HW NF d _ D) as (r1 & t1 & X1 & X2). exact (HT r1 t1 X1 X2). }
      assert (EC : chart_new 0 (states a) b = Some (Chart (repeat 0 (chart_size 0)) (repeat (0, wzero : K) (chart_size 0 * b)) (repeat (wzero : K) (chart_size_with_states 0 (states a))) 0 (states a) b)) by (unfold chart_new; now rewrite (proj2 (N.leb_le _ _) HB)).
      eexists _, mask, [], 1. split; [|split; [|split]].
      - intros cand. unfold generate. cbn [s_beam s_delta rep_generator rep_estimates rep_mask]. fold b. rewrite EB. unfold fill_chart. cbn [length seq fold_p]. match goal with |- context [chart_new ?x ?y ?z] => change (chart_new x y z) with (chart_new (K:=K) 0 (states a) b) end. rewrite EC. reflexivity.
      - intros [|fuel] HFu; [lia|]. apply (quiet teqb H2 rules width HW a CR PZ); [reflexivity|exact LIa| |exact OFF]. unfold CR. now rewrite map_length.
      - intros _ t CD. exfalso. apply cderiv_nonempty in CD. now apply CD.
      - exists m. auto. }
    destruct CF as (rank & CFr).
    set (rk := fun q => match nth_error ints q with Some (Non A k) => rank A k | _ => 0 end).
    assert (CODE : forall x st, In x R -> In st (rstates x) -> nth_error ints (code neqb ints st) = Some st) by (intros x st Hx Hst; apply (code_nth neqb NE); [exact ND|now apply (ST x st Hx Hst)|reflexivity]).
    assert (CRI : forall rr y, nth_error CR rr = Some y -> exists x, nth_error R rr = Some x /\ y = code_rule neqb ints x) by (intros rr y Hy; apply nth_error_map_inv in Hy; exact Hy).
    destruct (kbest_chart_total KL teqb H H2 a CR PZ word b delta (so_get s) mask) with (rank := rk) as (c & EC & ts & F & RUN & ALL); try assumption.
    { unfold CR. rewrite map_length. lia. }
    { intros q l r Hq HSp. destruct (OB (length word) q l r Hq HSp) as [(_ & X)|[(_ & w & X & _)|(_ & X & _)]]; rewrite X; discriminate. }
    { intros rr q q1 w br Er _. destruct (CRI _ _ Er) as (x & Ex & Ec). destruct (cs_at factorize rules init f FI rr x Ex) as (i & r & k & c & w' & Ei & _ & Ek & Hx). pose proof (nth_error_In _ _ Ex) as HxR. destruct x as [lhs rhs xw xb]. unfold code_rule in Ec. cbn in Ec. injection Ec as -> Erhs _ _. destruct rhs as [|q1'|]; try discriminate. cbn in Erhs. injection Erhs as ->.
      unfold rk. rewrite (CODE _ q1' HxR) by (cbn; tauto). rewrite (CODE _ lhs HxR) by (cbn; tauto).
      destruct (comp_cases rules NF i r k c Ei Ek) as [(t0 & PC & -> & ->)|[C0 CV]]; [cbn in Hx; destruct Hx as [Hx|[]]; discriminate|]. destruct c as [|x1 [|x2 c]]; [contradiction| |].
      - destruct (CV x1 (or_introl eq_refl)) as (i1 & j1 & B & -> & HBt). cbn [cs_component] in Hx. destruct Hx as [Hx|[]]. rewrite (var_state_eq r k i1 j1 B HBt) in Hx. injection Hx as <- <- _ _. eapply CFr; [eapply nth_error_In; exact Ei|exact Ek|exact HBt].
      - apply in_component2 in Hx. destruct Hx as [Hx|(a0 & y & b0 & _ & Hx)]; discriminate. }
    { intros rr y Er. destruct (CRI _ _ Er) as (x & Ex & ->). destruct (cs_at factorize rules init f FI rr x Ex) as (i & r & k & c & w' & Ei & _ & Ek & Hx). pose proof (cs_bracket rules NF i r k c w' x Ei Ek Hx) as NB. pose proof (comp_cases rules NF i r k c Ei Ek) as CC. clear Ex Er. destruct x as [lhs rhs xw [[b1 b2] b3]]. cbn [code_rule cr_br cr_rhs] in *. destruct rhs as [t|q|q1 q2]; cbn [code_rhs]; [| |now apply (names_br _ i)].
      - split; [now apply (names_br _ i)|]. destruct CC as [(t0 & PC & -> & ->)|[C0 CV]].
        + cbn in Hx. destruct Hx as [Hx|[]]. injection Hx as _ _ _ _ <- _. reflexivity.
        + exfalso. destruct c as [|x1 [|x2 c]]; [contradiction| |]; [destruct (CV x1 (or_introl eq_refl)) as (i1 & j1 & B & -> & _); cbn in Hx; destruct Hx as [Hx|[]]; discriminate|]. apply in_component2 in Hx. destruct Hx as [Hx|(a0 & y & b0 & _ & Hx)]; discriminate.
      - split; [now apply (names_br _ i)|]. destruct CC as [(t0 & PC & -> & ->)|[C0 CV]].
        + cbn in Hx. destruct Hx as [Hx|[]]. discriminate.
        + destruct c as [|x1 [|x2 c]]; [contradiction| |]; [destruct (CV x1 (or_introl eq_refl)) as (i1 & j1 & B & -> & _); cbn in Hx; destruct Hx as [Hx|[]]; injection Hx as _ _ _ _ <- _; reflexivity|]. exfalso. apply in_component2 in Hx. destruct Hx as [Hx|(a0 & y & b0 & _ & Hx)]; discriminate. }
    exists c, mask, (map (ct_word R) ts), F. split; [|split; [|split]].
    - intros cand. unfold generate. cbn [s_beam s_delta rep_generator rep_estimates rep_mask]. fold b. now rewrite EB, EC.
    - intros fuel HFu m0. specialize (RUN fuel m0 HFu). assert (X : forall k s0, run (words_next H2 fuel (CSRep a s m rules) c mask) k s0 = kiter_run H2 a c mask fuel k s0). { induction k as [|k IHk]; intros s0; [reflexivity|]. cbn [run kiter_run]. unfold words_next at 1. cbn [rep_generator]. destruct (kiter_next H2 a c mask fuel s0) as [[r0 s1]|]; [|reflexivity]. now rewrite IHk. }
      rewrite X, RUN. f_equal. f_equal. f_equal. apply map_ext. intros t. apply ct_word_code.
    - intros [NP1 NP2] t CD EN. cbn [s_beam s_delta] in NP1, NP2. apply in_map. apply ALL; [unfold b; destruct beam; [exact NP1|lia]|exact NP2|].
      pose proof (cderiv_code neqb R ints _ _ _ CD) as D'. fold CR in D'. rewrite <- EI in D'. assert (LW : 0 < length word) by (destruct word; [contradiction|cbn; lia]).
      assert (AD : aderiv CR (fun rid _ _ _ => nth_error mask rid = Some true) word (au_initial a) t 0 (length word)) by (eapply cderiv_aderiv; [exact D'| |lia|lia|now rewrite sub_all]; intros; now apply EN).
      apply (needed teqb a CR PZ LIa s width (length word) word (fun q l r => OB (length word) q l r) eq_refl) in AD; [|lia|exists wone; rewrite Nat.sub_diag; constructor]. eapply aderiv_imp; [exact AD|]. intros rid q' t' l' r' [X1 X2] _. split; assumption.
    - exists m. auto.
  Qed.

  Lemma total_trees : exists rep, cs_new neqb teqb factorize H distinct rules init width = Some rep /\
    forall word beam delta, length word <= 255 -> settings_ok (states (rep_generator rep)) (Settings None beam delta) ->
    exists F fb (words : list (option (gorn (prule N T K)))),
      (forall cand fuel m, F <= fuel -> parse teqb H H2 fuel rep (Settings cand beam delta) word m = Some (map (nth_error (somes (fun x => x) (upto cand words))) (seq 0 m), fb)) /\
      (forall cand fuel, F <= fuel -> exists fb', debug teqb H H2 fuel rep (Settings cand beam delta) word = Some (length rules, length word,
         match hd_error (somes (fun x => x) (upto cand words)), fb' with Some t, _ => DParse t (inspected (fun x => x) (upto cand words)) | None, Some f => DFallback f (length (upto cand words)) | None, None => DNoparse end) /\
         fb' = match upto cand words with [] => None | _ => fb end) /\
      (forall tree, In (Some tree) words -> exists word' w, near rules init word word' /\ is_parse rules init word' tree w) /\
      (no_pruning (states (rep_generator rep)) (Settings None beam delta) -> forall tree w, is_parse rules init word tree w -> In (Some tree) words) /\
      (words = [] -> fb = None) /\ (words <> [] -> exists tree word', fb = Some tree /\ near rules init word word' /\ is_fallback rules init word' tree).
  Proof.
    destruct total_words as (rep & ER & RR & PW). exists rep. split; [exact ER|]. intros word beam delta Hn SO. destruct (PW word beam delta Hn SO) as (c & mask & us & F & EG & GV & ALL & m & EM & EB). clear PW.
    destruct (loose_words KL neqb teqb NE TE factorize FL H H2 distinct HD rules init width GO HW) as (rep' & ER' & _ & LWD). rewrite ER in ER'. injection ER' as <-. destruct (LWD word (Settings None beam delta) Hn SO) as (c' & mask' & EG' & KP). rewrite EG in EG'. injection EG' as <- <-.
    assert (US : forall u, In u us -> exists t word', u = ct_word R t /\ cderiv R (Non init 0) t word' /\ near rules init word word').
    { intros u Hu. destruct (KP F) as (P & P0 & KW). apply (keeps_run _ _ _ KW (length us) _ _ P0 (GV F (Nat.le_refl _) (length us)) u). apply In_nth_error in Hu. destruct Hu as (k & Hk). apply in_map_iff. exists k. split; [exact Hk|]. apply in_seq. apply nth_error_lt in Hk. lia. }
    clear LWD KP.
    destruct GO as [HN HF HC HS HWt]. destruct (C27_accepted_grammars N T K neqb rules init _ NE HN HF HC) as (IL & OC & NF). pose proof IL as (f & FO & FI & (ri & Hri & Hin0) & LR). pose proof HN as HN'. apply (lcfrs_new_ok neqb NE) in HN'. destruct HN' as (_ & _ & DT & _).
    assert (HS1 : forall r, In r rules -> length (pr_tail r) <= 256) by (intros r Hr; apply HS; exact Hr). assert (HS2 : forall r, In r rules -> length (pr_comp r) <= 256) by (intros r Hr; apply HS; exact Hr).
    set (g := fun u => match toderiv rules u with Some x => x | None => None end).
    assert (RD : forall u, In u us -> toderiv rules u = Some (g u)).
    { intros u Hu. destruct (US u Hu) as (t & word' & -> & D & _). destruct (reads KL factorize FL rules init f FO FI LR NF DT HS1 t word' D) as (X & _). unfold g. destruct (toderiv rules (ct_word R t)); [reflexivity|contradiction]. }
    assert (FB : forall u, In u us -> exists tree word', read_fallback rep u = Some tree /\ near rules init word word' /\ is_fallback rules init word' tree).
    { intros u Hu. destruct (US u Hu) as (t & word' & -> & D & NR). destruct (reads_fallback KL factorize rules init f LR NF HS1 t word' HS2 D) as (cw & d & tree & E1 & E2 & E3 & E4 & E5 & E6). exists tree, word'. unfold read_fallback. rewrite E1, RR. split; [exact E2|]. split; [exact NR|]. exists d. auto. }
    assert (FBX : exists fb, match hd_error us with None => Some None | Some w => option_map Some (read_fallback rep w) end = Some fb /\ (us = [] -> fb = None) /\ (us <> [] -> exists tree word', fb = Some tree /\ near rules init word word' /\ is_fallback rules init word' tree)).
    { destruct us as [|u us0]; [exists None; repeat split; auto; now intros []|]. destruct (FB u (or_introl eq_refl)) as (tree & word' & E1 & E2). exists (Some tree). cbn [hd_error]. rewrite E1. repeat split; [discriminate|intros _; exists tree, word'; auto]. }
    destruct FBX as (fb & EF & F1 & F2).
    assert (SM : forall l, somes (fun x => x) (map g l) = somes g l) by (intros l; rewrite somes_map; reflexivity).
    exists (Nat.max F (S (length us))), fb, (map g us).
    assert (RDL : forall c x, In x (upto c us) -> toderiv rules x = Some (g x)) by (intros c0 x Hx; apply upto_incl in Hx; now apply RD).
    assert (LU : forall X (c : option nat) (l : list X), length (upto c l) <= length l) by (intros X [k|] l; cbn; [rewrite firstn_length|]; lia).
    split; [|split; [|split; [|split; [|split]]]].
    - intros cand fuel k HFu. unfold parse, with_fallback. rewrite EG. destruct (gives_peek _ _ _ (GV fuel ltac:(lia))) as (ws & EP & GP). rewrite EP. rewrite EF. cbn [s_candidates].
      pose proof (gives_filter_map (toderiv rules) g _ _ fuel _ (RDL cand) (gives_take _ _ _ cand GP)) as GF. unfold trees_next. rewrite RR. rewrite GF by (eapply Nat.le_lt_trans; [apply LU|]; lia). rewrite (upto_map g), SM. reflexivity.
    - intros cand fuel HFu. unfold debug. rewrite EG. destruct (gives_peek _ _ _ (gives_take _ _ _ cand (GV fuel ltac:(lia)))) as (ws & EP & GP). cbn [s_candidates]. rewrite EP, RR. cbn zeta.
      destruct (search_gives (toderiv rules) g _ _ fuel _ (RDL cand) GP) as (s' & l' & ES & _); [eapply Nat.le_lt_trans; [apply LU|]; lia|]. rewrite ES.
      assert (HD1 : hd_error (somes g (upto cand us)) = hd_error (somes (fun x => x) (upto cand (map g us)))) by now rewrite (upto_map g), SM.
      assert (IN1 : inspected g (upto cand us) = inspected (fun x => x) (upto cand (map g us))).
      { rewrite (upto_map g). generalize (upto cand us). intros l. induction l as [|u l IH]; [reflexivity|]. cbn. destruct (g u); [reflexivity|]. now rewrite IH. }
      assert (IN2 : forall l : list (option (gorn (prule N T K))), hd_error (somes (fun x => x) l) = None -> inspected (fun x => x) l = length l).
      { induction l as [|[x|] l IH]; intros E0; [reflexivity|discriminate|]. cbn in *. now rewrite IH. }
      rewrite HD1, IN1.
      destruct (upto cand us) as [|u us1] eqn:EU.
      + assert (upto cand (map g us) = []) as -> by (rewrite upto_map, EU; reflexivity). exists None. split; reflexivity.
      + destruct us as [|t ts0]; [destruct cand as [[|]|]; discriminate|]. assert (EU2 : exists us', upto cand (map g (t :: ts0)) = g t :: us') by (destruct cand as [[|k]|]; [discriminate| |]; cbn; eauto). destruct EU2 as (us' & EU2). assert (u = t) as -> by (destruct cand as [[|k]|]; cbn in EU; congruence).
        destruct F2 as (ft & word' & -> & FT); [discriminate|]. cbn [hd_error option_map] in EF. destruct (read_fallback rep t) as [ft1|] eqn:ERF; [|discriminate]. injection EF as ->.
        exists (Some ft). rewrite EU2. split; [|reflexivity]. cbn [hd_error]. destruct (hd_error (somes (fun x => x) (g t :: us'))) as [tr|] eqn:EH; [reflexivity|]. rewrite (IN2 _ EH). rewrite ERF. reflexivity.
    - intros tree Hw. apply in_map_iff in Hw. destruct Hw as (u & Eh & Hu). pose proof (RD u Hu) as ET. rewrite Eh in ET. destruct (US u Hu) as (t & word' & -> & D & NR).
      destruct (reads KL factorize FL rules init f FO FI LR NF DT HS1 t word' D) as (_ & X). destruct (X tree ET) as (X1 & d & X2 & X3 & X4 & X5). exists word', (ct_weight R t). split; [exact NR|]. exists d. auto.
    - intros NP tree w (d & D1 & D2 & D3 & D4 & D5). destruct (covers KL factorize FL rules init f FO FI LR NF HS1 d word D1 D2) as (t & tree' & C1 & C2 & C3 & C4 & C5 & C6).
      assert (Ht : In (ct_word R t) us).
      { apply ALL; [exact NP|exact C1|]. intros rid Hr. destruct (C6 rid Hr) as (i & r & Ei & Ec & Ed). destruct (C27_needed_rules_are_enabled N T K neqb teqb distinct factorize rules init word d NE TE FL HD NF IL D1 D2) as (m' & mask' & EM' & EB' & X). rewrite EM in EM'. injection EM' as <-. rewrite EB in EB'. injection EB' as <-. eapply X; eassumption. }
      apply in_map_iff. exists (ct_word R t). split; [|exact Ht]. unfold g. rewrite C3. f_equal. apply tree_ext; [exact C4|exact D4|]. intros a0. now rewrite C5, D5.
    - intros E0. apply F1. destruct us; [reflexivity|discriminate].
    - intros E0. apply F2. intros ->. now apply E0.
  Qed.
End Parser.

(* Grammars without chains of rules, with any tokens: the parser always answers, whatever the settings, and any fuel from F on
   gives the same answer.  What it yields is a fixed list of derivations of near words, settings for candidates cut it off, and
   if nothing is pruned every derivation of the sentence itself is in it.  So of C28_parser_partial only the order and
   the uniqueness need tokens_apart and root_token (C28_shared_tokens_refuted), and "of the sentence" becomes "near to the sentence". *)
Theorem C28_nothing_lost :
  forall (N T : Type) (K : ZWeight) (neqb : N -> N -> bool) (teqb : T -> T -> bool) (factorize : K -> nat -> list K)
    (H : max_heap (K * nat) (@item_leb K)) (H2 : max_heap (K * bt K) (@kb_leb K)) (distinct : list nat -> list nat)
    (rules : list (prule N T K)) (init : N) (width : nat),
    ZWeightLaws K -> EqbSpec neqb -> EqbSpec teqb -> FactorLaws factorize -> (forall l, NoDup (distinct l) /\ forall x, In x (distinct l) <-> In x l) ->
    grammar_ok neqb rules init -> width <= 254 -> chain_free rules ->
    exists rep, cs_new neqb teqb factorize H distinct rules init width = Some rep /\
    forall word beam delta, length word <= 255 -> settings_ok (states (rep_generator rep)) (Settings None beam delta) ->
    exists F fb (all : list (gorn (prule N T K))),
      (forall tree, In tree all -> exists word' w, near rules init word word' /\ is_parse rules init word' tree w) /\
      (no_pruning (states (rep_generator rep)) (Settings None beam delta) -> forall tree w, is_parse rules init word tree w -> In tree all) /\
      (forall tree, fb = Some tree -> exists word', near rules init word word' /\ is_fallback rules init word' tree) /\ (all <> [] -> fb <> None) /\
      (forall fuel m, F <= fuel -> parse teqb H H2 fuel rep (Settings None beam delta) word m = Some (map (nth_error all) (seq 0 m), fb)) /\
      (exists count, counts count (length all) /\
         forall c fuel m, F <= fuel -> parse teqb H H2 fuel rep (Settings (Some c) beam delta) word m = Some (map (nth_error (firstn (count c) all)) (seq 0 m), fb)).
Proof.
  intros N T K neqb teqb factorize H H2 distinct rules init width KL NE TE FL HD GO HW CF.
  destruct (total_trees KL neqb teqb NE TE factorize FL H H2 distinct HD rules init width GO HW CF) as (rep & ER & P). exists rep. split; [exact ER|].
  intros word beam delta Hn SO. destruct (P word beam delta Hn SO) as (F & fb & words & E & _ & SD & CP & F1 & F2). exists F, fb, (somes (fun x => x) words).
  assert (W0 : {words = []} + {words <> []}) by (destruct words; [now left|now right]).
  split; [|split; [|split; [|split; [|split]]]].
  - intros tree Hw. apply SD. apply somes_in in Hw. destruct Hw as (x & Hx & ->). exact Hx.
  - intros NP tree w IP. apply somes_in. exists (Some tree). split; [|reflexivity]. now apply (CP NP tree w).
  - intros tree Ef. destruct W0 as [W0|W0]; [rewrite (F1 W0) in Ef; discriminate|]. destruct (F2 W0) as (tree' & word' & E1 & E2). rewrite Ef in E1. injection E1 as <-. eauto.
  - intros A0. destruct W0 as [->|W0]; [now elim A0|]. destruct (F2 W0) as (tree' & word' & -> & _). discriminate.
  - intros fuel m HF. apply (E None fuel m HF).
  - exists (fun c => length (somes (fun x => x) (firstn c words))). split.
    + split; [reflexivity|]. split.
      * assert (Y : forall (l : list (option (gorn (prule N T K)))) c, length (somes (fun x => x) (firstn c l)) <= length (somes (fun x => x) (firstn (S c) l)) <= S (length (somes (fun x => x) (firstn c l)))); [|apply Y].
        induction l as [|x l IH]; intros [|c]; try (cbn; lia); [destruct x; cbn; lia|]. specialize (IH c). rewrite !(firstn_cons _ x l). unfold somes in *. cbn [flat_map]. rewrite !app_length. lia.
      * exists (length words). intros c Hc. now rewrite firstn_all2.
    + intros c fuel m HF. rewrite (E (Some c) fuel m HF). cbn [upto]. assert (SA : somes (fun x => x) words = somes (fun x => x) (firstn c words) ++ somes (fun x => x) (skipn c words)) by (unfold somes; rewrite <- flat_map_app, firstn_skipn; reflexivity). rewrite SA, firstn_app, Nat.sub_diag, firstn_all, firstn_O, app_nil_r. reflexivity.
Qed.
Print Assumptions C28_nothing_lost.

(* The same for debug: it always reports something, a tree iff one is yielded within the candidates. *)
Theorem C28_debug_answers :
  forall (N T : Type) (K : ZWeight) (neqb : N -> N -> bool) (teqb : T -> T -> bool) (factorize : K -> nat -> list K)
    (H : max_heap (K * nat) (@item_leb K)) (H2 : max_heap (K * bt K) (@kb_leb K)) (distinct : list nat -> list nat)
    (rules : list (prule N T K)) (init : N) (width : nat),
    ZWeightLaws K -> EqbSpec neqb -> EqbSpec teqb -> FactorLaws factorize -> (forall l, NoDup (distinct l) /\ forall x, In x (distinct l) <-> In x l) ->
    grammar_ok neqb rules init -> width <= 254 -> chain_free rules ->
    exists rep, cs_new neqb teqb factorize H distinct rules init width = Some rep /\
    forall word cand beam delta, length word <= 255 -> settings_ok (states (rep_generator rep)) (Settings None beam delta) ->
    exists F, forall fuel, F <= fuel -> exists res, debug teqb H H2 fuel rep (Settings cand beam delta) word = Some (length rules, length word, res) /\
      exists first fb, parse teqb H H2 fuel rep (Settings cand beam delta) word 1 = Some ([first], fb) /\
      match res with
      | DParse tree n => first = Some tree /\ 1 <= n /\ match cand with Some c => n <= c | None => True end
      | DFallback tree n => first = None /\ fb = Some tree /\ 1 <= n /\ match cand with Some c => n <= c | None => True end /\
          (cand = None -> no_pruning (states (rep_generator rep)) (Settings None beam delta) -> forall tree' w', ~ is_parse rules init word tree' w')
      | DNoparse => first = None /\ (cand <> Some 0 -> fb = None) /\
          (cand = None -> no_pruning (states (rep_generator rep)) (Settings None beam delta) -> forall tree' w', ~ is_parse rules init word tree' w')
      end.
Proof.
  intros N T K neqb teqb factorize H H2 distinct rules init width KL NE TE FL HD GO HW CF.
  destruct (total_trees KL neqb teqb NE TE factorize FL H H2 distinct HD rules init width GO HW CF) as (rep & ER & P). exists rep. split; [exact ER|].
  intros word cand beam delta Hn SO. destruct (P word beam delta Hn SO) as (F & fb & words & E & ED & SD & CP & F1 & F2). exists F. intros fuel HF. destruct (ED cand fuel HF) as (fb' & E' & Efb'). eexists. split; [exact E'|].
  exists (nth_error (somes (fun x => x) (upto cand words)) 0), fb. split; [apply (E cand fuel 1 HF)|].
  assert (LU : match cand with Some c => length (upto cand words) <= c | None => True end) by (destruct cand; cbn; [rewrite firstn_length; lia|exact I]).
  assert (LI : forall l : list (option (gorn (prule N T K))), inspected (fun x => x) l <= length l /\ (l <> [] -> 1 <= inspected (fun x => x) l)).
  { induction l as [|[x|] l IH]; cbn; [split; [lia|now intros []]|split; lia|]. split; [lia|intros _; lia]. }
  destruct (somes (fun x => x) (upto cand words)) as [|tree rest] eqn:ES; cbn [hd_error nth_error].
  - assert (NO : cand = None -> no_pruning (states (rep_generator rep)) (Settings None beam delta) -> forall tree' w', ~ is_parse rules init word tree' w').
    { intros -> NP tree' w' IP. apply (CP NP) in IP. cbn [upto] in ES. assert (X : In tree' (somes (fun x => x) words)) by (apply somes_in; eauto). now rewrite ES in X. }
    subst fb'. destruct (upto cand words) as [|x l] eqn:EU.
    + split; [reflexivity|]. split; [|exact NO]. intros HC0. apply F1. destruct cand as [[|c]|]; [contradiction| |exact EU]. now destruct words.
    + destruct F2 as (tree & word' & -> & IF). { intros ->. destruct cand as [[|c]|]; discriminate. } split; [reflexivity|]. split; [reflexivity|]. split; [cbn; lia|]. split; [|exact NO]. destruct cand; [exact LU|exact I].
  - assert (Hin : In (Some tree) (upto cand words)). { assert (X : In tree (somes (fun x => x) (upto cand words))) by (rewrite ES; now left). apply somes_in in X. destruct X as (x & Hx & ->). exact Hx. }
    split; [reflexivity|]. split.
    + apply LI. intros E0. now rewrite E0 in Hin.
    + destruct cand; [|exact I]. etransitivity; [apply LI|exact LU].
Qed.
Print Assumptions C28_debug_answers.

(* ex_dup shares tokens and has no chains.  Its one derivation for 7 7 is the last one of the twelve trees. *)
Example C28_nothing_lost_example :
  grammar_ok Nat.eqb ex_dup 0 /\ chain_free ex_dup /\ ~ tokens_apart ex_dup /\
  is_parse ex_dup 0 [7; 7] (ex_dup_t 7 5 7 5) (Some 13 : TropWeight) /\
  exists trees fb, trop_parse 50 ex_dup 0 build_generator [7; 7] 20 = Some (trees, fb) /\ nth_error trees 11 = Some (Some (ex_dup_t 7 5 7 5)) /\ nth_error trees 12 = Some None.
Proof.
  destruct C28_shared_tokens_refuted as (G & C & _). split; [exact G|]. split; [exact C|]. split; [|split].
  - intros TA. specialize (TA (ex_csr 3 [] [[Tm 7]] 5) 7 (DNode (ex_csr 3 [] [[Tm 8]] 1) []) 8). assert (8 = 7); [|discriminate]. apply TA; [cbn; auto 10|reflexivity| |reflexivity].
    refine (deriv_node _ (ex_csr 3 [] [[Tm 8]] 1) [] _ _); [cbn; auto 10|constructor].
  - apply (ex_dup_parse 7 5 7 5); cbn; auto 10.
  - eexists _, _. split; [vm_compute; reflexivity|]. split; reflexivity.
Qed.
