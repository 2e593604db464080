(* C28, C30: what the parser returns for every grammar it accepts, with or without chains of rules and shared tokens. *)
From Coq Require Import NArith.
From Verif Require Import Base BMap M_Util M_Recog M_Automata M_Agenda M_TreeStack M_Grammar M_Chart S_Chart P_Chart M_CSAuto M_Estimates M_RuleMask M_ToDeriv M_KBest M_Cow M_CSParse
  S_Grammar S_CS S_RuleMask S_Cow S_CSParse S_Loose P_TreeStack P_Grammar P_GrammarCFG P_Conversion P_CSAuto P_FillChart P_ToDeriv P_KBest P_KBestChart P_Cow P_CSParse P_Once P_Loose
  Properties_Chart Properties_Estimates Properties_RuleMask Properties_CSParse.
Arguments Nat.ltb : simpl never. Arguments Nat.eqb : simpl never.

Section Parser.
  Context {N T : Type} {K : ZWeight} (KL : ZWeightLaws K) (neqb : N -> N -> bool) (teqb : T -> T -> bool) (NE : EqbSpec neqb) (TE : EqbSpec teqb).
  Context (factorize : K -> nat -> list K) (FL : FactorLaws factorize) (H : max_heap (K * nat) (@item_leb K)) (H2 : max_heap (K * bt K) (@kb_leb K)).
  Context (distinct : list nat -> list nat) (HD : forall l, NoDup (distinct l) /\ forall x, In x (distinct l) <-> In x l).
  Context (rules : list (prule N T K)) (init : N) (width : nat).
  Context (GO : grammar_ok neqb rules init) (HW : width <= 254).
  Notation R := (cs_rules factorize rules).

  Lemma loose_words : exists rep, cs_new neqb teqb factorize H distinct rules init width = Some rep /\ rep_rules rep = rules /\
    forall word st, length word <= 255 -> settings_ok (states (rep_generator rep)) st ->
    exists c mask, generate teqb H rep st word = Some (c, mask) /\ forall fuel, exists P,
      P (kiter_new H2) /\ keeps (words_next H2 fuel rep c mask) P (fun u => exists t word', u = ct_word R t /\ cderiv R (Non init 0) t word' /\ near rules init word word').
  Proof.
    destruct GO as [HN HF HC HS HWt]. destruct (C27_accepted_grammars N T K neqb rules init _ NE HN HF HC) as (IL & OC & NF). pose proof IL as (f & FO & FI & (ri & Hri & Hin0) & LR). pose proof HN as HN'. apply (lcfrs_new_ok neqb NE) in HN'. destruct HN' as (_ & _ & DT & _).
    destruct (from_grammar_presents neqb teqb NE TE factorize rules init) as (a & ints & E & ND & ST & PZ & II & EI & LI); [intros r Hr; apply NF; exact Hr|].
    assert (LIa : au_initial a < states a) by (apply LI; [|exact FL]; exists ri; split; [exact Hri|]; split; [exact Hin0|now apply HC]). clear LI.
    set (CR := map (code_rule neqb ints) R) in *.
    assert (W1 : forall x, In x CR -> wleb (cr_weight x) wone = true).
    { intros x Hx. apply in_map_iff in Hx. destruct Hx as (y & <- & Hy). cbn. revert y Hy. apply (cs_rules_weights factorize rules (fun w : K => wleb w wone = true)); [apply (w_refl KL)|]. intros r x Hr Hx. eapply (fl_one _ FL); [|exact Hx]. apply HWt. exact Hr. }
    assert (NZ : (wone : K) <> wzero).
    { intros E1. destruct (HWt ri Hri) as (_ & Hz). apply Hz. rewrite <- (wl_one_l _ (zl_weight _ KL) (pr_weight ri)), E1. apply (zl_zero_mul _ KL). }
    assert (W0 : forall x, In x CR -> cr_weight x <> wzero).
    { intros x Hx. apply in_map_iff in Hx. destruct Hx as (y & <- & Hy). cbn. revert y Hy. apply (cs_rules_weights factorize rules (fun w : K => w <> wzero)); [exact NZ|]. intros r x Hr Hx. eapply (fl_zero _ FL); [|exact Hx]. apply HWt. exact Hr. }
    destruct (outside_tables KL teqb H a CR PZ W1 W0 NZ LIa width HW) as (s & ES & OB).
    destruct (C27_mask_exact N T K neqb teqb distinct factorize rules init NE TE FL HD NF OC) as (m & EM & MB).
    exists (CSRep a s m rules). split; [|split; [reflexivity|]].
    { unfold cs_new. rewrite (proj2 (Nat.ltb_ge 255 width) ltac:(lia)), HF. cbn [negb]. unfold from_grammar. rewrite E. cbn [option_map fst]. now rewrite EM, ES. }
    cbn [rep_generator]. intros word st Hn SO. destruct (MB word) as (mask & EB & LM & ME).
    set (b := match s_beam st with Some b => b | None => states a end). unfold settings_ok in SO.
    assert (HB : b <> 0 /\ (N.of_nat b <= 65535)%N) by (unfold b; destruct (s_beam st); [exact SO|split; [lia|exact SO]]). destruct HB as [HB0 HB].
    assert (LMC : length CR <= length mask) by (unfold CR; rewrite map_length; lia).
    destruct (fill_chart_ok KL teqb H a CR PZ word b (s_delta st) (so_get s) mask) as (c & fe & EC & C1 & C2 & C3 & CRP & SP & _); try assumption.
    { intros q l r Hq HSp. destruct (OB (length word) q l r Hq HSp) as [(_ & X)|[(_ & w & X & _)|(_ & X & _)]]; rewrite X; discriminate. }
    exists c, mask. split; [unfold generate; cbn [rep_generator rep_estimates rep_mask]; fold b; now rewrite EB, EC|]. intros fuel.
    exists (fun k => kinv H2 CR c mask (ki_d H2 k)). split; [intros v derivs h Ev; discriminate|].
    assert (CRI : forall rr y, nth_error CR rr = Some y -> exists x, nth_error R rr = Some x /\ y = code_rule neqb ints x) by (intros rr y Hy; apply nth_error_map_inv in Hy; exact Hy).
    assert (DEC : forall q st t u, In st ints -> code neqb ints st = q -> cderiv CR q t u -> cderiv R st t u) by (intros q st' t u Hst Hq D; apply (cderiv_decode neqb NE R ints ND (fun x s Hx Hs => proj2 (ST x s Hx Hs)) q t u D st' Hst Hq)).
    assert (TERM : forall rr x q t w br, nth_error R rr = Some x -> code_rule neqb ints x = CRule q (RT t) w br -> exists r, In r rules /\ pr_comp r = [[Tm t]] /\ q = code neqb ints (Non (pr_head r) 0) /\ In (Non (pr_head r) 0) ints).
    { intros rr x q t w br Ex Ec. destruct (cs_at factorize rules init f FI rr x Ex) as (i & r & k & c' & w' & Ei & _ & Ek & Hx). destruct x as [lhs rhs xw xb]. unfold code_rule in Ec. cbn in Ec. injection Ec as Eq Erhs _ _. destruct rhs as [t'| |]; try discriminate. cbn in Erhs. injection Erhs as ->.
      destruct (comp_cases rules NF i r k c' Ei Ek) as [(t0 & PC & -> & ->)|[C0 CV]].
      - cbn in Hx. destruct Hx as [Hx|[]]. injection Hx as <- -> <- <-. exists r. split; [eapply nth_error_In; exact Ei|]. split; [exact PC|]. split; [congruence|]. eapply (ST _ (Non (pr_head r) 0)); [eapply nth_error_In; exact Ex|now left].
      - exfalso. destruct c' as [|x1 [|x2 c']]; [contradiction| |]; [destruct (CV x1 (or_introl eq_refl)) as (i1 & j1 & B & -> & _); cbn in Hx; destruct Hx as [Hx|[]]; discriminate|]. apply in_component2 in Hx. destruct Hx as [Hx|(a0 & y & b0 & _ & Hx)]; discriminate. }
    assert (BRK : forall r x, nth_error CR r = Some x -> let '(b1, b2, b3) := cr_br x in match cr_rhs x with RB _ _ => is_br b3 | _ => is_br b1 /\ is_br b2 end).
    { intros rr y Er. destruct (CRI _ _ Er) as (x & Ex & ->). destruct (cs_at factorize rules init f FI rr x Ex) as (i & r & k & c' & w' & Ei & _ & Ek & Hx). pose proof (cs_bracket rules NF i r k c' w' x Ei Ek Hx) as NB. pose proof (comp_cases rules NF i r k c' Ei Ek) as CC. clear Ex Er. destruct x as [lhs rhs xw [[b1 b2] b3]]. cbn [code_rule cr_br cr_rhs] in *. destruct rhs as [t|q|q1 q2]; cbn [code_rhs]; [| |now apply (names_br _ i)].
      - split; [now apply (names_br _ i)|]. destruct CC as [(t0 & PC & -> & ->)|[C0 CV]].
        + cbn in Hx. destruct Hx as [Hx|[]]. injection Hx as _ _ _ _ <- _. reflexivity.
        + exfalso. destruct c' as [|x1 [|x2 c']]; [contradiction| |]; [destruct (CV x1 (or_introl eq_refl)) as (i1 & j1 & B & -> & _); cbn in Hx; destruct Hx as [Hx|[]]; discriminate|]. apply in_component2 in Hx. destruct Hx as [Hx|(a0 & y & b0 & _ & Hx)]; discriminate.
      - split; [now apply (names_br _ i)|]. destruct CC as [(t0 & PC & -> & ->)|[C0 CV]].
        + cbn in Hx. destruct Hx as [Hx|[]]. discriminate.
        + destruct c' as [|x1 [|x2 c']]; [contradiction| |]; [destruct (CV x1 (or_introl eq_refl)) as (i1 & j1 & B & -> & _); cbn in Hx; destruct Hx as [Hx|[]]; injection Hx as _ _ _ _ <- _; reflexivity|]. exfalso. apply in_component2 in Hx. destruct Hx as [Hx|(a0 & y & b0 & _ & Hx)]; discriminate. }
    intros k x k' KI EN. unfold words_next in EN. cbn [rep_generator] in EN. apply (kiter_ok H2 teqb a CR PZ c mask BRK) in EN; [|exact KI]. destruct EN as [KI' X]. split; [exact KI'|]. destruct x as [u|]; [|exact I].
    assert (UN : u8 (ch_n c) = length word) by (rewrite C1; apply Nat.mod_small; unfold M_CSAuto.n; cbn; lia).
    destruct X as (t & word' & -> & D & LW & LO & _). rewrite UN in LW, LO.
    exists t, word'. split; [apply ct_word_code|]. split; [apply (DEC (au_initial a)); [exact II|now rewrite EI|exact D]|].
    assert (TK : forall p t', nth_error word' p = Some t' -> exists t, nth_error word p = Some t /\ (taken_for rules t t' \/ exists r, word = [t] /\ word' = [t'] /\ In r rules /\ pr_head r = init /\ pr_comp r = [[Tm t']])).
    { intros p t' Hp. assert (Lp : p < length word) by (rewrite <- LW; apply nth_error_Some; congruence). destruct (nth_error word p) as [t0|] eqn:E0; [|apply nth_error_None in E0; lia]. exists t0. split; [reflexivity|].
      destruct (LO p t' Hp) as (rr & q & w & br & (_ & Er) & HV). destruct (CRI _ _ Er) as (x & Ex & Ec). destruct (TERM rr x q t' w br Ex (eq_sym Ec)) as (r & Hr & PC & Eq & Hint). destruct HV as [(g & G)|HV].
      - left. assert (Q : q < states a) by (eapply (rule_states teqb a CR PZ); exact Er). assert (SPp : span (length word) p (S p)) by (split; lia). rewrite (get_weight_rep KL c fe p (S p) q CRP) in G; [|rewrite C1; exact SPp|rewrite C2; exact Q]. injection G as G. apply last_weight_In in G.
        destruct (entry_derivation KL a CR word b (s_delta st) (so_get s) mask Hn HB0 HB LMC fe SP 2 p (S p) SPp ltac:(lia) q g G) as (t1 & AD & _). apply aderiv_cderiv in AD. destruct AD as [_ AD]. rewrite (sub_one _ _ _ E0) in AD. apply (DEC _ (Non (pr_head r) 0)) in AD; [|exact Hint|now symmetry].
        destruct (cderiv_k KL factorize rules NF _ _ _ _ AD) as (kt & KD & _). destruct (single_token rules init f FO FI LR NF DT kt (pr_head r) [t0] t0 KD) as (d & Dd & Yd); [rewrite <- (FO r Hr), PC; reflexivity|reflexivity|]. exists r, d. auto.
      - right. injection HV as -> L1 ->. exists r. rewrite EI in Eq. apply (code_inj neqb NE ints) in Eq; [|exact ND|exact II|exact Hint]. injection Eq as Eq. destruct word as [|x1 [|x2 word]]; try discriminate. cbn in E0. injection E0 as ->. destruct word' as [|y1 [|y2 word']]; try discriminate. cbn in Hp. injection Hp as ->. auto. }
    clear -TK LW. destruct (nth_error word' 0) as [t0|] eqn:E0.
    - destruct (TK 0 t0 E0) as (t & Et & [X|(r & X1 & X2 & X3)]); [|right; exists t, t0, r; auto].
      assert (D : (exists t t' r, word = [t] /\ word' = [t'] /\ In r rules /\ pr_head r = init /\ pr_comp r = [[Tm t']]) \/ forall p t', nth_error word' p = Some t' -> exists t, nth_error word p = Some t /\ taken_for rules t t').
      { destruct word as [|x1 [|x2 word]]; [discriminate| |].
        - right. intros [|p] t' Hp; [|apply nth_error_lt in Hp; cbn in *; lia]. rewrite E0 in Hp. injection Hp as <-. cbn in Et. exists t. auto.
        - right. intros p t' Hp. destruct (TK p t' Hp) as (t1 & Et1 & [Y|(r & Y & _)]); [eauto|discriminate]. }
      destruct D as [D|D]; [right; exact D|left]. clear TK X Et E0 t t0. revert word LW D. induction word' as [|y word' IH]; intros [|x word] LW D; try discriminate; [constructor|]. constructor.
      + destruct (D 0 y eq_refl) as (t & Et & X). cbn in Et. injection Et as ->. exact X.
      + apply IH; [now injection LW|]. intros p t' Hp. apply (D (S p) t' Hp).
    - left. destruct word'; [|discriminate]. destruct word; [constructor|discriminate].
  Qed.

  Lemma loose_trees : exists rep, cs_new neqb teqb factorize H distinct rules init width = Some rep /\
    forall word st fuel, length word <= 255 -> settings_ok (states (rep_generator rep)) st ->
    (forall m trees fb, parse teqb H H2 fuel rep st word m = Some (trees, fb) ->
      (forall tree, In (Some tree) trees -> exists word' w, near rules init word word' /\ is_parse rules init word' tree w) /\
      (forall tree, fb = Some tree -> exists word', near rules init word word' /\ is_fallback rules init word' tree)) /\
    (forall n1 n2 res, debug teqb H H2 fuel rep st word = Some (n1, n2, res) -> n1 = length rules /\ n2 = length word /\
      match res with
      | DParse tree _ => exists word' w, near rules init word word' /\ is_parse rules init word' tree w
      | DFallback tree _ => exists word', near rules init word word' /\ is_fallback rules init word' tree
      | DNoparse => True
      end).
  Proof.
    destruct loose_words as (rep & ER & RR & LWD). exists rep. split; [exact ER|]. intros word st fuel Hn SO. destruct (LWD word st Hn SO) as (c & mask & EG & KP). destruct (KP fuel) as (P & P0 & KW). clear LWD KP.
    destruct GO as [HN HF HC HS HWt]. destruct (C27_accepted_grammars N T K neqb rules init _ NE HN HF HC) as (IL & OC & NF). pose proof IL as (f & FO & FI & (ri & Hri & Hin0) & LR). pose proof HN as HN'. apply (lcfrs_new_ok neqb NE) in HN'. destruct HN' as (_ & _ & DT & _).
    assert (HS1 : forall r, In r rules -> length (pr_tail r) <= 256) by (intros r Hr; apply HS; exact Hr). assert (HS2 : forall r, In r rules -> length (pr_comp r) <= 256) by (intros r Hr; apply HS; exact Hr).
    match type of KW with keeps _ _ ?Q => set (good := Q) in KW end.
    assert (TD : forall u tree, good u -> toderiv rules u = Some (Some tree) -> exists word' w, near rules init word word' /\ is_parse rules init word' tree w).
    { intros u tree (t & word' & -> & D & NR) ET. destruct (reads KL factorize FL rules init f FO FI LR NF DT HS1 t word' D) as (_ & X). destruct (X tree ET) as (X1 & d & X2 & X3 & X4 & X5). exists word', (ct_weight R t). split; [exact NR|]. exists d. auto. }
    assert (TF : forall u tree, good u -> read_fallback rep u = Some tree -> exists word', near rules init word word' /\ is_fallback rules init word' tree).
    { intros u tree (t & word' & -> & D & NR) ET. destruct (reads_fallback KL factorize rules init f LR NF HS1 t word' HS2 D) as (cw & d & tree' & E1 & E2 & E3 & E4 & E5 & E6). unfold read_fallback in ET. rewrite E1, RR, E2 in ET. injection ET as ->. exists word'. split; [exact NR|]. exists d. auto. }
    split.
    - intros m trees fb EP. unfold parse, with_fallback in EP. rewrite EG in EP. destruct (peek (words_next H2 fuel rep c mask) (None, kiter_new H2)) as [[first ws]|] eqn:EK; [|discriminate]. apply (keeps_peek _ _ _ KW) in EK; [|exact P0]. destruct EK as (P1 & F1 & Q1).
      destruct (match first with None => Some None | Some w => option_map Some (read_fallback rep w) end) as [fb'|] eqn:EF; [|discriminate]. destruct (run (trees_next H2 fuel rep c mask) m (false, s_candidates st, ws)) as [ts|] eqn:ERN; [|discriminate]. injection EP as <- <-. split.
      + pose proof (keeps_filter (toderiv rules) _ _ _ _ fuel (keeps_take count_candidates _ _ _ (keeps_peekable _ _ _ KW)) TD) as KF. unfold trees_next in ERN. rewrite RR in ERN. intros tree Ht.
        apply (keeps_run _ _ _ KF m _ _) with (x := tree) in ERN; [exact ERN| |exact Ht]. cbn [snd]. split; [exact P1|]. rewrite F1. destruct first; [exact Q1|exact I].
      + intros tree ->. destruct first as [u|]; [|discriminate]. destruct (read_fallback rep u) as [tree'|] eqn:ERF; [|discriminate]. cbn in EF. injection EF as ->. eapply TF; eassumption.
    - intros n1 n2 res EP. unfold debug in EP. rewrite EG in EP. cbn zeta in EP. pose proof (keeps_take count_candidates _ _ _ KW) as KT. destruct (peek _ _) as [[first s]|] eqn:EK in EP; [|discriminate]. apply (keeps_peek _ _ _ KT) in EK; [|exact P0]. destruct EK as (P1 & F1 & Q1).
      destruct (filter_map_search (toderiv (rep_rules rep)) (peekable_next (take_while_next count_candidates (words_next H2 fuel rep c mask))) fuel s) as [[[ot k] s']|] eqn:EM; [|discriminate]. rewrite RR in *.
      assert (TO : match ot with Some tree => exists word' w, near rules init word word' /\ is_parse rules init word' tree w | None => True end).
      { pose proof (keeps_filter (toderiv rules) _ _ _ _ fuel (keeps_peekable _ _ _ KT) TD) as KF. apply (KF s ot s'); [split; [exact P1|rewrite F1; destruct first; [exact Q1|exact I]]|]. unfold filter_map_next. now rewrite EM. }
      destruct ot as [tree|]; [injection EP as <- <- <-; auto|]. destruct first as [u|]; [|injection EP as <- <- <-; auto]. destruct (read_fallback rep u) as [tree|] eqn:ERF; [|discriminate]. injection EP as <- <- <-. split; [reflexivity|]. split; [reflexivity|]. eapply TF; eassumption.
  Qed.
End Parser.

(* For every grammar that is accepted, all settings and any number of steps: each tree that comes out is a derivation of the
   grammar, for a word that is the sentence up to tokens which one nonterminal derives besides each other (C28_tokens_refuted
   and C28_root_refuted show both deviations).  The same holds for the fallback and for what debug reports.  No condition on
   chains of rules or on tokens is needed; what is lost without them is order, uniqueness and that an answer comes at all. *)
Theorem C28_near_words :
  forall (N T : Type) (K : ZWeight) (neqb : N -> N -> bool) (teqb : T -> T -> bool) (factorize : K -> nat -> list K)
    (H : max_heap (K * nat) (@item_leb K)) (H2 : max_heap (K * bt K) (@kb_leb K)) (distinct : list nat -> list nat)
    (rules : list (prule N T K)) (init : N) (width : nat),
    ZWeightLaws K -> EqbSpec neqb -> EqbSpec teqb -> FactorLaws factorize -> (forall l, NoDup (distinct l) /\ forall x, In x (distinct l) <-> In x l) ->
    grammar_ok neqb rules init -> width <= 254 ->
    exists rep, cs_new neqb teqb factorize H distinct rules init width = Some rep /\
    forall word st fuel, length word <= 255 -> settings_ok (states (rep_generator rep)) st ->
    (forall m trees fb, parse teqb H H2 fuel rep st word m = Some (trees, fb) ->
      (forall tree, In (Some tree) trees -> exists word' w, near rules init word word' /\ is_parse rules init word' tree w) /\
      (forall tree, fb = Some tree -> exists word', near rules init word word' /\ is_fallback rules init word' tree)) /\
    (forall n1 n2 res, debug teqb H H2 fuel rep st word = Some (n1, n2, res) -> n1 = length rules /\ n2 = length word /\
      match res with
      | DParse tree _ => exists word' w, near rules init word word' /\ is_parse rules init word' tree w
      | DFallback tree _ => exists word', near rules init word word' /\ is_fallback rules init word' tree
      | DNoparse => True
      end).
Proof.
  intros N T K neqb teqb factorize H H2 distinct rules init width KL NE TE FL HD GO HW. exact (loose_trees KL neqb teqb NE TE factorize FL H H2 distinct HD rules init width GO HW).
Qed.
Print Assumptions C28_near_words.

Lemma near_same {N T} {K : ZWeight} (rules : list (prule N T K)) init word word' : tokens_apart rules -> root_token rules init word -> near rules init word word' -> word' = word.
Proof.
  intros TA RTK [F|(t & t' & r & -> & -> & Hr & Hh & Hc)].
  - clear RTK. induction F as [|t t' word word' (r & d & Hr & Hc & D & Y) F IH]; [reflexivity|]. rewrite (TA r t' d t Hr Hc D Y), IH. reflexivity.
  - now rewrite (RTK r t' t Hr Hh Hc eq_refl).
Qed.
(* In particular the trees are derivations of the sentence itself as soon as tokens are apart, also for grammars with cycles
   of rules like S -> A, A -> S, about which C28_parser_partial says nothing. *)
Theorem C28_sound_with_chains :
  forall (N T : Type) (K : ZWeight) (neqb : N -> N -> bool) (teqb : T -> T -> bool) (factorize : K -> nat -> list K)
    (H : max_heap (K * nat) (@item_leb K)) (H2 : max_heap (K * bt K) (@kb_leb K)) (distinct : list nat -> list nat)
    (rules : list (prule N T K)) (init : N) (width : nat),
    ZWeightLaws K -> EqbSpec neqb -> EqbSpec teqb -> FactorLaws factorize -> (forall l, NoDup (distinct l) /\ forall x, In x (distinct l) <-> In x l) ->
    grammar_ok neqb rules init -> width <= 254 -> tokens_apart rules ->
    exists rep, cs_new neqb teqb factorize H distinct rules init width = Some rep /\
    forall word st fuel, length word <= 255 -> root_token rules init word -> settings_ok (states (rep_generator rep)) st ->
    forall m trees fb, parse teqb H H2 fuel rep st word m = Some (trees, fb) ->
      (forall tree, In (Some tree) trees -> exists w, is_parse rules init word tree w) /\ (forall tree, fb = Some tree -> is_fallback rules init word tree).
Proof.
  intros N T K neqb teqb factorize H H2 distinct rules init width KL NE TE FL HD GO HW TA. destruct (C28_near_words N T K neqb teqb factorize H H2 distinct rules init width KL NE TE FL HD GO HW) as (rep & ER & P). exists rep. split; [exact ER|].
  intros word st fuel Hn RTK SO m trees fb EP. destruct (P word st fuel Hn SO) as (P1 & _). destruct (P1 m trees fb EP) as (T1 & T2). split.
  - intros tree Ht. destruct (T1 tree Ht) as (word' & w & NR & IP). rewrite (near_same rules init word word' TA RTK NR) in IP. eauto.
  - intros tree Ht. destruct (T2 tree Ht) as (word' & NR & IP). now rewrite (near_same rules init word word' TA RTK NR) in IP.
Qed.
Print Assumptions C28_sound_with_chains.

(* ex_tok is accepted, and what it returns for 7 8 is a derivation of the near word 7 7 (C28_tokens_refuted) *)
Example C28_near_words_example : near ex_tok 0 [7; 8] [7; 7] /\ ~ near ex_tok 0 [7; 8] [7; 9].
Proof.
  assert (DV : forall t w, In (ex_csr 1 [] [[Tm t]] w) ex_tok -> deriv (fun r => In r ex_tok) 1 (DNode (ex_csr 1 [] [[Tm t]] w) [])) by (intros t w Ht; apply (deriv_node (fun r => In r ex_tok) (ex_csr 1 [] [[Tm t]] w) []); [exact Ht|constructor]).
  split.
  - left. constructor; [|constructor; [|constructor]].
    + exists (ex_csr 1 [] [[Tm 7]] 1), (DNode (ex_csr 1 [] [[Tm 7]] 1) []). split; [cbn; auto|]. split; [reflexivity|]. split; [apply DV; cbn; auto|reflexivity].
    + exists (ex_csr 1 [] [[Tm 7]] 1), (DNode (ex_csr 1 [] [[Tm 8]] 2) []). split; [cbn; auto|]. split; [reflexivity|]. split; [apply DV; cbn; auto|reflexivity].
  - intros [F|(t & t' & r & E & _)]; [|discriminate]. inversion F as [|? ? ? ? _ F1]; subst. inversion F1 as [|? ? ? ? (r & d & Hr & Hc & _) _]; subst. unfold ex_tok in Hr. in_cases Hr; cbn in Hc; discriminate.
Qed.
(* a grammar with a cycle for which it does return: S -> A (1), A -> S (1), A -> 7 (2) *)
Definition ex_cyc : list (prule nat nat TropWeight) := [ex_csr 0 [1] [[Var 0 0]] 1; ex_csr 1 [0] [[Var 0 0]] 1; ex_csr 1 [] [[Tm 7]] 2].
Example C28_sound_with_chains_example :
  grammar_ok Nat.eqb ex_cyc 0 /\ ~ chain_free ex_cyc /\
  exists fb, trop_parse 50 ex_cyc 0 build_generator [7] 2 =
    Some ([Some [([], ex_csr 0 [1] [[Var 0 0]] 1); ([0], ex_csr 1 [] [[Tm 7]] 2)];
           Some [([], ex_csr 0 [1] [[Var 0 0]] 1); ([0], ex_csr 1 [0] [[Var 0 0]] 1); ([0; 0], ex_csr 0 [1] [[Var 0 0]] 1); ([0; 0; 0], ex_csr 1 [] [[Tm 7]] 2)]], fb).
Proof.
  split; [|split].
  - constructor; try reflexivity; intros r Hr; unfold ex_cyc in Hr; in_cases Hr; try discriminate; try (cbn; lia); cbn; (split; [reflexivity|discriminate]).
  - intros (rank & F). assert (X1 : rank 1 0 < rank 0 0) by (apply (F (ex_csr 0 [1] [[Var 0 0]] 1) 0 0 0 1); [cbn; auto|reflexivity|reflexivity]). assert (X2 : rank 0 0 < rank 1 0) by (apply (F (ex_csr 1 [0] [[Var 0 0]] 1) 0 0 0 0); [cbn; auto|reflexivity|reflexivity]). lia.
  - eexists. vm_compute. reflexivity.
Qed.

(* Without tokens_apart trees also come in the wrong order and more than once, although the chart is not pruned, no rule is
   listed twice and there are no chains: with S -> x00 x10 (P, Q); P -> x00 (C); Q -> x00 (C); C -> 7 (5); C -> 8 (1); C -> 9 (3) the
   sentence 7 7 gets the tree for 9 9 of cost 9 in third place, a tree of cost 7 after it, and then the tree for 9 9 again. *)
Definition ex_dup : list (prule nat nat TropWeight) :=
  [ex_csr 0 [1; 2] [[Var 0 0; Var 1 0]] 1; ex_csr 1 [3] [[Var 0 0]] 1; ex_csr 2 [3] [[Var 0 0]] 1; ex_csr 3 [] [[Tm 7]] 5; ex_csr 3 [] [[Tm 8]] 1; ex_csr 3 [] [[Tm 9]] 3].
Definition ex_dup_d (t : nat) (wt : nat) (t' wt' : nat) : dtree nat nat TropWeight :=
  DNode (ex_csr 0 [1; 2] [[Var 0 0; Var 1 0]] 1) [DNode (ex_csr 1 [3] [[Var 0 0]] 1) [DNode (ex_csr 3 [] [[Tm t]] wt) []]; DNode (ex_csr 2 [3] [[Var 0 0]] 1) [DNode (ex_csr 3 [] [[Tm t']] wt') []]].
Definition ex_dup_t (t wt t' wt' : nat) : gorn (prule nat nat TropWeight) :=
  [([], ex_csr 0 [1; 2] [[Var 0 0; Var 1 0]] 1); ([0], ex_csr 1 [3] [[Var 0 0]] 1); ([0; 0], ex_csr 3 [] [[Tm t]] wt); ([1], ex_csr 2 [3] [[Var 0 0]] 1); ([1; 0], ex_csr 3 [] [[Tm t']] wt')].
Lemma ex_dup_parse t wt t' wt' : In (ex_csr 3 [] [[Tm t]] wt) ex_dup -> In (ex_csr 3 [] [[Tm t']] wt') ex_dup -> is_parse ex_dup 0 [t; t'] (ex_dup_t t wt t' wt') (d_weight (ex_dup_d t wt t' wt')).
Proof.
  intros H1 H2. exists (ex_dup_d t wt t' wt'). split; [|split; [reflexivity|split; [reflexivity|split]]].
  - unfold ex_dup_d. repeat match goal with |- deriv _ _ (DNode ?r ?ts) => refine (deriv_node _ r ts _ _); [first [exact H1|exact H2|unfold ex_dup; cbn [In]; repeat (first [left; reflexivity|right])]|unfold ex_csr; cbn [pr_tail]] | |- Forall2 _ _ _ => constructor end.
  - cbn; repeat split; intros x Hx; cbn in Hx; repeat (destruct Hx as [<-|Hx]; [reflexivity|]); contradiction.
  - intros [|[|[|i]] [|[|j] [|k a]]]; try reflexivity; cbn; try (destruct j; reflexivity); try (destruct k; reflexivity); try (destruct i; reflexivity); try (destruct j as [|[|j]]; reflexivity).
Qed.
Theorem C28_shared_tokens_refuted :
  grammar_ok Nat.eqb ex_dup 0 /\ chain_free ex_dup /\ NoDup ex_dup /\
  exists trees fb t1 t2, trop_parse 50 ex_dup 0 build_generator [7; 7] 5 = Some (trees, fb) /\
    nth_error trees 2 = Some (Some t1) /\ nth_error trees 4 = Some (Some t1) /\ is_parse ex_dup 0 [9; 9] t1 (Some 9 : TropWeight) /\
    nth_error trees 3 = Some (Some t2) /\ is_parse ex_dup 0 [9; 8] t2 (Some 7 : TropWeight).
Proof.
  split; [|split; [|split]].
  - constructor; try reflexivity; intros r Hr; unfold ex_dup in Hr; in_cases Hr; try discriminate; try (cbn; lia); cbn; (split; [reflexivity|discriminate]).
  - exists (fun A _ => match A with 1 | 2 => 1 | _ => 0 end). intros r k i j B Hr Ek Et. unfold ex_dup in Hr. in_cases Hr; destruct k as [|k]; cbn in Ek; try discriminate; try (destruct k; discriminate); injection Ek as <- <-; cbn in Et; injection Et as <-; cbn; lia.
  - repeat constructor; cbn; intros Hx; repeat (destruct Hx as [Hx|Hx]; [discriminate|]); exact Hx.
  - eexists _, _, (ex_dup_t 9 3 9 3), (ex_dup_t 9 3 8 1). split; [vm_compute; reflexivity|]. split; [reflexivity|]. split; [reflexivity|]. split; [apply (ex_dup_parse 9 3 9 3); cbn; auto 10|]. split; [reflexivity|]. apply (ex_dup_parse 9 3 8 1); cbn; auto 10.
Qed.
Print Assumptions C28_shared_tokens_refuted.
