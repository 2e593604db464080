(* Grammars imported from disco-dop are ones the parser works for. *)
From Coq Require Import Permutation.
From Verif Require Import M_Nom Base M_Util M_Recog M_CFG M_Grammar M_Chart M_CSParse M_Text M_Command S_Recog S_Grammar S_Text S_CSParse P_Grammar P_Conversion P_Text M_Import S_Import P_Import S_Disco
  Properties_Chart Properties_CSParse Properties_Command Properties_Import.

Lemma nodup_by_key (l : list (nat * nat)) : (forall i, NoDup (filter (fun p => Nat.eqb (fst p) i) l)) -> NoDup l.
Proof.
  induction l as [|x l IH]; intros HF; constructor.
  - intros C. specialize (HF (fst x)). cbn [filter] in HF. rewrite Nat.eqb_refl in HF. inversion HF as [|? ? NI _]; subst. apply NI. apply filter_In. now rewrite Nat.eqb_refl.
  - apply IH. intros i. specialize (HF i). cbn [filter] in HF. destruct (Nat.eqb (fst x) i); [now inversion HF|exact HF].
Qed.

Section Reads.
  Context {T : Type} (y : yield) (c : composition T) (HR : reads_as y c).
  Definition bits_of (s : nat) : nat := match s with 0 => bits false y | 1 => bits true y | _ => 0 end.
  Lemma reads_flat : Forall2 (fun (b : bool) v => exists j, v = Var (if b then 1 else 0) j) (concat y) (concat c).
  Proof. destruct HR as [F _]. clear HR. induction F as [|b v y' c' F1 _ IH]; cbn; [constructor|]. now apply Forall2_app. Qed.
  Lemma reads_filter s : length (filter (from_successor s) (concat c)) = bits_of s.
  Proof.
    unfold bits_of, bits. pose proof reads_flat as F. clear HR. induction F as [|b v l l' (j & ->) _ IH]; [destruct s as [|[|s]]; reflexivity|].
    cbn [filter from_successor]. destruct s as [|[|s]]; destruct b; cbn in *; unfold Nat.eqb; cbn; try (f_equal; exact IH); exact IH.
  Qed.
  Lemma reads_vars s : filter (from_successor s) (concat c) = map (Var s) (seq 0 (bits_of s)).
  Proof. destruct HR as [_ HS]. destruct (HS s) as (n & E). pose proof (reads_filter s) as L. rewrite E, map_length, seq_length in L. now rewrite E, L. Qed.
  Lemma reads_variables i j : In (i, j) (variables c) <-> j < bits_of i.
  Proof.
    rewrite in_variables. transitivity (In (Var i j) (concat c)); [rewrite in_concat; split; intros (x & H1 & H2); exists x; auto|].
    transitivity (In (Var i j) (filter (from_successor i) (concat c))); [rewrite filter_In; cbn; rewrite Nat.eqb_refl; tauto|].
    rewrite reads_vars, in_map_iff. split; [intros (x & E & Hx); injection E as ->; apply in_seq in Hx; lia|]. intros Hj. exists j. split; [reflexivity|apply in_seq; lia].
  Qed.
  Lemma reads_linear : NoDup (variables c).
  Proof.
    apply nodup_by_key. intros i. assert (E : filter (fun p => Nat.eqb (fst p) i) (variables c) = map (fun j => (i, j)) (seq 0 (bits_of i))).
    { transitivity (flat_map as_var (filter (from_successor i) (concat c))).
      - unfold variables. induction (concat c) as [|v l IH]; [reflexivity|]. destruct v as [i' j|t]; cbn; [|exact IH]. destruct (Nat.eqb_spec i' i); cbn; rewrite IH; reflexivity.
      - rewrite reads_vars. induction (seq 0 (bits_of i)) as [|j l IH]; [reflexivity|]. cbn. now rewrite IH. }
    rewrite E. apply FinFun.Injective_map_NoDup; [intros a b X; now injection X|apply seq_NoDup].
  Qed.
  Lemma reads_is_var : forallb is_var (concat c) = true.
  Proof. apply forallb_forall. intros v Hv. pose proof reads_flat as F. clear -F Hv. induction F as [|b v' l l' (j & ->) _ IH]; [destruct Hv|]. destruct Hv as [<-|Hv]; auto. Qed.
  Lemma reads_nonempty : (forall x, In x y -> x <> []) -> forall x, In x c -> x <> [].
  Proof.
    destruct HR as [F _]. clear HR. induction F as [|b v y' c' F1 _ IH]; intros HN x Hx; [destruct Hx|]. destruct Hx as [<-|Hx]; [|apply IH; auto; intros z Hz; apply HN; now right].
    specialize (HN b (or_introl eq_refl)). destruct F1; congruence.
  Qed.
End Reads.

Lemma listing_each {X} Sep (E : bytes -> X -> Prop) t xs : listing Sep E t xs -> forall x, In x xs -> exists e, E e x.
Proof. induction 1 as [e x HE|e s t x xs HE HS HL IH]; intros z Hz; (destruct Hz as [<-|Hz]; [eauto|]); [destruct Hz|now apply IH]. Qed.
Lemma listing_ne {X} Sep (E : bytes -> X -> Prop) t xs : listing Sep E t xs -> xs <> [].
Proof. destruct 1; discriminate. Qed.
Lemma file_each {X} (E : bytes -> X -> Prop) text xs : file E text xs -> forall x, In x xs -> exists e, E e x.
Proof. intros [[_ ->]|(t & HL & _)] x Hx; [destruct Hx|]. eapply listing_each; eassumption. Qed.

Lemma F2_in_r {X Y} (P : X -> Y -> Prop) l l' : Forall2 P l l' -> forall y, In y l' -> exists x, In x l /\ P x y.
Proof. induction 1 as [|x y l l' HP _ IH]; intros z Hz; [destruct Hz|]. destruct Hz as [<-|Hz]; [exists x; split; [now left|exact HP]|]. destruct (IH z Hz) as (x' & H1 & H2). exists x'. split; [now right|exact H2]. Qed.
Lemma F2_in_l {X Y} (P : X -> Y -> Prop) l l' : Forall2 P l l' -> forall x, In x l -> exists y, In y l' /\ P x y.
Proof. induction 1 as [|x y l l' HP _ IH]; intros z Hz; [destruct Hz|]. destruct Hz as [<-|Hz]; [exists y; split; [now left|exact HP]|]. destruct (IH z Hz) as (x' & H1 & H2). exists x'. split; [now right|exact H2]. Qed.

Section Ok.
  Context {K : ZWeight} (neqb : bytes -> bytes -> bool) (NE : EqbSpec neqb) (ops : num_ops K) (CL : count_laws ops) (iow : text_io K).
  Context (grammar : bytes) (rs : list (import_rule bytes K)) (HF : file (disco_line ops string_io iow) grammar rs).
  Context (lex : list (bytes * bytes * K)) (root : bytes) (DG : disco_grammar rs (fun A => exists t w, In (t, A, w) lex) root).
  Context (LW : forall t A w, In (t, A, w) lex -> w <> wzero).
  Context (rules words : list (prule bytes bytes K)) (FR : Forall2 (imported ops neqb rs lex) rs rules) (FW : Forall2 (imported_word ops neqb rs lex) lex words).

  Lemma yields_ok r : In r rs -> ir_yield r <> [] /\ forall c, In c (ir_yield r) -> c <> [].
  Proof.
    intros Hr. destruct (file_each _ _ _ HF r Hr) as (t & l & s1 & a & s2 & m & y & s4 & w & _ & _ & _ & _ & _ & _ & HY & _). split; [eapply listing_ne, HY|]. intros c Hc. destruct (listing_each _ _ _ _ HY c Hc) as (e & NEc & _). exact NEc.
  Qed.
  Lemma weights_nonzero n v : In v (weights neqb rs lex n) -> v <> wzero.
  Proof.
    unfold weights. rewrite in_app_iff, !in_map_iff. intros [(r & <- & Hr)|([[t A] w] & <- & He)].
    - apply filter_In in Hr. apply (dg_weight _ _ _ DG). tauto.
    - apply filter_In in He. cbn. eapply LW. apply He.
  Qed.
  Lemma rule_of p : In p rules -> exists r, In r rs /\ imported ops neqb rs lex r p.
  Proof. now apply F2_in_r. Qed.
  Lemma word_of p : In p words -> exists t A w, In (t, A, w) lex /\ pr_head p = A /\ pr_tail p = [] /\ pr_comp p = [[Tm t]] /\ imported_word ops neqb rs lex (t, A, w) p.
  Proof. intros Hp. destruct (F2_in_r _ _ _ FW p Hp) as ([[t A] w] & He & HI). exists t, A, w. pose proof HI as (H1 & H2 & H3 & _). exact (conj He (conj H1 (conj H2 (conj H3 HI)))). Qed.

  Lemma disco_ok : grammar_ok neqb (rules ++ words) root.
  Proof.
    destruct (dg_fanouts _ _ _ DG) as (f & F1 & F2 & F3). destruct (dg_root _ _ _ DG) as (r0 & Hr0 & Er0).
    assert (HCOMP : forall p, In p (rules ++ words) -> pr_comp p <> []).
    { intros p Hp. apply in_app_iff in Hp. destruct Hp as [Hp|Hp].
      - destruct (rule_of p Hp) as (r & Hr & _ & _ & RA & _). destruct (yields_ok r Hr) as [Y1 _]. destruct RA as [F _]. destruct F; congruence.
      - destruct (word_of p Hp) as (t & A & w & _ & _ & _ & -> & _). discriminate. }
    constructor.
    - apply (lcfrs_new_ok neqb NE). split; [reflexivity|]. split; [|split].
      + exists f. split; [|split; [exact F1|split]].
        * intros p Hp. apply in_app_iff in Hp. destruct Hp as [Hp|Hp].
          -- destruct (rule_of p Hp) as (r & Hr & EH & _ & (FL & _) & _). rewrite EH, <- (proj1 (F3 r Hr)). symmetry. eapply Forall2_len, FL.
          -- destruct (word_of p Hp) as (t & A & w & He & -> & _ & -> & _). symmetry. apply F2. eauto.
        * destruct (F2_in_l _ _ _ FR r0 Hr0) as (p & Hp & EH & _). exists p. split; [apply in_app_iff; now left|congruence].
        * intros p Hp. apply in_app_iff in Hp. destruct Hp as [Hp|Hp].
          -- destruct (rule_of p Hp) as (r & Hr & EH & ET & RA & _). destruct (F3 r Hr) as (_ & B0 & B1). split; [eapply reads_linear, RA|]. unfold vars_exist, nondeleting. rewrite ET. split.
             ++ intros i j Hij. apply (reads_variables _ _ RA) in Hij. destruct i as [|[|i]]; cbn [bits_of] in Hij; [| |lia].
                ** exists (ir_rhs1 r). split; [reflexivity|lia].
                ** destruct (ir_rhs2 r) as [n|]; [|lia]. exists n. split; [reflexivity|lia].
             ++ intros i B j EB Hj. apply (reads_variables _ _ RA). destruct i as [|[|i]]; cbn [nth_error] in EB; cbn [bits_of].
                ** injection EB as <-. lia.
                ** destruct (ir_rhs2 r) as [n|]; [|discriminate]. injection EB as <-. lia.
                ** destruct (ir_rhs2 r) as [n|]; destruct i; discriminate.
          -- destruct (word_of p Hp) as (t & A & w & He & EH & ET & EC & _). unfold lcfrs_rule, linear, vars_exist, nondeleting. rewrite EC, ET. cbn. split; [constructor|]. split; [intros i j []|]. intros [|i] B j E; discriminate.
      + intros p B Hp HB. apply in_app_iff in Hp. destruct Hp as [Hp|Hp].
        * destruct (rule_of p Hp) as (r & Hr & _ & ET & _). rewrite ET in HB. destruct (dg_used _ _ _ DG r B Hr HB) as [(t & w & He)|(r' & Hr' & <-)].
          -- destruct (F2_in_l _ _ _ FW _ He) as (q & Hq & EQ & _). exists q. split; [apply in_app_iff; now right|exact EQ].
          -- destruct (F2_in_l _ _ _ FR r' Hr') as (q & Hq & EQ & _). exists q. split; [apply in_app_iff; now left|exact EQ].
        * destruct (word_of p Hp) as (t & A & w & _ & _ & ET & _). rewrite ET in HB. destruct HB.
      + intros p l B q _ _ Hq _. now apply HCOMP.
    - unfold in_normal_form. apply forallb_forall. intros p Hp. apply in_app_iff in Hp. destruct Hp as [Hp|Hp].
      + destruct (rule_of p Hp) as (r & Hr & _ & _ & RA & _). destruct (yields_ok r Hr) as [_ Y2]. rewrite (reads_is_var _ _ RA). cbn [orb]. rewrite andb_true_r. apply forallb_forall. intros c Hc. pose proof (reads_nonempty _ _ RA Y2 c Hc). destruct c; [congruence|reflexivity].
      + destruct (word_of p Hp) as (t & A & w & _ & _ & _ & -> & _). reflexivity.
    - exact HCOMP.
    - intros p Hp. apply in_app_iff in Hp. destruct Hp as [Hp|Hp].
      + destruct (rule_of p Hp) as (r & Hr & _ & ET & (FL & _) & _). rewrite ET, <- (Forall2_len _ _ _ FL). split; [destruct (ir_rhs2 r); cbn; lia|]. now apply (dg_size _ _ _ DG).
      + destruct (word_of p Hp) as (t & A & w & _ & _ & -> & -> & _). cbn. lia.
    - intros p Hp. apply in_app_iff in Hp. destruct Hp as [Hp|Hp].
      + destruct (rule_of p Hp) as (r & Hr & _ & _ & _ & s & HS & ->). eapply (cl_part _ CL); [apply weights_nonzero| |exact HS]. unfold weights. apply in_app_iff. left. apply in_map_iff. exists r. split; [reflexivity|]. apply filter_In. split; [exact Hr|now apply NE].
      + destruct (word_of p Hp) as (t & A & w & He & _ & _ & _ & (_ & _ & _ & s & HS & ->)). eapply (cl_part _ CL); [apply weights_nonzero| |exact HS]. unfold weights. apply in_app_iff. right. apply in_map_iff. exists (t, A, w). split; [reflexivity|]. apply filter_In. split; [exact He|now apply NE].
  Qed.

  (* a token is produced by the lexicon only *)
  Lemma token_word p t : In p (rules ++ words) -> pr_comp p = [[Tm t]] -> In p words /\ exists w, In (t, pr_head p, w) lex.
  Proof.
    intros Hp EC. apply in_app_iff in Hp. destruct Hp as [Hp|Hp].
    - exfalso. destruct (rule_of p Hp) as (r & Hr & _ & _ & RA & _). pose proof (reads_is_var _ _ RA) as V. rewrite EC in V. discriminate.
    - split; [exact Hp|]. destruct (word_of p Hp) as (t' & A & w & He & EH & _ & EC' & _). rewrite EC in EC'. injection EC' as ->. rewrite EH. eauto.
  Qed.
  (* one word for every part of speech, and parts of speech have no rules *)
  Lemma words_apart : (forall t t' A w w', In (t, A, w) lex -> In (t', A, w') lex -> t = t') -> (forall t A w r, In (t, A, w) lex -> In r rs -> ir_lhs r <> A) -> tokens_apart (rules ++ words).
  Proof.
    intros H1 H2 p t [q ts] t' Hp EC D Y. destruct (token_word p t Hp EC) as (_ & w & He). inversion D as [q' ts' Hq HC E1 E2]; subst. apply in_app_iff in Hq. destruct Hq as [Hq|Hq].
    - exfalso. destruct (rule_of q Hq) as (r & Hr & EH & _). eapply H2; [exact He|exact Hr|congruence].
    - destruct (word_of q Hq) as (t2 & A & w2 & He2 & EH & ET & EC2 & _). cbn in Y. rewrite EC2 in Y. cbn in Y. injection Y as <-. eapply H1; [exact He2|]. rewrite <- EH, E1. exact He.
  Qed.
  Lemma root_apart : (forall t w, ~ In (t, root, w) lex) -> no_root_token (rules ++ words) root.
  Proof. intros HN p t Hp EH EC. destruct (token_word p t Hp EC) as (_ & w & He). rewrite EH in He. now apply HN in He. Qed.
End Ok.
