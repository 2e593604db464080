(* C40, continued: finite state automata with empty transitions. *)
From Verif Require Import Base M_Util M_Agenda M_Search M_Recog M_Automata S_Search S_Util S_Recog S_Automata P_Agenda P_Search P_Util P_Recog P_Automata P_FromPmcfg5 P_Command P_Mcfg P_Finds P_Loops
  P_GrammarCFG Properties_Automata Properties_Finds2.

(* C40: the search for a word ends exactly if the word has a symbol that no transition mentions, or no state that is reached
   with a part of the word lies on a loop of empty transitions.  Then the paths to final states that are labelled with the
   word have all been returned. *)
Theorem C40_fsa_ends_exactly :
  forall (Q T : Type) (K : Weight) (qeqb : Q -> Q -> bool) (teqb : T -> T -> bool), EqbSpec qeqb -> EqbSpec teqb -> RoundLaws K ->
  forall (ts : list (transition (fs_instr Q) T K)) (initial : Q) (finals : list Q) shuffle, (forall l, Permutation (shuffle l) l) ->
  forall H (word : list T),
  let M := fsa_new qeqb teqb ts initial finals in
  let ended n := recognise_ended (fsa_automaton shuffle M) H (opt_all (int_find_key teqb (fa_t M)) word) n in
  let foreign := exists x, In x word /\ forall t, In t ts -> ~ In x (t_word t) in
  let loops := exists u rest us q vs, word = u ++ rest /\ fs_path ts initial u us q /\ vs <> [] /\ fs_path ts q [] vs q in
  ((exists n, ended n) <-> foreign \/ ~ loops) /\
  (~ loops -> exists n0, forall n, n0 <= n -> ended n /\ exists outs, fsa_recognise teqb shuffle M H word n = Some outs /\
     (forall us q, In q finals /\ fs_path ts initial word us q <-> In (Conf [] q (run_weight us), pd_from us) outs)).
Proof.
  intros Q T K qeqb teqb QE TE KL ts initial finals shuffle SH H word M ended foreign loops.
  pose proof (fsa_coded qeqb teqb QE TE ts initial finals shuffle SH) as CD.
  assert (EN : ~ loops -> exists n, ended n).
  { intros NL. apply (coded_ends _ _ _ _ _ _ _ _ _ _ _ _ _ CD KL H word (S (length ts * S (length word)))). intros us s rest E A W _. split; [discriminate|]. apply Nat.lt_succ_r.
    assert (P : fs_path ts initial (run_word us) us s) by (apply (fs_exec_path qeqb QE); auto).
    transitivity (length ts * S (length (run_word us))); [|apply Nat.mul_le_mono_l; rewrite <- W, app_length; lia].
    apply (path_bound ts _ _ _ _ P). intros w1 us1 x vs P1 (w2 & E2) NV PL. apply NL. exists w1, (w2 ++ rest), us1, x, vs. split; [rewrite app_assoc, <- E2; now symmetry|]. auto. }
  assert (MO : forall n n', n <= n' -> ended n -> ended n').
  { intros n n' L E. apply ended_calls_iff. apply (ended_mono _ _ n n'); [exact L| |now apply ended_calls_iff].
    destruct (C14_fsa_recognise Q T K qeqb teqb QE TE KL ts initial finals shuffle SH H word n') as (outs & O1 & _). unfold fsa_recognise, recognise_with, recognise_int in O1. intros C. match type of O1 with context [search_calls_p ?A ?s ?c ?h] => assert (C' : search_calls_p A s c h = None) by exact C end. rewrite C' in O1. discriminate. }
  split; [split|].
  - intros (n & E). destruct (fsa_new_spec qeqb teqb QE TE ts initial finals) as (_ & _ & _ & _ & HT & _).
    assert (DEC : foreign \/ forall x, In x word -> exists t, In t ts /\ In x (t_word t)).
    { unfold foreign. clear -TE. induction word as [|x word [(y & Hy & F)|IH]]; [right; intros ? []|left; exists y; split; [now right|exact F]|].
      destruct (existsb (fun t => existsb (teqb x) (t_word t)) ts) eqn:EX; [right|left].
      - apply existsb_exists in EX. destruct EX as (t & Ht & EX). apply existsb_exists in EX. destruct EX as (y & Hy & E). apply TE in E. subst y. intros z [<-|Hz]; eauto.
      - exists x. split; [now left|]. intros t Ht Hx. apply not_true_iff_false in EX. apply EX, existsb_exists. exists t. split; [exact Ht|]. apply existsb_exists. exists x. split; [exact Hx|now apply TE]. }
    destruct DEC as [F|KW]; [now left|right]. intros (u & rest & us & q & vs & EW & PU & NV & PL).
    apply (coded_never_ends _ _ _ _ _ _ _ _ _ _ _ _ _ CD KL H word n); [intros x Hx; destruct (KW x Hx) as (t & Ht & Hxt); exact (proj2 (HT t Ht) x Hxt)| |exact E].
    intros d. assert (P : fs_path ts initial u (us ++ concat (repeat vs d)) q) by (rewrite <- (app_nil_r u); eapply path_app; [exact PU|now apply path_repeat]).
    assert (L : d <= length (us ++ concat (repeat vs d))).
    { rewrite app_length. assert (G : d <= length (concat (repeat vs d))); [|lia]. clear -NV. induction d as [|d IH]; [lia|]. cbn [repeat concat]. rewrite app_length. destruct vs; [congruence|]. cbn [length]. lia. }
    rewrite <- (firstn_skipn d (us ++ concat (repeat vs d))) in P. apply path_split in P. destruct P as (w1 & w2 & q' & -> & P1 & P2). apply (fs_exec_path qeqb QE) in P1. destruct P1 as (X1 & X2 & X3).
    exists (firstn d (us ++ concat (repeat vs d))), q', (w2 ++ rest). split; [exact X1|]. split; [exact X2|]. split; [refine (eq_trans (f_equal (fun z => z ++ (w2 ++ rest)) X3) _); rewrite EW; apply app_assoc|]. refine (eq_trans (firstn_length _ _) _). apply Nat.min_l. exact L.
  - intros [(x & Hx & F)|NL]; [|now apply EN]. exists 1. unfold ended.
    assert (opt_all (int_find_key teqb (fa_t M)) word = None) as ->; [|apply ends_none]. apply opt_all_None. exists x. split; [exact Hx|]. destruct (tti_enc teqb TE (fa_t M) x) as [[HI _]|[_ E0]]; [|exact E0]. exfalso.
    destruct (fsa_tokens qeqb teqb ts initial finals x HI) as (t & Ht & Hxt). exact (F t Ht Hxt).
  - intros NL. destruct (EN NL) as (n0 & E0). exists n0. intros n Hn. split; [exact (MO n0 n Hn E0)|].
    destruct (C14_fsa_recognise Q T K qeqb teqb QE TE KL ts initial finals shuffle SH H word n) as (outs & E & SD & _ & EX & _). exists outs. split; [exact E|]. intros us q. split.
    + intros [Hq P]. apply (EX (MO n0 n Hn E0) us q). apply (fs_exec_path qeqb QE) in P. destruct P as (P1 & P2 & P3). repeat split; assumption.
    + intros HI. destruct (SD _ _ HI) as ((A1 & A2 & A3 & A4) & _). rewrite pd_to_from in *. split; [exact A4|]. apply (fs_exec_path qeqb QE). auto.
Qed.
Print Assumptions C40_fsa_ends_exactly.

(* C40: if no weight exceeds one and products of many weights of empty transitions fall below the weight of a path, then this
   path is returned after finitely many calls, whatever loops of empty transitions there are. *)
Theorem C40_fsa_finds :
  forall (Q T : Type) (K : Weight) (qeqb : Q -> Q -> bool) (teqb : T -> T -> bool), EqbSpec qeqb -> EqbSpec teqb -> RoundLaws K ->
  forall (ts : list (transition (fs_instr Q) T K)) (initial : Q) (finals : list Q) shuffle, (forall l, Permutation (shuffle l) l) ->
  (forall t, In t ts -> wleb (t_weight t) wone = true) ->
  forall H (word : list T) us q, In q finals -> fs_path ts initial word us q ->
  forall m, (forall vs, (forall t, In t vs -> In t ts /\ t_word t = []) -> m <= length vs -> wleb (run_weight us) (run_weight vs) = false) ->
  exists n0, forall n, n0 <= n -> exists outs, fsa_recognise teqb shuffle (fsa_new qeqb teqb ts initial finals) H word n = Some outs /\
    In (Conf [] q (run_weight us), pd_from us) outs.
Proof.
  intros Q T K qeqb teqb QE TE KL ts initial finals shuffle SH LE H word us q Hq P m HM. pose proof (rl_order _ KL) as TO.
  apply (C14_fsa_finds Q T K qeqb teqb QE TE KL ts initial finals shuffle SH LE H word us q) with (bound := length word + m).
  - apply (fs_exec_path qeqb QE) in P. destruct P as (P1 & P2 & P3). repeat split; assumption.
  - intros vs (s & rest & _ & HI & W) HL. set (es := filter (fun t : transition (fs_instr Q) T K => match t_word t with [] => true | _ => false end) vs).
    assert (LES : m <= length es).
    { pose proof (run_epsilons vs) as G. fold es in G. rewrite <- W, app_length in HL. cbn in *. lia. }
    assert (FE : wleb (run_weight us) (run_weight es) = false).
    { apply HM; [|exact LES]. intros t Ht. apply filter_In in Ht. destruct Ht as [Ht E]. split; [now apply HI|]. destruct (t_word t); [reflexivity|discriminate]. }
    destruct (wleb (run_weight us) (run_weight vs)) eqn:E; [|reflexivity]. rewrite <- FE. symmetry. apply (to_trans _ TO _ _ _ E). apply (lprod_filter KL). intros t Ht. apply LE. now apply HI.
Qed.
Print Assumptions C40_fsa_finds.

(* a loop of empty transitions of cost 1 at state 1, which is reached with 7, and an empty transition from 0 to 2 *)
Definition ex_eps : list (transition (fs_instr nat) nat CostWeight) :=
  [Trans (K:=CostWeight) [7] 1 (FSI 0 1); Trans (K:=CostWeight) [] 1 (FSI 1 1); Trans (K:=CostWeight) [] 1 (FSI 0 2); Trans (K:=CostWeight) [8] 2 (FSI 2 3); Trans (K:=CostWeight) [] 2 (FSI 1 3)].
Example C40_epsilon_example :
  let loops word := exists u rest us q vs, word = u ++ rest /\ fs_path ex_eps 0 u us q /\ vs <> [] /\ fs_path ex_eps q [] vs q in
  ~ loops [8; 7] /\ loops [7] /\
  fsa_recognise Nat.eqb (fun l => l) (fsa_new Nat.eqb Nat.eqb ex_eps 0 [3]) ex_fsa_heap [8] 10 = Some [(Conf [] 3 (3 : CostWeight), pd_from [Trans (K:=CostWeight) [] 1 (FSI 0 2); Trans (K:=CostWeight) [8] 2 (FSI 2 3)])] /\
  (forall t, In t ex_eps -> wleb (t_weight t) wone = true) /\ fs_path ex_eps 0 [7] [Trans (K:=CostWeight) [7] 1 (FSI 0 1); Trans (K:=CostWeight) [] 2 (FSI 1 3)] 3 /\
  forall vs : list (transition (fs_instr nat) nat CostWeight), (forall t, In t vs -> In t ex_eps /\ t_word t = []) -> 4 <= length vs ->
    wleb (run_weight (T:=nat) [Trans (K:=CostWeight) [7] 1 (FSI 0 1); Trans (K:=CostWeight) [] 2 (FSI 1 3)]) (run_weight vs) = false.
Proof.
  split; [|split; [|split; [|split; [|split]]]].
  - intros (u & rest & us & q & vs & EW & P & NV & PL).
    assert (Q1 : q = 1).
    { destruct vs as [|t vs]; [congruence|]. assert (G : forall w vs p, fs_path ex_eps p w vs q -> w = [] -> vs <> [] -> (p = 1 /\ (q = 1 \/ q = 3)) \/ (p = 0 /\ q = 2)).
      { clear. induction 1 as [q|p q w v wt us r HI P IH]; intros EW NV; [congruence|]. apply app_eq_nil in EW. destruct EW as [-> ->]. specialize (IH eq_refl).
        assert (C : us = [] \/ us <> []) by (destruct us; [now left|right; discriminate]).
        unfold ex_eps in HI. destruct HI as [E|[E|[E|[E|[E|[]]]]]]; injection E; try discriminate; intros; subst p q; (destruct C as [->|C]; [inversion P; subst; auto|destruct (IH C) as [[? ?]|[? ?]]; auto; discriminate]). }
      destruct (G [] (t :: vs) q PL eq_refl NV) as [[-> _]|[-> E]]; [reflexivity|discriminate]. }
    subst q. clear PL NV vs. assert (G : forall p w us q, fs_path ex_eps p w us q -> q = 1 -> p = 0 -> exists w', w = 7 :: w').
    { clear. induction 1 as [q|p q w v wt us r HI P IH]; intros E1 E0; [congruence|]. subst. unfold ex_eps in HI. destruct HI as [E|[E|[E|[E|[E|[]]]]]]; injection E; intros; subst; try discriminate; [cbn; eauto|].
      exfalso. clear -P. inversion P as [|? q1 w1 v1 wt1 ts1 r1 HI P']; subst. unfold ex_eps in HI. destruct HI as [E|[E|[E|[E|[E|[]]]]]]; injection E; intros; subst; try discriminate. inversion P' as [|? q2 w2 v2 wt2 ts2 r2 HI P'']; subst. unfold ex_eps in HI. destruct HI as [E'|[E'|[E'|[E'|[E'|[]]]]]]; discriminate. }
    destruct (G _ _ _ _ P eq_refl eq_refl) as (w' & ->). discriminate.
  - exists [7], [], [Trans (K:=CostWeight) [7] 1 (FSI 0 1)], 1, [Trans (K:=CostWeight) [] 1 (FSI 1 1)]. split; [reflexivity|]. split; [apply (path_cons ex_eps 0 1 [7] []); [now left|constructor]|]. split; [discriminate|].
    apply (path_cons ex_eps 1 1 [] []); [right; now left|constructor].
  - vm_compute. reflexivity.
  - intros t [<-|[<-|[<-|[<-|[<-|[]]]]]]; reflexivity.
  - apply (path_cons ex_eps 0 1 [7] []); [now left|]. apply (path_cons ex_eps 1 3 [] []); [cbn; auto 10|constructor].
  - intros vs HV L. pose proof (each_costs vs) as G. cbn. apply Nat.leb_gt. eapply Nat.lt_le_trans; [|apply G]; [exact L|]. intros t Ht. destruct (HV t Ht) as [[<-|[<-|[<-|[<-|[<-|[]]]]]] _]; cbn; lia.
Qed.
