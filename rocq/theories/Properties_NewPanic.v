(* C31, continued: for which lists of rules Lcfrs::new panics, exactly. *)
From Verif Require Import Base M_Util M_Recog M_Grammar S_Grammar P_Util P_Recog P_Automata P_TreeStack P_Grammar.

(* q passes the check: it is an LCFRS rule for the fanouts f, all its successors have rules, and the last one is not of fanout 0 *)
Definition passes {N T W : Type} (rules : list (prule N T W)) (f : N -> nat) (q : prule N T W) : Prop :=
  lcfrs_rule f q /\ (forall B, In B (pr_tail q) -> exists s, In s rules /\ pr_head s = B) /\ forall l B, pr_tail q = l ++ [B] -> f B <> 0.

Section NewPanic.
  Context {N T W : Type} (neqb : N -> N -> bool) (E : EqbSpec neqb).
  Notation rule := (prule N T W).
  Lemma check_rule (f : N -> nat) (q : rule) : check_composition (pr_comp q) (map f (pr_tail q)) = true <-> lcfrs_rule f q /\ forall l B, pr_tail q = l ++ [B] -> f B <> 0.
  Proof.
    rewrite check_composition_spec.
    assert (LA : last (map f (pr_tail q)) 1 <> 0 <-> forall l B, pr_tail q = l ++ [B] -> f B <> 0).
    { destruct (rev (pr_tail q)) as [|B t] eqn:Er; apply (f_equal (@rev N)) in Er; rewrite rev_involutive in Er; cbn [rev] in Er; rewrite Er.
      - split; [|cbn; lia]. intros _ [|? l] B X; discriminate.
      - rewrite map_app. cbn [map]. rewrite last_last. split; [|intros X; exact (X (rev t) B eq_refl)]. intros X l B' EB. apply app_inj_tail in EB. now destruct EB as [_ <-]. }
    rewrite LA. unfold lcfrs_rule, linear, vars_exist, nondeleting. split.
    - intros (H1 & H2 & H3). repeat split; [exact H1| | |exact H3].
      + intros i j Hij. apply H2 in Hij. destruct Hij as (x & Hx & Hj). rewrite nth_error_map in Hx. destruct (nth_error (pr_tail q) i) as [B|]; [|discriminate]. injection Hx as <-. eauto.
      + intros i B j HB Hj. apply H2. exists (f B). split; [now rewrite nth_error_map, HB|exact Hj].
    - intros ((H1 & H2 & H3) & H4). repeat split; [exact H1| | |exact H4].
      + intros Hij. destruct (H2 i j Hij) as (B & HB & Hj). exists (f B). split; [now rewrite nth_error_map, HB|exact Hj].
      + intros (x & Hx & Hj). rewrite nth_error_map in Hx. destruct (nth_error (pr_tail q) i) as [B|] eqn:HB; [|discriminate]. injection Hx as <-. eauto.
  Qed.
  Lemma lookups (g : N -> option nat) (f : N -> nat) l : (forall B, In B l -> g B = Some (f B)) -> opt_all g l = Some (map f l).
  Proof. induction l as [|B l IH]; intros G; [reflexivity|]. cbn [opt_all map]. rewrite G by now left. rewrite IH by (intros; apply G; now right). reflexivity. Qed.
  Lemma all_check_none (rules0 : list rule) m f : (forall r, In r rules0 -> fan_get neqb (pr_head r) m = Some (f (pr_head r))) ->
    (forall n x, fan_get neqb n m = Some x -> exists r, In r rules0 /\ pr_head r = n) ->
    forall rules, all_check neqb m rules = None <->
      exists before r after, rules = before ++ r :: after /\ (exists B, In B (pr_tail r) /\ forall s, In s rules0 -> pr_head s <> B) /\ forall q, In q before -> passes rules0 f q.
  Proof.
    intros G1 G2. assert (DEF : forall B, (exists s, In s rules0 /\ pr_head s = B) <-> fan_get neqb B m = Some (f B)).
    { intros B. split; [intros (s & Hs & <-); now apply G1|apply G2]. }
    assert (UND : forall B, (forall s, In s rules0 -> pr_head s <> B) <-> fan_get neqb B m = None).
    { intros B. destruct (fan_get neqb B m) as [x|] eqn:EB; split; try congruence.
      - intros HA. destruct (G2 _ _ EB) as (s & Hs & HB). now elim (HA s Hs).
      - intros _ s Hs HB. rewrite <- HB, (G1 s Hs) in EB. discriminate. }
    induction rules as [|r rules IH]; cbn [all_check].
    - split; [discriminate|]. intros ([|? ?] & r & after & X & _); discriminate.
    - destruct (opt_all (fun n => fan_get neqb n m) (pr_tail r)) as [fs|] eqn:O.
      + assert (DT : forall B, In B (pr_tail r) -> exists s, In s rules0 /\ pr_head s = B).
        { intros B HB. destruct (fan_get neqb B m) as [x|] eqn:EB; [exact (G2 _ _ EB)|]. exfalso. assert (X : opt_all (fun n => fan_get neqb n m) (pr_tail r) = None) by (apply opt_all_None; eauto). congruence. }
        rewrite (lookups _ f) in O by (intros B HB; apply DEF; now apply DT). injection O as <-. pose proof (check_rule f r) as C.
        destruct (check_composition (pr_comp r) (map f (pr_tail r))).
        * rewrite IH. destruct (proj1 C eq_refl) as [C1 C2]. split.
          -- intros (before & q & after & -> & U & P). exists (r :: before), q, after. split; [reflexivity|]. split; [exact U|]. intros q' [<-|Hq]; [|now apply P]. now split.
          -- intros ([|r' before] & q & after & X & U & P); cbn [app] in X; injection X as <- ->.
             ++ destruct U as (B & HB & U). destruct (DT B HB) as (s & Hs & HH). now elim (U s Hs).
             ++ exists before, q, after. split; [reflexivity|]. split; [exact U|]. intros q' Hq. apply P. now right.
        * split; [discriminate|]. intros ([|r' before] & q & after & X & U & P); cbn [app] in X; injection X as <- ->.
          -- destruct U as (B & HB & U). destruct (DT B HB) as (s & Hs & HH). now elim (U s Hs).
          -- destruct (P r (or_introl eq_refl)) as (P1 & _ & P3). destruct C as [_ C]. discriminate C. now split.
      + split; [|reflexivity]. intros _. exists [], r, rules. split; [reflexivity|]. split; [|intros q []]. apply opt_all_None in O. destruct O as (B & HB & EB). exists B. split; [exact HB|now apply UND].
  Qed.
End NewPanic.

(* Lcfrs::new panics if and only if the fanouts are consistent, the initial nonterminal has a rule and fanout 1, and the first rule
   that does not pass the check has a successor without rules. *)
Theorem C31_panics :
  forall (N T W : Type) (neqb : N -> N -> bool), EqbSpec neqb ->
  forall (rules : list (prule N T W)) (init : N),
    lcfrs_new neqb rules init = None <->
    exists f, fanouts_ok rules f /\ f init = 1 /\ (exists ri, In ri rules /\ pr_head ri = init) /\
    exists before r after, rules = before ++ r :: after /\ (exists B, In B (pr_tail r) /\ forall s, In s rules -> pr_head s <> B) /\ forall q, In q before -> passes rules f q.
Proof.
  intros N T W neqb E rules init. unfold lcfrs_new. pose proof (read_fanouts_from_spec neqb E rules []) as R. fold (read_fanouts neqb rules) in R.
  destruct (read_fanouts neqb rules) as [m|].
  2:{ split; [discriminate|]. intros (f & OK & _). exfalso. apply (R f); [cbn; discriminate|assumption]. }
  destruct R as (R1 & _ & R3). cbn [fan_get] in R3.
  assert (FM : forall n x, fan_get neqb n m = Some x -> exists r, In r rules /\ pr_head r = n /\ length (pr_comp r) = x)
    by (intros n x H; destruct (R3 n x H) as [H'|H']; [discriminate|assumption]). clear R3.
  assert (HF : forall f, fanouts_ok rules f -> forall r, In r rules -> fan_get neqb (pr_head r) m = Some (f (pr_head r))) by (intros f OK r Hr; now rewrite (R1 r Hr), (OK r Hr)).
  assert (HG : forall n x, fan_get neqb n m = Some x -> exists r, In r rules /\ pr_head r = n) by (intros n x Hx; destruct (FM n x Hx) as (r & Hr & HH & _); eauto).
  split.
  - intros H. assert (FI : fan_get neqb init m = Some 1) by (destruct (fan_get neqb init m) as [[|[|]]|]; congruence). rewrite FI in H.
    set (f := fun n => match fan_get neqb n m with Some x => x | None => 0 end).
    assert (OK : fanouts_ok rules f) by (intros r Hr; unfold f; now rewrite (R1 r Hr)). exists f. split; [exact OK|]. split; [unfold f; now rewrite FI|]. split; [exact (HG _ _ FI)|].
    apply (all_check_none neqb rules m f (HF f OK) HG). destruct (all_check neqb m rules) as [[|]|]; congruence.
  - intros (f & OK & Fi & (ri & Hri & HI) & X). assert (FI : fan_get neqb init m = Some 1) by (rewrite <- HI, (HF f OK ri Hri), HI, Fi; reflexivity). rewrite FI.
    apply (all_check_none neqb rules m f (HF f OK) HG) in X. now rewrite X.
Qed.
Print Assumptions C31_panics.

(* The first rule passes, the second one has the successor 2 without rules; with a rule in front that copies, the rules are refused
   before the successor is looked up. *)
Example C31_panics_example :
  lcfrs_new Nat.eqb [PRule 0 [1] [[Var 0 0; Tm 5; Var 0 1]] 1; PRule 1 [2] [[Var 0 0]; []] 1] 0 = None /\
  lcfrs_new Nat.eqb [PRule 0 [1] [[Var 0 0; Tm 5; Var 0 0]] 1; PRule 1 [2] [[Var 0 0]; []] 1] 0 = Some None /\
  passes [PRule 0 [1] [[Var 0 0; Tm 5; Var 0 1]] 1; PRule 1 [2] [[Var 0 0]; []] 1] S (PRule 0 [1] [[Var 0 0; Tm 5; Var 0 1]] 1).
Proof.
  split; [reflexivity|]. split; [reflexivity|]. destruct (proj1 (check_rule S (PRule 0 [1] [[Var 0 0; Tm 5; Var 0 1]] 1)) eq_refl) as [P1 P2].
  split; [exact P1|]. split; [|exact P2]. intros B [<-|[]]. eexists. split; [right; now left|reflexivity].
Qed.
