(* C11-C13: recognise, recognise_beam_search and check_run, for any automaton (any storage type).
   The concrete automata are instances, see Properties_Automata.v. *)
From Verif Require Import Base M_Agenda M_Search M_Util M_Recog S_Search S_Util S_Recog P_Agenda P_Search P_Util P_Recog.

(* the items an accepting run stands for *)
Notation AItem a := (item (au_S a) (au_I a) (au_T a) (au_K a)).

(* C11 for recognise *)
Theorem C11_recognise_sound :
  forall (a : automaton), EqbSpec (au_teqb a) -> RoundLaws (au_K a) ->
  (* is_terminal demands that the word is consumed *)
  (forall c, au_terminal a c = true -> c_word c = []) ->
  forall (H : max_heap (AItem a * au_K a) (wi_leb wleb)) (word : option (list (au_T a))) (n : nat) (outs : list (AItem a)),
  recognise_int a H word n = Some outs ->
  forall conf run, In (conf, run) outs ->
    exists w, word = Some w /\
    accepting_run (au_apply a) (au_init a) (au_trans a)
                  (fun s => au_terminal a (Conf [] s (c_weight conf)) = true) w (pd_to_vec run) (c_storage conf) /\
    c_word conf = [] /\ c_weight conf = run_weight (pd_to_vec run).
Proof.
  intros a TE KL HT H word n outs E conf run Hi.
  destruct (recognise_sound a TE KL H word n outs (conf, run) E Hi) as (w & -> & (I1 & I2 & I3 & I4) & T). cbn in *.
  exists w. split; [reflexivity|]. pose proof (HT _ T) as Z. rewrite Z, app_nil_r in I3.
  repeat split; auto. destruct conf as [cw cs ck]. cbn in *. now subst cw.
Qed.
Print Assumptions C11_recognise_sound.

(* C11 for recognise_beam_search, any beam width *)
Theorem C11_recognise_beam_sound :
  forall (a : automaton), EqbSpec (au_teqb a) -> RoundLaws (au_K a) ->
  (forall c, au_terminal a c = true -> c_word c = []) ->
  forall (H : minmax_heap (AItem a * au_K a) (wi_leb wleb)) (beam : nat) (word : option (list (au_T a))) (n : nat) (outs : list (AItem a)),
  recognise_beam_int a H beam word n = Some outs ->
  forall conf run, In (conf, run) outs ->
    exists w, word = Some w /\
    accepting_run (au_apply a) (au_init a) (au_trans a)
                  (fun s => au_terminal a (Conf [] s (c_weight conf)) = true) w (pd_to_vec run) (c_storage conf) /\
    c_word conf = [] /\ c_weight conf = run_weight (pd_to_vec run).
Proof.
  intros a TE KL HT H beam word n outs E conf run Hi.
  destruct (recognise_beam_sound a TE KL H beam word n outs (conf, run) E Hi) as (w & -> & (I1 & I2 & I3 & I4) & T). cbn in *.
  exists w. split; [reflexivity|]. pose proof (HT _ T) as Z. rewrite Z, app_nil_r in I3.
  repeat split; auto. destruct conf as [cw cs ck]. cbn in *. now subst cw.
Qed.
Print Assumptions C11_recognise_beam_sound.

(* C12: order; nothing heavier is missed; exhaustive and without repetition *)
Theorem C12_recognise_complete :
  forall (a : automaton), EqbSpec (au_teqb a) -> RoundLaws (au_K a) ->
  (forall c, au_terminal a c = true -> c_word c = []) ->
  (* transitions that apply are found under the key *)
  key_ok a ->
  forall (H : max_heap (AItem a * au_K a) (wi_leb wleb)) (w : list (au_T a)) (n : nat) (outs : list (AItem a)),
  recognise_int a H (Some w) n = Some outs ->
  let accepted ts s := accepting_run (au_apply a) (au_init a) (au_trans a)
                         (fun s => au_terminal a (Conf [] s (run_weight ts)) = true) w ts s in
  let result ts s := (Conf [] s (run_weight ts), pd_from ts) in
  (* with weights at most one: best first *)
  ((forall t, au_trans a t -> wleb (t_weight t) wone = true) ->
     nonincreasing item_weight wleb outs /\
     forall before y after ts s, outs = before ++ y :: after -> accepted ts s ->
       wleb (run_weight ts) (item_weight y) = false -> In (result ts s) before) /\
  (* if the enumeration has ended, it returned precisely the accepting runs *)
  (recognise_ended a H (Some w) n ->
     forall conf run, In (conf, run) outs <-> accepted (pd_to_vec run) (c_storage conf) /\ conf = fst (result (pd_to_vec run) (c_storage conf))) /\
  (* no run is returned twice *)
  (deterministic a -> NoDup (map snd outs)).
Proof.
  intros a TE KL HT KO H w n outs E accepted result. repeat split.
  - eapply recognise_sorted; eauto.
  - intros before y after ts s -> (A1 & A2 & A3 & A4) L. eapply (recognise_before a TE KL H); eauto.
  - destruct (C11_recognise_sound a TE KL HT H _ n outs E conf run H1) as (w' & Ew & Q & _). injection Ew as <-. apply Q.
  - destruct (C11_recognise_sound a TE KL HT H _ n outs E conf run H1) as (w' & Ew & Q & _). injection Ew as <-. apply Q.
  - destruct (C11_recognise_sound a TE KL HT H _ n outs E conf run H1) as (w' & Ew & Q & _). injection Ew as <-. apply Q.
  - destruct (C11_recognise_sound a TE KL HT H _ n outs E conf run H1) as (w' & Ew & Q & Q1 & Q2). rewrite <- Q2. apply Q.
  - destruct (C11_recognise_sound a TE KL HT H _ n outs E conf run H1) as (w' & Ew & Q & Q1 & Q2).
    destruct conf as [cw cs ck]. cbn in *. now subst.
  - intros [(A1 & A2 & A3 & A4) Ec].
    pose proof (recognise_exhaustive a TE KL H KO w n outs (pd_to_vec run) (c_storage conf) E H0 A1 A2 A3 A4) as G.
    unfold the_item in G. rewrite (pd_from_to run) in G. rewrite Ec. exact G.
  - intros D. eapply recognise_once; eauto.
Qed.
Print Assumptions C12_recognise_complete.

(* C12: recognise does not panic as long as extract_key does not panic on a reachable configuration, and it ends if there
   are no runs of length [bound] or more on prefixes of the word. *)
Theorem C12_recognise_ends :
  forall (a : automaton), EqbSpec (au_teqb a) -> RoundLaws (au_K a) ->
  forall (H : max_heap (AItem a * au_K a) (wi_leb wleb)) (w : list (au_T a)),
  let reached ts s := executes (au_apply a) (au_init a) ts s /\ (forall t, In t ts -> au_trans a t) /\
                      exists rest, run_word ts ++ rest = w in
  (forall ts s rest, reached ts s -> run_word ts ++ rest = w -> au_key a (Conf rest s (run_weight ts)) <> None) ->
  (forall n, exists outs, recognise_int a H (Some w) n = Some outs) /\
  forall bound, (forall ts s, reached ts s -> length ts < bound) -> exists n, recognise_ended a H (Some w) n.
Proof.
  intros a TE KL H w reached KN.
  assert (HN : forall i, reachable (dflt (item_succs a)) (init_items a (Some w)) i -> au_key a (fst i) <> None).
  { intros i Hi. pose proof (item_inv_reachable a TE KL w i Hi) as HI. pose proof (inv_the_item a w i HI) as Ei.
    destruct HI as (I1 & I2 & I3 & I4). rewrite Ei. cbn. apply KN; [|assumption]. repeat split; eauto. }
  split; [intros n; now apply recognise_defined|].
  intros bound HB. set (init := init_items a (Some w)) in *.
  assert (LN : level (dflt (item_succs a)) bound init = []).
  { assert (G : forall d x, In x (level (dflt (item_succs a)) d init) -> length (pd_to_vec (snd x)) = d).
    { assert (LS : forall d xs, level (dflt (item_succs a)) (S d) xs = flat_map (dflt (item_succs a)) (level (dflt (item_succs a)) d xs)).
      { induction d as [|d IH]; intros xs; [reflexivity|].
        change (level (dflt (item_succs a)) (S (S d)) xs) with (level (dflt (item_succs a)) (S d) (flat_map (dflt (item_succs a)) xs)).
        rewrite IH. reflexivity. }
      induction d as [|d IH]; intros x Hx.
      - destruct Hx as [<-|[]]. reflexivity.
      - rewrite LS in Hx. apply in_flat_map in Hx. destruct Hx as (y & Hy & Hx).
        apply succs_run in Hx. destruct Hx as [t Ht]. rewrite Ht, pd_to_vec_push, app_length, (IH y Hy). cbn. lia. }
    destruct (level (dflt (item_succs a)) bound init) as [|x l] eqn:EL; [reflexivity|]. exfalso.
    assert (Hx : In x (level (dflt (item_succs a)) bound init)) by (rewrite EL; now left).
    pose proof (G _ _ Hx) as L1.
    assert (R : reachable (dflt (item_succs a)) init x) by (apply reachable_level; eauto).
    destruct (item_inv_reachable a TE KL w x R) as (I1 & I2 & I3 & I4).
    assert (L2 : length (pd_to_vec (snd x)) < bound) by (eapply HB; repeat split; eauto). lia. }
  exists (S (length (forest (dflt (item_succs a)) bound init))). unfold recognise_ended.
  set (n := S (length (forest (dflt (item_succs a)) bound init))).
  destruct (calls_p_defined (heap_agenda item_weight wleb H) (item_succs a) _
              (lossless_sound _ _ (heap_lossless item_weight wleb H)) init n (heap_collect item_weight wleb H init)) as [[os h] E].
  - intros x Hx. constructor. eapply Permutation_in; [apply (heap_collect_content item_weight wleb H)|exact Hx].
  - intros x Hx G. apply (HN x Hx). unfold item_succs in G. destruct x as [c r]. cbn. destruct (au_key a c); [discriminate|reflexivity].
  - exists os, h. split; [exact E|]. apply calls_p_total in E.
    pose proof (search_terminates (heap_agenda item_weight wleb H) _ (heap_lossless item_weight wleb H) (dflt (item_succs a))
                  (heap_collect item_weight wleb H init) init bound n) as ST.
    rewrite E in ST. apply ST; [apply (heap_collect_content item_weight wleb H)|assumption|unfold n; lia].
Qed.
Print Assumptions C12_recognise_ends.

(* C12: an accepting run is eventually returned whenever only boundedly long partial runs are at least as heavy; no end of
   the search is needed *)
Theorem C12_recognise_finds :
  forall (a : automaton), EqbSpec (au_teqb a) -> RoundLaws (au_K a) -> key_ok a ->
  (forall t, au_trans a t -> wleb (t_weight t) wone = true) ->
  forall (H : max_heap (AItem a * au_K a) (wi_leb wleb)) (w : list (au_T a)) ts s bound,
  accepting_run (au_apply a) (au_init a) (au_trans a) (fun s => au_terminal a (Conf [] s (run_weight ts)) = true) w ts s ->
  (forall us s', executes (au_apply a) (au_init a) us s' -> (forall t, In t us -> au_trans a t) -> (exists rest, run_word us ++ rest = w) ->
     bound <= length us -> wleb (run_weight ts) (run_weight us) = false) ->
  length ts < bound ->
  exists n, forall outs, recognise_int a H (Some w) n = Some outs -> In (Conf [] s (run_weight ts), pd_from ts) outs.
Proof.
  intros a TE KL KO LE H w ts s bound (A1 & A2 & A3 & A4) HB HL.
  exact (recognise_finds a TE KL H LE KO w ts s bound A1 A2 A3 A4 HL HB).
Qed.
Print Assumptions C12_recognise_finds.

(* C13: check_run executes precisely the run's instructions; it accepts what recognise returns *)
Theorem C13_check_run :
  forall (S I T : Type) (K : Weight) (apply : I -> S -> list S) (initial : S) (run : pushdown (transition I T K)),
  (forall conf r, In (conf, r) (check_run apply initial run) <->
     r = run /\ c_word conf = [] /\ c_weight conf = run_weight (pd_to_vec run) /\
     executes apply initial (pd_to_vec run) (c_storage conf)) /\
  (check_run apply initial run <> [] <-> exists s, executes apply initial (pd_to_vec run) s).
Proof.
  intros S I T K apply initial run. split; [intros conf r; now apply check_run_spec|].
  split.
  - intros H. destruct (check_run apply initial run) as [|[c r] l] eqn:E; [congruence|].
    assert (Hc : In (c, r) (check_run apply initial run)) by (rewrite E; now left).
    apply check_run_spec in Hc. exists (c_storage c). apply Hc.
  - intros [s Hs] E. assert (Hc : In (Conf [] s (run_weight (pd_to_vec run)), run) (check_run apply initial run)).
    { apply check_run_spec. auto. }
    rewrite E in Hc. destruct Hc.
Qed.
Print Assumptions C13_check_run.

Theorem C13_check_run_accepts_recognised :
  forall (a : automaton), EqbSpec (au_teqb a) -> RoundLaws (au_K a) ->
  (forall c, au_terminal a c = true -> c_word c = []) ->
  forall (H : max_heap (AItem a * au_K a) (wi_leb wleb)) (word : option (list (au_T a))) (n : nat) (outs : list (AItem a)),
  recognise_int a H word n = Some outs ->
  forall conf run, In (conf, run) outs -> In (conf, run) (check_run (au_apply a) (au_init a) run).
Proof.
  intros a TE KL HT H word n outs E conf run Hi.
  destruct (C11_recognise_sound a TE KL HT H word n outs E conf run Hi) as (w & -> & (A1 & A2 & A3 & A4) & B1 & B2).
  apply check_run_spec; auto.
Qed.
Print Assumptions C13_check_run_accepts_recognised.

(* a one-counter automaton for a^n b^n: instruction true = increment, false = decrement *)
Definition counter : automaton := {|
  au_S := nat; au_I := bool; au_T := nat; au_K := CostWeight; au_Key := unit; au_teqb := Nat.eqb;
  au_apply := fun i s => if i then [S s] else match s with 0 => [] | S s' => [s'] end;
  au_key := fun _ => Some tt;
  au_terminal := fun c => match c_word c with [] => Nat.eqb (c_storage c) 0 | _ => false end;
  au_tmap := fun _ => [Trans (K:=CostWeight) [0] 1 true; Trans (K:=CostWeight) [1] 2 false];
  au_init := 0 |}.

Definition counter_heap : max_heap (AItem counter * au_K counter) (wi_leb wleb) :=
  list_heap _ (wi_TO _ (rl_order _ cost_laws)).

Example ex_recognise :
  recognise_int counter counter_heap (Some [0;0;1;1]) 10 =
    Some [(Conf [] (0 : au_S counter) (6 : au_K counter),
           pd_from [Trans (K:=CostWeight) [0] 1 true; Trans (K:=CostWeight) [0] 1 true; Trans (K:=CostWeight) [1] 2 false; Trans (K:=CostWeight) [1] 2 false])] /\
  recognise_ended counter counter_heap (Some [0;0;1;1]) 10 /\
  recognise_int counter counter_heap (Some [0;1;1]) 10 = Some [] /\
  EqbSpec (au_teqb counter) /\ RoundLaws (au_K counter) /\
  (forall c, au_terminal counter c = true -> c_word c = []) /\ key_ok counter /\ deterministic counter /\
  (forall t, au_trans counter t -> wleb (t_weight t) wone = true).
Proof.
  split; [vm_compute; reflexivity|]. split.
  { unfold recognise_ended. do 2 eexists. split; [vm_compute; reflexivity|]. cbn. tauto. }
  split; [vm_compute; reflexivity|]. split; [exact nat_eqb_spec|]. split; [exact cost_laws|]. split; [|split; [|split; [split|]]].
  - intros [[|x w] s k]; [reflexivity|discriminate].
  - intros t c [k Ht] _. exists tt. split; [reflexivity|]. exact Ht.
  - intros [] s; cbn; [lia|]. destruct s; cbn; lia.
  - intros k. repeat first [apply NoDup_nil | apply NoDup_cons; [cbn; intuition discriminate|]].
  - intros t [k Ht]. cbn in Ht. destruct Ht as [<-|[<-|[]]]; reflexivity.
Qed.
Example ex_check_run :
  check_run (au_apply counter) 0 (pd_from [Trans (K:=CostWeight) [0] 1 true; Trans (K:=CostWeight) [1] 2 false]) <> [] /\
  check_run (au_apply counter) 0 (pd_from [Trans (K:=CostWeight) [1] 1 false]) = [].
Proof. split; [discriminate|reflexivity]. Qed.
