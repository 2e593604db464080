(* Cases that meet the hypotheses of the theorems about the end of a search and about searches without end. *)
From Verif Require Import Base M_Agenda M_Search M_Util M_Recog S_Search S_Util S_Recog P_Agenda P_Search P_Util P_Recog Properties_Recog.

(* C12_recognise_ends: the one-counter automaton has no run longer than the word *)
Lemma counter_length us s : executes (au_apply counter) 0 us s -> (forall t, In t us -> au_trans counter t) -> length us = length (run_word us).
Proof.
  intros _. induction us as [|u us IH]; intros A; [reflexivity|]. change (run_word (u :: us)) with (t_word u ++ run_word us). rewrite app_length, <- IH by (intros t Ht; apply A; now right).
  destruct (A u (or_introl eq_refl)) as [k [<-|[<-|[]]]]; reflexivity.
Qed.
Example C12_ends_case : forall w,
  (forall n, exists outs, recognise_int counter counter_heap (Some w) n = Some outs) /\ exists n, recognise_ended counter counter_heap (Some w) n.
Proof.
  intros w. destruct (C12_recognise_ends counter nat_eqb_spec cost_laws counter_heap w) as [D E]; [discriminate|]. split; [exact D|].
  apply (E (S (length w))). intros ts s (X & A & rest & <-). rewrite (counter_length ts s X A), app_length. lia.
Qed.

(* C12_recognise_finds: an automaton that may do nothing at any time, at a cost; the search never ends and finds the run *)
Definition idler : automaton := {|
  au_S := nat; au_I := bool; au_T := nat; au_K := CostWeight; au_Key := unit; au_teqb := Nat.eqb;
  au_apply := fun i s => if i then [S s] else [s];
  au_key := fun _ => Some tt;
  au_terminal := fun c => match c_word c with [] => true | _ => false end;
  au_tmap := fun _ => [Trans (K:=CostWeight) [7] 2 true; Trans (K:=CostWeight) [] 1 false];
  au_init := 0 |}.
Definition idler_heap : max_heap (AItem idler * au_K idler) (wi_leb wleb) := list_heap _ (wi_TO _ (rl_order _ cost_laws)).
Definition step7 : transition (au_I idler) (au_T idler) (au_K idler) := Trans (K:=CostWeight) [7] 2 true.
Definition idle : transition (au_I idler) (au_T idler) (au_K idler) := Trans (K:=CostWeight) [] 1 false.
Lemma idler_cost us : (forall t, In t us -> au_trans idler t) -> length us <= (run_weight us : nat).
Proof.
  intros A. assert (G : forall k : nat, length us + k <= fold_left Nat.add (map t_weight us) k).
  { induction us as [|u us IH]; intros k; cbn [length map fold_left]; [lia|]. etransitivity; [|apply IH; intros t Ht; apply A; now right].
    destruct (A u (or_introl eq_refl)) as [x [<-|[<-|[]]]]; cbn; lia. }
  specialize (G 0). rewrite Nat.add_0_r in G. exact G.
Qed.
Example C12_finds_case :
  (exists n, forall outs, recognise_int idler idler_heap (Some [7; 7]) n = Some outs -> In (Conf [] (2 : au_S idler) (4 : au_K idler), pd_from [step7; step7]) outs) /\
  (exists n, forall outs, recognise_int idler idler_heap (Some [7; 7]) n = Some outs -> In (Conf [] (2 : au_S idler) (7 : au_K idler), pd_from [idle; step7; idle; step7; idle]) outs) /\
  forall k, exists us s, executes (au_apply idler) 0 us s /\ (forall t, In t us -> au_trans idler t) /\ run_word us = [7; 7] /\ length us = k + 2.
Proof.
  assert (KO : key_ok idler) by (intros t c [k Ht] _; exists tt; split; [reflexivity|exact Ht]).
  assert (LE : forall t, au_trans idler t -> wleb (t_weight t) wone = true) by (intros t [k [<-|[<-|[]]]]; reflexivity).
  assert (T7 : au_trans idler step7) by (exists tt; now left). assert (TI : au_trans idler idle) by (exists tt; right; now left).
  assert (G : forall ts s, accepting_run (au_apply idler) (au_init idler) (au_trans idler) (fun s => au_terminal idler (Conf [] s (run_weight ts)) = true) [7; 7] ts s ->
    exists n, forall outs, recognise_int idler idler_heap (Some [7; 7]) n = Some outs -> In (Conf [] s (run_weight ts), pd_from ts) outs).
  { intros ts s HA. apply (C12_recognise_finds idler nat_eqb_spec cost_laws KO LE idler_heap [7; 7] ts s (S ((run_weight ts : nat) + length ts)) HA); [|lia].
    intros us s' _ A _ L. pose proof (idler_cost us A) as C. cbn. apply Nat.leb_gt. cbn in *. lia. }
  split; [|split].
  - apply (G [step7; step7] 2). split; [|split; [intros t [<-|[<-|[]]]; assumption|split; reflexivity]]. repeat (eapply ex_cons; [left; reflexivity|]). constructor.
  - apply (G [idle; step7; idle; step7; idle] 2). split; [|split; [intros t [<-|[<-|[<-|[<-|[<-|[]]]]]]; assumption|split; reflexivity]]. repeat (eapply ex_cons; [left; reflexivity|]). constructor.
  - induction k as [|k (us & s & X & A & W & L)].
    + exists [step7; step7], 2. split; [repeat (eapply ex_cons; [left; reflexivity|]); constructor|]. split; [intros t [<-|[<-|[]]]; assumption|split; reflexivity].
    + exists (idle :: us), s. split; [eapply ex_cons; [left; reflexivity|exact X]|]. split; [intros t [<-|Ht]; auto|]. split; [exact W|cbn [length]; rewrite L; lia].
Qed.
