(* Specification of runs of an automaton with an arbitrary storage type. *)
From Verif Require Import Base M_Util M_Recog.

Section Runs.
  Context {S I T : Type} {K : Weight} (apply : I -> S -> list S).

  (* executing the instructions of the transitions ts one after the other leads from storage s to storage s' *)
  Inductive executes : S -> list (transition I T K) -> S -> Prop :=
  | ex_nil s : executes s [] s
  | ex_cons s t ts s1 s' : In s1 (apply (t_ins t) s) -> executes s1 ts s' -> executes s (t :: ts) s'.
End Runs.

(* the word a run reads, and its weight: the weights of its transitions, multiplied from left to right *)
Definition run_word {I T : Type} {K : Weight} (ts : list (transition I T K)) : list T := flat_map t_word ts.
Definition run_weight {I T : Type} {K : Weight} (ts : list (transition I T K)) : K := lprod (map t_weight ts).

(* ts is a run of transitions satisfying [tr], from storage [init], that reads [word] completely and ends in a storage
   s with [final s] *)
Definition accepting_run {S I T : Type} {K : Weight} (apply : I -> S -> list S) (init : S)
           (tr : transition I T K -> Prop) (final : S -> Prop) (word : list T) (ts : list (transition I T K)) (s : S) : Prop :=
  executes apply init ts s /\ (forall t, In t ts -> tr t) /\ run_word ts = word /\ final s.

(* t is a transition of the automaton *)
Definition au_trans (a : automaton) (t : transition (au_I a) (au_T a) (au_K a)) : Prop := exists k, In t (au_tmap a k).

(* the transitions that can be applied are found under the key *)
Definition key_ok (a : automaton) : Prop :=
  forall t c, au_trans a t -> tr_apply (au_teqb a) (au_apply a) t c <> [] ->
    exists k, au_key a c = Some k /\ In t (au_tmap a k).

(* every instruction has at most one result and no transition is listed twice *)
Definition deterministic (a : automaton) : Prop :=
  (forall i s, length (au_apply a i s) <= 1) /\ (forall k, NoDup (au_tmap a k)).

(* [outs] is a correct prefix of the enumeration of the accepting runs on [word], for an automaton given by its
   transitions [tr], initial storage [init] and final storages [final]; [ended] says that the enumeration is over. *)
Section Enumeration.
  Context {S I T : Type} {K : Weight} (apply : I -> S -> list S) (init : S) (tr : transition I T K -> Prop) (final : S -> Prop).
  Notation result ts s := (Conf [] s (run_weight ts), pd_from ts).

  Definition enum_sound (word : list T) (outs : list (item S I T K)) : Prop :=
    forall conf run, In (conf, run) outs ->
      accepting_run apply init tr final word (pd_to_vec run) (c_storage conf) /\
      c_word conf = [] /\ c_weight conf = run_weight (pd_to_vec run).

  Definition enum_best_first (word : list T) (outs : list (item S I T K)) : Prop :=
    forall before y after, outs = before ++ y :: after ->
      (forall x, In x before -> wleb (item_weight y) (item_weight x) = true) /\
      (forall ts s, accepting_run apply init tr final word ts s -> wleb (run_weight ts) (item_weight y) = false ->
         In (result ts s) before).

  Definition enum_exhaustive (word : list T) (outs : list (item S I T K)) : Prop :=
    forall ts s, accepting_run apply init tr final word ts s -> In (result ts s) outs.

  (* ts is a run that reads a prefix of the word *)
  Definition partial_run (word : list T) (ts : list (transition I T K)) : Prop :=
    exists s rest, executes apply init ts s /\ (forall t, In t ts -> tr t) /\ run_word ts ++ rest = word.

  (* what holds of a search that keeps at most [beam] items: only accepting runs are returned, each of them once (if no
     transition is listed twice), sorted (if no weight exceeds one), and all of them if the beam has room for all partial runs
     and the search is over *)
  Definition enum_beam (word : list T) (beam : nat) (distinct ended : Prop) (outs : list (item S I T K)) : Prop :=
    enum_sound word outs /\ (distinct -> NoDup (map snd outs)) /\
    ((forall t, tr t -> wleb (t_weight t) wone = true) ->
       forall before y after, outs = before ++ y :: after -> forall x, In x before -> wleb (item_weight y) (item_weight x) = true) /\
    (distinct -> ended -> forall runs, (forall ts, partial_run word ts -> In ts runs) -> length runs <= beam -> enum_exhaustive word outs).
End Enumeration.
