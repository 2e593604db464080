(* C58: command lines.  Which command lines are accepted, what the commands are told, and what that means for whole commands. *)
From Verif Require Import M_Nom Base BMap M_Util M_Recog M_Agenda M_Automata M_CFG M_TreeStack M_Grammar M_Chart M_CSAuto M_ToDeriv M_KBest M_Cow M_CSParse M_FromPmcfg M_Negra M_Text M_AutText M_Command M_Mcfg M_CfgCommand M_TsaCommand M_Approx M_ApproxCommand M_PdaText M_Import M_Disco M_Main M_Clap.
From Verif Require Import S_Text S_Main S_Chars S_Clap P_Text P_AutText P_Main P_Chars P_Clap Properties_Main.

(* A command line with the names of a subcommand in front is accepted if and only if the rest is written according to its usage and
   allowed; then the subcommand is told what was given and the defaults. *)
Theorem C58_command_lines : forall u, In u usages -> forall words,
  (forall commands m, get_matches rustomata_app (u_path u ++ words) = Some (commands, m) ->
     commands = u_path u /\ exists uses, written (u_options u) (u_arguments u) words uses /\ allowed u uses /\ told u uses (am_values m) (am_flags m)) /\
  (forall uses, written (u_options u) (u_arguments u) words uses -> allowed u uses ->
     exists m, get_matches rustomata_app (u_path u ++ words) = Some (u_path u, m) /\ told u uses (am_values m) (am_flags m)).
Proof.
  intros u HU words. destruct (usages_fit u HU) as (args & HL & HF). rewrite (get_leaf _ _ _ words HL). split.
  - intros commands m. destruct (leaf args words) as [m'|] eqn:E; [|discriminate]. intros X. injection X as <- <-. split; [reflexivity|]. exact (leaf_told args u HF words m' E).
  - intros uses HW HA. destruct (told_leaf args u HF words uses HW HA) as (m & E & HT). exists m. now rewrite E.
Qed.
Print Assumptions C58_command_lines.

(* Of all other command lines only those are accepted that end before a subcommand is complete; nothing is told. *)
Theorem C58_other_lines : forall words commands m, get_matches rustomata_app words = Some (commands, m) ->
  (exists u rest, In u usages /\ commands = u_path u /\ words = u_path u ++ rest) \/
  (exists u rest, In u usages /\ u_path u = commands ++ rest /\ rest <> [] /\ (words = commands \/ words = commands ++ [«"--"»]) /\ m = ArgMatches [] []).
Proof.
  assert (HERE : forall words m uses, read_words [] [] false words = Some uses -> checked_matches [] uses = Some m -> (words = [] \/ words = [«"--"»]) /\ m = ArgMatches [] []).
  { intros words m uses ER EC. assert (HW : written (options []) [] words uses) by (apply (written_read [] (fun a (X : In a []) => match X with end) words []); exact ER).
    assert (E : (words = [] \/ words = [«"--"»]) /\ uses = []).
    { inversion HW; subst; try contradiction; try (split; [now left|reflexivity]).
      - match goal with HX : letters _ ?os _ |- _ => inversion HX; subst; [congruence|]; match goal with HY : In _ (options []) /\ _ |- _ => destruct HY as [[] _] end end.
      - match goal with HX : _ ++ _ = [] |- _ => apply app_eq_nil in HX; destruct HX as [-> ->] end. match goal with HX : List.length [] = List.length ?vs |- _ => destruct vs; [|discriminate HX] end. split; [now right|reflexivity]. }
    destruct E as [E ->]. split; [exact E|]. cbn in EC. now injection EC as <-. }
  assert (STEP : forall n args subs words commands m, get_matches (App n args subs) words = Some (commands, m) ->
    (commands = [] /\ exists uses, read_words args (filter a_index args) false words = Some uses /\ checked_matches args uses = Some m) \/
    (exists s rest cs, In s subs /\ words = app_name s :: rest /\ get_matches s rest = Some (cs, m) /\ commands = app_name s :: cs)).
  { intros n args subs words commands m E.
    assert (H0 : forall o, (let? uses := o in let? m' := checked_matches args uses in Some ([], m')) = Some (commands, m) -> commands = [] /\ exists uses, o = Some uses /\ checked_matches args uses = Some m).
    { intros [uses|]; [|discriminate]. destruct (checked_matches args uses) as [m'|] eqn:EC; [|discriminate]. intros X. injection X as <- <-. split; [reflexivity|]. now exists uses. }
    destruct words as [|w words]; cbn [get_matches app_args app_subcommands] in E; [left; exact (H0 (read_words args (filter a_index args) false []) E)|].
    destruct (find (fun s => word_eqb (app_name s) w) subs) as [s|] eqn:EF; [|left; exact (H0 (read_words args (filter a_index args) false (w :: words)) E)]. right. apply find_some in EF. destruct EF as [HI EW]. apply same_word in EW. subst w.
    destruct (get_matches s words) as [[cs m']|] eqn:EG; [|discriminate]. cbn [fst snd] in E. injection E as <- <-. exists s, words, cs. now repeat split. }
  intros words commands m E.
  apply STEP in E. destruct E as [(-> & uses & ER & EC)|(s & rest & cs & HI & -> & E & ->)].
  { right. destruct (HERE _ _ _ ER EC) as [HW ->]. eexists _, _. split; [left; reflexivity|]. split; [reflexivity|]. split; [discriminate|]. split; [exact HW|reflexivity]. }
  assert (LEAF : forall path a args rest cs m, leaf_of a path = Some args -> path = [] -> get_matches a rest = Some (cs, m) -> cs = []).
  { intros path a args rest' cs' m' HL -> HG. pose proof (get_leaf [] a args rest' HL) as X. cbn [app] in X. rewrite HG in X. destruct (leaf args rest'); [|discriminate]. now injection X as -> _. }
  cbn [In app_subcommands rustomata_app] in HI.
  destruct HI as [<-|[<-|[<-|[<-|[<-|[]]]]]]; apply STEP in E; destruct E as [(-> & uses & ER & EC)|(s & rest' & cs' & HI & -> & E & ->)].
  Ltac inner HERE ER EC pick := right; destruct (HERE _ _ _ ER EC) as [HW ->]; eexists _, _; split; [pick; left; reflexivity|]; split; [reflexivity|]; split; [discriminate|]; split; [destruct HW as [->| ->]; [now left|now right]|reflexivity].
  Ltac outer LEAF E pick := left; match type of E with get_matches ?a _ = _ => rewrite (LEAF [] a _ _ _ _ eq_refl eq_refl E) end; eexists _, _; split; [pick; left; reflexivity|]; split; [reflexivity|reflexivity].
  - inner HERE ER EC idtac.
  - cbn [In] in HI. destruct HI as [<-|[<-|[]]]; [outer LEAF E idtac|outer LEAF E ltac:(do 1 right)].
  - inner HERE ER EC ltac:(do 2 right).
  - cbn [In] in HI. destruct HI as [<-|[<-|[]]]; [outer LEAF E ltac:(do 2 right)|outer LEAF E ltac:(do 3 right)].
  - inner HERE ER EC ltac:(do 4 right).
  - cbn [In] in HI. destruct HI as [<-|[]]; outer LEAF E ltac:(do 4 right).
  - inner HERE ER EC ltac:(do 5 right).
  - cbn [In] in HI. destruct HI as [<-|[<-|[<-|[]]]]; apply STEP in E; destruct E as [(-> & uses & ER & EC)|(s & rest'' & cs'' & HI & -> & E & ->)].
    + inner HERE ER EC ltac:(do 5 right).
    + cbn [In] in HI. destruct HI as [<-|[<-|[]]]; [outer LEAF E ltac:(do 5 right)|outer LEAF E ltac:(do 6 right)].
    + inner HERE ER EC ltac:(do 7 right).
    + cbn [In] in HI. destruct HI as [<-|[<-|[]]]; [outer LEAF E ltac:(do 7 right)|outer LEAF E ltac:(do 8 right)].
    + inner HERE ER EC ltac:(do 9 right).
    + cbn [In] in HI. destruct HI as [<-|[<-|[]]]; [outer LEAF E ltac:(do 9 right)|outer LEAF E ltac:(do 10 right)].
  - inner HERE ER EC ltac:(do 11 right).
  - cbn [In] in HI. destruct HI as [<-|[<-|[]]]; [outer LEAF E ltac:(do 11 right)|outer LEAF E ltac:(do 12 right)].
Qed.
Print Assumptions C58_other_lines.

(* The option that is declared as -ctf cannot be written so: clap takes the first letter only. *)
Theorem C58_ctf_refuted : forall file strategies, plain file -> plain strategies ->
  get_matches rustomata_app [«"tsa"»; «"recognise"»; file; «"-ctf"»; strategies] = None /\
  exists m, get_matches rustomata_app [«"tsa"»; «"recognise"»; file; «"-ctf"»] = Some ([«"tsa"»; «"recognise"»], m) /\ has m «"coarse-to-fine"» «"tf"».
Proof.
  intros file strategies HF HS. apply plain_option in HF, HS.
  assert (X : forall words, get_matches rustomata_app ([«"tsa"»; «"recognise"»] ++ words) = let? m := leaf (app_args (nth 0 (app_subcommands tsa_app) tsa_app)) words in Some ([«"tsa"»; «"recognise"»], m)) by (intros words; now apply get_leaf).
  split.
  - pose proof (X [file; «"-ctf"»; strategies]) as Y. cbn [app] in Y. rewrite Y. unfold leaf. cbn [read_words]. rewrite HF. vm_compute (negb false && false). cbv iota.
    cbn [nth app_subcommands tsa_app app_args filter a_index index_arg value_arg]. vm_compute (is_option «"-ctf"»). cbn [negb andb list_ascii_of_string]. rewrite HS. reflexivity.
  - pose proof (X [file; «"-ctf"»]) as Y. cbn [app] in Y. rewrite Y. unfold leaf. cbn [read_words]. rewrite HF. vm_compute (negb false && false). cbv iota.
    eexists. split; [reflexivity|]. unfold has. cbn. tauto.
Qed.
Print Assumptions C58_ctf_refuted.

Section Programs.
  Context {K : ZWeight} (neqb teqb : bytes -> bytes -> bool) (reqb : prule bytes bytes K -> prule bytes bytes K -> bool) (wadd : K -> K -> K).
  Notation rule := (prule bytes bytes K).
  Notation ts_code := (item (tstack nat) (ts_instr nat) nat K).
  Notation pd_code := (item (list nat) (pd_instr nat) nat K).
  Context (H_ts : max_heap (ts_code * K) (wi_leb wleb)) (Hb_ts : minmax_heap (ts_code * K) (wi_leb wleb))
          (H_pd : max_heap (pd_code * K) (wi_leb wleb)) (Hb_pd : minmax_heap (pd_code * K) (wi_leb wleb))
          (H_cs : max_heap (K * nat) (@item_leb K)) (H_kb : max_heap (K * bt K) (@kb_leb K))
          (shuffle_ts : list (transition (ts_instr nat) nat K) -> list (transition (ts_instr nat) nat K))
          (shuffle_pd : list (transition (pd_instr nat) nat K) -> list (transition (pd_instr nat) nat K))
          (order set_order : list bytes -> list bytes) (cl_order : list (bytes * list bytes) -> list (bytes * list bytes))
          (ts_order : list (transition (ts_instr (posstate rule)) bytes K) -> list (transition (ts_instr (posstate rule)) bytes K))
          (pd_order : list (transition (pd_instr (push_state bytes bytes)) bytes K) -> list (transition (pd_instr (push_state bytes bytes)) bytes K))
          (pp_order : list (transition (pd_instr (posstate rule)) bytes K) -> list (transition (pd_instr (posstate rule)) bytes K))
          (distinct : list nat -> list nat) (iterate : list (bytes * bool) -> list (bytes * bool)).
  Context (iow : text_io K) (factorize : K -> nat -> list K) (ops : num_ops K) (checked : bool)
          (debug_string : bytes -> bytes) (debug_weight : K -> bytes) (debug_rule : rule -> bytes)
          (display : configuration (tstack (posstate rule)) bytes K -> bytes)
          (with_tts : tsa bytes bytes K -> nat -> option nat -> list (list bytes) -> outcome bytes).
  Context (gzip : bytes -> bytes) (gunzip : bytes -> option bytes)
          (serialize : @cs_rep bytes bytes K -> bytes) (deserialize : bytes -> option (@cs_rep bytes bytes K)).
  Context (files : bytes -> option bytes) (stdin : bytes) (calls fuel : nat).


  (* the program on the words behind its name; None = a message of clap *)
  Definition program (words : list bytes) : option (outcome bytes) :=
    match get_matches rustomata_app words with
    | Some (commands, m) => Some (rustomata neqb teqb reqb wadd H_ts Hb_ts H_pd Hb_pd H_cs H_kb shuffle_ts shuffle_pd order set_order cl_order ts_order pd_order pp_order distinct iterate
        iow factorize ops checked debug_string debug_weight debug_rule display with_tts gzip gunzip serialize deserialize calls fuel files stdin commands m)
    | None => None
    end.
  (* the value of an option, if it was given *)
  Definition option_value {X : Type} (reads : bytes -> X -> Prop) (uses : list (bytes * option bytes)) (name : bytes) (o : option X) : Prop :=
    match o with Some x => exists s, In (name, Some s) uses /\ reads s x | None => ~ In name (map fst uses) end.
  Definition option_set (uses : list (bytes * option bytes)) (name : bytes) (b : bool) : Prop := b = true <-> In (name, None) uses.
  Definition or_default {X : Type} (d : X) (o : option X) : X := match o with Some x => x | None => d end.

  Lemma told_has u uses m name v : told u uses (am_values m) (am_flags m) -> In (name, Some v) uses -> has m name v.
  Proof. intros (_ & HV & _) HI. apply HV. now left. Qed.
  Lemma told_may {X : Type} (reads : bytes -> X -> Prop) u uses m name o : told u uses (am_values m) (am_flags m) -> ~ In name (map fst (u_defaults u)) -> option_value reads uses name o -> may_have reads m name o.
  Proof.
    intros (_ & HV & _) ND HG. destruct o as [x|]; cbn in *.
    - destruct HG as (s & HI & HR). exists s. split; [apply HV; now left|exact HR].
    - intros HI. apply in_map_iff in HI. destruct HI as ([n v] & E & HI). cbn in E. subst n. apply HV in HI. destruct HI as [HI|[HI _]]; [apply HG|apply ND]; apply in_map_iff; eexists; (split; [|exact HI]); reflexivity.
  Qed.
  Lemma told_number u uses m name d o : told u uses (am_values m) (am_flags m) -> In (name, d) (u_defaults u) -> usize d 1 -> option_value usize uses name o -> has_number m name (or_default 1 o).
  Proof.
    intros (_ & HV & _) HD HU HG. destruct o as [x|]; cbn in *.
    - destruct HG as (s & HI & HR). exists s. split; [apply HV; now left|exact HR].
    - exists d. split; [|exact HU]. apply HV. right. now split.
  Qed.
  Lemma told_flag u uses m words name b : told u uses (am_values m) (am_flags m) -> written (u_options u) (u_arguments u) words uses ->
    ~ In name (map fst (u_defaults u)) -> ~ In name (u_arguments u) -> (forall o, In o (u_options u) -> o_name o = name -> o_value o = false) ->
    option_set uses name b -> flag m name b.
  Proof.
    intros (_ & HV & HF) HW ND NA NO HS. split.
    - intros HI. apply in_map_iff in HI. destruct HI as ([n v] & E & HI). cbn in E. subst n. apply HV in HI. destruct HI as [HI|[HI _]].
      + apply (written_names _ _ _ _ HW) in HI. destruct HI as [HI|(o & HI & E & HO)]; [now apply NA|]. rewrite (NO o HI E) in HO. discriminate.
      + apply ND. apply in_map_iff. now exists (name, v).
    - rewrite HF. exact HS.
  Qed.

  (* No accepted command line makes a command fail for lack of an argument: required arguments and options with defaults have values,
     and the conditions under which C56 describes the commands are met. *)
  Theorem C58_nothing_missing : forall u, In u usages -> forall words commands m, get_matches rustomata_app (u_path u ++ words) = Some (commands, m) ->
    well_formed m /\ (forall n, In n (u_required u) \/ In n (map fst (u_defaults u)) -> exists v, has m n v) /\
    (forall o, In o (u_options u) -> o_value o = false -> exists b, flag m (o_name o) b).
  Proof.
    intros u HU words commands m E. apply (proj1 (C58_command_lines u HU words)) in E. destruct E as (_ & uses & HW & (ND & HR & _) & HT).
    assert (DEC : (forall n, In n (u_required u) \/ In n (map fst (u_defaults u)) -> forall o, In o (u_options u) -> o_name o = n -> o_value o = true) /\
                  (forall o, In o (u_options u) -> o_value o = false -> ~ In (o_name o) (map fst (u_defaults u)) /\ ~ In (o_name o) (u_arguments u) /\
                     (forall o', In o' (u_options u) -> o_name o' = o_name o -> o_value o' = false))).
    { clear - HU. unfold usages in HU. cbn [In] in HU.
      repeat (destruct HU as [<-|HU]; [split;
        [intros n HN o HI EN; cbn in HI; repeat (destruct HI as [<-|HI]; [first [reflexivity|exfalso; subst n; cbn in HN; intuition discriminate]|]); destruct HI
        |intros o HI HV; cbn in HI; repeat (destruct HI as [<-|HI]; [first [discriminate HV|
           split; [cbn; intuition discriminate|split; [cbn; intuition discriminate|intros o' HI' EN; cbn in HI'; repeat (destruct HI' as [<-|HI']; [first [reflexivity|discriminate EN]|]); destruct HI']]]|]); destruct HI]|]).
      destruct HU. }
    destruct DEC as [DV DF]. split; [exact (proj1 HT)|]. split.
    - intros n HN. destruct (in_dec (list_eq_dec ascii_dec) n (map fst uses)) as [HI|NI].
      + apply in_map_iff in HI. destruct HI as ([k [v|]] & EK & HI); cbn in EK; subst k; [exists v; apply (proj1 (proj2 HT)); now left|].
        exfalso. apply (written_names _ _ _ _ HW) in HI. destruct HI as (o & HI & EO & HV). rewrite (DV n HN o HI EO) in HV. discriminate.
      + destruct HN as [HN|HN]; [now apply HR in HN|]. apply in_map_iff in HN. destruct HN as ([k d] & EK & HN). cbn in EK. subst k. exists d. apply (proj1 (proj2 HT)). right. now split.
    - intros o HI HV. destruct (DF o HI HV) as (D1 & D2 & D3).
      destruct (in_dec (list_eq_dec ascii_dec) (o_name o) (map fst uses)) as [HX|NX].
      + exists true. apply (told_flag u uses m words _ _ HT HW D1 D2 D3). split; [intros _|reflexivity]. apply in_map_iff in HX. destruct HX as ([k [v|]] & EK & HX); cbn in EK; subst k; [|exact HX].
        exfalso. apply (written_names _ _ _ _ HW) in HX. destruct HX as [HX|(o' & HX & EO & HV')]; [now apply D2|]. rewrite (D3 o' HX EO) in HV'. discriminate.
      + exists false. apply (told_flag u uses m words _ _ HT HW D1 D2 D3). split; [discriminate|]. intros HX. exfalso. apply NX. apply in_map_iff. eexists. split; [|exact HX]. reflexivity.
  Qed.
  (* mcfg parse, from the words of the command line *)
  Theorem C58_mcfg_parse : forall words uses path content grammar n beam negra text,
    written [number_option «"number-of-parses"»; beam_option «"beam-width"»; Opt «"negra"» None (Some «"negra"») false] [«"grammar"»] words uses -> NoDup (map fst uses) ->
    In («"grammar"», Some path) uses -> files path = Some content -> seen content grammar ->
    option_value usize uses «"number-of-parses"» n -> option_value usize uses «"beam-width"» beam -> option_set uses «"negra"» negra -> heard stdin text ->
    program ([«"mcfg"»; «"parse"»] ++ words) = Some (mcfg_parse neqb teqb reqb H_ts Hb_ts shuffle_ts iow display grammar (or_default 1 n) beam negra calls fuel text).
  Proof.
    intros words uses path content grammar n beam negra text HW ND HG HF HS HN HB HX HT.
    set (u := nth 0 usages (grammar_only [])). assert (HU : In u usages) by (left; reflexivity).
    destruct (proj2 (C58_command_lines u HU words) uses HW) as (m & E & HM).
    { split; [exact ND|]. split; [|intros a b []]. intros k [<-|[]]. apply in_map_iff. now exists («"grammar"», Some path). }
    unfold program. change ([«"mcfg"»; «"parse"»] ++ words) with (u_path u ++ words). rewrite E. f_equal. apply C56_mcfg_parse.
    - exact (proj1 HM).
    - exists path, content. split; [exact (told_has u uses m _ _ HM HG)|]. now split.
    - apply (told_number u uses m _ «"1"» _ HM); [left; reflexivity|apply usize_iff; reflexivity|exact HN].
    - apply (told_may usize u uses m _ _ HM); [cbn; intuition discriminate|exact HB].
    - apply (told_flag u uses m words _ _ HM HW); [cbn; intuition discriminate|cbn; intuition discriminate| |exact HX]. intros o HI E'. cbn in HI. destruct HI as [<-|[<-|[<-|[]]]]; [discriminate E'|discriminate E'|reflexivity].
    - exact HT.
  Qed.
  (* cfg parse *)
  Theorem C58_cfg_parse : forall words uses path content grammar n beam text,
    written [number_option «"number-of-parses"»; beam_option «"beam-width"»] [«"grammar"»] words uses -> NoDup (map fst uses) ->
    In («"grammar"», Some path) uses -> files path = Some content -> seen content grammar ->
    option_value usize uses «"number-of-parses"» n -> option_value usize uses «"beam-width"» beam -> heard stdin text ->
    program ([«"cfg"»; «"parse"»] ++ words) = Some (cfg_parse neqb teqb wadd H_pd Hb_pd shuffle_pd order iow debug_string debug_weight grammar (or_default 1 n) beam calls text).
  Proof.
    intros words uses path content grammar n beam text HW ND HG HF HS HN HB HT.
    set (u := nth 2 usages (grammar_only [])). assert (HU : In u usages) by (do 2 right; left; reflexivity).
    destruct (proj2 (C58_command_lines u HU words) uses HW) as (m & E & HM).
    { split; [exact ND|]. split; [|intros a b []]. intros k [<-|[]]. apply in_map_iff. now exists («"grammar"», Some path). }
    unfold program. change ([«"cfg"»; «"parse"»] ++ words) with (u_path u ++ words). rewrite E. f_equal. apply C56_cfg_parse.
    - exact (proj1 HM).
    - exists path, content. split; [exact (told_has u uses m _ _ HM HG)|]. now split.
    - apply (told_number u uses m _ «"1"» _ HM); [left; reflexivity|apply usize_iff; reflexivity|exact HN].
    - apply (told_may usize u uses m _ _ HM); [cbn; intuition discriminate|exact HB].
    - exact HT.
  Qed.
  (* csparsing parse *)
  Theorem C58_csparsing_parse : forall rep, gunzip (gzip (serialize rep)) = Some (serialize rep) -> deserialize (serialize rep) = Some rep ->
    forall words uses path k beam threshold candidates with_lines with_pos debugmode fallback text,
    written [Opt «"k"» (Some "k"%char) None true; beam_option «"beam"»; Opt «"threshold"» (Some "t"%char) (Some «"threshold"») true; Opt «"candidates"» (Some "c"%char) (Some «"candidates"») true;
             Opt «"with-lines"» (Some "l"%char) (Some «"with-lines"») false; Opt «"with-pos"» (Some "p"%char) (Some «"with-pos"») false;
             Opt «"debugmode"» (Some "d"%char) (Some «"debug"») false; Opt «"fallback"» (Some "f"%char) (Some «"with-fallback"») false] [«"csfile"»] words uses -> NoDup (map fst uses) ->
    In («"csfile"», Some path) uses -> files path = Some (gzip (serialize rep)) ->
    option_value usize uses «"k"» k -> option_value usize uses «"beam"» beam -> option_value (fun s w => of_text iow s = Some w) uses «"threshold"» threshold -> option_value usize uses «"candidates"» candidates ->
    option_set uses «"with-lines"» with_lines -> option_set uses «"with-pos"» with_pos -> option_set uses «"debugmode"» debugmode -> option_set uses «"fallback"» fallback -> is_text stdin -> heard stdin text ->
    program ([«"csparsing"»; «"parse"»] ++ words) =
      Some (or_panic (parse_command H_cs H_kb teqb fuel rep (Settings candidates beam (or_default wzero threshold))
                        (Options (or_default 1 k) with_lines with_pos debugmode fallback) text)).
  Proof.
    intros rep GZ SER words uses path k beam threshold candidates wl wp db fb text HW ND HG HF HK HB HT HC FL FP FD FF IT HX.
    set (u := nth 12 usages (grammar_only [])). assert (HU : In u usages) by (do 12 right; left; reflexivity).
    destruct (proj2 (C58_command_lines u HU words) uses HW) as (m & E & HM).
    { split; [exact ND|]. split; [|intros a b []]. intros x [<-|[]]. apply in_map_iff. now exists («"csfile"», Some path). }
    unfold program. change ([«"csparsing"»; «"parse"»] ++ words) with (u_path u ++ words). rewrite E. f_equal.
    assert (FLAG : forall name b, In name [«"with-lines"»; «"with-pos"»; «"debugmode"»; «"fallback"»] -> option_set uses name b -> flag m name b).
    { intros name b HN HS. apply (told_flag u uses m words name b HM HW); [intros []| | |exact HS].
      - intros [<-|[]]. cbn in HN. intuition discriminate.
      - intros o HI <-. cbn in HI. repeat (destruct HI as [<-|HI]; [first [reflexivity|exfalso; cbn in HN; intuition discriminate]|]). destruct HI. }
    refine (proj1 (C56_csparsing_parse neqb teqb reqb wadd H_ts Hb_ts H_pd Hb_pd H_cs H_kb shuffle_ts shuffle_pd order set_order cl_order ts_order pd_order pp_order distinct iterate
        iow factorize ops checked debug_string debug_weight debug_rule display with_tts gzip gunzip serialize deserialize files stdin calls fuel m (proj1 HM) rep GZ SER path k beam threshold candidates wl wp db fb
        (told_has u uses m _ _ HM HG) HF _ _ _ _ _ _ _ _) text IT HX);
      first [apply (told_may _ u uses m _ _ HM); [intros []|assumption]|apply FLAG; [cbn; tauto|assumption]].
  Qed.
  (* csparsing extract: from the file or the standard input, zipped if -z or -d is given but not --unzipped *)
  Theorem C58_csparsing_extract : forall words uses source text zipped disco unzipped sxlen,
    written [Opt «"sxlen"» (Some "s"%char) (Some «"sxlen"») true; Opt «"disco-grammar"» (Some "d"%char) (Some «"disco"») false; Opt «"disco-lexer"» (Some "l"%char) (Some «"lexer"») true;
             Opt «"gzipped"» (Some "z"%char) (Some «"zipped"») false; Opt «"ungzipped"» None (Some «"unzipped"») false] [«"grammar"»] words uses -> NoDup (map fst uses) ->
    option_set uses «"gzipped"» zipped -> option_set uses «"disco-grammar"» disco -> option_set uses «"ungzipped"» unzipped ->
    ((exists path, In («"grammar"», Some path) uses /\ files path = Some source) \/ ~ In «"grammar"» (map fst uses) /\ source = stdin) ->
    unzipped_if gunzip ((zipped || disco) && negb unzipped) source text -> option_value usize uses «"sxlen"» sxlen ->
    let answer := fun rep => Some (match rep with Some rep => Done (gzip (serialize rep)) | None => Panics end) in
    (zipped = true -> unzipped = true -> program ([«"csparsing"»; «"extract"»] ++ words) = None) /\
    (zipped && unzipped = false -> disco = false ->
     program ([«"csparsing"»; «"extract"»] ++ words) = answer (extract_command neqb teqb factorize H_cs distinct iow text (or_default 0 sxlen))) /\
    (zipped && unzipped = false -> disco = true -> ~ In «"disco-lexer"» (map fst uses) ->
     program ([«"csparsing"»; «"extract"»] ++ words) = answer (extract_disco neqb teqb factorize H_cs distinct ops iow checked iterate text None (or_default 0 sxlen))) /\
    (forall path lexer lexer_text, zipped && unzipped = false -> disco = true -> In («"disco-lexer"», Some path) uses -> files path = Some lexer ->
     unzipped_if gunzip ((zipped || disco) && negb unzipped) lexer lexer_text ->
     program ([«"csparsing"»; «"extract"»] ++ words) = answer (extract_disco neqb teqb factorize H_cs distinct ops iow checked iterate text (Some lexer_text) (or_default 0 sxlen))).
  Proof.
    intros words uses source text zipped disco unzipped sxlen HW ND FZ FD FU HG HT HX answer.
    set (u := nth 11 usages (grammar_only [])). assert (HU : In u usages) by (do 11 right; left; reflexivity).
    assert (KEY : forall (P : option (outcome bytes) -> Prop), zipped && unzipped = false ->
      (forall m, told u uses (am_values m) (am_flags m) -> flag m «"gzipped"» zipped -> flag m «"disco-grammar"» disco -> flag m «"ungzipped"» unzipped ->
         P (Some (rustomata neqb teqb reqb wadd H_ts Hb_ts H_pd Hb_pd H_cs H_kb shuffle_ts shuffle_pd order set_order cl_order ts_order pd_order pp_order distinct iterate
        iow factorize ops checked debug_string debug_weight debug_rule display with_tts gzip gunzip serialize deserialize calls fuel files stdin [«"csparsing"»; «"extract"»] m))) ->
      P (program ([«"csparsing"»; «"extract"»] ++ words))).
    { intros P EZ HP. destruct (proj2 (C58_command_lines u HU words) uses HW) as (m & E & HM).
      { split; [exact ND|]. split; [intros n []|]. intros a b [E|[]] [HA HB]. injection E as <- <-.
        assert (Y : forall n, In n [«"gzipped"»; «"ungzipped"»] -> In n (map fst uses) -> In (n, None) uses).
        { intros n HN HI. apply in_map_iff in HI. destruct HI as ([k [v|]] & <- & HI); [|exact HI]. exfalso. apply (written_names _ _ _ _ HW) in HI. cbn [fst] in *.
          destruct HI as [[<-|[]]|(o & HI & <- & HO)]; [cbn in HN; intuition discriminate|]. cbn in HI. repeat (destruct HI as [<-|HI]; [first [discriminate HO|cbn in HN; intuition discriminate]|]). destruct HI. }
        rewrite (proj2 FZ (Y _ (or_introl eq_refl) HA)), (proj2 FU (Y _ (or_intror (or_introl eq_refl)) HB)) in EZ. discriminate. }
      unfold program. change ([«"csparsing"»; «"extract"»] ++ words) with (u_path u ++ words). rewrite E. apply (HP m HM).
      all: apply (told_flag u uses m words _ _ HM HW); [intros []|cbn; intuition discriminate| |assumption].
      all: intros o HI EO; cbn in HI; repeat (destruct HI as [<-|HI]; [first [reflexivity|discriminate EO]|]); destruct HI. }
    assert (GR : forall m, told u uses (am_values m) (am_flags m) -> (exists path, has m «"grammar"» path /\ files path = Some source) \/ lacks m «"grammar"» /\ source = stdin).
    { intros m HM. destruct HG as [(path & HI & HF)|(NI & ->)]; [left; exists path; split; [exact (told_has u uses m _ _ HM HI)|exact HF]|right; split; [|reflexivity]].
      exact (told_may usize u uses m «"grammar"» None HM (fun X => X) NI). }
    assert (C56 := fun m (HM : told u uses (am_values m) (am_flags m)) FZ' FD' FU' =>
      C56_csparsing_extract neqb teqb reqb wadd H_ts Hb_ts H_pd Hb_pd H_cs H_kb shuffle_ts shuffle_pd order set_order cl_order ts_order pd_order pp_order distinct iterate
        iow factorize ops checked debug_string debug_weight debug_rule display with_tts gzip gunzip serialize deserialize files stdin calls fuel m (proj1 HM) source text zipped disco unzipped sxlen
        FZ' FD' FU' (GR m HM) HT (told_may usize u uses m «"sxlen"» sxlen HM (fun X => X) HX)).
    split; [|split; [|split]].
    - intros EZ EU. unfold program. change ([«"csparsing"»; «"extract"»] ++ words) with (u_path u ++ words).
      destruct (get_matches rustomata_app (u_path u ++ words)) as [[cs m]|] eqn:E; [|reflexivity]. exfalso. apply (proj1 (C58_command_lines u HU words)) in E. destruct E as (_ & uses' & HW' & (_ & _ & HC) & _).
      assert (uses' = uses).
      { destruct (usages_fit u HU) as (args & _ & F). rewrite <- (f_options _ _ F), <- (f_arguments _ _ F) in HW'. change (written (u_options u) (u_arguments u) words uses) in HW. rewrite <- (f_options _ _ F), <- (f_arguments _ _ F) in HW.
        apply (read_written args (f_clean _ _ F)) in HW, HW'. congruence. }
      subst uses'. apply (HC «"gzipped"» «"ungzipped"»); [left; reflexivity|]. split; apply in_map_iff; eexists; [split; [|exact (proj1 FZ EZ)]|split; [|exact (proj1 FU EU)]]; reflexivity.
    - intros EZ ED. apply (KEY (fun x => x = _) EZ). intros m HM FZ' FD' FU'. unfold answer. f_equal. exact (proj1 (C56 m HM FZ' FD' FU') ED).
    - intros EZ ED NL. apply (KEY (fun x => x = _) EZ). intros m HM FZ' FD' FU'. unfold answer. f_equal. apply (proj1 (proj2 (C56 m HM FZ' FD' FU')) ED).
      exact (told_may usize u uses m «"disco-lexer"» None HM (fun X => X) NL).
    - intros path lexer lt EZ ED HI HF HLT. apply (KEY (fun x => x = _) EZ). intros m HM FZ' FD' FU'. unfold answer. f_equal.
      exact (proj2 (proj2 (C56 m HM FZ' FD' FU')) path lexer lt ED (told_has u uses m _ _ HM HI) HF HLT).
  Qed.
  (* nothing is printed for a command line that ends before a subcommand is complete *)
  Theorem C58_incomplete : forall words, (exists u rest, In u usages /\ u_path u = words ++ rest /\ rest <> []) -> program words = Some (Done []).
  Proof.
    intros words (u & rest & HU & E & NE). unfold usages in HU. cbn [In] in HU.
    repeat (destruct HU as [<-|HU]; [cbn [u_path grammar_only] in E; repeat (destruct words as [|w words]; cbn [app] in E; [try (now elim NE; destruct rest; [reflexivity|discriminate]); subst; reflexivity|first [injection E as <- E|discriminate E]])|]); try destruct HU.
  Qed.
End Programs.
Print Assumptions C58_nothing_missing.
Print Assumptions C58_mcfg_parse.
Print Assumptions C58_cfg_parse.
Print Assumptions C58_csparsing_parse.
Print Assumptions C58_csparsing_extract.
Print Assumptions C58_incomplete.

(* ---- examples ---- *)
From Verif Require Import P_CSParse Properties_Chart Properties_CSParse Properties_Command Properties_Mcfg Properties_CfgCommand Properties_Disco.
Definition ex_program (stdin : bytes) (words : list bytes) : option (outcome bytes) :=
  match get_matches rustomata_app words with Some (commands, m) => Some (ex_run stdin commands m) | None => None end.
Definition mcfg_options : list opt := [number_option «"number-of-parses"»; beam_option «"beam-width"»; Opt «"negra"» None (Some «"negra"») false].
Example C58_example :
  (* mcfg parse -b=1000 --negra g.mcfg --number 3 *)
  (exists uses, written mcfg_options [«"grammar"»] [«"-b=1000"»; «"--negra"»; «"g.mcfg"»; «"--number"»; «"3"»] uses /\ NoDup (map fst uses) /\
     In («"grammar"», Some «"g.mcfg"») uses /\ option_value usize uses «"number-of-parses"» (Some 3) /\ option_value usize uses «"beam-width"» (Some 1000) /\ option_set uses «"negra"» true) /\
  ex_program ex_corpus [«"mcfg"»; «"parse"»; «"-b=1000"»; «"--negra"»; «"g.mcfg"»; «"--number"»; «"3"»] = Some (trop_mcfg 3 (Some 1000) true (grammar_text ex_m) 200 50 ex_corpus) /\
  (* one parse if nothing is said *)
  (exists uses, written mcfg_options [«"grammar"»] [«"--"»; «"g.mcfg"»] uses /\ NoDup (map fst uses) /\ In («"grammar"», Some «"g.mcfg"») uses /\
     option_value usize uses «"number-of-parses"» None /\ option_value usize uses «"beam-width"» None /\ option_set uses «"negra"» false) /\
  ex_program ex_corpus [«"mcfg"»; «"parse"»; «"--"»; «"g.mcfg"»] = Some (trop_mcfg 1 None false (grammar_text ex_m) 200 50 ex_corpus) /\
  (* csparsing parse -pfk1 g.cs *)
  (exists rep out, Properties_Main.ex_rep = Some rep /\ trop_command rep 50 (command_settings None None None) (Options 1 false true false true) (lines_of [ex_line1; ex_line2]) = Some out /\ out <> [] /\
     ex_program (lines_of [ex_line1; ex_line2]) [«"csparsing"»; «"parse"»; «"-pfk1"»; «"g.cs"»] = Some (Done out)) /\
  (* refused: no grammar, a number twice, a missing value, two grammars, an unknown option, a value that looks like an option, both zipped and unzipped *)
  Forall (fun words => get_matches rustomata_app words = None)
    [ [«"mcfg"»; «"parse"»]; [«"cfg"»; «"parse"»; «"g"»; «"-n1"»; «"--number=2"»]; [«"cfg"»; «"parse"»; «"g"»; «"-n"»]; [«"cfg"»; «"parse"»; «"g"»; «"h"»];
      [«"cfg"»; «"parse"»; «"g"»; «"--negra"»]; [«"cfg"»; «"parse"»; «"g"»; «"-n"»; «"-1"»]; [«"csparsing"»; «"extract"»; «"-z"»; «"--unzipped"»]; [«"lcfrs"»] ] /\
  (* nothing to do *)
  ex_program [] [«"approximation"»; «"topk"»] = Some (Done []) /\ ex_program [] [] = Some (Done []).
Proof.
  assert (U : forall s n, usize_of_text s = Some n -> usize s n) by (intros s n X; now apply usize_iff).
  split.
  { exists [(«"beam-width"», Some «"1000"»); («"negra"», None); («"grammar"», Some «"g.mcfg"»); («"number-of-parses"», Some «"3"»)].
    split; [|split; [|split; [|split; [|split]]]].
    - apply (written_short_now mcfg_options [] [] (beam_option «"beam-width"») "b"%char 1 «"1000"»); [constructor|right; left; reflexivity|reflexivity|reflexivity|intros []|left; discriminate|].
      apply (written_long mcfg_options (Opt «"negra"» None (Some «"negra"») false) «"negra"»); [right; right; left; reflexivity|reflexivity|reflexivity|].
      constructor; [exact I|]. apply (written_long_value mcfg_options (number_option «"number-of-parses"») «"number"»); [left; reflexivity|reflexivity|reflexivity|exact I|constructor].
    - repeat (constructor; [cbn; intuition discriminate|]). constructor.
    - cbn; tauto.
    - exists «"3"». split; [cbn; tauto|now apply U].
    - exists «"1000"». split; [cbn; tauto|apply U; vm_compute; reflexivity].
    - split; [cbn; tauto|reflexivity]. }
  split; [vm_compute; reflexivity|]. split.
  { exists [(«"grammar"», Some «"g.mcfg"»)]. split; [apply (written_rest mcfg_options [«"grammar"»] [] [«"g.mcfg"»]); reflexivity|].
    split; [repeat (constructor; [cbn; intuition discriminate|]); constructor|]. split; [now left|].
    split; [cbn; intuition discriminate|]. split; [cbn; intuition discriminate|]. split; [discriminate|cbn; intuition discriminate]. }
  split; [vm_compute; reflexivity|]. split.
  { eexists _, _. split; [vm_compute; reflexivity|]. split; [vm_compute; reflexivity|]. split; [discriminate|vm_compute; reflexivity]. }
  split; [repeat constructor|]. split; vm_compute; reflexivity.
Qed.
