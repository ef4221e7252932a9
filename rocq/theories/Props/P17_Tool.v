(** C68-C72: runs of the evaluation tools. *)
From Coq Require Import Ascii String List Bool ZArith QArith Reals Lra Lia Permutation Sorted.
From Flocq Require Import Core BinarySingleNaN.
From Verif.Model Require Import Cpp Floats Events EventSets Matches Matcher Scorers Assessment Bootstrap Mapper Stream Reader Options Tool.
From Verif.Spec Require Import Order Matching Grouping Collapse Metrics Curves Reader Options Tool.
From Verif.Proofs Require Order Reader Queries Tool Programs Evaluation Instances Runs Compute Lines Results.
Import ListNotations.
Local Open Scope string_scope.
Local Open Scope list_scope.

(** ** The examples *)

(** The end of a line. *)
Definition eol : string := String (ascii_of_nat 10) EmptyString.

(** The contents of /repo/examples/Icdar17KwsEval/ref.txt and hyp.txt. *)
Definition refs_text : bytes := lit (
  "# QueryID DocumentID x y width height" ++ eol ++
  "q1 d1 3 5 400 40" ++ eol ++
  "q1 d1 6 100 350 35" ++ eol ++
  "q2 d1 6 100 350 35" ++ eol ++
  "q2 d1 3 5 400 40" ++ eol ++
  "q2 d2 3 5 400 40" ++ eol ++
  "q99 d99 0 0 300 20" ++ eol)%string.
(** See [refs_text]. *)
Definition hyps_text : bytes := lit (
  "# QueryID DocumentID x y width height score" ++ eol ++
  "# 1st hypothesis is a perfect match with the BB of the whole line." ++ eol ++
  "# 2nd hypothesis is a repeated spot. This is ignored." ++ eol ++
  "# 3rd hypothesis is a false positive" ++ eol ++
  "# 4th hypothesis is a true positive, since the overlap area > 0.5" ++ eol ++
  "# 5th hypothesis is a false positive, since the overlap area < 0.5" ++ eol ++
  "# 6th hypothesis is a repeated spot (4th). This is ignored." ++ eol ++
  "# 7th hypothesis is a false positive: matches bounding box, but diff query!" ++ eol ++
  "# gAP = 0.25, mAP = 0.166667 = (0.5 + 0.166667 + 0 + 0) / 4" ++ eol ++
  "q1 d1 3 5 400 40  -1.0" ++ eol ++
  "q1 d1 3 5 400 40  -2.0" ++ eol ++
  "q3 d1 5 5 35 55   -3.0" ++ eol ++
  "q2 d1 50 90 60 35  -4.0" ++ eol ++
  "q2 d1 50 80 60 35  -4.0" ++ eol ++
  "q2 d1 50 100 60 35 -5.0" ++ eol ++
  "q1 d2 3 5 400 40   -6.0" ++ eol)%string.

(** A file system with the files of the example, the same in another order,
    files that select queries, and files for SimpleKwsEval. *)
Definition files (n : bytes) : option bytes :=
  if str_eq n (lit "r") then Some refs_text
  else if str_eq n (lit "h") then Some hyps_text
  else if str_eq n (lit "r2") then Some (lit (
    "q99 d99 0 0 300 20" ++ eol ++ "q2 d1 3 5 400 40" ++ eol ++ "q1 d1 3 5 400 40" ++ eol ++
    "q2 d1 6 100 350 35" ++ eol ++ "q99 d99 0 0 300 20" ++ eol ++ "q1 d1 6 100 350 35" ++ eol ++
    "q2 d2 3 5 400 40" ++ eol)%string)
  else if str_eq n (lit "h2") then Some (lit (
    "q1 d2 3 5 400 40   -6.0" ++ eol ++ "q2 d1 50 80 60 35  -4.0" ++ eol ++ "q1 d1 3 5 400 40  -1.0" ++ eol ++
    "q2 d1 50 90 60 35  -4.0" ++ eol ++ "q3 d1 5 5 35 55   -3.0" ++ eol ++
    "q1 d1 3 5 400 40  -2.0" ++ eol ++ "q2 d1 50 100 60 35 -5.0" ++ eol)%string)
  else if str_eq n (lit "set") then Some (lit ("q1 q3" ++ eol)%string)
  else if str_eq n (lit "empty") then Some []
  else if str_eq n (lit "groups") then Some (lit ("b q1" ++ eol ++ "a q1 q2" ++ eol ++ "b q99" ++ eol)%string)
  else if str_eq n (lit "blank") then Some (lit ("a q1 q2" ++ eol ++ eol ++ "b q99" ++ eol)%string)
  else if str_eq n (lit "bad") then Some (lit ("q1 d1 3 5 400 forty" ++ eol)%string)
  else if str_eq n (lit "sr") then Some (lit ("one a" ++ eol ++ "one b" ++ eol ++ "two a" ++ eol)%string)
  else if str_eq n (lit "sh") then Some (lit (
    "one a 0.5" ++ eol ++ "two c 0.25" ++ eol ++ "one a 0.75" ++ eol ++ "two a -1" ++ eol)%string)
  else if str_eq n (lit "tied") then Some (lit ("q x" ++ eol ++ "p y" ++ eol)%string)
  else if str_eq n (lit "tied2") then Some (lit ("p y" ++ eol ++ "q x" ++ eol)%string)
  else if str_eq n (lit "ties") then Some (lit ("q x 1" ++ eol ++ "q y 1" ++ eol)%string)
  else if str_eq n (lit "zeros") then Some (lit ("q1 d1 3 5 400 40 0" ++ eol ++ "q1 d1 3 5 400 40 -0" ++ eol)%string)
  else if str_eq n (lit "zeros2") then Some (lit ("q1 d1 3 5 400 40 -0" ++ eol ++ "q1 d1 3 5 400 40 0" ++ eol)%string)
  else None.

(** Every file but "no" can be written. *)
Definition here : world := World files (fun n => negb (str_eq n (lit "no"))) [].

(** Functions for the transcendental operations in rational arithmetic, where
    they are not needed. *)
Definition TQ : Trans QArith_ := mkTrans QArith_ (fun x => x) (fun n => a_nat QArith_ n).

(** Runs in rational arithmetic. *)
Definition try_icdar17 (args : list string) :=
  icdar17 QArith_ TQ (@isort) (fun _ => stream (fun _ => O)) (fun _ => []) (fun _ => []) here (lit "prog") (map lit args).
(** See [try_icdar17]. *)
Definition try_simple (args : list string) :=
  simple_kws QArith_ TQ (@isort) (fun _ => stream (fun _ => O)) (fun _ => []) (fun _ => []) true here (lit "prog") (map lit args).


(** ** C68 *)

(** C68.  Exit status and statistics of Icdar17KwsEval: it prints an initial
    part of the four statistics; status 0 means all of them or the help, and
    status 1 none, exactly for bad command lines and inputs. *)
Theorem c68_icdar17 : forall A (T : Trans A) srt rngs show_int show_f64 w pn args l r, sort_contract srt ->
  icdar17 A T srt rngs show_int show_f64 w pn args = (l, r) -> exists e, r = inr e /\
  (exists rest, [lit "gAP"; lit "mAP"; lit "gNDCG"; lit "mNDCG"] = stat_names l ++ rest) /\
  (forall z, e = FExit z -> z = 0%Z \/ z = 1%Z) /\
  (e = FExit 0 -> (asks_help args /\ outputs l = []) \/ stat_names l = [lit "gAP"; lit "mAP"; lit "gNDCG"; lit "mNDCG"]) /\
  (asks_help args -> e = FExit 0) /\
  (e = FExit 1 <-> bad_command args \/ exists c, command args c /\ rejected shaped_text scored_shaped_text w c) /\
  (e = FExit 1 -> outputs l = [] /\ l <> []).
Proof.
  intros A T srt rngs si sf w pn args l r Hs E. rewrite Instances.icdar17_tool in E.
  destruct (Instances.icdar_status T srt Hs rngs si sf w pn args l r E) as (e & Er & Ex & Nm & Zero & Help & One & Rej & Out).
  exists e. split; [exact Er|]. split; [exact Nm|]. split; [exact Ex|]. split; [exact Zero|]. split; [exact Help|].
  split; [|exact Out]. split; [exact One|]. intros H. destruct (Rej H) as [K|(K & _)]; [exact K|discriminate].
Qed.
Print Assumptions c68_icdar17.

(** C68.  The same for SimpleKwsEval, except that more than 2^31 different
    strings end it with an exception before the faults of later inputs are
    noticed. *)
Theorem c68_simple : forall A (T : Trans A) srt rngs show_int show_f64 qf w pn args l r, sort_contract srt ->
  simple_kws A T srt rngs show_int show_f64 qf w pn args = (l, r) -> exists e, r = inr e /\
  (exists rest, [lit "gAP"; lit "mAP"; lit "gNDCG"; lit "mNDCG"] = stat_names l ++ rest) /\
  (forall z, e = FExit z -> z = 0%Z \/ z = 1%Z) /\
  (e = FExit 0 -> (asks_help args /\ outputs l = []) \/ stat_names l = [lit "gAP"; lit "mAP"; lit "gNDCG"; lit "mNDCG"]) /\
  (asks_help args -> e = FExit 0) /\
  (e = FExit 1 -> bad_command args \/ exists c, command args c /\ rejected str_event_text scored_str_event_text w c) /\
  (bad_command args \/ (exists c, command args c /\ rejected str_event_text scored_str_event_text w c) ->
     e = FExit 1 \/ (e = FThrow RangeError /\ outputs l = [])) /\
  (e = FExit 1 -> outputs l = [] /\ l <> []).
Proof.
  intros A T srt rngs si sf qf w pn args l r Hs E. rewrite Instances.simple_tool in E.
  destruct (Instances.simple_status T srt Hs rngs si sf w qf pn args l r E) as (e & Er & Ex & Nm & Zero & Help & One & Rej & Out).
  exists e. split; [exact Er|]. split; [exact Nm|]. split; [exact Ex|]. split; [exact Zero|]. split; [exact Help|].
  split; [exact One|]. split; [|exact Out]. intros H. destruct (Rej H) as [K|(_ & K)]; auto.
Qed.
Print Assumptions c68_simple.

Lemma written_end A RE HE w c PG PM l e :
  (cf_grp c = [] \/ w_writable w (cf_grp c) = true) -> (cf_mrp c = [] \/ w_writable w (cf_mrp c) = true) ->
  curve_files (A := A) (RE := RE) (HE := HE) w c PG PM l e -> e = FExit 0.
Proof.
  intros Wg Wm C. destruct C as [g m b G M|g G].
  - destruct b; [reflexivity|]. inversion M; subst. destruct Wm; congruence.
  - inversion G; subst. destruct Wg; congruence.
Qed.

(** C68.  A good command line with good inputs and writable files ends with
    status 0. *)
Theorem c68_success : forall A (T : Trans A) srt rngs show_int show_f64 w pn args c refs hyps f, sort_contract srt ->
  command args c -> no_bootstrap c -> inputs shaped_text scored_shaped_text w c refs hyps f ->
  (cf_grp c = [] \/ w_writable w (cf_grp c) = true) -> (cf_mrp c = [] \/ w_writable w (cf_mrp c) = true) ->
  snd (icdar17 A T srt rngs show_int show_f64 w pn args) = inr (FExit 0) /\
  stat_names (fst (icdar17 A T srt rngs show_int show_f64 w pn args)) = [lit "gAP"; lit "mAP"; lit "gNDCG"; lit "mNDCG"].
Proof.
  intros A T srt rngs si sf w pn args c refs hyps f Hs Cm NB I Wg Wm.
  destruct (icdar17 A T srt rngs si sf w pn args) as [l r] eqn:E.
  destruct (Instances.icdar_run T srt Hs rngs si sf w pn args c refs hyps f l r Cm NB I E) as (ms & log & gs & _ & _ & Rp).
  destruct Rp as (v1 & v2 & v4 & cs & e & -> & _ & _ & _ & _ & C).
  rewrite (written_end _ _ _ _ _ _ _ _ _ Wg Wm C) in *. cbn [fst snd]. split; [reflexivity|].
  destruct (c68_icdar17 A T srt rngs si sf w pn args l _ Hs E) as (e' & Ee & _ & _ & Zero & _).
  injection Ee as <-. destruct (Zero eq_refl) as [(H & _)|H]; [|exact H].
  apply Programs.help_parse in H as [s H]. apply Programs.command_parse in Cm as (s' & Cm & _). congruence.
Qed.
Print Assumptions c68_success.

Example c68_case :
  map (fun args => let (l, r) := try_icdar17 args in (List.length (stat_names l), r))
    [["r"; "h"]; ["--help"]; ["r"; "bad"]; ["missing"; "h"]; ["r"; "h"; "x"]; ["--colour"; "r"];
     ["--query_groups"; "blank"; "r"; "h"]; ["--dump_matches"; "no"; "r"; "h"]; ["--output_grp"; "no"; "--rp_curve_samples"; "3"; "r"; "h"]] =
  [(4%nat, inr (FExit 0)); (0%nat, inr (FExit 0)); (0%nat, inr (FExit 1)); (0%nat, inr (FExit 1)); (0%nat, inr (FExit 1));
   (0%nat, inr (FExit 1)); (0%nat, inr (FExit 1)); (0%nat, inr (FExit 1)); (4%nat, inr (FThrow IosFailure))].
Proof. vm_compute. reflexivity. Qed.

(** The hypotheses of [c68_success] and of the theorems below: three
    references and four hypotheses of the example are about listed queries. *)
Example c68_inputs : exists c refs hyps f, command (map lit ["--query_groups"; "groups"; "--query_set"; "set"; "r"; "h"]) c /\
  no_bootstrap c /\ cf_sort c = lit "desc" /\ inputs shaped_text scored_shaped_text here c refs hyps f /\
  f = QueryGroups [[lit "b"; lit "q1"]; [lit "a"; lit "q1"; lit "q2"]; [lit "b"; lit "q99"]] /\
  List.length refs = 6%nat /\ List.length hyps = 7%nat /\ cf_grp c = [] /\ cf_mrp c = [].
Proof.
  eexists _, _, _, _. split; [apply Compute.config_for_ok; vm_compute; reflexivity|].
  split; [repeat split|]. split; [reflexivity|].
  split; [apply Compute.icdar_inputs_ok; vm_compute; reflexivity|]. repeat split.
Qed.

(** ** C69 *)

(** C69.  In a run of Icdar17KwsEval exactly the references and hypotheses
    whose query is kept are evaluated, each reference once: the matches, and
    those reported as repeated, are about them. *)
Theorem c69_icdar17 : forall A (T : Trans A) srt rngs show_int show_f64 w pn args c refs hyps f l r, sort_contract srt ->
  command args c -> inputs shaped_text scored_shaped_text w c refs hyps f ->
  icdar17 A T srt rngs show_int show_f64 w pn args = (l, r) ->
  exists ms log groups rest, icdar17_evaluation (cf_sort c) f refs hyps ms log groups /\
    outputs l = dumped c ms log ++ rest /\
    NoDup (refs_of ms) /\ (forall x, In x (refs_of ms) <-> In x refs /\ kept f (ev_query x)) /\
    (forall h, In h (hyps_of ms) \/ In h (hyps_of log) <-> In h hyps /\ kept f (ev_query (sc_base h))).
Proof.
  intros A T srt rngs si sf w pn args c refs hyps f l r Hs Cm I E.
  destruct (Runs.icdar_dump T srt Hs rngs si sf w pn args c refs hyps f l r Cm I E) as (ms & log & gs & rest & _ & Ev & O & _).
  exists ms, log, gs, rest. split; [exact Ev|]. split; [exact O|].
  destruct (Results.icdar_refs srt Hs _ _ _ _ _ _ _ Ev) as [E1 E2].
  destruct (Results.icdar_hyps _ _ _ _ _ _ _ Ev) as [E3 _]. auto.
Qed.
Print Assumptions c69_icdar17.

(** C69.  The same for SimpleKwsEval, up to the ids of the strings. *)
Theorem c69_simple : forall A (T : Trans A) srt rngs show_int show_f64 qf w pn args c refs hyps f l r, sort_contract srt ->
  command args c -> inputs str_event_text scored_str_event_text w c refs hyps f ->
  simple_kws A T srt rngs show_int show_f64 qf w pn args = (l, r) ->
  (r = inr (FThrow RangeError) /\ outputs l = []) \/
  exists id ms log groups rest, (forall s s', id s = id s' -> s = s') /\
    simple_evaluation id (cf_sort c) f refs hyps ms log groups /\
    outputs l = dumped c (map (renamed_match id) ms) (map (renamed_match id) log) ++ rest /\
    NoDup (refs_of ms) /\ (forall x, In x (refs_of ms) <-> In x refs /\ kept f (ev_query x)) /\
    (forall h, In h (hyps_of ms) \/ In h (hyps_of log) <-> In h hyps /\ kept f (ev_query (sc_base h))).
Proof.
  intros A T srt rngs si sf qf w pn args c refs hyps f l r Hs Cm I E.
  destruct (Runs.simple_dump T srt Hs rngs si sf qf w pn args c refs hyps f l r Cm I E)
    as [K|(id & ms & log & gs & rest & Inj & _ & Ev & O & _)]; [left; exact K|right].
  exists id, ms, log, gs, rest. split; [exact Inj|]. split; [exact Ev|]. split; [exact O|].
  destruct (Results.simple_refs id Inj _ _ _ _ _ _ _ Ev) as [E1 E2].
  destruct (Results.simple_hyps id _ _ _ _ _ _ _ Ev) as [E3 _]. auto.
Qed.
Print Assumptions c69_simple.

(** C69.  If queries are listed, an event is kept exactly if its query is. *)
Theorem c69_listed : forall (Q : Type) (f : query_file Q) q0 g0 q, assigns f q0 g0 ->
  kept f q <-> exists g, assigns f q g.
Proof.
  intros Q f q0 g0 q H. split; [intros [K|K]; [exact K|destruct (K q0 g0 H)]|left; assumption].
Qed.
Print Assumptions c69_listed.

(** C69.  The queries listed are those of the set, and those after the first
    word of the lines of the groups. *)
Theorem c69_lists : forall q : bytes,
  (~ exists g, assigns NoQueries q g) /\
  (forall qs, (exists g, assigns (QuerySet qs) q g) <-> In q qs) /\
  (forall ls, (exists g, assigns (QueryGroups ls) q g) <-> exists g qs, In (g :: qs) ls /\ In q qs).
Proof.
  intros q. split; [intros [g []]|]. split.
  - intros qs. split; [intros (g & H & _); exact H|intros H; exists q; simpl; auto].
  - intros ls. apply Results.exists_named. apply list_eq_dec, ascii_dec.
Qed.
Print Assumptions c69_lists.

(** The configuration with another query set. *)
Definition other_set (c : config) (n : bytes) : config :=
  Config (cf_ref c) (cf_hyp c) n (cf_querygroups c) (cf_dump c) (cf_sort c) (cf_grp c) (cf_mrp c)
    (cf_collapse c) (cf_interp c) (cf_trapezoid c) (cf_ci_gap c) (cf_ci_map c) (cf_ci_gndcg c) (cf_ci_mndcg c)
    (cf_samples c) (cf_seed c) (cf_alpha c) (cf_curve c).

(** C69.  If a file of groups is named the file of queries does not matter at
    all, not even whether it exists. *)
Theorem c69_supersedes : forall A (T : Trans A) srt rngs show_int show_f64 qf w pn args args' c n,
  command args c -> command args' (other_set c n) -> cf_querygroups c <> [] ->
  List.length args <> 1%nat -> List.length args' <> 1%nat ->
  icdar17 A T srt rngs show_int show_f64 w pn args = icdar17 A T srt rngs show_int show_f64 w pn args' /\
  simple_kws A T srt rngs show_int show_f64 qf w pn args = simple_kws A T srt rngs show_int show_f64 qf w pn args'.
Proof.
  intros A T srt rngs si sf qf w pn args args' c n Cm Cm' G L L'.
  apply Programs.command_parse in Cm as (s & P & E). apply Programs.command_parse in Cm' as (s' & P' & E').
  apply Nat.eqb_neq in L, L'.
  split; unfold icdar17, simple_kws, tool_main, parse_command_line; cbv zeta;
    rewrite !Programs.parse_same, P, P', L, L', <- E, <- E'; clear - G;
    destruct c as [c1 c2 c3 [|x g] c5 c6 c7 c8 c9 c10 c11 c12 c13 c14 c15 c16 c17 c18 c19]; try (now destruct G); reflexivity.
Qed.
Print Assumptions c69_supersedes.

(** C69.  But an empty file of queries does not exclude all events: it keeps
    all of them. *)
Theorem c69_empty_refuted : forall A (T : Trans A) srt rngs show_int show_f64 w pn args c refs hyps l r, sort_contract srt ->
  command args c -> inputs shaped_text scored_shaped_text w c refs hyps (QuerySet []) ->
  icdar17 A T srt rngs show_int show_f64 w pn args = (l, r) ->
  exists ms log groups rest, icdar17_evaluation (cf_sort c) NoQueries refs hyps ms log groups /\
    outputs l = dumped c ms log ++ rest /\ (forall x, In x (refs_of ms) <-> In x refs) /\
    (forall h, In h (hyps_of ms) \/ In h (hyps_of log) <-> In h hyps).
Proof.
  intros A T srt rngs si sf w pn args c refs hyps l r Hs Cm I E.
  destruct (c69_icdar17 A T srt rngs si sf w pn args c refs hyps (QuerySet []) l r Hs Cm I E)
    as (ms & log & gs & rest & Ev & O & _ & E2 & E3).
  assert (K : forall q : bytes, kept (QuerySet []) q <-> kept NoQueries q).
  { intros q. split; intros _; right; [intros q' g []|intros q' g [[] _]]. }
  assert (G : forall q g : bytes, group_is (QuerySet []) q g <-> group_is NoQueries q g).
  { intros q g. split; (intros [H|[_ ->]]; [exfalso; simpl in H; tauto|]); right; (split; [|reflexivity]); [intros g' []|intros g' [[] _]]. }
  exists ms, log, gs, rest. split.
  - destruct Ev as (refs' & hyps' & rank & taken & found & missed & Sr & Sh & Rk & Mt & So & Im & Em & Gr).
    exists refs', hyps', rank, taken, found, missed.
    split; [exact (Results.selects_iff _ _ (fun x => K (ev_query x)) _ _ Sr)|].
    split; [exact (Results.selects_iff _ _ (fun x => K (ev_query (sc_base x))) _ _ Sh)|].
    split; [exact Rk|]. split; [exact Mt|]. split; [exact So|]. split; [exact Im|]. split; [exact Em|].
    exact (Results.grouping_iff _ _ _ _ G _ _ Gr).
  - split; [exact O|]. split.
    + intros x. rewrite E2. split; [tauto|]. intros J. split; [exact J|]. apply K. right. intros q g [].
    + intros h. rewrite E3. split; [tauto|]. intros J. split; [exact J|]. apply K. right. intros q g [].
Qed.
Print Assumptions c69_empty_refuted.

Example c69_case :
  map (fun args => let (l, r) := try_icdar17 args in (map snd (firstn 2 (printed l)), r))
    [["r"; "h"]; ["--query_set"; "empty"; "r"; "h"]; ["--query_set"; "set"; "r"; "h"]; ["--query_groups"; "groups"; "r"; "h"];
     ["--query_set"; "missing"; "--query_groups"; "groups"; "r"; "h"]] =
  [([1 # 4; 1 # 6], inr (FExit 0)); ([1 # 4; 1 # 6], inr (FExit 0)); ([1 # 2; 1 # 4], inr (FExit 0)); ([11 # 36; 11 # 60], inr (FExit 0));
   ([11 # 36; 11 # 60], inr (FExit 0))]%Q.
Proof. vm_compute. reflexivity. Qed.

(** Two command lines that differ in the set of queries, and inputs with an
    empty set. *)
Example c69_inputs :
  (exists c, command (map lit ["--query_groups"; "groups"; "--query_set"; "set"; "r"; "h"]) c /\
     command (map lit ["--query_set"; "missing"; "--query_groups"; "groups"; "r"; "h"]) (other_set c (lit "missing")) /\
     cf_querygroups c <> []) /\
  (exists c refs hyps, command (map lit ["--query_set"; "empty"; "r"; "h"]) c /\
     inputs shaped_text scored_shaped_text here c refs hyps (QuerySet []) /\
     List.length refs = 6%nat /\ List.length hyps = 7%nat) /\
  (exists c refs hyps, command (map lit ["--query_set"; "set"; "sr"; "sh"]) c /\
     inputs str_event_text scored_str_event_text here c refs hyps (QuerySet [lit "q1"; lit "q3"]) /\
     List.length refs = 3%nat /\ List.length hyps = 4%nat).
Proof.
  split; [|split].
  - eexists. split; [apply Compute.config_for_ok; vm_compute; reflexivity|].
    split; [apply Compute.config_for_ok; vm_compute; reflexivity|]. discriminate.
  - eexists _, _, _. split; [apply Compute.config_for_ok; vm_compute; reflexivity|].
    split; [apply Compute.icdar_inputs_ok; vm_compute; reflexivity|]. split; reflexivity.
  - eexists _, _, _. split; [apply Compute.config_for_ok; vm_compute; reflexivity|].
    split; [apply Compute.simple_inputs_ok; vm_compute; reflexivity|]. split; reflexivity.
Qed.

(** ** C70 *)

(** C70.  A file without lines assigns no group; the last line assigns its
    group to its queries, the lines before it count for the others. *)
Theorem c70_last_line : forall ls (g : bytes) qs q g',
  ~ assigns (QueryGroups []) q g' /\
  (assigns (QueryGroups (ls ++ [g :: qs])) q g' <->
   (In q qs /\ g' = g) \/ (~ In q qs /\ assigns (QueryGroups ls) q g')).
Proof.
  intros ls g qs q g'. split.
  - intros (l1 & rs & l2 & E & _). now destruct l1.
  - apply Results.assigns_snoc. apply list_eq_dec, ascii_dec.
Qed.
Print Assumptions c70_last_line.

(** C70.  A line with fewer than two words, also a blank one, makes the tools
    fail before anything is printed. *)
Theorem c70_broken : forall A (T : Trans A) srt rngs show_int show_f64 qf w pn args c b ls line ws, sort_contract srt ->
  command args c -> cf_querygroups c <> [] -> w_file w (cf_querygroups c) = Some b ->
  file_lines b ls -> In line ls -> words line ws -> (List.length ws < 2)%nat ->
  (forall l r, icdar17 A T srt rngs show_int show_f64 w pn args = (l, r) -> r = inr (FExit 1) /\ outputs l = []) /\
  (forall l r, simple_kws A T srt rngs show_int show_f64 qf w pn args = (l, r) ->
     (r = inr (FExit 1) \/ r = inr (FThrow RangeError)) /\ outputs l = []).
Proof.
  intros A T srt rngs si sf qf w pn args c b ls line ws Hs Cm G W L I K N.
  assert (B : broken_queries w c) by (left; split; [exact G|right; exists b, ls, line, ws; auto]).
  split; intros l r E.
  - destruct (c68_icdar17 A T srt rngs si sf w pn args l r Hs E) as (e & -> & _ & _ & _ & _ & [_ One] & Out).
    assert (Ee : e = FExit 1) by (apply One; right; exists c; split; [exact Cm|]; unfold rejected; tauto).
    split; [now rewrite Ee|now apply Out].
  - destruct (c68_simple A T srt rngs si sf qf w pn args l r Hs E) as (e & -> & _ & _ & _ & _ & _ & One & Out).
    assert (Rj : bad_command args \/ exists c, command args c /\ rejected str_event_text scored_str_event_text w c)
      by (right; exists c; split; [exact Cm|]; unfold rejected; tauto).
    destruct (One Rj) as [->|[-> O]]; [|auto]. split; [auto|now apply Out].
Qed.
Print Assumptions c70_broken.

(** C70.  In the evaluation two matches are in the same group exactly if the
    file assigns their queries the same group. *)
Theorem c70_groups : forall A (T : Trans A) srt rngs show_int show_f64 w pn args c refs hyps ls l r, sort_contract srt ->
  command args c -> inputs shaped_text scored_shaped_text w c refs hyps (QueryGroups ls) -> ls <> [] ->
  icdar17 A T srt rngs show_int show_f64 w pn args = (l, r) ->
  exists ms log groups rest, icdar17_evaluation (cf_sort c) (QueryGroups ls) refs hyps ms log groups /\
    outputs l = dumped c ms log ++ rest /\
    forall m m' q q', In m ms -> In m' ms ->
      has_query ev_query (fun h => ev_query (sc_base h)) m q -> has_query ev_query (fun h => ev_query (sc_base h)) m' q' ->
      ((exists g, In g groups /\ In m g /\ In m' g) <->
       (exists k, assigns (QueryGroups ls) q k /\ assigns (QueryGroups ls) q' k)).
Proof.
  intros A T srt rngs si sf w pn args c refs hyps ls l r Hs Cm I NE E.
  destruct (c69_icdar17 A T srt rngs si sf w pn args c refs hyps _ l r Hs Cm I E)
    as (ms & log & gs & rest & Ev & O & _ & E2 & E3).
  exists ms, log, gs, rest. split; [exact Ev|]. split; [exact O|].
  assert (exists q0 g0, assigns (QueryGroups ls) q0 g0) as (q0 & g0 & As).
  { assert (Q := in_queries _ _ _ _ _ _ _ I). inversion Q as [| |b ks fs A1 A2 A3 A4 A5]; subst.
    destruct ls as [|x ls]; [now destruct NE|]. assert (L := A5 x (or_introl eq_refl)).
    destruct x as [|g [|q qs]]; simpl in L; try lia. exists q. apply (proj2 (proj2 (c69_lists q))).
    exists g, (q :: qs). split; left; reflexivity. }
  apply (Results.same_assigned ev_query ev_query (QueryGroups ls) ms gs q0 g0 As).
  - intros x K. now apply E2.
  - intros h K. apply E3. now left.
  - exact (Evaluation.eval_grouping _ cmp_shaped _ _ _ _ _ _ _ _ _ _ _ Ev).
Qed.
Print Assumptions c70_groups.

(** C70.  The same for SimpleKwsEval. *)
Theorem c70_groups_simple : forall A (T : Trans A) srt rngs show_int show_f64 qf w pn args c refs hyps ls l r, sort_contract srt ->
  command args c -> inputs str_event_text scored_str_event_text w c refs hyps (QueryGroups ls) -> ls <> [] ->
  simple_kws A T srt rngs show_int show_f64 qf w pn args = (l, r) ->
  (r = inr (FThrow RangeError) /\ outputs l = []) \/
  exists id ms log groups rest, (forall s s', id s = id s' -> s = s') /\
    simple_evaluation id (cf_sort c) (QueryGroups ls) refs hyps ms log groups /\
    outputs l = dumped c (map (renamed_match id) ms) (map (renamed_match id) log) ++ rest /\
    forall m m' q q', In m ms -> In m' ms ->
      has_query ev_query (fun h => ev_query (sc_base h)) m q -> has_query ev_query (fun h => ev_query (sc_base h)) m' q' ->
      ((exists g, In g groups /\ In m g /\ In m' g) <->
       (exists k, assigns (QueryGroups ls) q k /\ assigns (QueryGroups ls) q' k)).
Proof.
  intros A T srt rngs si sf qf w pn args c refs hyps ls l r Hs Cm I NE E.
  destruct (c69_simple A T srt rngs si sf qf w pn args c refs hyps _ l r Hs Cm I E)
    as [K|(id & ms & log & gs & rest & Inj & Ev & O & _ & E2 & E3)]; [left; exact K|right].
  exists id, ms, log, gs, rest. split; [exact Inj|]. split; [exact Ev|]. split; [exact O|].
  assert (exists q0 g0, assigns (QueryGroups ls) q0 g0) as (q0 & g0 & As).
  { assert (Q := in_queries _ _ _ _ _ _ _ I). inversion Q as [| |b ks fs A1 A2 A3 A4 A5]; subst.
    destruct ls as [|x ls]; [now destruct NE|]. assert (L := A5 x (or_introl eq_refl)).
    destruct x as [|g [|q qs]]; simpl in L; try lia. exists q. apply (proj2 (proj2 (c69_lists q))).
    exists g, (q :: qs). split; left; reflexivity. }
  apply (Results.same_assigned ev_query ev_query (QueryGroups ls) ms gs q0 g0 As).
  - intros x K. now apply E2.
  - intros h K. apply E3. now left.
  - exact (Evaluation.eval_grouping _ (Results.by_id id) _ _ _ _ _ _ _ _ _ _ _ Ev).
Qed.
Print Assumptions c70_groups_simple.

(** q1 belongs to the group of the later line, and with q2 to one group: the
    matches of the example are in two groups, "a" and "b". *)
Example c70_case :
  (exists c refs hyps, command (map lit ["--query_groups"; "groups"; "r"; "h"]) c /\
    inputs shaped_text scored_shaped_text here c refs hyps
      (QueryGroups [[lit "b"; lit "q1"]; [lit "a"; lit "q1"; lit "q2"]; [lit "b"; lit "q99"]]) /\
    assigns (QueryGroups [[lit "b"; lit "q1"]; [lit "a"; lit "q1"; lit "q2"]; [lit "b"; lit "q99"]]) (lit "q1") (lit "a") /\
    List.length refs = 6%nat) /\
  (exists c b line, command (map lit ["--query_groups"; "blank"; "r"; "h"]) c /\ cf_querygroups c <> [] /\
    w_file here (cf_querygroups c) = Some b /\ file_lines b [lit "a q1 q2"; line; lit "b q99"] /\ words line []).
Proof.
  split.
  - eexists _, _, _. split; [apply Compute.config_for_ok; vm_compute; reflexivity|].
    split; [apply Compute.icdar_inputs_ok; vm_compute; reflexivity|]. split; [|reflexivity].
    exists [[lit "b"; lit "q1"]], [lit "q1"; lit "q2"], [[lit "b"; lit "q99"]].
    split; [reflexivity|]. split; [left; reflexivity|]. intros g qs [K|[]] I. injection K as <- <-.
    destruct I as [I|[]]. discriminate.
  - eexists _, _, []. split; [apply Compute.config_for_ok; vm_compute; reflexivity|]. split; [discriminate|].
    split; [reflexivity|]. split; [|constructor; constructor].
    apply (fl_line (lit "a q1 q2")); [|apply (fl_line []); [|apply (fl_line (lit "b q99")); [|constructor]]];
      simpl; intuition discriminate.
Qed.

(** ** C71 *)

(** C71.  If the lines of the hypotheses are permuted and those of the
    references permuted or repeated, Icdar17KwsEval ends in the same way and
    prints the same statistics and curves; the matches written are the same up
    to the sign of zero scores. *)
Theorem c71_icdar17 : forall A (T : Trans A) srt rngs show_int show_f64 w w' pn args c refs hyps f l r l' r', sort_contract srt ->
  command args c -> no_bootstrap c -> cf_sort c = lit "desc" \/ cf_sort c = lit "asc" ->
  inputs shaped_text scored_shaped_text w c refs hyps f -> reordered w w' c ->
  icdar17 A T srt rngs show_int show_f64 w pn args = (l, r) -> icdar17 A T srt rngs show_int show_f64 w' pn args = (l', r') ->
  r = r' /\ exists ms log ms' log' rest, Forall2 equal_matches ms ms' /\ Forall2 equal_matches log log' /\
    outputs l = dumped c ms log ++ rest /\ outputs l' = dumped c ms' log' ++ rest.
Proof.
  intros A T srt rngs si sf w w' pn args c refs hyps f l r l' r' Hs Cm NB Sc I Ro E E'.
  destruct (Lines.reordered_inputs read_shaped (read_scored read_shaped) _ _ w w' c refs hyps f
    Reader.fm_shaped Reader.fm_scored_shaped Ro I) as (refs' & hyps' & I' & Se & P).
  exact (Runs.icdar_lines T srt Hs rngs si sf w w' pn args c refs hyps refs' hyps' f l r l' r' Cm NB Sc I I'
    (Lines.same_writable w w' c Ro) Se P E E').
Qed.
Print Assumptions c71_icdar17.

(** C71.  In particular the statistics are the same. *)
Theorem c71_printed : forall A (T : Trans A) srt rngs show_int show_f64 w w' pn args c refs hyps f, sort_contract srt ->
  command args c -> no_bootstrap c -> cf_sort c = lit "desc" \/ cf_sort c = lit "asc" ->
  inputs shaped_text scored_shaped_text w c refs hyps f -> reordered w w' c ->
  printed (fst (icdar17 A T srt rngs show_int show_f64 w pn args)) =
  printed (fst (icdar17 A T srt rngs show_int show_f64 w' pn args)).
Proof.
  intros A T srt rngs si sf w w' pn args c refs hyps f Hs Cm NB Sc I Ro.
  destruct (icdar17 A T srt rngs si sf w pn args) as [l r] eqn:E.
  destruct (icdar17 A T srt rngs si sf w' pn args) as [l' r'] eqn:E'.
  destruct (c71_icdar17 A T srt rngs si sf w w' pn args c refs hyps f l r l' r' Hs Cm NB Sc I Ro E E')
    as (_ & ms & log & ms' & log' & rest & _ & _ & O & O').
  cbn [fst]. rewrite <- (Runs.printed_outputs l), <- (Runs.printed_outputs l'), O, O'.
  rewrite !Runs.printed_app, !Runs.printed_dumped. reflexivity.
Qed.
Print Assumptions c71_printed.

(** The lines of the example files, and texts made of lines. *)
Definition refs_lines : list bytes := match lines_of refs_text with Ok ls => ls | _ => [] end.
(** See [refs_lines]. *)
Definition hyps_lines : list bytes := match lines_of hyps_text with Ok ls => ls | _ => [] end.
(** See [refs_lines]. *)
Definition text_of (ls : list bytes) : bytes := flat_map (fun l => l ++ lit eol) ls.

(** The files of the example with the lines of the hypotheses in reverse
    order, and those of the references in reverse order and then again. *)
Definition there : world :=
  World (fun n => if str_eq n (lit "r") then Some (text_of (rev refs_lines ++ refs_lines))
                  else if str_eq n (lit "h") then Some (text_of (rev hyps_lines)) else files n)
    (fun n => negb (str_eq n (lit "no"))) [].

Example c71_case :
  (exists c refs hyps, command (map lit ["r"; "h"]) c /\ no_bootstrap c /\ cf_sort c = lit "desc" /\
    inputs shaped_text scored_shaped_text here c refs hyps NoQueries /\ reordered here there c /\
    List.length refs = 6%nat /\ List.length hyps = 7%nat) /\
  map snd (firstn 2 (printed (fst (icdar17 QArith_ TQ (@isort) (fun _ => stream (fun _ => O)) (fun _ => []) (fun _ => []) there [] (map lit ["r"; "h"]))))) =
    [1 # 4; 1 # 6]%Q.
Proof.
  split; [|vm_compute; reflexivity].
  eexists _, _, _. split; [apply Compute.config_for_ok; vm_compute; reflexivity|].
  split; [repeat split|]. split; [reflexivity|].
  split; [apply Compute.icdar_inputs_ok; vm_compute; reflexivity|]. split; [|split; reflexivity]. constructor.
  - exists refs_text, (text_of (rev refs_lines ++ refs_lines)), refs_lines, (rev refs_lines ++ refs_lines).
    split; [reflexivity|]. split; [reflexivity|]. split; [apply Lines.lines_by; vm_compute; reflexivity|].
    split; [apply Lines.lines_by; vm_compute; reflexivity|].
    intros x. rewrite in_app_iff, <- in_rev. tauto.
  - exists hyps_text, (text_of (rev hyps_lines)), hyps_lines, (rev hyps_lines).
    split; [reflexivity|]. split; [reflexivity|]. split; [apply Lines.lines_by; vm_compute; reflexivity|].
    split; [apply Lines.lines_by; vm_compute; reflexivity|]. apply Permutation_rev.
  - reflexivity.
  - reflexivity.
  - reflexivity.
Qed.

(** The score of a hypothesis is a zero, and its sign. *)
Definition zero_sign (h : scored shaped) : option bool := match sc_score h with B754_zero s => Some s | _ => None end.

(** The file of matches among the effects of a run. *)
Fixpoint dump_in {A RE HE} (l : list (effect A (RE := RE) (HE := HE))) : option (bytes * list (match_t RE HE) * list (match_t RE HE)) :=
  match l with
  | [] => None
  | EWrite name (FDump ms log) :: _ => Some (name, ms, log)
  | _ :: t => dump_in t
  end.

Lemma dump_in_ok A RE HE (l : list (effect A (RE := RE) (HE := HE))) name ms log :
  dump_in l = Some (name, ms, log) -> In (EWrite name (FDump ms log)) l.
Proof.
  induction l as [|[d|n v ci|n [ms' log'|pts]] l IH]; simpl; intros E; try discriminate; auto.
  injection E as -> -> ->. auto.
Qed.

(** C71.  The matches written may change: of two hypotheses with the same
    event and scores +0 and -0 the matcher takes the first line. *)
Theorem c71_dump_refuted : exists name ms log ms' log',
  In (EWrite name (FDump ms log)) (fst (try_icdar17 ["--dump_matches"; "m"; "r"; "zeros"])) /\
  In (EWrite name (FDump ms' log')) (fst (try_icdar17 ["--dump_matches"; "m"; "r"; "zeros2"])) /\
  map zero_sign (hyps_of ms) = [Some false] /\ map zero_sign (hyps_of ms') = [Some true].
Proof.
  assert (D : forall args, match dump_in (fst (try_icdar17 args)) with Some _ => true | None => false end = true ->
    exists name ms log, dump_in (fst (try_icdar17 args)) = Some (name, ms, log)).
  { intros args H. destruct (dump_in (fst (try_icdar17 args))) as [[[n ms] log]|]; [eauto|discriminate]. }
  destruct (D ["--dump_matches"; "m"; "r"; "zeros"]) as (n & ms & log & E); [vm_compute; reflexivity|].
  destruct (D ["--dump_matches"; "m"; "r"; "zeros2"]) as (n' & ms' & log' & E'); [vm_compute; reflexivity|].
  assert (Nn : n = lit "m") by (apply (f_equal (option_map (fun x => fst (fst x)))) in E; vm_compute in E; now injection E).
  assert (Nn' : n' = lit "m") by (apply (f_equal (option_map (fun x => fst (fst x)))) in E'; vm_compute in E'; now injection E').
  exists (lit "m"), ms, log, ms', log'. split; [apply dump_in_ok; now rewrite <- Nn|]. split; [apply dump_in_ok; now rewrite <- Nn'|].
  split.
  - apply (f_equal (option_map (fun x => map zero_sign (hyps_of (snd (fst x)))))) in E. vm_compute in E. now injection E.
  - apply (f_equal (option_map (fun x => map zero_sign (hyps_of (snd (fst x)))))) in E'. vm_compute in E'. now injection E'.
Qed.
Print Assumptions c71_dump_refuted.

(** C71.  It does not hold for SimpleKwsEval if equal scores are not collapsed:
    it breaks ties by ids, and these follow the order of the lines of the
    references. *)
Theorem c71_simple_refuted :
  map snd (firstn 2 (printed (fst (try_simple ["--collapse_matches"; "false"; "tied"; "ties"])))) = [1 # 4; 1 # 4]%Q /\
  map snd (firstn 2 (printed (fst (try_simple ["--collapse_matches"; "false"; "tied2"; "ties"])))) = [1 # 2; 1 # 2]%Q /\
  exists b b' l l', files (lit "tied") = Some b /\ files (lit "tied2") = Some b' /\
    file_lines b [l; l'] /\ file_lines b' [l'; l].
Proof.
  split; [vm_compute; reflexivity|]. split; [vm_compute; reflexivity|].
  eexists _, _, (lit "q x"), (lit "p y"). split; [reflexivity|]. split; [reflexivity|].
  split; apply Lines.lines_by; vm_compute; reflexivity.
Qed.
Print Assumptions c71_simple_refuted.

(** ** C72 *)

(** C72.  Without bootstrapping no command line, file or input makes
    Icdar17KwsEval reach undefined behaviour; it ends with an exit status, or
    with the exception about a curve file that cannot be written. *)
Theorem c72_icdar17 : forall A (T : Trans A) srt rngs show_int show_f64 w pn args l r, sort_contract srt ->
  icdar17 A T srt rngs show_int show_f64 w pn args = (l, r) -> (forall c, command args c -> no_bootstrap c) ->
  r = inr (FExit 0) \/ r = inr (FExit 1) \/
  (r = inr (FThrow IosFailure) /\ stat_names l = [lit "gAP"; lit "mAP"; lit "gNDCG"; lit "mNDCG"] /\
   exists c, command args c /\
     ((cf_grp c <> [] /\ w_writable w (cf_grp c) = false) \/ (cf_mrp c <> [] /\ w_writable w (cf_mrp c) = false))).
Proof.
  intros A T srt rngs si sf w pn args l r Hs E NB. rewrite Instances.icdar17_tool in E.
  destruct (Instances.icdar_defined T srt Hs rngs si sf w pn args l r E NB) as [K|[K|[[K _]|(K & N & c & Cm & W)]]]; auto.
  - discriminate.
  - right. right. split; [exact K|]. split; [exact N|]. exists c. split; [exact Cm|exact W].
Qed.
Print Assumptions c72_icdar17.

(** C72.  The same for SimpleKwsEval; it may also end with the exception about
    too many strings. *)
Theorem c72_simple : forall A (T : Trans A) srt rngs show_int show_f64 qf w pn args l r, sort_contract srt ->
  simple_kws A T srt rngs show_int show_f64 qf w pn args = (l, r) -> (forall c, command args c -> no_bootstrap c) ->
  r = inr (FExit 0) \/ r = inr (FExit 1) \/ r = inr (FThrow RangeError) \/
  (r = inr (FThrow IosFailure) /\ stat_names l = [lit "gAP"; lit "mAP"; lit "gNDCG"; lit "mNDCG"] /\
   exists c, command args c /\
     ((cf_grp c <> [] /\ w_writable w (cf_grp c) = false) \/ (cf_mrp c <> [] /\ w_writable w (cf_mrp c) = false))).
Proof.
  intros A T srt rngs si sf qf w pn args l r Hs E NB. rewrite Instances.simple_tool in E.
  destruct (Instances.simple_defined T srt Hs rngs si sf w qf pn args l r E NB) as [K|[K|[[_ K]|(K & N & c & Cm & W)]]]; auto.
  right. right. right. split; [exact K|]. split; [exact N|]. exists c. split; [exact Cm|exact W].
Qed.
Print Assumptions c72_simple.

(** C72.  With bootstrapping the program may reach undefined behaviour: with
    0 samples it reads an element of an empty vector. *)
Theorem c72_bootstrap_refuted :
  snd (try_icdar17 ["--bootstrap_ci_gap"; "--bootstrap_samples"; "0"; "r"; "h"]) = inr FUB /\
  snd (try_icdar17 ["--bootstrap_ci_gap"; "--bootstrap_samples"; "4"; "r"; "h"]) = inr (FExit 0) /\
  snd (try_icdar17 ["--bootstrap_ci_gap"; "--bootstrap_samples"; "4"; "--bootstrap_alpha"; "3"; "r"; "h"]) = inr FUB.
Proof. vm_compute. auto. Qed.
Print Assumptions c72_bootstrap_refuted.

Lemma plain_command args : match Compute.config_for args with
  | Some c => cf_ci_gap c || cf_ci_map c || cf_ci_gndcg c || cf_ci_mndcg c
  | None => false
  end = false -> forall c, command args c -> no_bootstrap c.
Proof.
  unfold Compute.config_for. intros H c Cm. apply Programs.command_parse in Cm as (s & P & ->). rewrite P in H.
  apply orb_false_iff in H as [H H4]. apply orb_false_iff in H as [H H3]. apply orb_false_iff in H as [H1 H2].
  repeat split; assumption.
Qed.

(** Lines with wrong numbers, missing words and signs, and no option about
    bootstrapping: the tools give up. *)
Example c72_case :
  (forall c, command (map lit ["r"; "bad"]) c -> no_bootstrap c) /\
  snd (try_icdar17 ["r"; "bad"]) = inr (FExit 1) /\ snd (try_simple ["h"; "r"]) = inr (FExit 1) /\
  (forall c, command (map lit ["--output_mrp"; "no"; "--rp_curve_samples"; "3"; "r"; "h"]) c -> no_bootstrap c) /\
  snd (try_icdar17 ["--output_mrp"; "no"; "--rp_curve_samples"; "3"; "r"; "h"]) = inr (FThrow IosFailure).
Proof.
  split; [apply plain_command; vm_compute; reflexivity|]. split; [vm_compute; reflexivity|].
  split; [vm_compute; reflexivity|]. split; [apply plain_command; vm_compute; reflexivity|vm_compute; reflexivity].
Qed.
