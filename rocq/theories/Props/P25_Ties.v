(** C88: SimpleKwsEval and the order of the lines. *)
From Coq Require Import Ascii String List Bool ZArith QArith Reals Lia Permutation.
From Flocq Require Import Core BinarySingleNaN.
From Verif.Model Require Import Cpp Floats Events EventSets Matches Matcher Scorers Assessment Bootstrap Mapper Stream
  Reader Options Tool.
From Verif.Spec Require Import Order Sets Matching Grouping Collapse Metrics Curves Reader Options Tool.
From Verif.Proofs Require Reader Order Lines Runs Instances Compute Ties.
From Verif.Props Require Import P17_Tool P18_Results.
Import ListNotations.
Local Open Scope string_scope.
Local Open Scope list_scope.

(** ** C88 *)

(** The inputs of the run with the lines in another order, and the two
    evaluations. *)
Lemma both_runs A (T : Trans A) srt rngs si sf qf w w' pn args c refs hyps f l r l' r' : sort_contract srt ->
  command args c -> no_bootstrap c -> cf_sort c = lit "desc" \/ cf_sort c = lit "asc" ->
  inputs str_event_text scored_str_event_text w c refs hyps f -> reordered w w' c ->
  (forall refs' hyps', inputs str_event_text scored_str_event_text w' c refs' hyps' f -> (Z.of_nat (strings refs' hyps' f) <= 2147483648)%Z) ->
  (Z.of_nat (strings refs hyps f) <= 2147483648)%Z ->
  simple_kws A T srt rngs si sf qf w pn args = (l, r) -> simple_kws A T srt rngs si sf qf w' pn args = (l', r') ->
  exists id id' ms log groups gs ms' log' groups',
    points sc_score true ms = points sc_score true ms' /\ Permutation groups gs /\
    Forall2 (fun g g' => points sc_score true g = points sc_score true g') gs groups' /\
    Instances.reported T srt w c (map (renamed_match id) ms) (map (renamed_match id) log) (map (map (renamed_match id)) groups) l r /\
    Instances.reported T srt w' c (map (renamed_match id') ms') (map (renamed_match id') log') (map (map (renamed_match id')) groups') l' r'.
Proof.
  intros Hs Cm NB Sc I Ro L' L E E'.
  destruct (Lines.reordered_inputs read_str_event (read_scored read_str_event) _ _ w w' c refs hyps f
    Reader.fm_str_event Reader.fm_scored_str_event Ro I) as (refs' & hyps' & I' & Se & P).
  rewrite Instances.simple_tool in E, E'.
  destruct (Instances.simple_run T srt Hs rngs si sf w qf pn args c refs hyps f l r Cm NB I E L) as (id & ms & log & gs & Inj & Fi & Ev & Rp).
  destruct (Instances.simple_run T srt Hs rngs si sf w' qf pn args c refs' hyps' f l' r' Cm NB I' E' (L' _ _ I'))
    as (id' & ms' & log' & gs' & Inj' & Fi' & Ev' & Rp').
  destruct (Ties.evaluations_ties id id' (cf_sort c) f refs refs' hyps hyps' ms log gs ms' log' gs' Sc Inj Inj' Se P Fi Ev Ev')
    as (Pt & gs0 & Pg & Fg).
  exists id, id', ms, log, gs, gs0, ms', log', gs'. auto 10.
Qed.

(** C88.  When equal scores are collapsed, SimpleKwsEval with the hypotheses
    permuted and the references permuted or repeated ends in the same way and
    prints the same statistics over all matches and writes the same curve of
    them, in any arithmetic.  (C71 shows that it may not without collapsing.) *)
Theorem c88_simple : forall A (T : Trans A) srt rngs show_int show_f64 qf w w' pn args c refs hyps f l r l' r', sort_contract srt ->
  command args c -> no_bootstrap c -> cf_sort c = lit "desc" \/ cf_sort c = lit "asc" -> cf_collapse c = true ->
  inputs str_event_text scored_str_event_text w c refs hyps f -> reordered w w' c ->
  (forall refs' hyps', inputs str_event_text scored_str_event_text w' c refs' hyps' f -> (Z.of_nat (strings refs' hyps' f) <= 2147483648)%Z) ->
  (Z.of_nat (strings refs hyps f) <= 2147483648)%Z ->
  simple_kws A T srt rngs show_int show_f64 qf w pn args = (l, r) ->
  simple_kws A T srt rngs show_int show_f64 qf w' pn args = (l', r') ->
  r = r' /\ exists ms log ms' log' v1 v2 v3 v4 v2' v4' g m m',
    outputs l = dumped c ms log ++ [EStat (lit "gAP") v1 None; EStat (lit "mAP") v2 None;
                                    EStat (lit "gNDCG") v3 None; EStat (lit "mNDCG") v4 None] ++ g ++ m /\
    outputs l' = dumped c ms' log' ++ [EStat (lit "gAP") v1 None; EStat (lit "mAP") v2' None;
                                       EStat (lit "gNDCG") v3 None; EStat (lit "mNDCG") v4' None] ++ g ++ m' /\
    (forall e, In e (m ++ m') -> exists pts, e = EWrite (cf_mrp c) (FCurve pts)).
Proof.
  intros A T srt rngs si sf qf w w' pn args c refs hyps f l r l' r' Hs Cm NB Sc Co I Ro L' L E E'.
  destruct (both_runs A T srt rngs si sf qf w w' pn args c refs hyps f l r l' r' Hs Cm NB Sc I Ro L' L E E')
    as (id & id' & ms & log & gs & gs0 & ms' & log' & gs' & Pt & Pg & Fg & Rp & Rp').
  assert (Sp : Ties.same_points sc_score (cf_collapse c) (map (renamed_match id) ms) (map (renamed_match id') ms')).
  { unfold Ties.same_points. rewrite Co. now rewrite !Ties.points_names. }
  destruct (Ties.reported_points T srt w w' c _ _ _ _ _ _ l r l' r' (Lines.same_writable w w' c Ro) Sp Rp Rp')
    as (-> & v1 & v2 & v3 & v4 & v2' & v4' & g & m & m' & O & O' & W).
  split; [reflexivity|]. do 4 eexists. exists v1, v2, v3, v4, v2', v4', g, m, m'. split; [exact O|]. split; [exact O'|exact W].
Qed.
Print Assumptions c88_simple.

(** C88.  In real arithmetic the means and their curve are the same too, so
    everything but the file of matches. *)
Theorem c88_real : forall (T : Trans RArith) srt rngs show_int show_f64 qf w w' pn args c refs hyps f l r l' r', sort_contract srt ->
  command args c -> no_bootstrap c -> cf_sort c = lit "desc" \/ cf_sort c = lit "asc" -> cf_collapse c = true ->
  inputs str_event_text scored_str_event_text w c refs hyps f -> reordered w w' c ->
  (forall refs' hyps', inputs str_event_text scored_str_event_text w' c refs' hyps' f -> (Z.of_nat (strings refs' hyps' f) <= 2147483648)%Z) ->
  (Z.of_nat (strings refs hyps f) <= 2147483648)%Z ->
  simple_kws RArith T srt rngs show_int show_f64 qf w pn args = (l, r) ->
  simple_kws RArith T srt rngs show_int show_f64 qf w' pn args = (l', r') ->
  r = r' /\ exists ms log ms' log' v1 v2 v3 v4 curves,
    outputs l = dumped c ms log ++ [EStat (lit "gAP") v1 None; EStat (lit "mAP") v2 None;
                                    EStat (lit "gNDCG") v3 None; EStat (lit "mNDCG") v4 None] ++ curves /\
    outputs l' = dumped c ms' log' ++ [EStat (lit "gAP") v1 None; EStat (lit "mAP") v2 None;
                                       EStat (lit "gNDCG") v3 None; EStat (lit "mNDCG") v4 None] ++ curves.
Proof.
  intros T srt rngs si sf qf w w' pn args c refs hyps f l r l' r' Hs Cm NB Sc Co I Ro L' L E E'.
  destruct (both_runs RArith T srt rngs si sf qf w w' pn args c refs hyps f l r l' r' Hs Cm NB Sc I Ro L' L E E')
    as (id & id' & ms & log & gs & gs0 & ms' & log' & gs' & Pt & Pg & Fg & Rp & Rp').
  assert (Sp : Ties.same_points sc_score (cf_collapse c) (map (renamed_match id) ms) (map (renamed_match id') ms')).
  { unfold Ties.same_points. rewrite Co. now rewrite !Ties.points_names. }
  destruct (Ties.reported_real T srt w w' c _ _ _ _ _ _ (map (map (renamed_match id)) gs0) l r l' r' (Lines.same_writable w w' c Ro) Sp
    (Permutation_map _ Pg) ltac:(rewrite Co; exact (Ties.groups_names id id' true _ _ Fg)) Rp Rp') as (-> & v1 & v2 & v3 & v4 & cv & O & O').
  split; [reflexivity|]. do 4 eexists. exists v1, v2, v3, v4, cv. split; [exact O|exact O'].
Qed.
Print Assumptions c88_real.

(** Three queries, two of them with two false alarms; all scores are equal.
    In the second world the lines of both files are reversed, and those of the
    references are there twice. *)
Definition tie_refs : list bytes := map lit ["a x"; "b x"; "c x"].
(** See [tie_refs]. *)
Definition tie_hyps : list bytes := map lit ["a x 1"; "b x 1"; "b y 1"; "b z 1"; "c x 1"; "c y 1"; "c z 1"].
(** See [tie_refs]. *)
Definition tie_world (refs hyps : list bytes) : world :=
  World (fun n => if str_eq n (lit "r") then Some (text_of refs) else if str_eq n (lit "h") then Some (text_of hyps) else None)
    (fun _ => true) [].
(** See [tie_refs]. *)
Definition ties : world := tie_world tie_refs tie_hyps.
(** See [tie_refs]. *)
Definition ties_back : world := tie_world (rev tie_refs ++ rev tie_refs) (rev tie_hyps).

Lemma ties_reordered c : cf_ref c = lit "r" -> cf_hyp c = lit "h" -> cf_queryset c = [] -> cf_querygroups c = [] ->
  reordered ties ties_back c.
Proof.
  intros Er Eh E1 E2. constructor; unfold hyp_source; rewrite ?Er, ?Eh, ?E1, ?E2; try reflexivity.
  - exists (text_of tie_refs), (text_of (rev tie_refs ++ rev tie_refs)), tie_refs, (rev tie_refs ++ rev tie_refs).
    split; [reflexivity|]. split; [reflexivity|]. split; [apply Lines.lines_by; vm_compute; reflexivity|].
    split; [apply Lines.lines_by; vm_compute; reflexivity|].
    intros x. rewrite in_app_iff, <- in_rev. tauto.
  - exists (text_of tie_hyps), (text_of (rev tie_hyps)), tie_hyps, (rev tie_hyps).
    split; [reflexivity|]. split; [reflexivity|]. split; [apply Lines.lines_by; vm_compute; reflexivity|].
    split; [apply Lines.lines_by; vm_compute; reflexivity|]. apply Permutation_rev.
Qed.

(** The runs on these files. *)
Definition tie_run {A} (T : Trans A) (w : world) (args : list string) :=
  simple_kws A T (@isort) (fun _ => stream (fun _ => O)) (fun _ => []) (fun _ => []) true w (lit "prog") (map lit args).

Example c88_case :
  (exists c refs hyps, command (map lit ["r"; "h"]) c /\ no_bootstrap c /\ cf_sort c = lit "desc" /\ cf_collapse c = true /\
    inputs str_event_text scored_str_event_text ties c refs hyps NoQueries /\ reordered ties ties_back c /\
    List.length refs = 3%nat /\ List.length hyps = 7%nat) /\
  firstn 2 (printed (fst (tie_run TQ ties ["r"; "h"]))) = [(lit "gAP", 3 # 7); (lit "mAP", 5 # 9)]%Q /\
  firstn 2 (printed (fst (tie_run TQ ties_back ["r"; "h"]))) = [(lit "gAP", 3 # 7); (lit "mAP", 5 # 9)]%Q.
Proof.
  split; [|split; vm_compute; reflexivity].
  eexists _, _, _. split; [apply Compute.config_for_ok; vm_compute; reflexivity|].
  split; [repeat split|]. split; [reflexivity|]. split; [reflexivity|].
  split; [apply Compute.simple_inputs_ok; vm_compute; reflexivity|]. split; [|split; reflexivity].
  apply ties_reordered; reflexivity.
Qed.

(** C88.  In double arithmetic the means may differ in the last bits: the
    groups are added in the order in which the ranking reaches them, and that
    is the order of the ids among equal scores. *)
Theorem c88_mean_refuted :
  map (fun p : bytes * f64 => (fst p, B2SF (snd p))) (firstn 2 (printed (fst (tie_run TD ties ["r"; "h"])))) =
    [(lit "gAP", SpecFloat.S754_finite false 7720456504063708 (-54)); (lit "mAP", SpecFloat.S754_finite false 5003999585967218 (-53))] /\
  map (fun p : bytes * f64 => (fst p, B2SF (snd p))) (firstn 2 (printed (fst (tie_run TD ties_back ["r"; "h"])))) =
    [(lit "gAP", SpecFloat.S754_finite false 7720456504063708 (-54)); (lit "mAP", SpecFloat.S754_finite false 5003999585967219 (-53))].
Proof. split; vm_compute; reflexivity. Qed.
Print Assumptions c88_mean_refuted.
