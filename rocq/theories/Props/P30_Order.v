(** C94: SimpleKwsEval and the order of the hypotheses. *)
From Coq Require Import Ascii String List Bool ZArith QArith Reals Lia Permutation.
From Flocq Require Import Core BinarySingleNaN.
From Verif.Model Require Import Cpp Floats Events EventSets Matches Matcher Scorers Assessment Bootstrap Mapper Stream
  Reader Options Tool.
From Verif.Spec Require Import Order Sets Matching Grouping Collapse Metrics Curves Reader Options Tool Added.
From Verif.Proofs Require Reader Order Lines Runs Instances Compute Ties Better Renumber.
From Verif.Props Require Import P17_Tool P18_Results P25_Ties.
Import ListNotations.
Local Open Scope string_scope.
Local Open Scope list_scope.

(** ** C94 *)

Lemma errors_points {RE HE} (score : HE -> f32) (l l' : list (match_t RE HE)) : map m_err l = map m_err l' ->
  points score false l = points score false l'.
Proof.
  intros E. assert (K : forall x : list (match_t RE HE), points score false x = map counts_of (map m_err x)) by (intros x; rewrite map_map; reflexivity).
  now rewrite !K, E.
Qed.

Lemma order_runs A (T : Trans A) srt rngs si sf qf w w' pn args c refs hyps f l r l' r' : sort_contract srt ->
  command args c -> no_bootstrap c -> cf_sort c = lit "desc" \/ cf_sort c = lit "asc" ->
  inputs str_event_text scored_str_event_text w c refs hyps f -> reordered w w' c -> w_file w (cf_ref c) = w_file w' (cf_ref c) ->
  (Z.of_nat (strings refs hyps f) <= 2147483648)%Z ->
  simple_kws A T srt rngs si sf qf w pn args = (l, r) -> simple_kws A T srt rngs si sf qf w' pn args = (l', r') ->
  exists id id' ms log groups gs ms' log' groups',
    points sc_score (cf_collapse c) ms = points sc_score (cf_collapse c) ms' /\ Permutation groups gs /\
    Forall2 (fun g g' => points sc_score (cf_collapse c) g = points sc_score (cf_collapse c) g') gs groups' /\
    Instances.reported T srt w c (map (renamed_match id) ms) (map (renamed_match id) log) (map (map (renamed_match id)) groups) l r /\
    Instances.reported T srt w' c (map (renamed_match id') ms') (map (renamed_match id') log') (map (map (renamed_match id')) groups') l' r'.
Proof.
  intros Hs Cm NB Sc I Ro Er L E E'.
  destruct (Lines.reordered_inputs read_str_event (read_scored read_str_event) _ _ w w' c refs hyps f
    Reader.fm_str_event Reader.fm_scored_str_event Ro I) as (refs' & hyps' & J & _ & P).
  assert (I' : inputs str_event_text scored_str_event_text w' c refs hyps' f).
  { destruct J as [N _ Ih Iq Id]. constructor; auto. destruct (in_refs _ _ _ _ _ _ _ I) as (b & Eb & Fb). exists b. rewrite <- Er. auto. }
  assert (L' : (Z.of_nat (strings refs hyps' f) <= 2147483648)%Z) by (unfold strings in *; rewrite <- (Permutation_length P); exact L).
  rewrite Instances.simple_tool in E, E'.
  destruct (Instances.simple_run_ids T srt Hs rngs si sf w qf pn args c refs hyps f l r Cm NB I E L) as (id & ms & log & gs & Ids & Inj & Fi & Ev & Rp).
  destruct (Instances.simple_run_ids T srt Hs rngs si sf w' qf pn args c refs hyps' f l' r' Cm NB I' E' L')
    as (id' & ms' & log' & gs' & Ids' & Inj' & Fi' & Ev' & Rp').
  destruct (cf_collapse c).
  - destruct (Ties.evaluations_ties id id' (cf_sort c) f refs refs hyps hyps' ms log gs ms' log' gs' Sc Inj Inj' (fun x => iff_refl _) P Fi Ev Ev')
      as (Pt & gs0 & Pg & Fg).
    exists id, id', ms, log, gs, gs0, ms', log', gs'. auto 10.
  - destruct (Renumber.ids_clip qf refs _ _ id id' Ids Ids') as (n & Kr & Kh).
    destruct (Renumber.evaluations_renumbered id id' Inj Inj' n (cf_sort c) f refs hyps hyps' ms log gs ms' log' gs' Fi
      (fun r s J Sp => proj1 (Kr r s J Sp))) as (Es & gs0 & Pg & Fg); [|left; auto|exact Ev|exact Ev'|].
    { intros x s Jx Sp. exact (Kh x x s Jx Sp (Permutation_in _ P Jx) Sp). }
    exists id, id', ms, log, gs, gs0, ms', log', gs'. split; [exact (errors_points _ _ _ Es)|]. split; [exact Pg|]. split; [|auto].
    clear - Fg. induction Fg as [|g g' gs0 gs' Eg F IH]; constructor; auto. exact (errors_points _ _ _ Eg).
Qed.

(** C94.  With or without collapsing, SimpleKwsEval with the lines of the
    hypotheses in another order ends in the same way and prints the same
    statistics over all matches and writes the same curve of them, in any
    arithmetic.  (C71 shows that the order of the references matters.) *)
Theorem c94_simple : forall A (T : Trans A) srt rngs show_int show_f64 qf w w' pn args c refs hyps f l r l' r', sort_contract srt ->
  command args c -> no_bootstrap c -> cf_sort c = lit "desc" \/ cf_sort c = lit "asc" ->
  inputs str_event_text scored_str_event_text w c refs hyps f -> reordered w w' c -> w_file w (cf_ref c) = w_file w' (cf_ref c) ->
  (Z.of_nat (strings refs hyps f) <= 2147483648)%Z ->
  simple_kws A T srt rngs show_int show_f64 qf w pn args = (l, r) ->
  simple_kws A T srt rngs show_int show_f64 qf w' pn args = (l', r') ->
  r = r' /\ exists ms log ms' log' v1 v2 v3 v4 v2' v4' g m m',
    outputs l = dumped c ms log ++ [EStat (lit "gAP") v1 None; EStat (lit "mAP") v2 None;
                                    EStat (lit "gNDCG") v3 None; EStat (lit "mNDCG") v4 None] ++ g ++ m /\
    outputs l' = dumped c ms' log' ++ [EStat (lit "gAP") v1 None; EStat (lit "mAP") v2' None;
                                       EStat (lit "gNDCG") v3 None; EStat (lit "mNDCG") v4' None] ++ g ++ m' /\
    (forall e, In e (m ++ m') -> exists pts, e = EWrite (cf_mrp c) (FCurve pts)).
Proof.
  intros A T srt rngs si sf qf w w' pn args c refs hyps f l r l' r' Hs Cm NB Sc I Ro Er L E E'.
  destruct (order_runs A T srt rngs si sf qf w w' pn args c refs hyps f l r l' r' Hs Cm NB Sc I Ro Er L E E')
    as (id & id' & ms & log & gs & gs0 & ms' & log' & gs' & Pt & Pg & Fg & Rp & Rp').
  assert (Sp : Ties.same_points sc_score (cf_collapse c) (map (renamed_match id) ms) (map (renamed_match id') ms')).
  { unfold Ties.same_points. now rewrite !Ties.points_names. }
  destruct (Ties.reported_points T srt w w' c _ _ _ _ _ _ l r l' r' (Lines.same_writable w w' c Ro) Sp Rp Rp')
    as (-> & v1 & v2 & v3 & v4 & v2' & v4' & g & m & m' & O & O' & W).
  split; [reflexivity|]. do 4 eexists. exists v1, v2, v3, v4, v2', v4', g, m, m'. split; [exact O|]. split; [exact O'|exact W].
Qed.
Print Assumptions c94_simple.

(** C94.  In real arithmetic the means and their curve are the same too, so
    everything but the file of matches. *)
Theorem c94_real : forall (T : Trans RArith) srt rngs show_int show_f64 qf w w' pn args c refs hyps f l r l' r', sort_contract srt ->
  command args c -> no_bootstrap c -> cf_sort c = lit "desc" \/ cf_sort c = lit "asc" ->
  inputs str_event_text scored_str_event_text w c refs hyps f -> reordered w w' c -> w_file w (cf_ref c) = w_file w' (cf_ref c) ->
  (Z.of_nat (strings refs hyps f) <= 2147483648)%Z ->
  simple_kws RArith T srt rngs show_int show_f64 qf w pn args = (l, r) ->
  simple_kws RArith T srt rngs show_int show_f64 qf w' pn args = (l', r') ->
  r = r' /\ exists ms log ms' log' v1 v2 v3 v4 curves,
    outputs l = dumped c ms log ++ [EStat (lit "gAP") v1 None; EStat (lit "mAP") v2 None;
                                    EStat (lit "gNDCG") v3 None; EStat (lit "mNDCG") v4 None] ++ curves /\
    outputs l' = dumped c ms' log' ++ [EStat (lit "gAP") v1 None; EStat (lit "mAP") v2 None;
                                       EStat (lit "gNDCG") v3 None; EStat (lit "mNDCG") v4 None] ++ curves.
Proof.
  intros T srt rngs si sf qf w w' pn args c refs hyps f l r l' r' Hs Cm NB Sc I Ro Er L E E'.
  destruct (order_runs RArith T srt rngs si sf qf w w' pn args c refs hyps f l r l' r' Hs Cm NB Sc I Ro Er L E E')
    as (id & id' & ms & log & gs & gs0 & ms' & log' & gs' & Pt & Pg & Fg & Rp & Rp').
  assert (Sp : Ties.same_points sc_score (cf_collapse c) (map (renamed_match id) ms) (map (renamed_match id') ms')).
  { unfold Ties.same_points. now rewrite !Ties.points_names. }
  destruct (Ties.reported_real T srt w w' c _ _ _ _ _ _ (map (map (renamed_match id)) gs0) l r l' r' (Lines.same_writable w w' c Ro) Sp
    (Permutation_map _ Pg) (Ties.groups_names id id' _ _ _ Fg) Rp Rp') as (-> & v1 & v2 & v3 & v4 & cv & O & O').
  split; [reflexivity|]. do 4 eexists. exists v1, v2, v3, v4, cv. split; [exact O|exact O'].
Qed.
Print Assumptions c94_real.

(** Hits and false alarms with the same score, with strings of the references
    and new ones; the same in reverse order. *)
Definition mixed_hyps : list bytes := map lit ["c x 1"; "a y 1"; "b n 1"; "m x 1"; "b y 1"; "a n 1"; "a x 1"; "m n 1"; "n x 1"].
(** See [mixed_hyps]. *)
Definition mixed_refs : list bytes := map lit ["b y"; "a x"; "c x"; "a z"].

Example c94_case :
  (exists c refs hyps, command (map lit ["--collapse_matches"; "false"; "r"; "h"]) c /\ no_bootstrap c /\ cf_sort c = lit "desc" /\ cf_collapse c = false /\
    inputs str_event_text scored_str_event_text (tie_world mixed_refs mixed_hyps) c refs hyps NoQueries /\
    reordered (tie_world mixed_refs mixed_hyps) (tie_world mixed_refs (rev mixed_hyps)) c /\
    w_file (tie_world mixed_refs mixed_hyps) (cf_ref c) = w_file (tie_world mixed_refs (rev mixed_hyps)) (cf_ref c) /\
    (Z.of_nat (strings refs hyps NoQueries) <= 2147483648)%Z) /\
  map (fun w => map snd (firstn 2 (printed (fst (tie_run TQ w ["--collapse_matches"; "false"; "r"; "h"])))))
    [tie_world mixed_refs mixed_hyps; tie_world mixed_refs (rev mixed_hyps); tie_world (rev mixed_refs) mixed_hyps] =
    [[1 # 4; 7 # 20]; [1 # 4; 7 # 20]; [1 # 4; 1 # 3]]%Q.
Proof.
  split; [|vm_compute; reflexivity].
  eexists _, _, _. split; [apply Compute.config_for_ok; vm_compute; reflexivity|].
  split; [repeat split|]. split; [reflexivity|]. split; [reflexivity|].
  split; [apply Compute.simple_inputs_ok; vm_compute; reflexivity|]. split; [|split; [reflexivity|vm_compute; discriminate]].
  constructor; try reflexivity.
  - exists (text_of mixed_refs), (text_of mixed_refs), mixed_refs, mixed_refs.
    split; [reflexivity|]. split; [reflexivity|]. split; [apply Lines.lines_by; vm_compute; reflexivity|].
    split; [apply Lines.lines_by; vm_compute; reflexivity|]. intros x. reflexivity.
  - exists (text_of mixed_hyps), (text_of (rev mixed_hyps)), mixed_hyps, (rev mixed_hyps).
    split; [reflexivity|]. split; [reflexivity|]. split; [apply Lines.lines_by; vm_compute; reflexivity|].
    split; [apply Lines.lines_by; vm_compute; reflexivity|]. apply Permutation_rev.
Qed.
