(** C112: better rankings have no lower curves. *)
From Coq Require Import Ascii String List Bool ZArith QArith Reals Lia Lra.
From Flocq Require Import Core BinarySingleNaN.
From Verif.Model Require Import Cpp Floats Events EventSets Matches Matcher Scorers Assessment Bootstrap Mapper Stream Reader Options Tool.
From Verif.Spec Require Import Order Matching Grouping Collapse Metrics Curves Reader Options Tool Parts Better Lower.
From Verif.Proofs Require Compute BetterCurve RaisedCurve.
From Verif.Props Require Import P17_Tool P18_Results P25_Ties P26_Parts P27_Better P46_OneCurve.
Import ListNotations.
Local Open Scope string_scope.
Local Open Scope list_scope.

(** C112.  Moving hits up past false alarms, without collapsing, lowers no
    sample of the curve, with or without interpolation and trapezoids. *)
Theorem c112_better : forall RE HE (score : HE -> f32) (l l' : list (match_t RE HE)) interpolate trapezoid dst,
  (forall m, In m l -> zero_one (m_err m)) -> better (map m_err l) (map m_err l') -> nondecreasing dst ->
  exists ys ys' : list R,
    (let (pr, rc) := precision_recall_matches RArith score l false interpolate in sample_curve RArith rc pr dst trapezoid) = Ok ys /\
    (let (pr, rc) := precision_recall_matches RArith score l' false interpolate in sample_curve RArith rc pr dst trapezoid) = Ok ys' /\
    Forall2 Rle ys ys'.
Proof.
  intros RE HE score l l' i t dst Z B D. rewrite !BetterCurve.raw_curve_ok. apply BetterCurve.better_curve; [exact D|exact B|].
  intros e I. apply in_map_iff in I as (m & <- & I). auto.
Qed.
Print Assumptions c112_better.

(** C112.  SimpleKwsEval without collapsing: a higher score for a hypothesis that
    is right lowers no point of a curve file, and one for a hypothesis that is
    wrong raises none.  The names of the two files differ, so that a name says
    which curve is meant. *)
Theorem c112_simple : forall srt rngs show_int show_f64 qf w w' pn args c refs hyps hyps' f e name pts pts', sort_contract srt ->
  command args c -> no_bootstrap c -> cf_sort c = lit "desc" -> cf_collapse c = false -> cf_grp c <> cf_mrp c ->
  inputs str_event_text scored_str_event_text w c refs hyps f -> inputs str_event_text scored_str_event_text w' c refs hyps' f ->
  (Z.of_nat (strings refs hyps f) <= 2147483648)%Z -> raised e hyps hyps' ->
  In (EWrite name (FCurve pts)) (fst (simple_kws RArith RTrans srt rngs show_int show_f64 qf w pn args)) ->
  In (EWrite name (FCurve pts')) (fst (simple_kws RArith RTrans srt rngs show_int show_f64 qf w' pn args)) ->
  (In e refs -> nowhere_above pts pts') /\ (~ In e refs -> nowhere_above pts' pts).
Proof.
  intros srt rngs si sf qf w w' pn args c refs hyps hyps' f e name p p' Hs.
  exact (RaisedCurve.simple_curves srt Hs rngs si sf qf w w' pn args c refs hyps hyps' f e name p p').
Qed.
Print Assumptions c112_simple.

Definition raw_curves : list string := both_curves ++ ["--collapse_matches"; "false"; "r"; "h"].

(** The files of C91: both curves get higher. *)
Example c112_case :
  (exists c refs hyps hyps' e, command (map lit raw_curves) c /\ no_bootstrap c /\ cf_sort c = lit "desc" /\
    cf_collapse c = false /\ cf_grp c <> cf_mrp c /\ inputs str_event_text scored_str_event_text (low_hit "3") c refs hyps NoQueries /\
    inputs str_event_text scored_str_event_text (low_hit "8.5") c refs hyps' NoQueries /\ (Z.of_nat (strings refs hyps NoQueries) <= 2147483648)%Z /\
    raised e hyps hyps' /\ In e refs) /\
  precisions (fst (tie_run TQ (low_hit "3") raw_curves)) = [[1 # 2; 1 # 2; 1 # 2]; [3 # 4; 3 # 4; 1 # 2]]%Q /\
  precisions (fst (tie_run TQ (low_hit "8.5") raw_curves)) = [[2 # 3; 2 # 3; 1 # 2]; [5 # 6; 5 # 6; 7 # 12]]%Q.
Proof.
  split; [|split; vm_compute; reflexivity].
  eexists _, _, _, _, _. split; [apply Compute.config_for_ok; vm_compute; reflexivity|].
  split; [repeat split|]. split; [reflexivity|]. split; [reflexivity|]. split; [discriminate|].
  split; [apply Compute.simple_inputs_ok; vm_compute; reflexivity|]. split; [apply Compute.simple_inputs_ok; vm_compute; reflexivity|].
  split; [vm_compute; discriminate|]. split.
  - eexists [_; _; _; _; _], _, _, [_; _]. split; [reflexivity|]. split; [reflexivity|]. vm_compute. reflexivity.
  - right. left. reflexivity.
Qed.

(** The ranking of C91, sampled at three recalls. *)
Example c112_lists_case :
  let fp n := make_fp (RE := nat) (Scored n f32_1) in
  let hit n := Match (Some n) (Some (Scored n f32_1)) hit_error in
  let l := [fp 1; hit 2; fp 3; hit 4; make_fn 5]%nat in
  let l' := [hit 2; hit 4; fp 1; fp 3; make_fn 5]%nat in
  let curve l := let (pr, rc) := precision_recall_matches QArith_ (@sc_score nat) l false false in sample_curve QArith_ rc pr [0; 1 # 3; 1 # 2]%Q false in
  (forall m, In m l -> zero_one (m_err m)) /\ better (map m_err l) (map m_err l') /\ nondecreasing [0; 1 / 3; 1 / 2]%R /\
  curve l = Ok [0; 1 # 2; 1 # 2]%Q /\ curve l' = Ok [1; 1; 1]%Q.
Proof.
  cbv zeta. split; [|split; [|split; [|split; vm_compute; reflexivity]]].
  - intros m I. repeat (destruct I as [<-|I]; [split; cbn; auto|]). destruct I.
  - eapply better_trans; [exact (better_swap [] [alarm_error; hit_error; MatchError f32_0 f32_1])|].
    eapply better_trans; [exact (better_swap [hit_error; alarm_error] [MatchError f32_0 f32_1])|].
    exact (better_swap [hit_error] [alarm_error; MatchError f32_0 f32_1]).
  - repeat constructor; lra.
Qed.

Definition exact_curves (trapezoid : string) : list string :=
  both_curves ++ ["--interpolated_precision"; "false"; "--trapezoid_integral"; trapezoid; "r"; "h"].

(** C112.  False with collapsing and no interpolation, for the files of C91: a
    higher score for one of two hits lowers the second point of both curves,
    with trapezoids from 1/11 to 1/12, without from 1/6 to 1/11. *)
Theorem c112_collapse_refuted :
  (exists c refs hyps hyps' e, command (map lit (exact_curves "true")) c /\ no_bootstrap c /\ cf_sort c = lit "desc" /\ cf_grp c <> cf_mrp c /\
    inputs str_event_text scored_str_event_text (two_hits "2" "1") c refs hyps NoQueries /\
    inputs str_event_text scored_str_event_text (two_hits "2" "2") c refs hyps' NoQueries /\ raised e hyps hyps' /\ In e refs) /\
  (exists c refs hyps hyps' e, command (map lit (exact_curves "false")) c /\ no_bootstrap c /\ cf_sort c = lit "desc" /\ cf_grp c <> cf_mrp c /\
    inputs str_event_text scored_str_event_text (two_hits "1" "1") c refs hyps NoQueries /\
    inputs str_event_text scored_str_event_text (two_hits "1" "2") c refs hyps' NoQueries /\ raised e hyps hyps' /\ In e refs) /\
  map (fun w => precisions (fst (tie_run TQ w (exact_curves "true")))) [two_hits "2" "1"; two_hits "2" "2"] =
    [[[0; 1 # 11; 1 # 6]; [0; 1 # 11; 1 # 6]]; [[0; 1 # 12; 1 # 6]; [0; 1 # 12; 1 # 6]]]%Q /\
  map (fun w => precisions (fst (tie_run TQ w (exact_curves "false")))) [two_hits "1" "1"; two_hits "1" "2"] =
    [[[0; 1 # 6; 1 # 6]; [0; 1 # 6; 1 # 6]]; [[0; 1 # 11; 1 # 6]; [0; 1 # 11; 1 # 6]]]%Q.
Proof.
  split; [|split; [|split; vm_compute; reflexivity]]; (eexists _, _, _, _, _; split; [apply Compute.config_for_ok; vm_compute; reflexivity|];
    split; [repeat split|]; split; [reflexivity|]; split; [discriminate|];
    split; [apply Compute.simple_inputs_ok; vm_compute; reflexivity|]; split; [apply Compute.simple_inputs_ok; vm_compute; reflexivity|];
    split; [eexists [_; _; _; _; _; _; _; _; _; _; _], _, _, []; split; [reflexivity|]; split; [reflexivity|]; vm_compute; reflexivity
      |right; left; reflexivity]).
Qed.
Print Assumptions c112_collapse_refuted.

(** C112.  False for Icdar17KwsEval, without collapsing as well, for the files of
    C91: a higher score for one of two hypotheses that are right lowers both
    curves. *)
Theorem c112_icdar17_refuted :
  (exists c refs hyps hyps' e, command (map lit raw_curves) c /\ no_bootstrap c /\ cf_sort c = lit "desc" /\
    cf_collapse c = false /\ cf_grp c <> cf_mrp c /\ inputs shaped_text scored_shaped_text (two_boxes "1") c refs hyps NoQueries /\
    inputs shaped_text scored_shaped_text (two_boxes "3") c refs hyps' NoQueries /\ raised e hyps hyps') /\
  map (fun s => precisions (fst (icdar17 QArith_ TQ (@isort) (fun _ => stream (fun _ => O)) (fun _ => []) (fun _ => [])
    (two_boxes s) (lit "prog") (map lit raw_curves)))) ["1"; "3"] = [[[1; 1; 1]; [1; 1; 1]]; [[1; 1; 0]; [1; 1; 0]]]%Q.
Proof.
  split; [|vm_compute; reflexivity].
  eexists _, _, _, _, _. split; [apply Compute.config_for_ok; vm_compute; reflexivity|].
  split; [repeat split|]. split; [reflexivity|]. split; [reflexivity|]. split; [discriminate|].
  split; [apply Compute.icdar_inputs_ok; vm_compute; reflexivity|]. split; [apply Compute.icdar_inputs_ok; vm_compute; reflexivity|].
  eexists [_], _, _, []. split; [reflexivity|]. split; [reflexivity|]. vm_compute. reflexivity.
Qed.
Print Assumptions c112_icdar17_refuted.
