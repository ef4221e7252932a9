(** C91: better rankings have no worse statistics. *)
From Coq Require Import Ascii String List Bool ZArith QArith Reals Lia Lra Permutation.
From Flocq Require Import Core BinarySingleNaN.
From Verif.Model Require Import Cpp Floats Events EventSets Matches Matcher Scorers Assessment Bootstrap Mapper Stream
  Reader Options Tool.
From Verif.Spec Require Import Order Sets Matching Grouping Collapse Metrics Curves Reader Options Tool Parts Better.
From Verif.Proofs Require Reader Lines Runs Instances Compute Better Raised.
From Verif.Props Require Import P17_Tool P18_Results P25_Ties.
Import ListNotations.
Local Open Scope string_scope.
Local Open Scope list_scope.

(** ** C91 *)

(** C91.  Moving hits up past false alarms, without collapsing: neither AP, with
    or without interpolation and trapezoids, nor NDCG gets lower. *)
Theorem c91_better : forall RE HE (score : HE -> f32) (l l' : list (match_t RE HE)) interpolate trapezoid,
  (forall m, In m l -> zero_one (m_err m)) -> better (map m_err l) (map m_err l') ->
  exists ap ap' : R, global_ap RArith score l false interpolate trapezoid = Ok ap /\
    global_ap RArith score l' false interpolate trapezoid = Ok ap' /\ (ap <= ap')%R /\
    (global_ndcg RArith RTrans score l false <= global_ndcg RArith RTrans score l' false)%R.
Proof.
  intros RE HE score l l' i t Z B.
  destruct (Better.better_ap _ _ i t B) as (a & b & E & E' & L); [intros e I; apply in_map_iff in I as (m & <- & I); auto|].
  exists a, b. rewrite !Better.raw_ap_ok, !Better.raw_ndcg_ok. split; [exact E|]. split; [exact E'|]. split; [exact L|].
  now apply Better.better_ndcg.
Qed.
Print Assumptions c91_better.

(** C91.  If any hit moves, NDCG is higher, and so is AP without
    interpolation. *)
Theorem c91_strict : forall RE HE (score : HE -> f32) (l l' : list (match_t RE HE)) trapezoid,
  (forall m, In m l -> zero_one (m_err m)) -> strictly_better (map m_err l) (map m_err l') ->
  exists ap ap' : R, global_ap RArith score l false false trapezoid = Ok ap /\
    global_ap RArith score l' false false trapezoid = Ok ap' /\ (ap < ap')%R /\
    (global_ndcg RArith RTrans score l false < global_ndcg RArith RTrans score l' false)%R.
Proof.
  intros RE HE score l l' t Z B.
  destruct (Better.strictly_ap _ _ t B) as (a & b & E & E' & L); [intros e I; apply in_map_iff in I as (m & <- & I); auto|].
  exists a, b. rewrite !Better.raw_ap_ok, !Better.raw_ndcg_ok. split; [exact E|]. split; [exact E'|]. split; [exact L|].
  now apply Better.strictly_ndcg.
Qed.
Print Assumptions c91_strict.

(** C91.  SimpleKwsEval without collapsing: a higher score for a hypothesis that
    is right lowers none of the four statistics, and one for a hypothesis that
    is wrong raises none. *)
Theorem c91_simple : forall srt rngs show_int show_f64 qf w w' pn args c refs hyps hyps' f e, sort_contract srt ->
  command args c -> no_bootstrap c -> cf_sort c = lit "desc" -> cf_collapse c = false ->
  inputs str_event_text scored_str_event_text w c refs hyps f -> inputs str_event_text scored_str_event_text w' c refs hyps' f ->
  (Z.of_nat (strings refs hyps f) <= 2147483648)%Z -> raised e hyps hyps' ->
  exists gap vap gndcg vndcg gap' vap' gndcg' vndcg' : R,
    prints (A := RArith) (fst (simple_kws RArith RTrans srt rngs show_int show_f64 qf w pn args)) gap vap gndcg vndcg /\
    prints (A := RArith) (fst (simple_kws RArith RTrans srt rngs show_int show_f64 qf w' pn args)) gap' vap' gndcg' vndcg' /\
    (In e refs -> gap <= gap' /\ vap <= vap' /\ gndcg <= gndcg' /\ vndcg <= vndcg')%R /\
    (~ In e refs -> gap' <= gap /\ vap' <= vap /\ gndcg' <= gndcg /\ vndcg' <= vndcg)%R.
Proof.
  intros srt rngs si sf qf w w' pn args c refs hyps hyps' f e Hs Cm NB Cs Cc I I' L Ra.
  exact (Raised.simple_raised srt Hs rngs si sf qf w w' pn args c refs hyps hyps' f e Cm NB Cs Cc I I' L Ra).
Qed.
Print Assumptions c91_simple.

(** Hits of two queries among false alarms, one of them with the score given. *)
Definition low_hit (s : string) : world :=
  tie_world (map lit ["a x"; "a y"; "b x"; "b y"])
    (map lit ["a p 9"; "a x 8"; "a q 7"; "b x 6"; "b p 5"] ++ [lit "a y " ++ lit s; lit "b q 2"; lit "b y 1"]).

Example c91_case :
  (exists c refs hyps hyps' e, command (map lit ["--collapse_matches"; "false"; "r"; "h"]) c /\ no_bootstrap c /\ cf_sort c = lit "desc" /\
    cf_collapse c = false /\ inputs str_event_text scored_str_event_text (low_hit "3") c refs hyps NoQueries /\
    inputs str_event_text scored_str_event_text (low_hit "8.5") c refs hyps' NoQueries /\ (Z.of_nat (strings refs hyps NoQueries) <= 2147483648)%Z /\
    raised e hyps hyps' /\ In e refs) /\
  map snd (firstn 2 (printed (fst (tie_run TQ (low_hit "3") ["--collapse_matches"; "false"; "--trapezoid_integral"; "false"; "r"; "h"])))) =
    [1 # 2; 5 # 8]%Q /\
  map snd (firstn 2 (printed (fst (tie_run TQ (low_hit "8.5") ["--collapse_matches"; "false"; "--trapezoid_integral"; "false"; "r"; "h"])))) =
    [73 # 120; 17 # 24]%Q.
Proof.
  split; [|split; vm_compute; reflexivity].
  eexists _, _, _, _, _. split; [apply Compute.config_for_ok; vm_compute; reflexivity|].
  split; [repeat split|]. split; [reflexivity|]. split; [reflexivity|].
  split; [apply Compute.simple_inputs_ok; vm_compute; reflexivity|]. split; [apply Compute.simple_inputs_ok; vm_compute; reflexivity|].
  split; [vm_compute; discriminate|]. split.
  - eexists [_; _; _; _; _], _, _, [_; _]. split; [reflexivity|]. split; [reflexivity|]. vm_compute. reflexivity.
  - right. left. reflexivity.
Qed.

(** The ranking of two false alarms and two hits, and the same with the hits
    first. *)
Example c91_lists_case :
  let fp n := make_fp (RE := nat) (Scored n f32_1) in
  let hit n := Match (Some n) (Some (Scored n f32_1)) hit_error in
  let l := [fp 1; hit 2; fp 3; hit 4; make_fn 5]%nat in
  let l' := [hit 2; hit 4; fp 1; fp 3; make_fn 5]%nat in
  (forall m, In m l -> zero_one (m_err m)) /\ strictly_better (map m_err l) (map m_err l') /\
  global_ap QArith_ (@sc_score nat) l false false false = Ok (1 # 3)%Q /\
  global_ap QArith_ (@sc_score nat) l' false false false = Ok (2 # 3)%Q.
Proof.
  cbv zeta. split; [|split; [|split; vm_compute; reflexivity]].
  - intros m I. repeat (destruct I as [<-|I]; [split; cbn; auto|]). destruct I.
  - exists (map m_err [make_fp (RE := nat) (Scored 1 f32_1); Match (Some 2) (Some (Scored 2 f32_1)) hit_error; make_fp (Scored 3 f32_1);
      Match (Some 4) (Some (Scored 4 f32_1)) hit_error; make_fn 5])%nat,
      [], [alarm_error; hit_error; MatchError f32_0 f32_1], [hit_error; alarm_error; alarm_error; hit_error; MatchError f32_0 f32_1].
    split; [constructor|]. split; [reflexivity|]. split; [reflexivity|].
    eapply better_trans; [exact (better_swap [hit_error; alarm_error] [MatchError f32_0 f32_1])|].
    exact (better_swap [hit_error] [alarm_error; MatchError f32_0 f32_1]).
Qed.

(** Two hits below ten false alarms, with the scores given. *)
Definition two_hits (s s' : string) : world :=
  tie_world (map lit ["a x"; "a y"]) (map (fun n => lit "a " ++ lit n ++ lit " 9") ["0"; "1"; "2"; "3"; "4"; "5"; "6"; "7"; "8"; "9"] ++
    [lit "a x " ++ lit s; lit "a y " ++ lit s']).

(** C91.  False with collapsing and no interpolation: with trapezoids, a higher
    score for the second of two hits makes them one point of the curve, and AP
    gets lower; without trapezoids, a higher score for one of two hits makes
    them two points instead of one, and AP gets lower. *)
Theorem c91_collapse_refuted :
  (exists c refs hyps hyps' e, command (map lit ["--interpolated_precision"; "false"; "r"; "h"]) c /\ no_bootstrap c /\ cf_sort c = lit "desc" /\
    inputs str_event_text scored_str_event_text (two_hits "2" "1") c refs hyps NoQueries /\
    inputs str_event_text scored_str_event_text (two_hits "2" "2") c refs hyps' NoQueries /\ raised e hyps hyps' /\ In e refs) /\
  (exists c refs hyps hyps' e, command (map lit ["--interpolated_precision"; "false"; "--trapezoid_integral"; "false"; "r"; "h"]) c /\
    no_bootstrap c /\ cf_sort c = lit "desc" /\
    inputs str_event_text scored_str_event_text (two_hits "1" "1") c refs hyps NoQueries /\
    inputs str_event_text scored_str_event_text (two_hits "1" "2") c refs hyps' NoQueries /\ raised e hyps hyps' /\ In e refs) /\
  map (fun w => map snd (firstn 2 (printed (fst (tie_run TQ w ["--interpolated_precision"; "false"; "r"; "h"])))))
    [two_hits "2" "1"; two_hits "2" "2"] = [[23 # 264; 23 # 264]; [1 # 12; 1 # 12]]%Q /\
  map (fun w => map snd (firstn 2 (printed (fst (tie_run TQ w ["--interpolated_precision"; "false"; "--trapezoid_integral"; "false"; "r"; "h"])))))
    [two_hits "1" "1"; two_hits "1" "2"] = [[1 # 6; 1 # 6]; [17 # 132; 17 # 132]]%Q.
Proof.
  split; [|split; [|split; vm_compute; reflexivity]]; (eexists _, _, _, _, _; split; [apply Compute.config_for_ok; vm_compute; reflexivity|];
    split; [repeat split|]; split; [reflexivity|];
    split; [apply Compute.simple_inputs_ok; vm_compute; reflexivity|]; split; [apply Compute.simple_inputs_ok; vm_compute; reflexivity|];
    split; [eexists [_; _; _; _; _; _; _; _; _; _; _], _, _, []; split; [reflexivity|]; split; [reflexivity|]; vm_compute; reflexivity
      |right; left; reflexivity]).
Qed.
Print Assumptions c91_collapse_refuted.

(** Two references that overlap; the first hypothesis is inside the first one,
    the second one shares most of its area with both. *)
Definition two_boxes (s : string) : world :=
  tie_world (map lit ["q d 0 0 10 10"; "q d 4 0 10 10"]) [lit "q d 0 0 4 10 2"; lit "q d 1 0 10 10 " ++ lit s].

(** C91.  False for Icdar17KwsEval, without collapsing as well: of two
    hypotheses that are right, the second has a higher score; it takes the
    reference of the first one instead of its own, so gAP gets lower. *)
Theorem c91_icdar17_refuted :
  (exists c refs hyps hyps' e, command (map lit ["--collapse_matches"; "false"; "r"; "h"]) c /\ no_bootstrap c /\ cf_sort c = lit "desc" /\
    cf_collapse c = false /\ inputs shaped_text scored_shaped_text (two_boxes "1") c refs hyps NoQueries /\
    inputs shaped_text scored_shaped_text (two_boxes "3") c refs hyps' NoQueries /\ raised e hyps hyps') /\
  map (fun s => map snd (firstn 2 (printed (fst (icdar17 QArith_ TQ (@isort) (fun _ => stream (fun _ => O)) (fun _ => []) (fun _ => [])
    (two_boxes s) (lit "prog") (map lit ["--collapse_matches"; "false"; "r"; "h"])))))) ["1"; "3"] = [[1; 1]; [1 # 2; 1 # 2]]%Q.
Proof.
  split; [|vm_compute; reflexivity].
  eexists _, _, _, _, _. split; [apply Compute.config_for_ok; vm_compute; reflexivity|].
  split; [repeat split|]. split; [reflexivity|]. split; [reflexivity|].
  split; [apply Compute.icdar_inputs_ok; vm_compute; reflexivity|]. split; [apply Compute.icdar_inputs_ok; vm_compute; reflexivity|].
  eexists [_], _, _, []. split; [reflexivity|]. split; [reflexivity|]. vm_compute. reflexivity.
Qed.
Print Assumptions c91_icdar17_refuted.
