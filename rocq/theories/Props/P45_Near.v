(** C109: the distance of the curve files from the exact curves. *)
From Coq Require Import Ascii String List Bool ZArith QArith Reals Lia Lra.
From Coq.Floats Require SpecFloat.
From Flocq Require Import Core BinarySingleNaN.
From Verif.Model Require Import Cpp Floats Events EventSets Matches Matcher Scorers Assessment Bootstrap Mapper Stream Reader Options Tool.
From Verif.Spec Require Import Order Matching Grouping Collapse Metrics Curves Double Reader Options Tool Results Rounded.
From Verif.Proofs Require Order Tool Finish Evaluation Instances Runs Compute Results Printed Metrics Double CurvesD CurvesE.
From Verif.Props Require Import P17_Tool P18_Results P25_Ties P44_Rounded.
Import ListNotations.
Local Open Scope string_scope.
Local Open Scope list_scope.

(** C109.  The curve files of Icdar17KwsEval in double arithmetic hold the
    points of the exact curves of its evaluation: with at most n references and
    hypotheses, each precision is at most 32 n 2^-53 (global) or 34 n 2^-53
    (mean) away from the exact value at the exact recall, if n times the number
    of sample points is at most 2^49. *)
Theorem c109_icdar17 : forall (T : Trans DArith) srt rngs show_int show_f64 w pn args c refs hyps f l r n, sort_contract srt ->
  command args c -> no_bootstrap c -> inputs shaped_text scored_shaped_text w c refs hyps f -> countable c refs hyps ->
  (0 < n)%nat -> (List.length refs + List.length hyps <= n)%nat -> (Z.of_nat n <= 2 ^ 53)%Z -> (Z.of_nat n * cf_curve c <= 2 ^ 49)%Z ->
  icdar17 DArith T srt rngs show_int show_f64 w pn args = (l, r) ->
  exists ms log groups stats curves e, icdar17_evaluation (cf_sort c) f refs hyps ms log groups /\
    outputs l = dumped c ms log ++ stats ++ curves /\ stat_names stats = [lit "gAP"; lit "mAP"; lit "gNDCG"; lit "mNDCG"] /\ r = inr e /\
    curve_files (A := DArith) w c
      (fun pts => exists exact, global_curve c ms exact /\ near_curve (32 * INR n * u64) pts exact)
      (fun pts => groups <> [] -> exists exact, mean_curve c groups exact /\ near_curve (34 * INR n * u64) pts exact) curves e.
Proof.
  intros T srt rngs si sf w pn args c refs hyps f l r n Hs Cm NB I Cn Pn Ln L53 Lc E.
  destruct (Instances.icdar_run T srt Hs rngs si sf w pn args c refs hyps f l r Cm NB I E) as (ms & log & gs & Fi & Ev & Rp).
  destruct (Printed.icdar_fine srt c _ _ _ _ _ _ _ Hs Fi Ev Cn) as (Fm & Fg & _ & _).
  destruct (CurvesD.icdar_counts srt _ _ _ _ _ _ _ Hs Ev) as (_ & Lm & Zg & Lg).
  destruct Rp as (v1 & v2 & v4 & curves & e & Er & _ & _ & _ & O & Cv).
  exists ms, log, gs. eexists. exists curves, e. split; [exact Ev|]. split; [exact O|]. split; [reflexivity|]. split; [exact Er|].
  revert Cv. apply Printed.curve_files_weaken.
  - intros _ _ p. apply (CurvesE.global_E c ms n p Fm Pn); [lia|exact Lc].
  - intros N W p Mp NE. apply (CurvesE.mean_curves_E w c gs n p NE N W); auto; [|lia].
    intros g K. split; [apply (Fg g K)|]. destruct (Zg g K) as [_ Z2]. lia.
Qed.
Print Assumptions c109_icdar17.

(** C109.  The same for SimpleKwsEval. *)
Theorem c109_simple : forall (T : Trans DArith) srt rngs show_int show_f64 qf w pn args c refs hyps f l r n, sort_contract srt ->
  command args c -> no_bootstrap c -> inputs str_event_text scored_str_event_text w c refs hyps f -> countable c refs hyps ->
  (0 < n)%nat -> (List.length refs + List.length hyps <= n)%nat -> (Z.of_nat n <= 2 ^ 53)%Z -> (Z.of_nat n * cf_curve c <= 2 ^ 49)%Z ->
  (Z.of_nat (strings refs hyps f) <= 2147483648)%Z ->
  simple_kws DArith T srt rngs show_int show_f64 qf w pn args = (l, r) ->
  exists id ms log groups stats curves e, (forall s s', id s = id s' -> s = s') /\
    simple_evaluation id (cf_sort c) f refs hyps ms log groups /\
    outputs l = dumped c (map (renamed_match id) ms) (map (renamed_match id) log) ++ stats ++ curves /\
    stat_names stats = [lit "gAP"; lit "mAP"; lit "gNDCG"; lit "mNDCG"] /\ r = inr e /\
    curve_files (A := DArith) w c
      (fun pts => exists exact, global_curve c ms exact /\ near_curve (32 * INR n * u64) pts exact)
      (fun pts => groups <> [] -> exists exact, mean_curve c groups exact /\ near_curve (34 * INR n * u64) pts exact) curves e.
Proof.
  intros T srt rngs si sf qf w pn args c refs hyps f l r n Hs Cm NB I Cn Pn Ln L53 Lc Ls E.
  destruct (Instances.simple_run T srt Hs rngs si sf w qf pn args c refs hyps f l r Cm NB I E Ls) as (id & ms & log & gs & Inj & Fi & Ev & Rp).
  destruct (Printed.simple_fine id c _ _ _ _ _ _ _ Inj Fi Ev Cn) as (Fm & Fg & _ & _).
  destruct (CurvesD.simple_counts id _ _ _ _ _ _ _ Inj Ev) as (_ & Lm & Zg & Lg).
  destruct Rp as (v1 & v2 & v4 & curves & e & Er & _ & _ & _ & O & Cv).
  exists id, ms, log, gs. eexists. exists curves, e. split; [exact Inj|]. split; [exact Ev|]. split; [exact O|]. split; [reflexivity|]. split; [exact Er|].
  revert Cv. apply Printed.curve_files_weaken.
  - intros _ _ p Gp. apply (CurvesE.global_E c ms n p Fm Pn); [lia|exact Lc|]. revert Gp. apply Printed.global_points_renamed.
  - intros N W p Mp NE. apply (CurvesE.mean_curves_E w c gs n p NE N W); auto; [|lia|revert Mp; apply Printed.mean_points_renamed].
    intros g K. split; [apply (Fg g K)|]. destruct (Zg g K) as [_ Z2]. lia.
Qed.
Print Assumptions c109_simple.

(** The run of [c108_trapezoid_refuted], whose second precision is not the
    double nearest to 2/3: six events and five points. *)
Example c109_case : exists c refs hyps,
  command (map lit flat_args) c /\ no_bootstrap c /\ inputs str_event_text scored_str_event_text flat c refs hyps NoQueries /\
  countable c refs hyps /\ (List.length refs + List.length hyps <= 6)%nat /\ (Z.of_nat 6 * cf_curve c = 30)%Z /\
  (Z.of_nat (strings refs hyps NoQueries) <= 2147483648)%Z.
Proof.
  eexists _, _, _. split; [apply Compute.config_for_ok; vm_compute; reflexivity|]. split; [repeat split|].
  split; [apply Compute.simple_inputs_ok; vm_compute; reflexivity|]. split; [intros _; vm_compute; discriminate|].
  split; [apply le_n|]. split; [reflexivity|]. vm_compute. discriminate.
Qed.

(** The same for Icdar17KwsEval and its shipped example. *)
Example c109_icdar17_case : exists c refs hyps,
  command (map lit ["--output_grp"; "g"; "--output_mrp"; "m"; "--rp_curve_samples"; "3"; "r"; "h"]) c /\
  no_bootstrap c /\ inputs shaped_text scored_shaped_text here c refs hyps NoQueries /\ countable c refs hyps /\
  (0 < List.length refs + List.length hyps)%nat /\
  (Z.of_nat (List.length refs + List.length hyps) * cf_curve c <= 2 ^ 49)%Z.
Proof.
  eexists _, _, _. split; [apply Compute.config_for_ok; vm_compute; reflexivity|]. split; [repeat split|].
  split; [apply Compute.icdar_inputs_ok; vm_compute; reflexivity|]. split; [intros _; vm_compute; discriminate|].
  split; [vm_compute; lia|]. vm_compute. discriminate.
Qed.
