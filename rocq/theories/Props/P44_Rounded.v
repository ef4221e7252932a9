(** C108: the curve files in double arithmetic. *)
From Coq Require Import Ascii String List Bool ZArith QArith Reals Lia Lra Sorted.
From Coq.Floats Require SpecFloat.
From Flocq Require Import Core BinarySingleNaN.
From Verif.Model Require Import Cpp Floats Events EventSets Matches Matcher Scorers Assessment Bootstrap Mapper Stream Reader Options Tool.
From Verif.Spec Require Import Order Matching Grouping Collapse Metrics Curves Double Reader Options Tool Results Rounded.
From Verif.Proofs Require Order Tool Finish Evaluation Instances Runs Compute Results Printed Metrics Double CurvesD.
From Verif.Props Require Import P17_Tool P18_Results P25_Ties.
Import ListNotations.
Local Open Scope string_scope.
Local Open Scope list_scope.

(** C108.  The curve files of Icdar17KwsEval in double arithmetic: recalls
    nearest to evenly spaced numbers, precisions that are finite numbers from 0
    to 1, and, with interpolation and without trapezoids, no growth. *)
Theorem c108_icdar17 : forall (T : Trans DArith) srt rngs show_int show_f64 w pn args c refs hyps f l r, sort_contract srt ->
  command args c -> no_bootstrap c -> inputs shaped_text scored_shaped_text w c refs hyps f ->
  (Z.of_nat (List.length refs + List.length hyps) <= 2 ^ 53)%Z -> (cf_curve c <= 2 ^ 53)%Z ->
  icdar17 DArith T srt rngs show_int show_f64 w pn args = (l, r) ->
  exists ms log groups stats curves e, icdar17_evaluation (cf_sort c) f refs hyps ms log groups /\
    outputs l = dumped c ms log ++ stats ++ curves /\ stat_names stats = [lit "gAP"; lit "mAP"; lit "gNDCG"; lit "mNDCG"] /\ r = inr e /\
    curve_files (A := DArith) w c (rounded_curve c) (fun pts => groups <> [] -> rounded_curve c pts) curves e.
Proof.
  intros T srt rngs si sf w pn args c refs hyps f l r Hs Cm NB I Ln Lc E.
  destruct (Instances.icdar_run T srt Hs rngs si sf w pn args c refs hyps f l r Cm NB I E) as (ms & log & gs & Fi & Ev & Rp).
  destruct (CurvesD.icdar_counts srt _ _ _ _ _ _ _ Hs Ev) as (Zm & Lm & Zg & Lg).
  destruct Rp as (v1 & v2 & v4 & curves & e & Er & _ & _ & _ & O & Cv).
  exists ms, log, gs. eexists. exists curves, e. split; [exact Ev|]. split; [exact O|]. split; [reflexivity|]. split; [exact Er|].
  revert Cv. apply Printed.curve_files_weaken.
  - intros _ _ p. apply CurvesD.global_D; [exact Lc|exact Zm|lia].
  - intros N W p Mp NE. apply (CurvesD.mean_D w c gs p Lc N NE); [|lia|exact Mp].
    intros g K. destruct (Zg g K) as [Z1 Z2]. split; [exact Z1|lia].
Qed.
Print Assumptions c108_icdar17.

(** C108.  The same for SimpleKwsEval. *)
Theorem c108_simple : forall (T : Trans DArith) srt rngs show_int show_f64 qf w pn args c refs hyps f l r, sort_contract srt ->
  command args c -> no_bootstrap c -> inputs str_event_text scored_str_event_text w c refs hyps f ->
  (Z.of_nat (List.length refs + List.length hyps) <= 2 ^ 53)%Z -> (cf_curve c <= 2 ^ 53)%Z ->
  (Z.of_nat (strings refs hyps f) <= 2147483648)%Z ->
  simple_kws DArith T srt rngs show_int show_f64 qf w pn args = (l, r) ->
  exists id ms log groups stats curves e, (forall s s', id s = id s' -> s = s') /\
    simple_evaluation id (cf_sort c) f refs hyps ms log groups /\
    outputs l = dumped c (map (renamed_match id) ms) (map (renamed_match id) log) ++ stats ++ curves /\
    stat_names stats = [lit "gAP"; lit "mAP"; lit "gNDCG"; lit "mNDCG"] /\ r = inr e /\
    curve_files (A := DArith) w c (rounded_curve c) (fun pts => groups <> [] -> rounded_curve c pts) curves e.
Proof.
  intros T srt rngs si sf qf w pn args c refs hyps f l r Hs Cm NB I Ln Lc Ls E.
  destruct (Instances.simple_run T srt Hs rngs si sf w qf pn args c refs hyps f l r Cm NB I E Ls) as (id & ms & log & gs & Inj & Fi & Ev & Rp).
  destruct (CurvesD.simple_counts id _ _ _ _ _ _ _ Inj Ev) as (Zm & Lm & Zg & Lg).
  destruct Rp as (v1 & v2 & v4 & curves & e & Er & _ & _ & _ & O & Cv).
  exists id, ms, log, gs. eexists. exists curves, e. split; [exact Inj|]. split; [exact Ev|]. split; [exact O|]. split; [reflexivity|]. split; [exact Er|].
  revert Cv. apply Printed.curve_files_weaken.
  - intros _ _ p Gp. apply (CurvesD.global_D c ms); [exact Lc|exact Zm|lia|]. revert Gp. apply Printed.global_points_renamed.
  - intros N W p Mp NE. apply (CurvesD.mean_D w c gs p Lc N NE); [|lia|revert Mp; apply Printed.mean_points_renamed].
    intros g K. destruct (Zg g K) as [Z1 Z2]. split; [exact Z1|lia].
Qed.
Print Assumptions c108_simple.

(** C108.  With the default settings the claim that precision does not grow is
    false, although it is true of the exact values (below): the interpolated
    precision of a false alarm, two hits and a miss is 2/3 up to recall 2/3, and
    the rounding of the interpolation between two equal values goes either way. *)
Definition flat : world :=
  tie_world (map lit ["q a"; "q b"; "q c"]) (map lit ["q x 4"; "q a 3"; "q b 2"]).

(** See [flat]. *)
Definition flat_args : list string := ["--output_grp"; "g"; "--rp_curve_samples"; "5"; "r"; "h"].

Theorem c108_trapezoid_refuted : exists c refs hyps,
  command (map lit flat_args) c /\ no_bootstrap c /\ cf_interp c = true /\ cf_trapezoid c = true /\
  inputs str_event_text scored_str_event_text flat c refs hyps NoQueries /\
  exists pts, curve_in (fst (tie_run TD flat flat_args)) = [(lit "g", pts)] /\ List.length pts = 5%nat /\
    ~ nonincreasing (map (fun p : f64 * f64 => B2R (snd p)) pts).
Proof.
  eexists _, _, _. split; [apply Compute.config_for_ok; vm_compute; reflexivity|]. split; [repeat split|].
  split; [reflexivity|]. split; [reflexivity|]. split; [apply Compute.simple_inputs_ok; vm_compute; reflexivity|].
  set (cs := curve_in _).
  assert (H : map (fun c : bytes * list (f64 * f64) => (fst c, map (fun p => B2SF (snd p)) (snd c))) cs =
    [(lit "g", [SpecFloat.S754_finite false 6004799503160662 (-53); SpecFloat.S754_finite false 6004799503160661 (-53);
      SpecFloat.S754_finite false 6004799503160662 (-53); SpecFloat.S754_zero false; SpecFloat.S754_zero false])])
    by (vm_compute; reflexivity).
  clearbody cs. destruct cs as [|[n pts] [|? ?]]; try discriminate. cbn [map fst snd] in H.
  assert (Hn : n = lit "g") by congruence. subst n. exists pts. split; [reflexivity|].
  apply (f_equal (fun l => match l with [x] => snd x | _ => [] end)) in H. cbn [snd] in H.
  destruct pts as [|[x0 y0] [|[x1 y1] [|[x2 y2] [|[x3 y3] [|[x4 y4] [|? ?]]]]]]; try discriminate.
  split; [reflexivity|]. intros S. cbn [map snd] in H, S.
  assert (E1 : B2SF y1 = SpecFloat.S754_finite false 6004799503160661 (-53))
    by exact (f_equal (fun l => nth 1 l SpecFloat.S754_nan) H).
  assert (E2 : B2SF y2 = SpecFloat.S754_finite false 6004799503160662 (-53))
    by exact (f_equal (fun l => nth 2 l SpecFloat.S754_nan) H).
  apply StronglySorted_inv in S as [S _]. apply StronglySorted_inv in S as [_ S]. apply Forall_inv in S.
  rewrite <- !SF2R_B2SF, E1, E2 in S. unfold SF2R in S. apply Rge_le in S. apply le_F2R in S. vm_compute in S. now apply S.
Qed.
Print Assumptions c108_trapezoid_refuted.

(** The exact values. *)
Example c108_exact : curve_in (fst (tie_run TQ flat flat_args)) =
  [(lit "g", [(0, 2 # 3); (1 # 4, 2 # 3); (1 # 2, 2 # 3); (3 # 4, 0); (1, 0)])]%Q.
Proof. vm_compute. reflexivity. Qed.

(** The same files with the mean curve in steps: precision falls at the recall of
    the miss, and the hypotheses hold. *)
Example c108_case :
  map (fun c : bytes * list (f64 * f64) => (fst c, map (fun p => (B2SF (fst p), B2SF (snd p))) (snd c)))
    (curve_in (fst (tie_run TD flat ["--trapezoid_integral"; "false"; "--output_mrp"; "m"; "--rp_curve_samples"; "3"; "r"; "h"]))) =
    [(lit "m", [(SpecFloat.S754_zero false, SpecFloat.S754_finite false 6004799503160662 (-53));
                (SpecFloat.S754_finite false 4503599627370496 (-53), SpecFloat.S754_finite false 6004799503160662 (-53));
                (SpecFloat.S754_finite false 4503599627370496 (-52), SpecFloat.S754_zero false)])] /\
  exists c refs hyps, command (map lit ["--trapezoid_integral"; "false"; "--output_mrp"; "m"; "--rp_curve_samples"; "3"; "r"; "h"]) c /\
    no_bootstrap c /\ cf_interp c = true /\ cf_trapezoid c = false /\ cf_curve c = 3%Z /\
    inputs str_event_text scored_str_event_text flat c refs hyps NoQueries /\
    List.length refs = 3%nat /\ List.length hyps = 3%nat /\ (Z.of_nat (strings refs hyps NoQueries) <= 2147483648)%Z.
Proof.
  split; [vm_compute; reflexivity|]. eexists _, _, _.
  split; [apply Compute.config_for_ok; vm_compute; reflexivity|]. split; [repeat split|]. split; [reflexivity|].
  split; [reflexivity|]. split; [reflexivity|].
  split; [apply Compute.simple_inputs_ok; vm_compute; reflexivity|]. split; [reflexivity|]. split; [reflexivity|].
  vm_compute. discriminate.
Qed.

(** The same for Icdar17KwsEval and its shipped example. *)
Example c108_icdar17_case : exists c refs hyps,
  command (map lit ["--output_grp"; "g"; "--output_mrp"; "m"; "--rp_curve_samples"; "3"; "r"; "h"]) c /\
  no_bootstrap c /\ cf_curve c = 3%Z /\ inputs shaped_text scored_shaped_text here c refs hyps NoQueries /\
  (Z.of_nat (List.length refs + List.length hyps) <= 2 ^ 53)%Z /\ hyps <> [].
Proof.
  eexists _, _, _. split; [apply Compute.config_for_ok; vm_compute; reflexivity|]. split; [repeat split|]. split; [reflexivity|].
  split; [apply Compute.icdar_inputs_ok; vm_compute; reflexivity|]. split; vm_compute; discriminate.
Qed.
