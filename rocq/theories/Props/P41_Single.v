(** C105: the metrics in float arithmetic. *)
From Coq Require Import List Bool ZArith Reals Sorted.
From Flocq Require Import BinarySingleNaN.
From Verif.Model Require Import Cpp Floats Matches Assessment Single.
From Verif.Spec Require Import Order Objects Matching Collapse Metrics Single.
From Verif.Proofs Require Single UnitTests.
From Verif.Props Require Import P09_Metrics.
Import ListNotations.
Local Open Scope R_scope.

(** C105.  All precisions and recalls are finite floats in [0,1], recall never
    decreases and interpolated precision never increases. *)
Theorem c105_bounds : forall RE HE (score : HE -> f32) (l : list (match_t RE HE)) collapse interpolate pr rc,
  (forall m, In m l -> zero_one (m_err m)) -> (Z.of_nat (length l) <= 2 ^ 24)%Z ->
  single_curves (points score collapse l) interpolate = (pr, rc) ->
  Forall unit_f32 pr /\ Forall unit_f32 rc /\ nondecreasing (map (fun d : f32 => B2R d) rc) /\
  (interpolate = true -> nonincreasing (map (fun d : f32 => B2R d) pr)).
Proof. exact Single.single_bounds. Qed.
Print Assumptions c105_bounds.

(** C105.  Every recall is the float nearest to the exact recall and every
    precision is at most 2^-24 away from the exact one. *)
Theorem c105_error : forall RE HE (score : HE -> f32) (l : list (match_t RE HE)) collapse interpolate pr rc pr' rc',
  (forall m, In m l -> zero_one (m_err m)) -> (Z.of_nat (length l) <= 2 ^ 24)%Z ->
  single_curves (points score collapse l) interpolate = (pr, rc) ->
  precision_recall_matches RArith score l collapse interpolate = (pr', rc') ->
  Forall2 (close32 u32) pr pr' /\ Forall2 (fun d r => is_single d (nearest32 r)) rc rc'.
Proof. exact Single.single_error. Qed.
Print Assumptions c105_error.

(** C105.  AP of the curves in float is at most n (n + 12) 2^-24 away from the
    exact AP for n matches. *)
Theorem c105_ap_error : forall RE HE (score : HE -> f32) (l : list (match_t RE HE)) collapse interpolate trapezoid pr rc,
  (forall m, In m l -> zero_one (m_err m)) -> (Z.of_nat (length l) <= 2 ^ 24)%Z ->
  single_curves (points score collapse l) interpolate = (pr, rc) ->
  exists a x, single_ap pr rc trapezoid = Ok a /\
    global_ap RArith score l collapse interpolate trapezoid = Ok x /\
    close32 (INR (length l) * (INR (length l) + 12) * u32) a x.
Proof. exact Single.single_ap_error. Qed.
Print Assumptions c105_ap_error.

(** C105.  So is AP computed from the errors, compared with the exact AP
    computed in that way. *)
Theorem c105_errors_error : forall RE HE (score : HE -> f32) (l : list (match_t RE HE)) interpolate trapezoid pr rc,
  (forall m, In m l -> zero_one (m_err m)) -> (Z.of_nat (length l) <= 2 ^ 24)%Z ->
  single_curves (points score false l) interpolate = (pr, rc) ->
  exists a x, single_ap_errors (points score false l) pr trapezoid = Ok a /\
    ap_errors RArith (points score false l)
      (fst (precision_recall_matches RArith score l false interpolate)) trapezoid = Ok x /\
    close32 (INR (length l) * (INR (length l) + 12) * u32) a x.
Proof. exact Single.single_errors_error. Qed.
Print Assumptions c105_errors_error.

(** C105.  AP in float can be above 1: with the default options for a hit and
    two false positives below it. *)
Theorem c105_at_most_one_refuted :
  exists (score : nat -> f32) (l : list (match_t nat nat)) pr rc a x,
    (forall m, In m l -> zero_one (m_err m)) /\ length l = 3%nat /\
    single_curves (points score true l) true = (pr, rc) /\ single_ap pr rc true = Ok a /\
    global_ap RArith score l true true true = Ok x /\ x <= 1 < B2R a.
Proof. exact Single.single_above_one. Qed.
Print Assumptions c105_at_most_one_refuted.

(** C105.  And below 1 for a perfect ranking of 15 hits. *)
Theorem c105_perfect_is_one_refuted :
  exists (score : nat -> f32) (l : list (match_t nat nat)) pr rc a,
    (forall m, In m l -> zero_one (m_err m)) /\ perfect l /\ length l = 15%nat /\
    single_curves (points score false l) true = (pr, rc) /\ single_ap pr rc true = Ok a /\
    global_ap RArith score l false true true = Ok 1 /\ B2R a < 1.
Proof. exact Single.single_below_one. Qed.
Print Assumptions c105_perfect_is_one_refuted.

(** The ranking of C35 meets the hypotheses: its recalls 1/3 and 2/3 and its
    precisions 1/2 and 2/3 are not all floats. *)
Example c105_case : (forall m, In m rk -> zero_one (m_err m)) /\ (Z.of_nat (length rk) <= 2 ^ 24)%Z /\
  (let (pr, rc) := single_curves (points sc false rk) false in
   f32_lt (nth 0 rc f32_half) (nth 2 rc f32_half) && f32_lt (nth 1 pr f32_half) (nth 2 pr f32_half) &&
   f32_lt (nth 2 pr f32_half) (nth 0 pr f32_half)) = true.
Proof. split; [apply c35_case|]. split; [vm_compute; discriminate|]. vm_compute. reflexivity. Qed.

(** The tests of /repo/core/AssessmentTest.cc:66-126 (TEST(AssessmentTest,
    ComputePrecisionAndRecall)), in the arithmetic they use. *)
Example c105_tests :
  let pr l := single_curves (UnitTests.tenths l) false in
  let close x y := UnitTests.all_near (map f64_of_f32 x) y in
  let ratio := UnitTests.ratio in
  pr [] = ([], [])
  /\ (close (fst (pr [(0, 10)%Z])) [ratio 1 1]%Z && close (snd (pr [(0, 10)%Z])) [ratio 0 1]%Z) = true
  /\ (close (fst (pr [(10, 0)%Z])) [ratio 0 1]%Z && close (snd (pr [(10, 0)%Z])) [ratio 1 1]%Z) = true
  /\ let l := pr [(0, 0); (2, 0); (10, 0); (0, 0); (8, 7); (0, 10)]%Z in
     close (fst l) [ratio 1 1; ratio 18 20; ratio 18 30; ratio 28 40; ratio 30 50; ratio 30 50]%Z = true
     /\ close (snd l) [ratio 1 5; ratio 2 5; ratio 2 5; ratio 3 5; ratio 33 50; ratio 33 50]%Z = true.
Proof. repeat split; vm_compute; reflexivity. Qed.
