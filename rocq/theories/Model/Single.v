(** The functions of /repo/core/Assessment.h for [Real = float], as the tests
    of the project (/repo/core/AssessmentTest.cc:69-106) use them.  The literals
    [1.0] and [0.5] are of type double, so that some intermediate results are
    doubles.  Operations on floats are rounded to float at once (as on x86-64
    with SSE and on ARM), and products and sums are not fused.  ComputeNDCG is
    left out: which exp2 it calls for a float depends on the headers. *)
From Coq Require Import List Bool ZArith.
From Flocq Require Import Core BinarySingleNaN.
From Verif.Model Require Import Cpp Floats Matches Assessment.
Import ListNotations.
Local Open Scope nat_scope.

(** Conversion of [double] to [float], rounding to nearest even. *)
Definition f32_of_f64 (x : f64) : f32 :=
  match x with
  | B754_zero s => B754_zero s
  | B754_infinity s => B754_infinity s
  | B754_nan => B754_nan
  | B754_finite s m e _ =>
      binary_normalize 24 128 prec32 emax32 mode_NE (cond_Zopp s (Zpos m)) e s
  end.

(** Float arithmetic, for the code in which no double occurs: the recall
    (/repo/core/Assessment.h:133), [std::max] (line 139),
    [SampleCurveAtGivenPoints] and [GetEvenlyDistributedPoints01Interval]
    (lines 318-348; [1 - t] is a float since 1 is an int). *)
Definition FArith : Arith :=
  mkArith f32 (fun n => f32_of_Z (Z.of_nat n)) (fun x => x) f32_half
    f32_add f32_sub f32_mul f32_div f32_lt.

(** /repo/core/Assessment.h:129, the precision: [1.0 - sumFP / sumNH] is the
    difference of a double and a float. *)
Definition single_precision (sumNH : nat) (sumFP : f32) : f32 :=
  f32_of_f64 (if Nat.ltb 0 sumNH
    then f64_sub (f64_of_Z 1) (f64_of_f32 (f32_div sumFP (f32_of_Z (Z.of_nat sumNH))))
    else f64_of_Z 1).

(** /repo/core/Assessment.h:121-136, the loop. *)
Fixpoint single_loop (TR sumNR sumNH : nat) (sumFP sumFN : f32) (errors : list counts) : list (f32 * f32) :=
  match errors with
  | [] => []
  | e :: t =>
      let sumNR := sumNR + ec_nr e in
      let sumNH := sumNH + ec_nh e in
      let sumFP := f32_add sumFP (ec_fp e) in
      let sumFN := f32_add sumFN (ec_fn e) in
      (single_precision sumNH sumFP, recall_of FArith TR sumNR sumFN)
        :: single_loop TR sumNR sumNH sumFP sumFN t
  end.

(** /repo/core/Assessment.h:108-142, [ComputePrecisionAndRecall] on errors. *)
Definition single_curves (errors : list counts) (interpolate : bool) : list f32 * list f32 :=
  let l := single_loop (num_total_refs errors) 0 0 f32_0 f32_0 errors in
  let pr := map fst l in
  (if interpolate then interp FArith pr else pr, map snd l).

(** /repo/core/Assessment.h:174, 189 and 193, the conditional expression, which
    is a double: [pr[i] + pr[i - 1]] is a float. *)
Definition single_height (trapezoid : bool) (prev : option f32) (p : f32) : f64 :=
  match prev with
  | Some q => if trapezoid then f64_mul f64_half (f64_of_f32 (f32_add p q)) else f64_of_f32 p
  | None => f64_of_f32 p
  end.

(** /repo/core/Assessment.h:174, 189 and 193, [sum += a * height]: computed in
    double and rounded to float. *)
Definition single_step (sum a : f32) (h : f64) : f32 :=
  f32_of_f64 (f64_add (f64_of_f32 sum) (f64_mul (f64_of_f32 a) h)).

(** /repo/core/Assessment.h:172-175, the loop. *)
Fixpoint single_errors_loop (trapezoid : bool) (prev : option f32) (sum : f32) (errors : list counts) (pr : list f32) : f32 :=
  match errors, pr with
  | e :: et, p :: pt =>
      let tp := f32_sub (f32_of_Z (Z.of_nat (ec_nh e))) (ec_fp e) in
      single_errors_loop trapezoid (Some p) (single_step sum tp (single_height trapezoid prev p)) et pt
  | _, _ => sum
  end.

(** /repo/core/Assessment.h:162-178, [ComputeAP] on errors.  Vectors of
    different lengths violate the assertion of line 168: [UB]. *)
Definition single_ap_errors (errors : list counts) (pr : list f32) (trapezoid : bool) : outcome f32 :=
  if Nat.eqb (length pr) (length errors) then
    let TR := num_total_refs errors in
    let sum := single_errors_loop trapezoid None f32_0 errors pr in
    Ok (if Nat.ltb 0 TR then f32_div sum (f32_of_Z (Z.of_nat TR)) else f32_0)
  else UB.

(** /repo/core/Assessment.h:187-190, the first loop. *)
Fixpoint single_ap1 (trapezoid : bool) (prev : option f32) (sum : f32) (pr rc : list f32) : f32 :=
  match pr, rc with
  | p :: pt, r :: rt => single_ap1 trapezoid (Some p) (single_step sum r (single_height trapezoid prev p)) pt rt
  | _, _ => sum
  end.

(** /repo/core/Assessment.h:191-194, the second loop; see [ap2_loop]. *)
Fixpoint single_ap2 (trapezoid : bool) (q s : f32) (sum : f32) (pr rc : list f32) : f32 :=
  match pr, rc with
  | p :: pt, r :: rt => single_ap2 trapezoid p r (single_step sum s (single_height trapezoid (Some q) p)) pt rt
  | _, _ => sum
  end.

(** /repo/core/Assessment.h:183-196, [ComputeAP] on curves.  Vectors of
    different lengths violate the assertion of line 186: [UB]. *)
Definition single_ap (pr rc : list f32) (trapezoid : bool) : outcome f32 :=
  if Nat.eqb (length pr) (length rc) then
    let AP1 := single_ap1 trapezoid None f32_0 pr rc in
    let AP2 := match pr, rc with
               | p :: pt, r :: rt => single_ap2 trapezoid p r f32_0 pt rt
               | _, _ => f32_0
               end in
    Ok (f32_sub AP1 AP2)
  else UB.
