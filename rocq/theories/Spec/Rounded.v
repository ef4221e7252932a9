(** What a curve file computed in double arithmetic should be. *)
From Coq Require Import List Bool ZArith Reals.
From Flocq Require Import BinarySingleNaN.
From Verif.Model Require Import Cpp Floats Tool.
From Verif.Spec Require Import Metrics Double Results.
Import ListNotations.
Local Open Scope R_scope.

(** One line for each point; the recalls are the doubles nearest to evenly
    spaced numbers, the precisions finite doubles from 0 to 1.  With
    interpolated precision and no trapezoids, precision does not grow with
    recall. *)
Definition rounded_curve (c : config) (pts : list (f64 * f64)) : Prop :=
  sampled (cf_curve c) pts /\
  (forall i x y, nth_error pts i = Some (x, y) ->
     is_double x (nearest64 (INR i / INR (Z.to_nat (cf_curve c) - 1))) /\ unit_f64 y) /\
  (cf_interp c = true -> cf_trapezoid c = false -> nonincreasing (map (fun p => B2R (snd p)) pts)).

(** The points of a file next to exact ones: the recalls are nearest to the
    exact ones, the precisions at most [e] away. *)
Definition near_curve (e : R) (pts : list (f64 * f64)) (exact : list (R * R)) : Prop :=
  Forall2 (fun p p' => is_double (fst p) (nearest64 (fst p')) /\ within e (snd p) (snd p')) pts exact.

(** The same points, up to the sign of a zero precision. *)
Definition same_points (pts pts' : list (f64 * f64)) : Prop :=
  Forall2 (fun p p' => fst p = fst p' /\ is_finite (snd p) = true /\ is_finite (snd p') = true /\ B2R (snd p) = B2R (snd p')) pts pts'.
