(** What collapsing matches of equal score should mean. *)
From Coq Require Import List ZArith Sorted Reals.
From Flocq Require Import BinarySingleNaN.
From Verif.Model Require Import Cpp Floats Matches.
From Verif.Spec Require Import Objects Matching.
Import ListNotations.

(** The errors of a match are 0 or 1. *)
Definition zero_one (e : match_error) : Prop :=
  (me_fp e = f32_0 \/ me_fp e = f32_1) /\ (me_fn e = f32_0 \/ me_fn e = f32_1).

(** The errors of a match are fractions. *)
Definition fractions (e : match_error) : Prop := unit_f32 (me_fp e) /\ unit_f32 (me_fn e).

(** A count of errors or events over a list. *)
Definition sum_of {A} (f : A -> R) (l : list A) : R := fold_right (fun x s => (f x + s)%R) 0%R l.

Section Ranking.
  Context {RE HE : Type} (score : HE -> f32).
  Notation M := (match_t RE HE).

  (** The score by which a match is ranked; a match without hypothesis comes
      last. *)
  Definition rank (m : M) : f32 :=
    match m_hyp m with Some h => score h | None => B754_infinity true end.

  (** No score is NaN. *)
  Definition ranked (l : list M) : Prop := forall m, In m l -> is_nan (rank m) = false.

  (** Equal scores. *)
  Definition tie (a b : M) : Prop := f32_eq (rank a) (rank b) = true.

  (** Decreasing scores. *)
  Definition descending (l : list M) : Prop :=
    StronglySorted (fun a b => f32_lt (rank a) (rank b) = false) l.

  (** The list cut where the score changes. *)
  Record are_runs (l : list M) (rs : list (list M)) : Prop := {
    ar_all : concat rs = l;
    ar_nonempty : forall r, In r rs -> r <> [];
    ar_tie : forall r a b, In r rs -> In a r -> In b r -> tie a b;
    ar_cut : forall u r r' v a b, rs = u ++ r :: r' :: v -> In a r -> In b r' -> ~ tie a b
  }.

  (** A point has the numbers of hypotheses and references of a run. *)
  Definition counted_as (r : list M) (c : counts) : Prop :=
    ec_nh c = total (fun m => me_nh (m_err m)) r /\
    ec_nr c = total (fun m => me_nr (m_err m)) r.

  (** Its errors are the sums of the errors. *)
  Definition summed_as (r : list M) (c : counts) : Prop :=
    B2R (ec_fp c) = sum_of (fun m => B2R (me_fp (m_err m))) r /\
    B2R (ec_fn c) = sum_of (fun m => B2R (me_fn (m_err m))) r.
End Ranking.

(** Errors of a point within its counts. *)
Definition bounded (c : counts) : Prop :=
  is_finite (ec_fp c) = true /\ is_finite (ec_fn c) = true /\
  (0 <= B2R (ec_fp c) <= INR (ec_nh c))%R /\ (0 <= B2R (ec_fn c) <= INR (ec_nr c))%R.
