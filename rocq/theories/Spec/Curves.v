(** What means, sampled curves and rankings by score should be. *)
From Coq Require Import List ZArith Reals Sorted.
From Flocq Require Import BinarySingleNaN.
From Verif.Model Require Import Cpp Floats Events Matches.
From Verif.Spec Require Import Order Collapse Metrics.
Import ListNotations.
Local Open Scope R_scope.

(** ** Means *)

(** The arithmetic mean; 0 for no values. *)
Definition is_mean (vs : list R) (m : R) : Prop :=
  (vs = [] /\ m = 0) \/ (vs <> [] /\ m * INR (length vs) = sum_of (fun v => v) vs).

(** ** Sampled curves *)

(** [j] is the first place with an abscissa of at least [x]. *)
Definition first_from (xs : list R) (x : R) (j : nat) : Prop :=
  (exists a, nth_error xs j = Some a /\ x <= a) /\
  forall i a, (i < j)%nat -> nth_error xs i = Some a -> a < x.

(** All the abscissas are smaller than [x]. *)
Definition beyond (xs : list R) (x : R) : Prop := forall a, In a xs -> a < x.

(** The value at [x] of the step curve through the points: that of the first
    point from [x] on, 0 after the last. *)
Definition step_value (xs ys : list R) (x y : R) : Prop :=
  (exists j, first_from xs x j /\ nth_error ys j = Some y) \/ (beyond xs x /\ y = 0).

(** [(x, y)] is on the line through two points. *)
Definition on_line (a u b v x y : R) : Prop := (y - u) * (b - a) = (v - u) * (x - a).

(** The value at [x] of the piecewise linear curve through the points: before
    the first point its value, 0 after the last. *)
Definition linear_value (xs ys : list R) (x y : R) : Prop :=
  (first_from xs x 0 /\ nth_error ys 0 = Some y) \/
  (exists j a b u v, first_from xs x (S j) /\
     nth_error xs j = Some a /\ nth_error xs (S j) = Some b /\
     nth_error ys j = Some u /\ nth_error ys (S j) = Some v /\
     on_line a u b v x y) \/
  (beyond xs x /\ y = 0).

Definition curve_value (linear : bool) : list R -> list R -> R -> R -> Prop :=
  if linear then linear_value else step_value.

(** The best precision among the points with recall at least [x]; 0 if there
    is none. *)
Definition best_from (pr rc : list R) (x y : R) : Prop :=
  (exists i r, nth_error rc i = Some r /\ x <= r /\ nth_error pr i = Some y /\
     forall k s p, nth_error rc k = Some s -> x <= s -> nth_error pr k = Some p -> p <= y) \/
  (beyond rc x /\ y = 0).

(** ** Scores *)

(** A strictly increasing transformation of the finite scores of [P] to
    finite scores (+0 and -0 are one number). *)
Record increasing (P : f32 -> Prop) (f : f32 -> f32) : Prop := {
  inc_from : forall x, P x -> is_finite x = true;
  inc_to : forall x, P x -> is_finite (f x) = true;
  inc_lt : forall x y, P x -> P y -> f32_lt x y = true -> f32_lt (f x) (f y) = true;
  inc_eq : forall x y, P x -> P y -> f32_eq x y = true -> f32_eq (f x) (f y) = true
}.

Definition rescore {E} (f : f32 -> f32) (h : scored E) : scored E :=
  Scored (sc_base h) (f (sc_score h)).

(** Equal up to the scores of the hypotheses. *)
Definition same_match {RE E} (m m' : match_t RE (scored E)) : Prop :=
  m_ref m' = m_ref m /\ m_err m' = m_err m /\
  option_map sc_base (m_hyp m') = option_map sc_base (m_hyp m).

(** [n] evenly spaced numbers from 0 to 1; none if [n <= 1]. *)
Definition evenly_spaced (n : nat) (xs : list R) : Prop :=
  ((n <= 1)%nat /\ xs = []) \/
  ((n > 1)%nat /\ length xs = n /\
   forall i x, nth_error xs i = Some x -> x = INR i / INR (n - 1)).
