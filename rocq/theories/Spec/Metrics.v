(** What the metrics should be, over the real numbers. *)
From Coq Require Import List ZArith Reals Sorted.
From Flocq Require Import BinarySingleNaN.
From Verif.Model Require Import Cpp Floats Matches.
From Verif.Spec Require Import Objects Matching Collapse.
Import ListNotations.
Local Open Scope R_scope.

(** ** Precision and recall *)

(** False positives, misses, hypotheses and references of some points. *)
Definition false_positives (pts : list counts) : R := sum_of (fun c => B2R (ec_fp c)) pts.
Definition misses (pts : list counts) : R := sum_of (fun c => B2R (ec_fn c)) pts.
Definition hypotheses (pts : list counts) : nat := total ec_nh pts.
Definition references (pts : list counts) : nat := total ec_nr pts.

(** The part of the hypotheses that is right; 1 without hypotheses. *)
Definition is_precision (pts : list counts) (p : R) : Prop :=
  (hypotheses pts = 0%nat /\ p = 1) \/
  ((hypotheses pts > 0)%nat /\
   p = (INR (hypotheses pts) - false_positives pts) / INR (hypotheses pts)).

(** The part of [n] references that is found; 1 if [n] is 0. *)
Definition is_recall (n : nat) (pts : list counts) (r : R) : Prop :=
  (n = 0%nat /\ r = 1) \/
  ((n > 0)%nat /\ r = (INR (references pts) - misses pts) / INR n).

Definition in01 (x : R) : Prop := 0 <= x <= 1.

Definition nondecreasing (l : list R) : Prop := StronglySorted Rle l.
Definition nonincreasing (l : list R) : Prop := StronglySorted Rge l.

(** ** Interpolation *)

(** The largest value of a list. *)
Definition is_max (l : list R) (m : R) : Prop := In m l /\ forall x, In x l -> x <= m.

(** ** Area *)

(** The abscissa before point [i]. *)
Definition left_of (rc : list R) (i : nat) : R :=
  match i with O => 0 | S j => nth j rc 0 end.

(** The height of step [i]: the precision, or the middle of the trapezoid;
    the first step always is a rectangle. *)
Definition step_height (trapezoid : bool) (pr : list R) (i : nat) : R :=
  match i with
  | O => nth 0 pr 0
  | S j => if trapezoid then (nth (S j) pr 0 + nth j pr 0) / 2 else nth (S j) pr 0
  end.

Definition area (trapezoid : bool) (pr rc : list R) : R :=
  sum_of (fun i => step_height trapezoid pr i * (nth i rc 0 - left_of rc i)) (seq 0 (length pr)).

(** ** Kinds of matches *)

Section Kinds.
  Context {RE HE : Type}.
  Notation M := (match_t RE HE).

  Definition is_hit (m : M) : Prop := me_fp (m_err m) = f32_0 /\ me_fn (m_err m) = f32_0.
  Definition is_fp (m : M) : Prop := me_fp (m_err m) = f32_1.
  Definition is_fn (m : M) : Prop := me_fn (m_err m) = f32_1.

  Definition is_hitb (m : M) : bool :=
    f32_eq (me_fp (m_err m)) f32_0 && f32_eq (me_fn (m_err m)) f32_0.

  (** Textbook average precision of a ranking of 0/1 matches: the sum, over
      the hits, of the part of hits among the hypotheses so far, divided by
      the number of references. *)
  Definition hits (l : list M) : nat := length (filter is_hitb l).
  Definition hyps (l : list M) : nat := total (fun m => me_nh (m_err m)) l.
  Definition refs (l : list M) : nat := total (fun m => me_nr (m_err m)) l.

  Fixpoint hit_precisions (seen l : list M) : R :=
    match l with
    | [] => 0
    | m :: t =>
        (if is_hitb m then INR (hits (seen ++ [m])) / INR (hyps (seen ++ [m])) else 0)
        + hit_precisions (seen ++ [m]) t
    end.

  (** A ranking is perfect if nothing is missed and no false positive comes
      before a hit. *)
  Definition perfect (l : list M) : Prop :=
    (forall m, In m l -> ~ is_fn m) /\
    (forall u a v b w, l = u ++ a :: v ++ b :: w -> is_fp a -> ~ is_hit b).
End Kinds.

(** ** Discounted gain *)

(** The discount of the hypothesis at rank [i] (from 1): 1/log2(i+1). *)
Definition discount (i : nat) : R := ln 2 / ln (INR i + 1).

(** The discounted gain of a ranking of right and wrong hypotheses, the
    first of which has rank [i]. *)
Fixpoint dcg (i : nat) (rel : list bool) : R :=
  match rel with
  | [] => 0
  | b :: t => (if b then discount i else 0) + dcg (S i) t
  end.

(** The best possible one with [n] references. *)
Definition ideal (n : nat) : R := dcg 1 (repeat true n).

(** The hypotheses of a ranking of 0/1 matches: right or wrong. *)
Definition relevances {RE HE} (l : list (match_t RE HE)) : list bool :=
  map is_hitb (filter (fun m => Nat.ltb 0 (me_nh (m_err m))) l).
