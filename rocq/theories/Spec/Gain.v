(** What NDCG should be when matches of equal score may be collapsed. *)
From Coq Require Import List ZArith Reals.
From Flocq Require Import Core BinarySingleNaN.
From Verif.Model Require Import Cpp Floats Matches.
From Verif.Spec Require Import Collapse Metrics.
Import ListNotations.
Local Open Scope R_scope.

(** The float nearest to a real number, ties to even. *)
Definition nearest_float (x : R) : R := round radix2 (FLT_exp (-149) 24) ZnearestE x.

(** The discounted sum of the gains of hypotheses, the first of which has rank
    [i]. *)
Fixpoint discounted (i : nat) (gs : list R) : R :=
  match gs with
  | [] => 0
  | g :: t => g * discount i + discounted (S i) t
  end.

(** The hypotheses of some matches that are wrong, and the part that is right,
    as the program computes it in single precision. *)
Definition wrong {RE HE} (r : list (match_t RE HE)) : R := sum_of (fun m => B2R (me_fp (m_err m))) r.
(** See [wrong]. *)
Definition right_part {RE HE} (r : list (match_t RE HE)) : R :=
  nearest_float (1 - nearest_float (wrong r / INR (hyps r))).

(** NDCG: the ranking is cut into runs of equal score, or single matches; each
    hypothesis of a run has the gain 2^x - 1 for the right part x of the run.
    Without references it is 0. *)
Definition ndcg_is {RE HE} (score : HE -> f32) (collapse : bool) (l : list (match_t RE HE)) (v : R) : Prop :=
  (refs l = 0%nat /\ v = 0) \/
  ((refs l > 0)%nat /\ exists rs,
     (if collapse then are_runs score l rs else rs = map (fun m => [m]) l) /\
     v = discounted 1 (concat (map (fun r => repeat (Rpower 2 (right_part r) - 1) (hyps r)) rs)) / ideal (refs l)).
