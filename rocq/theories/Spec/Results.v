(** What the results of a run should be. *)
From Coq Require Import List ZArith Reals.
From Flocq Require Import BinarySingleNaN.
From Verif.Model Require Import Cpp Floats Events Matches Assessment Tool.
From Verif.Spec Require Import Matching Collapse Metrics Curves Gain Tool.
Import ListNotations.

(** The four statistics of some matches and their groups: average precision,
    its mean over the groups, NDCG, and its mean. *)
Record statistics {RE E} (c : config) (ms : list (match_t RE (scored E))) (groups : list (list (match_t RE (scored E))))
  (gap map gndcg mndcg : R) : Prop := {
  st_gap : average_precision sc_score (cf_collapse c) (cf_interp c) (cf_trapezoid c) ms gap;
  st_map : exists vs, Forall2 (average_precision sc_score (cf_collapse c) (cf_interp c) (cf_trapezoid c)) groups vs /\
             is_mean vs map;
  st_gndcg : ndcg_is sc_score (cf_collapse c) ms gndcg;
  st_mndcg : exists vs, Forall2 (ndcg_is sc_score (cf_collapse c)) groups vs /\ is_mean vs mndcg
}.

(** Few enough events for their counts to be exact in single precision, if
    matches are collapsed. *)
Definition countable {X Y} (c : config) (refs : list X) (hyps : list Y) : Prop :=
  cf_collapse c = true -> (Z.of_nat (List.length refs + List.length hyps) <= 2 ^ 24)%Z.

(** A curve file with one line for each of [n] points; none for fewer than
    two. *)
Definition sampled {X} (n : Z) (pts : list X) : Prop :=
  List.length pts = if (n <=? 1)%Z then 0%nat else Z.to_nat n.
