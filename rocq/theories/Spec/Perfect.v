(** Runs in which every reference is found and nothing else. *)
From Coq Require Import List ZArith.
From Verif.Model Require Import Cpp Floats Box Events Matches Options Tool.
From Verif.Spec Require Import Objects Matching Scorers Reader Tool Found Again.
Import ListNotations.

(** The hypotheses of queries that are evaluated are the references of such
    queries, in any order and with any repetitions, and there are some. *)
Definition submits_references {L} (f : query_file bytes) (refs : list (event bytes L)) (hyps : list (scored (event bytes L))) : Prop :=
  (exists r, wanted f refs r) /\ forall r, kept f (ev_query r) -> (In r refs <-> In r (map sc_base hyps)).

(** The reference has half of the cells of the hypothesis and more of them
    than any other one of the query. *)
Definition closest (refs : list (event bytes docbox)) (r : event bytes docbox) (h : scored (event bytes docbox)) : Prop :=
  shares_half r h /\ forall r' i i', In r' refs -> r' <> r -> ev_query r' = ev_query r ->
    shares (ev_loc r) (ev_loc (sc_base h)) i -> shares (ev_loc r') (ev_loc (sc_base h)) i' -> (i' < i)%Z.

(** Every hypothesis of a query that is evaluated has half of its cells in a
    reference, and every reference of such a query is the closest one of a
    hypothesis. *)
Definition all_found (f : query_file bytes) (refs : list (event bytes docbox)) (hyps : list (scored (event bytes docbox))) : Prop :=
  (exists r, wanted f refs r) /\
  (forall h, In h hyps -> kept f (ev_query (sc_base h)) -> exists r, In r refs /\ shares_half r h) /\
  (forall r, wanted f refs r -> exists h, In h hyps /\ closest refs r h).

(** The cells of the first are not all among those of the second. *)
Definition not_within (a b : docbox) : Prop := forall n i, covers a n -> shares b a i -> (i < n)%Z.
