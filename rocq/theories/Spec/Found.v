(** What the number of references found says about the statistics. *)
From Coq Require Import List ZArith Reals.
From Flocq Require Import BinarySingleNaN.
From Verif.Model Require Import Cpp Floats Box Events Matches Options Tool.
From Verif.Spec Require Import Objects Matching Scorers Collapse Metrics Reader Tool.
Import ListNotations.
Local Open Scope R_scope.

(** ** Rankings *)

(** No false alarm comes before a hit. *)
Definition hits_first {RE HE} (l : list (match_t RE HE)) : Prop :=
  forall u a v b w, l = u ++ a :: v ++ b :: w -> is_fp a -> ~ is_hit b.

(** Every hit has a higher score than every false alarm. *)
Definition hits_above {RE HE} (score : HE -> f32) (l : list (match_t RE HE)) : Prop :=
  forall a b, In a l -> In b l -> is_fp a -> is_hit b -> f32_lt (rank score a) (rank score b) = true.

(** ** Inputs *)

(** The list holds the elements with a property, each once. *)
Definition lists {X} (P : X -> Prop) (l : list X) : Prop := NoDup l /\ forall x, In x l <-> P x.

(** The references of queries that are evaluated. *)
Definition wanted {L} (f : query_file bytes) (refs : list (event bytes L)) (r : event bytes L) : Prop :=
  In r refs /\ kept f (ev_query r).

(** Those that are among the hypotheses. *)
Definition found {L} (f : query_file bytes) (refs : list (event bytes L)) (hyps : list (scored (event bytes L))) (r : event bytes L) : Prop :=
  wanted f refs r /\ In r (map sc_base hyps).

(** The hypotheses of queries that are evaluated that are no references. *)
Definition false_alarms {L} (f : query_file bytes) (refs : list (event bytes L)) (h : scored (event bytes L)) : Prop :=
  kept f (ev_query (sc_base h)) /\ ~ In (sc_base h) refs.

(** Every reference found has a score above every false alarm, and the same
    allowing ties. *)
Definition found_above {L} (f : query_file bytes) (refs : list (event bytes L)) (hyps : list (scored (event bytes L))) : Prop :=
  forall r g, found f refs hyps r -> In g hyps -> false_alarms f refs g ->
    exists h, In h hyps /\ sc_base h = r /\ f32_lt (sc_score g) (sc_score h) = true.
Definition found_not_below {L} (f : query_file bytes) (refs : list (event bytes L)) (hyps : list (scored (event bytes L))) : Prop :=
  forall r g, found f refs hyps r -> In g hyps -> false_alarms f refs g ->
    exists h, In h hyps /\ sc_base h = r /\ f32_lt (sc_score h) (sc_score g) = false.

(** The references of which a hypothesis of the same query has half of its
    cells, as Icdar17KwsEval asks for a hit. *)
Definition half_covered (f : query_file bytes) (refs : list (event bytes docbox)) (hyps : list (scored (event bytes docbox))) (r : event bytes docbox) : Prop :=
  wanted f refs r /\ exists h, In h hyps /\ ev_query r = ev_query (sc_base h) /\
    exists a i, covers (ev_loc (sc_base h)) a /\ shares (ev_loc r) (ev_loc (sc_base h)) i /\ (0 < a)%Z /\ (a <= 2 * i)%Z.
