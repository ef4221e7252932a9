(** One more hypothesis for references that are already found. *)
From Coq Require Import String List ZArith.
From Flocq Require Import BinarySingleNaN.
From Verif.Model Require Import Cpp Floats Box Events Options Tool.
From Verif.Spec Require Import Scorers.
Import ListNotations.
Local Open Scope string_scope.
Local Open Scope list_scope.

(** One hypothesis comes before another in the ranking of the criterion,
    whatever the order of events; [a] are those before the other in the file. *)
Definition comes_first {E} (crit : bytes) (a : list (scored E)) (h0 h : scored E) : Prop :=
  (crit = lit "desc" /\ (f32_lt (sc_score h) (sc_score h0) = true \/ (sc_base h0 = sc_base h /\ f32_lt (sc_score h0) (sc_score h) = false))) \/
  (crit = lit "asc" /\ (f32_lt (sc_score h0) (sc_score h) = true \/ (sc_base h0 = sc_base h /\ f32_lt (sc_score h) (sc_score h0) = false))) \/
  (crit <> lit "desc" /\ crit <> lit "asc" /\ In h0 a).

(** A hypothesis put between [a] and [b] that some reference accepts, where
    each such reference is the only one to accept one that comes first. *)
Definition too_late {RE E} (accepts : RE -> scored E -> Prop) (refs : list RE) (crit : bytes) (a b : list (scored E)) (h : scored E) : Prop :=
  (exists r, In r refs /\ accepts r h) /\
  forall r, In r refs -> accepts r h ->
    exists h0, In h0 (a ++ b) /\ comes_first crit a h0 h /\ accepts r h0 /\ forall r', In r' refs -> accepts r' h0 -> r' = r.

(** The reference shares half of the cells of the hypothesis, which has the
    same query, as Icdar17KwsEval asks for a hit. *)
Definition shares_half (r : event bytes docbox) (h : scored (event bytes docbox)) : Prop :=
  ev_query r = ev_query (sc_base h) /\
  exists a i, covers (ev_loc (sc_base h)) a /\ shares (ev_loc r) (ev_loc (sc_base h)) i /\ (0 < a)%Z /\ (a <= 2 * i)%Z.
