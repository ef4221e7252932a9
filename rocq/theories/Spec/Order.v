(** Orders and sorting. *)
From Coq Require Import List ZArith Ascii Permutation Sorted.
From Verif.Model Require Import Cpp Floats Box Events.
From Flocq Require Import BinarySingleNaN.
Import ListNotations.
Local Open Scope Z_scope.

(** The operators of a type agree with one strict total order whose equality
    is equality of values. *)
Record total_order {A} (c : Cmp A) : Prop := {
  to_eq : forall x y, c_eq c x y = true <-> x = y;
  to_ne : forall x y, c_ne c x y = true <-> x <> y;
  to_irrefl : forall x, c_lt c x x = false;
  to_trans : forall x y z, c_lt c x y = true -> c_lt c y z = true -> c_lt c x z = true;
  to_total : forall x y, c_lt c x y = true \/ x = y \/ c_lt c y x = true
}.

(** Strict weak order on the elements of a list: what std::sort needs
    (C++ [alg.sorting]). *)
Record swo_on {A} (lt : A -> A -> bool) (l : list A) : Prop := {
  swo_irrefl : forall x, In x l -> lt x x = false;
  swo_trans : forall x y z, In x l -> In y l -> In z l ->
    lt x y = true -> lt y z = true -> lt x z = true;
  swo_incomp : forall x y z, In x l -> In y l -> In z l ->
    lt x y = false -> lt y x = false -> lt y z = false -> lt z y = false ->
    lt x z = false /\ lt z x = false
}.

(** Strict weak order on the values satisfying [P]. *)
Definition swo_for {A} (P : A -> Prop) (lt : A -> A -> bool) : Prop :=
  forall l, (forall x, In x l -> P x) -> swo_on lt l.

(** No element is followed by one that should come before it. *)
Definition sorted_by {A} (lt : A -> A -> bool) (l : list A) : Prop :=
  StronglySorted (fun x y => lt y x = false) l.

(** What the C++ standard says of std::sort: the result is a sorted
    permutation, provided the comparison is a strict weak order on the
    elements.  Nothing is said about the order of equivalent elements. *)
Definition sort_contract (srt : sort_fn) : Prop :=
  forall A (lt : A -> A -> bool) (l : list A), swo_on lt l ->
    Permutation l (srt A lt l) /\ sorted_by lt (srt A lt l).

(** Lexicographic order of strings: after a common part, the first ends or
    has the smaller byte. *)
Definition str_before (a b : bytes) : Prop :=
  exists p s t,
    a = p ++ s /\ b = p ++ t /\
    match s, t with
    | [], _ :: _ => True
    | c :: _, d :: _ => (code c < code d)%N
    | _, [] => False
    end.

(** Lexicographic order of boxes: x, y, width, height. *)
Definition box_before (a b : box) : Prop :=
  bx a < bx b \/ (bx a = bx b /\
  (by_ a < by_ b \/ (by_ a = by_ b /\
  (bw a < bw b \/ (bw a = bw b /\ bh a < bh b))))).

(** Order of locations: document, then box. *)
Definition docbox_before (a b : docbox) : Prop :=
  str_before (db_doc a) (db_doc b) \/
  (db_doc a = db_doc b /\ box_before (db_box a) (db_box b)).

(** Order of events: query, then location. *)
Definition event_before {Q L} (qb : Q -> Q -> Prop) (lb : L -> L -> Prop)
  (a b : event Q L) : Prop :=
  qb (ev_query a) (ev_query b) \/ (ev_query a = ev_query b /\ lb (ev_loc a) (ev_loc b)).

(** The score is a number (possibly infinite). *)
Definition numeric {E} (e : scored E) : Prop := is_nan (sc_score e) = false.

(** The two scores are the same number (+0 and -0 are). *)
Definition same_number (x y : f32) : Prop := f32_eq x y = true.
