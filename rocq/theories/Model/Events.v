(** Model of /repo/core/Event.h, /repo/core/ScoredEvent.h and
    /repo/core/ShapedEvent.h. *)
From Coq Require Import List Bool ZArith.
From Verif.Model Require Import Cpp Floats Box.

(** /repo/core/Event.h:10-29 and 56-58, [class Event]: a query and a location. *)
Record event (Q L : Type) : Type := Event { ev_query : Q; ev_loc : L }.
Arguments Event {Q L}.
Arguments ev_query {Q L}.
Arguments ev_loc {Q L}.

Section EventOps.
  Context {Q L : Type} (cq : Cmp Q) (cl : Cmp L).

  (** /repo/core/Event.h:31-33, [operator==]. *)
  Definition event_eq (a b : event Q L) : bool :=
    c_eq cq (ev_query a) (ev_query b) && c_eq cl (ev_loc a) (ev_loc b).

  (** /repo/core/Event.h:35-37, [operator!=]. *)
  Definition event_ne (a b : event Q L) : bool :=
    c_ne cq (ev_query a) (ev_query b) || c_ne cl (ev_loc a) (ev_loc b).

  (** /repo/core/Event.h:39-42, [operator<]. *)
  Definition event_lt (a b : event Q L) : bool :=
    if c_ne cq (ev_query a) (ev_query b) then c_lt cq (ev_query a) (ev_query b)
    else c_lt cl (ev_loc a) (ev_loc b).

  (** /repo/core/Event.h:44-46, [operator>]. *)
  Definition event_gt (a b : event Q L) : bool := event_lt b a.

  (** /repo/core/Event.h:48-50, [operator<=]. *)
  Definition event_le (a b : event Q L) : bool := negb (event_gt a b).

  (** /repo/core/Event.h:52-54, [operator>=]. *)
  Definition event_ge (a b : event Q L) : bool := negb (event_lt a b).

  (** /repo/core/Event.h:31-42, the operators as a bundle. *)
  Definition cmp_event : Cmp (event Q L) := mkCmp event_eq event_ne event_lt.
End EventOps.

(** /repo/core/ScoredEvent.h:11-25 and 56-57, [class ScoredEvent<E>]: the
    base event and a [float] score. *)
Record scored (E : Type) : Type := Scored { sc_base : E; sc_score : f32 }.
Arguments Scored {E}.
Arguments sc_base {E}.
Arguments sc_score {E}.

Section ScoredOps.
  Context {E : Type} (ce : Cmp E).

  (** /repo/core/ScoredEvent.h:27-29, [operator==]. *)
  Definition scored_eq (a b : scored E) : bool :=
    f32_eq (sc_score a) (sc_score b) && c_eq ce (sc_base a) (sc_base b).

  (** /repo/core/ScoredEvent.h:31-33, [operator!=]. *)
  Definition scored_ne (a b : scored E) : bool :=
    f32_ne (sc_score a) (sc_score b) || c_ne ce (sc_base a) (sc_base b).

  (** /repo/core/ScoredEvent.h:35-38, [operator<]. *)
  Definition scored_lt (a b : scored E) : bool :=
    if f32_ne (sc_score a) (sc_score b) then f32_lt (sc_score a) (sc_score b)
    else c_lt ce (sc_base a) (sc_base b).

  (** /repo/core/ScoredEvent.h:40-42, [operator>]. *)
  Definition scored_gt (a b : scored E) : bool := scored_lt b a.

  (** /repo/core/ScoredEvent.h:44-46, [operator<=]: the code reads
      [!(other > *this)]. *)
  Definition scored_le (a b : scored E) : bool := negb (scored_gt b a).

  (** /repo/core/ScoredEvent.h:48-50, [operator>=]. *)
  Definition scored_ge (a b : scored E) : bool := negb (scored_lt a b).

  (** /repo/core/ScoredEvent.h:27-38, the operators as a bundle. *)
  Definition cmp_scored : Cmp (scored E) := mkCmp scored_eq scored_ne scored_lt.
End ScoredOps.

(** The event type of Icdar17KwsEval: /repo/core/ShapedEvent.h:9-20 with
    Q = std::string and L = DocumentBoundingBox<uint32_t>
    (/repo/tools/Icdar17KwsEval.cc). *)
Definition shaped := event bytes docbox.

(** /repo/core/Event.h:31-42 at that type. *)
Definition cmp_shaped : Cmp shaped := cmp_event cmp_str cmp_docbox.

(** /repo/core/ShapedEvent.h:19, [Area]. *)
Definition shaped_area {Q} (a : event Q docbox) : Z := docbox_area (ev_loc a).

(** /repo/core/ShapedEvent.h:22-25, [IntersectionArea]. *)
Definition shaped_inter {Q} (a b : event Q docbox) : Z :=
  docbox_inter (ev_loc a) (ev_loc b).

(** /repo/core/ShapedEvent.h:27-30, [UnionArea]. *)
Definition shaped_union {Q} (a b : event Q docbox) : Z :=
  docbox_union (ev_loc a) (ev_loc b).
