(** What a set of events is supposed to be. *)
From Coq Require Import List ZArith Sorted.
From Verif.Model Require Import Cpp Box Events EventSets.
Import ListNotations.

(** The operations that change a set. *)
Inductive set_op (E : Type) : Type :=
| SInsert (e : E)
| SRemove (e : E)
| SClear.
Arguments SInsert {E}.
Arguments SRemove {E}.
Arguments SClear {E}.

(** Membership after a history of operations, the latest first. *)
Fixpoint holds {E} (latest_first : list (set_op E)) (e : E) : Prop :=
  match latest_first with
  | [] => False
  | SInsert x :: h => x = e \/ holds h e
  | SRemove x :: h => x <> e /\ holds h e
  | SClear :: h => False
  end.

(** The number of elements satisfying [P] is [n]. *)
Definition has_size {E} (P : E -> Prop) (n : nat) : Prop :=
  exists l, NoDup l /\ (forall e, In e l <-> P e) /\ length l = n.

(** One operation on the generic set. *)
Definition gset_op {E} (ce : Cmp E) (s : gset) (op : set_op E) : gset :=
  match op with
  | SInsert e => gset_insert ce e s
  | SRemove e => gset_remove ce e s
  | SClear => gset_clear s
  end.

(** A history on the generic set, in the order of execution. *)
Definition gset_run {E} (ce : Cmp E) (h : list (set_op E)) : gset :=
  fold_left (gset_op ce) h gset_empty.

(** One operation on the set of document boxes. *)
Definition dset_op {Q} (cq : Cmp Q) (s : dset Q) (op : set_op (devent Q)) : outcome (dset Q) :=
  match op with
  | SInsert e => dset_insert cq e s
  | SRemove e => dset_remove cq e s
  | SClear => Ok (dset_clear s)
  end.

(** A history on the set of document boxes. *)
Definition dset_run {Q} (cq : Cmp Q) (h : list (set_op (devent Q))) : outcome (dset Q) :=
  ofold (dset_op cq) h dset_empty.

(** Overlap of two events, and the order FindOverlapping should return:
    larger overlap first, ties by decreasing event. *)
Definition overlap {Q} (e x : devent Q) : Z := docbox_inter (ev_loc x) (ev_loc e).
(** See [overlap]. *)
Definition overlap_order {Q} (cq : Cmp Q) (e x y : devent Q) : Prop :=
  (overlap e y < overlap e x)%Z \/
  (overlap e x = overlap e y /\ event_lt cq cmp_docbox y x = true).
