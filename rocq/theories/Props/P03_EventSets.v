(** C09-C12: event sets. *)
From Coq Require Import Ascii String List ZArith Sorted.
From Verif.Model Require Import Cpp Floats Box Events EventSets.
From Verif.Spec Require Import Order Sets.
From Verif.Proofs Require Sets Order.
Import ListNotations.

(** C09.  [h] is any history of Insert, Remove and Clear; [holds] is
    membership in the abstract set. *)
Theorem c09_generic_size : forall E (ce : Cmp E), total_order ce ->
  forall h, has_size (holds (rev h)) (gset_size (gset_run ce h)).
Proof. exact @Sets.gset_size_spec. Qed.
Print Assumptions c09_generic_size.

Theorem c09_generic_find : forall E (ce : Cmp E), total_order ce ->
  forall h e,
    (holds (rev h) e /\ gset_find_overlapping ce e (gset_run ce h) = [e]) \/
    (~ holds (rev h) e /\ gset_find_overlapping ce e (gset_run ce h) = []).
Proof. exact @Sets.gset_find_spec. Qed.
Print Assumptions c09_generic_find.

(** C09.  The range constructor makes the set of the elements of the range. *)
Theorem c09_generic_range : forall E (ce : Cmp E), total_order ce -> forall l,
  has_size (fun e => In e l) (gset_size (gset_of_range ce l)) /\
  forall e, (In e l /\ gset_find_overlapping ce e (gset_of_range ce l) = [e]) \/
            (~ In e l /\ gset_find_overlapping ce e (gset_of_range ce l) = []).
Proof.
  intros E ce H l.
  assert (R : gset_of_range ce l = gset_run ce (map SInsert l)).
  { unfold gset_of_range, gset_run. generalize (@gset_empty E). induction l as [|x l IH]; intros s; [reflexivity|]. exact (IH _). }
  assert (M : forall e, holds (rev (map SInsert l)) e <-> In e l).
  { intros e. rewrite <- map_rev, (in_rev l). induction (rev l) as [|x r IH]; [reflexivity|]. simpl. rewrite IH. tauto. }
  rewrite R. split.
  - destruct (c09_generic_size E ce H (map SInsert l)) as (r & N & I & L). exists r. split; [exact N|split; [|exact L]].
    intros e. rewrite I. apply M.
  - intros e. rewrite <- M. apply c09_generic_find. exact H.
Qed.
Print Assumptions c09_generic_range.

(** C10.  The counter is a [size_t]: it is the number of members modulo
    2^64, hence the number of members for histories shorter than 2^64. *)
Theorem c10_docbox_size : forall Q (cq : Cmp Q), total_order cq ->
  forall h, (Z.of_nat (length h) < two64)%Z ->
  exists s n, dset_run cq h = Ok s /\ dset_size s = Ok (Z.of_nat n) /\ has_size (holds (rev h)) n.
Proof. exact @Sets.dset_size_spec. Qed.
Print Assumptions c10_docbox_size.

(** C10.  Membership: an event with positive area finds itself exactly when
    it is in the abstract set. *)
Theorem c10_docbox_membership : forall srt, sort_contract srt ->
  forall Q (cq : Cmp Q), total_order cq ->
  forall h e, (0 < docbox_inter (ev_loc e) (ev_loc e))%Z ->
  exists s r, dset_run cq h = Ok s /\ dset_find_overlapping cq srt e s = Ok r /\
              (In e r <-> holds (rev h) e).
Proof. exact Sets.dset_membership. Qed.
Print Assumptions c10_docbox_membership.

(** C11.  FindOverlapping after any history. *)
Theorem c11_find_overlapping : forall srt, sort_contract srt ->
  forall Q (cq : Cmp Q), total_order cq -> forall h e,
  exists s r, dset_run cq h = Ok s /\ dset_find_overlapping cq srt e s = Ok r /\
    NoDup r /\
    (forall x, In x r <-> holds (rev h) x /\ ev_query x = ev_query e /\
                          db_doc (ev_loc x) = db_doc (ev_loc e) /\ (0 < overlap e x)%Z) /\
    StronglySorted (overlap_order cq e) r.
Proof. exact Sets.dset_find_history. Qed.
Print Assumptions c11_find_overlapping.

(** C11.  The elements and the order determine the list. *)
Theorem c11_order_determines : forall Q (cq : Cmp Q), total_order cq -> forall e r r',
  StronglySorted (overlap_order cq e) r -> StronglySorted (overlap_order cq e) r' ->
  (forall x, In x r <-> In x r') -> r = r'.
Proof. exact @Sets.overlap_order_unique. Qed.
Print Assumptions c11_order_determines.

(** C12.  Size() of a set built by the range constructor is undefined for
    every range, so no range gives the number of its elements. *)
Theorem c12_range_size_undefined : forall Q (cq : Cmp Q), total_order cq ->
  forall l, obind (dset_of_range cq l) dset_size = UB.
Proof. exact @Sets.dset_of_range_size. Qed.
Print Assumptions c12_range_size_undefined.

Theorem c12_range_size_refuted :
  exists l : list (devent Z),
    forall n, obind (dset_of_range cmp_Z l) dset_size <> Ok n.
Proof. exact Sets.dset_of_range_refuted. Qed.
Print Assumptions c12_range_size_refuted.

(** Examples. *)
Definition ev (q : Z) (d : string) (x y w h : Z) : devent Z :=
  Event q (DocBox (lit d) (Box x y w h)).

(** Overlaps 4, 6, 6 (tie) and none, one of them removed again. *)
Example history : list (set_op (devent Z)) :=
  [ SInsert (ev 7 "a" 0 0 2 2); SInsert (ev 7 "a" 0 0 3 2); SInsert (ev 7 "a" 0 0 2 3);
    SInsert (ev 7 "a" 0 0 3 2); SInsert (ev 7 "b" 0 0 9 9); SInsert (ev 8 "a" 0 0 9 9);
    SInsert (ev 7 "a" 1 1 1 1); SRemove (ev 7 "a" 1 1 1 1); SInsert (ev 7 "a" 20 20 5 5) ].

Example c11_case :
  obind (dset_run cmp_Z history)
    (dset_find_overlapping cmp_Z (@isort) (ev 7 "a" 0 0 10 10))
  = Ok [ev 7 "a" 0 0 3 2; ev 7 "a" 0 0 2 3; ev 7 "a" 0 0 2 2].
Proof. vm_compute. reflexivity. Qed.

Example c10_case : obind (dset_run cmp_Z history) dset_size = Ok 6%Z.
Proof. vm_compute. reflexivity. Qed.

Example c10_positive_area : (0 < docbox_inter (ev_loc (ev 7 "a" 0 0 2 2)) (ev_loc (ev 7 "a" 0 0 2 2)))%Z.
Proof. vm_compute. reflexivity. Qed.

Example c09_case :
  gset_size (gset_run cmp_Z [SInsert 3; SInsert 5; SClear; SInsert 4; SInsert 3; SRemove 4; SInsert 3; SInsert 9]%Z) = 2.
Proof. vm_compute. reflexivity. Qed.

Example c09_hypothesis : total_order cmp_Z.
Proof. exact Order.total_order_Z. Qed.

Example c11_hypothesis : sort_contract (@isort).
Proof. exact Order.isort_contract. Qed.
