(** C29: grouping matches by query group. *)
From Coq Require Import List Bool ZArith Permutation.
From Verif.Model Require Import Cpp Floats Matches Assessment.
From Verif.Spec Require Import Order Matching Grouping.
From Verif.Proofs Require Grouping Order.
Import ListNotations.

(** C29.  There is one group for each key, in the order in which the keys
    first appear; it is not empty and has exactly the matches of that key, in
    order.  (A map has each query once.) *)
Theorem c29_groups : forall Q RE HE (cq : Cmp Q), total_order cq ->
  forall (rq : RE -> Q) (hq : HE -> Q) q2g, NoDup (map fst q2g) ->
  forall ms ks, Forall2 (grouped rq hq q2g) ms ks ->
  exists keys groups, group_matches cq rq hq ms q2g = Ok groups /\
    first_seen ks keys /\
    Forall2 (fun k g => g <> [] /\ selects (fun m => grouped rq hq q2g m k) ms g) keys groups.
Proof. exact @Grouping.groups_spec. Qed.
Print Assumptions c29_groups.

(** C29.  The groups are a partition that keeps the order, and two matches
    are together exactly when their keys agree. *)
Theorem c29_partition : forall Q RE HE (cq : Cmp Q), total_order cq ->
  forall (rq : RE -> Q) (hq : HE -> Q) q2g, NoDup (map fst q2g) ->
  forall ms, (forall m, In m ms -> exists q, has_query rq hq m q) ->
  exists groups, group_matches cq rq hq ms q2g = Ok groups /\
    Permutation ms (concat groups) /\
    (forall g, In g groups -> g <> [] /\ sublist g ms) /\
    (forall g m m' k, In g groups -> In m g -> In m' ms -> grouped rq hq q2g m k ->
       (In m' g <-> grouped rq hq q2g m' k)).
Proof. exact @Grouping.groups_partition. Qed.
Print Assumptions c29_partition.

(** C29.  A match with neither event is the only obstacle. *)
Theorem c29_no_event : forall Q RE HE (cq : Cmp Q) (rq : RE -> Q) (hq : HE -> Q) q2g ms m,
  In m ms -> m_ref m = None -> m_hyp m = None -> group_matches cq rq hq ms q2g = UB.
Proof. exact @Grouping.groups_ub. Qed.
Print Assumptions c29_no_event.

(** Queries 1 and 3 share a group; the others are their own. *)
Example id_ (z : Z) : Z := z.
Example q2g : list (Z * Z) := [(1%Z, 9%Z); (3%Z, 9%Z)].
Example ms : list (match_t Z Z) :=
  [make_fn 2%Z; make_fp 3%Z; match_pair 1%Z 1%Z me_default; make_fp 2%Z; make_fn 4%Z].
Example c29_case : NoDup (map fst q2g) /\ total_order cmp_Z /\
  obind (group_matches cmp_Z id_ id_ ms q2g) (fun g => Ok (map (map m_hyp) g)) =
    Ok [[None; Some 2%Z]; [Some 3%Z; Some 1%Z]; [None]].
Proof.
  split; [|split; [apply Order.total_order_Z|vm_compute; reflexivity]].
  repeat constructor; intros K; repeat (destruct K as [K|K]; [discriminate|]); destruct K.
Qed.
