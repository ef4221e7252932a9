(** One more reference. *)
From Coq Require Import List Reals.
From Verif.Model Require Import Cpp Events Options Tool.
From Verif.Spec Require Import Metrics Tool.

Import ListNotations.
Local Open Scope R_scope.

(** The same elements and one more, somewhere. *)
Definition one_more {X} (x : X) (l l' : list X) : Prop := exists a b, l = a ++ b /\ l' = a ++ x :: b.

(** What the statistics before and after one more reference [r] that nobody
    finds should be: none goes up, and if its query is evaluated, gAP goes down
    from n references to n + 1 in proportion and gNDCG in proportion to the
    best sums of gains. *)
Definition dilutes {L} (f : query_file bytes) (refs : list (event bytes L)) (r : event bytes L)
  (gap map gndcg mndcg gap' map' gndcg' mndcg' : R) : Prop :=
  (gap' <= gap /\ map' <= map /\ gndcg' <= gndcg /\ mndcg' <= mndcg) /\
  (kept f (ev_query r) -> forall l, NoDup l -> (forall x, In x l <-> In x refs /\ kept f (ev_query x)) ->
    gap' * INR (S (length l)) = gap * INR (length l) /\ gndcg' * ideal (S (length l)) = gndcg * ideal (length l)).
