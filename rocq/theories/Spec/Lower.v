(** Curves that lie nowhere above others. *)
From Coq Require Import List Reals.
Import ListNotations.

(** The same recalls, and no precision is higher in the first. *)
Definition nowhere_above (pts pts' : list (R * R)) : Prop :=
  Forall2 (fun p p' => fst p = fst p' /\ (snd p <= snd p')%R) pts pts'.
