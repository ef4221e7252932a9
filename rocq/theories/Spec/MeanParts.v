(** The mean of curves with common recalls. *)
From Coq Require Import List Bool Arith.
From Verif.Model Require Import Cpp Floats.
From Verif.Spec Require Import Parts.
Import ListNotations.

(** All the curves have the recalls of [pts], and the precisions of [pts] are
    the means of theirs, added in the order of the curves. *)
Definition mean_of_curves {A : Arith} (curves : list (list (num A * num A))) (pts : list (num A * num A)) : Prop :=
  Forall (fun curve => map fst curve = map fst pts) curves /\
  forall i x y, nth_error pts i = Some (x, y) ->
    exists ys, Forall2 (fun curve y' => nth_error curve i = Some (x, y')) curves ys /\ y = average ys.
