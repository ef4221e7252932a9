(** Floats compared with real numbers. *)
From Coq Require Import Reals.
From Flocq Require Import Core BinarySingleNaN.
From Verif.Model Require Import Floats.
Local Open Scope R_scope.

(** The float nearest to a real, ties to even. *)
Definition nearest32 (x : R) : R := round radix2 (FLT_exp (-149) 24) ZnearestE x.

(** [d] is a float of value [x]. *)
Definition is_single (d : f32) (x : R) : Prop := is_finite d = true /\ B2R d = x.

(** [d] is at most [e] away from [x]. *)
Definition close32 (e : R) (d : f32) (x : R) : Prop := is_finite d = true /\ Rabs (B2R d - x) <= e.

(** Half of the distance from 1 to the next float. *)
Definition u32 : R := bpow radix2 (-24).
