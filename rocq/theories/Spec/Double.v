(** The metrics in double arithmetic compared with the exact ones. *)
From Coq Require Import List ZArith Reals.
From Flocq Require Import Core BinarySingleNaN.
From Verif.Model Require Import Cpp Floats.
Import ListNotations.
Local Open Scope R_scope.

(** The double nearest to a real number (ties to even; no overflow). *)
Definition nearest64 (x : R) : R := round radix2 (FLT_exp (-1074) 53) ZnearestE x.

(** A double that is the number [x]. *)
Definition is_double (d : f64) (x : R) : Prop := is_finite d = true /\ B2R d = x.

(** A finite double in [0,1]. *)
Definition unit_f64 (d : f64) : Prop := is_finite d = true /\ 0 <= B2R d <= 1.

(** A finite double at most [e] away from [x]. *)
Definition within (e : R) (d : f64) (x : R) : Prop := is_finite d = true /\ Rabs (B2R d - x) <= e.

(** The unit roundoff of double, 2^-53. *)
Definition u64 : R := bpow radix2 (-53).
