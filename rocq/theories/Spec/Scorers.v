(** What the scorers should decide, in terms of cells of the page. *)
From Coq Require Import List ZArith Reals.
From Flocq Require Import Core BinarySingleNaN.
From Verif.Model Require Import Cpp Floats Box Events Matches.
From Verif.Spec Require Import Geometry.

(** A location whose numbers do not wrap around. *)
Definition fits (d : docbox) : Prop :=
  u32_box (db_box d) /\ edges_fit (db_box d) /\ area_fits (db_box d).

(** The two locations together cover fewer than 2^32 cells. *)
Definition union_fits (a b : docbox) : Prop :=
  (bw (db_box a) * bh (db_box a) + bw (db_box b) * bh (db_box b) < two32)%Z.

(** [n] is the number of cells of the location. *)
Definition covers (d : docbox) (n : Z) : Prop := cell_count (in_box (db_box d)) n.

(** [n] is the number of cells the two locations share. *)
Definition shares (a b : docbox) (n : Z) : Prop :=
  cell_count (fun c => db_doc a = db_doc b /\ in_box (db_box a) c /\ in_box (db_box b) c) n.

(** [n] is the number of cells, each with its document, in one location or
    the other. *)
Definition unites (a b : docbox) (n : Z) : Prop :=
  exists l : list (bytes * (Z * Z)),
    NoDup l /\
    (forall p, In p l <-> (fst p = db_doc a /\ in_box (db_box a) (snd p)) \/
                          (fst p = db_doc b /\ in_box (db_box b) (snd p))) /\
    Z.of_nat (length l) = n.

(** Accepted with no error, rejected with both errors. *)
Definition accepted (e : match_error) : Prop := e = MatchError f32_0 f32_0.
(** See [accepted]. *)
Definition rejected (e : match_error) : Prop := e = MatchError f32_1 f32_1.

(** The errors as real numbers. *)
Definition errors_are (e : match_error) (fp fn : R) : Prop :=
  is_finite (me_fp e) = true /\ is_finite (me_fn e) = true /\
  B2R (me_fp e) = fp /\ B2R (me_fn e) = fn.

(** The [float] nearest to a real number (ties to even), below overflow. *)
Definition nearest_f32 (x : R) : R := round radix2 (FLT_exp (-149) 24) ZnearestE x.
