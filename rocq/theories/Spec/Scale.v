(** Other resolutions of the documents. *)
From Coq Require Import ZArith.
From Verif.Model Require Import Cpp Box.

(** The location when the coordinates of each document are multiplied by a
    factor. *)
Definition resized (s : bytes -> Z) (l : docbox) : docbox :=
  let f := s (db_doc l) in
  DocBox (db_doc l) (Box (f * bx (db_box l)) (f * by_ (db_box l)) (f * bw (db_box l)) (f * bh (db_box l)))%Z.
