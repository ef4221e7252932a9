(** What areas of boxes mean, independently of how they are computed: the
    number of unit cells of the integer grid. *)
From Coq Require Import List ZArith.
From Verif.Model Require Import Cpp Box.
Local Open Scope Z_scope.

(** Cell (i, j) lies in the box. *)
Definition in_box (b : box) (c : Z * Z) : Prop :=
  bx b <= fst c < bx b + bw b /\ by_ b <= snd c < by_ b + bh b.

(** Exactly [n] cells satisfy [P]. *)
Definition cell_count (P : Z * Z -> Prop) (n : Z) : Prop :=
  exists l : list (Z * Z),
    NoDup l /\ (forall c, In c l <-> P c) /\ Z.of_nat (length l) = n.

(** The fields are values of type uint32_t. *)
Definition u32_box (b : box) : Prop :=
  is_u32 (bx b) /\ is_u32 (by_ b) /\ is_u32 (bw b) /\ is_u32 (bh b).

(** The right and bottom edges are values of type uint32_t too. *)
Definition edges_fit (b : box) : Prop :=
  bx b + bw b < two32 /\ by_ b + bh b < two32.

(** So is the product of width and height. *)
Definition area_fits (b : box) : Prop := bw b * bh b < two32.

(** A value of type int32_t. *)
Definition is_i32 (z : Z) : Prop := -2147483648 <= z <= 2147483647.

(** The fields are values of type int32_t. *)
Definition i32_box (b : box) : Prop :=
  is_i32 (bx b) /\ is_i32 (by_ b) /\ is_i32 (bw b) /\ is_i32 (bh b).

(** The rectangle [x1, x2) x [y1, y2) that two boxes share when it is not
    inverted. *)
Definition shared_x1 (a b : box) := Z.max (bx a) (bx b).
(** See [shared_x1]. *)
Definition shared_x2 (a b : box) := Z.min (bx a + bw a) (bx b + bw b).
(** See [shared_x1]. *)
Definition shared_y1 (a b : box) := Z.max (by_ a) (by_ b).
(** See [shared_x1]. *)
Definition shared_y2 (a b : box) := Z.min (by_ a + bh a) (by_ b + bh b).

(** The four edges are representable in int32_t. *)
Definition i32_edges (a b : box) : Prop :=
  is_i32 (bx a + bw a) /\ is_i32 (bx b + bw b) /\
  is_i32 (by_ a + bh a) /\ is_i32 (by_ b + bh b).

(** The sides and the area of the shared rectangle are representable in
    int32_t, or there is none. *)
Definition i32_shared (a b : box) : Prop :=
  shared_x2 a b < shared_x1 a b \/ shared_y2 a b < shared_y1 a b \/
  (is_i32 (shared_x2 a b - shared_x1 a b) /\
   is_i32 (shared_y2 a b - shared_y1 a b) /\
   is_i32 ((shared_x2 a b - shared_x1 a b) * (shared_y2 a b - shared_y1 a b))).
