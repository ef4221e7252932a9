(** Model of /repo/core/BoundingBox.h and /repo/core/DocumentBoundingBox.h. *)
From Coq Require Import List Bool ZArith.
From Verif.Model Require Import Cpp.
Local Open Scope Z_scope.
Local Open Scope cpp_scope.

(** /repo/core/BoundingBox.h:11-18, [struct BoundingBox].  The fields hold
    values of the integer type [T]; [T] appears as the [int_ty] argument of
    the arithmetic functions below. *)
Record box : Type := Box { bx : Z; by_ : Z; bw : Z; bh : Z }.

(** /repo/core/BoundingBox.h:20-22, [operator==]. *)
Definition box_eq (a b : box) : bool :=
  (bx a =? bx b) && (by_ a =? by_ b) && (bw a =? bw b) && (bh a =? bh b).

(** /repo/core/BoundingBox.h:24-26, [operator!=]. *)
Definition box_ne (a b : box) : bool :=
  negb (bx a =? bx b) || negb (by_ a =? by_ b) || negb (bw a =? bw b) || negb (bh a =? bh b).

(** /repo/core/BoundingBox.h:28-33, [operator<]. *)
Definition box_lt (a b : box) : bool :=
  if negb (bx a =? bx b) then bx a <? bx b
  else if negb (by_ a =? by_ b) then by_ a <? by_ b
  else if negb (bw a =? bw b) then bw a <? bw b
  else bh a <? bh b.

(** /repo/core/BoundingBox.h:35-37, [operator>]. *)
Definition box_gt (a b : box) : bool := box_lt b a.

(** /repo/core/BoundingBox.h:39-41, [operator<=]. *)
Definition box_le (a b : box) : bool := negb (box_gt a b).

(** /repo/core/BoundingBox.h:43-45, [operator>=]. *)
Definition box_ge (a b : box) : bool := negb (box_lt a b).

(** /repo/core/BoundingBox.h:20-33, the operators as a bundle. *)
Definition cmp_box : Cmp box := mkCmp box_eq box_ne box_lt.

(** /repo/core/BoundingBox.h:47-49, [Area], for any integer type. *)
Definition box_area_ty (T : int_ty) (a : box) : outcome Z := T (bw a * bh a).

(** /repo/core/BoundingBox.h:51-58, [IntersectionArea], for any integer type. *)
Definition box_inter_ty (T : int_ty) (a b : box) : outcome Z :=
  let x1 := Z.max (bx a) (bx b) in
  let* ax2 := T (bx a + bw a) in
  let* bx2 := T (bx b + bw b) in
  let x2 := Z.min ax2 bx2 in
  let y1 := Z.max (by_ a) (by_ b) in
  let* ay2 := T (by_ a + bh a) in
  let* by2 := T (by_ b + bh b) in
  let y2 := Z.min ay2 by2 in
  if (x2 <? x1) || (y2 <? y1) then Ok 0
  else
    let* dx := T (x2 - x1) in
    let* dy := T (y2 - y1) in
    T (dx * dy).

(** /repo/core/BoundingBox.h:60-62, [UnionArea], for any integer type. *)
Definition box_union_ty (T : int_ty) (a b : box) : outcome Z :=
  let* aa := box_area_ty T a in
  let* ab := box_area_ty T b in
  let* s := T (aa + ab) in
  let* i := box_inter_ty T a b in
  T (s - i).

(** /repo/core/BoundingBox.h:47-49, [Area] with T = uint32_t. *)
Definition box_area (a : box) : Z := u32_mul (bw a) (bh a).

(** /repo/core/BoundingBox.h:51-58, [IntersectionArea] with T = uint32_t. *)
Definition box_inter (a b : box) : Z :=
  let x1 := Z.max (bx a) (bx b) in
  let x2 := Z.min (u32_add (bx a) (bw a)) (u32_add (bx b) (bw b)) in
  let y1 := Z.max (by_ a) (by_ b) in
  let y2 := Z.min (u32_add (by_ a) (bh a)) (u32_add (by_ b) (bh b)) in
  if (x2 <? x1) || (y2 <? y1) then 0
  else u32_mul (u32_sub x2 x1) (u32_sub y2 y1).

(** /repo/core/BoundingBox.h:60-62, [UnionArea] with T = uint32_t. *)
Definition box_union (a b : box) : Z :=
  u32_sub (u32_add (box_area a) (box_area b)) (box_inter a b).

(** /repo/core/DocumentBoundingBox.h:12-19, [struct DocumentBoundingBox]. *)
Record docbox : Type := DocBox { db_doc : bytes; db_box : box }.

(** /repo/core/DocumentBoundingBox.h:21-23, [operator==]. *)
Definition docbox_eq (a b : docbox) : bool :=
  str_eq (db_doc a) (db_doc b) && box_eq (db_box a) (db_box b).

(** /repo/core/DocumentBoundingBox.h:25-27, [operator!=]. *)
Definition docbox_ne (a b : docbox) : bool :=
  negb (str_eq (db_doc a) (db_doc b)) || box_ne (db_box a) (db_box b).

(** /repo/core/DocumentBoundingBox.h:29-32, [operator<]. *)
Definition docbox_lt (a b : docbox) : bool :=
  if negb (str_eq (db_doc a) (db_doc b)) then str_lt (db_doc a) (db_doc b)
  else box_lt (db_box a) (db_box b).

(** /repo/core/DocumentBoundingBox.h:34-36, [operator>]. *)
Definition docbox_gt (a b : docbox) : bool := docbox_lt b a.

(** /repo/core/DocumentBoundingBox.h:38-40, [operator<=]. *)
Definition docbox_le (a b : docbox) : bool := negb (docbox_gt a b).

(** /repo/core/DocumentBoundingBox.h:42-44, [operator>=]. *)
Definition docbox_ge (a b : docbox) : bool := negb (docbox_lt a b).

(** /repo/core/DocumentBoundingBox.h:21-32, the operators as a bundle. *)
Definition cmp_docbox : Cmp docbox := mkCmp docbox_eq docbox_ne docbox_lt.

(** /repo/core/BoundingBox.h:47-49 inherited by DocumentBoundingBox, T = uint32_t. *)
Definition docbox_area (a : docbox) : Z := box_area (db_box a).

(** /repo/core/DocumentBoundingBox.h:46-51, [IntersectionArea], T = uint32_t. *)
Definition docbox_inter (a b : docbox) : Z :=
  if str_eq (db_doc a) (db_doc b) then box_inter (db_box a) (db_box b) else 0.

(** /repo/core/DocumentBoundingBox.h:53-55, [UnionArea], T = uint32_t. *)
Definition docbox_union (a b : docbox) : Z :=
  u32_sub (u32_add (docbox_area a) (docbox_area b)) (docbox_inter a b).
