(** C01-C05: areas of boxes. *)
From Coq Require Import Ascii String List ZArith.
From Verif.Model Require Import Cpp Box.
From Verif.Spec Require Import Geometry.
From Verif.Proofs Require Geometry.
Import ListNotations.
Local Open Scope Z_scope.

(** C01.  [IntersectionArea] is the number of shared cells. *)
Theorem c01_intersection_is_cell_count : forall a b,
  u32_box a -> u32_box b -> edges_fit a -> edges_fit b -> area_fits a ->
  cell_count (fun c => in_box a c /\ in_box b c) (box_inter a b).
Proof. exact Geometry.inter_counts. Qed.
Print Assumptions c01_intersection_is_cell_count.

(** The count determines the number, so C01 leaves the code no freedom. *)
Theorem c01_cell_count_unique : forall P n m,
  cell_count P n -> cell_count P m -> n = m.
Proof. exact Geometry.cell_count_unique. Qed.
Print Assumptions c01_cell_count_unique.

(** C01, for [Area]: the hypothesis is also necessary. *)
Theorem c01_area_is_cell_count_iff : forall b,
  u32_box b -> (cell_count (in_box b) (box_area b) <-> area_fits b).
Proof. exact Geometry.area_counts_iff. Qed.
Print Assumptions c01_area_is_cell_count_iff.

(** The code for an arbitrary integer type, at uint32_t. *)
Theorem c01_generic_code_at_u32 : forall a b,
  box_inter_ty ty_u32 a b = Ok (box_inter a b) /\
  box_union_ty ty_u32 a b = Ok (box_union a b).
Proof. exact (fun a b => conj (Geometry.box_inter_ty_u32 a b) (Geometry.box_union_ty_u32 a b)). Qed.
Print Assumptions c01_generic_code_at_u32.

Example c01_case :
  let a := Box 3 5 400 40 in let b := Box 50 20 60 35 in
  u32_box a /\ u32_box b /\ edges_fit a /\ edges_fit b /\ area_fits a /\
  box_inter a b = 1500.
Proof. unfold u32_box, is_u32, edges_fit, area_fits. simpl. unfold two32. repeat split; easy. Qed.

(** C02.  [UnionArea] is the number of covered cells. *)
Theorem c02_union_is_cell_count : forall a b,
  u32_box a -> u32_box b -> edges_fit a -> edges_fit b ->
  bw a * bh a + bw b * bh b < two32 ->
  cell_count (fun c => in_box a c \/ in_box b c) (box_union a b).
Proof. exact Geometry.union_counts. Qed.
Print Assumptions c02_union_is_cell_count.

Example c02_case :
  let a := Box 3 5 400 40 in let b := Box 50 20 60 35 in
  u32_box a /\ u32_box b /\ edges_fit a /\ edges_fit b /\
  bw a * bh a + bw b * bh b < two32 /\ box_union a b = 16600.
Proof. unfold u32_box, is_u32, edges_fit. simpl. unfold two32. repeat split; easy. Qed.

(** C03.  Symmetry holds for all boxes, also those that wrap around. *)
Theorem c03_intersection_symmetric : forall a b,
  box_inter a b = box_inter b a /\ forall d e, docbox_inter d e = docbox_inter e d.
Proof. exact (fun a b => conj (Geometry.box_inter_sym a b) Geometry.docbox_inter_sym). Qed.
Print Assumptions c03_intersection_symmetric.

(** C03.  Boxes of different documents do not intersect. *)
Theorem c03_other_document : forall a b,
  db_doc a <> db_doc b -> docbox_inter a b = 0.
Proof. exact Geometry.docbox_inter_other. Qed.
Print Assumptions c03_other_document.

(** C03.  Bounds and the area of the intersection with itself. *)
Theorem c03_bounds : forall a b,
  u32_box (db_box a) -> u32_box (db_box b) ->
  edges_fit (db_box a) -> edges_fit (db_box b) ->
  area_fits (db_box a) -> area_fits (db_box b) ->
  0 <= docbox_inter a b <= docbox_area a /\ docbox_inter a b <= docbox_area b /\
  docbox_inter a a = docbox_area a.
Proof. exact Geometry.docbox_facts. Qed.
Print Assumptions c03_bounds.

Example c03_case :
  let a := DocBox (lit "d1") (Box 3 5 400 40) in
  let b := DocBox (lit "d1") (Box 50 20 60 35) in
  let c := DocBox (lit "d2") (Box 50 20 60 35) in
  docbox_inter a b = 1500 /\ docbox_area b = 2100 /\
  db_doc a <> db_doc c /\ docbox_inter a c = 0.
Proof. repeat split; discriminate. Qed.

(** C04, refuted: a box that can be read has the wrong area. *)
Theorem c04_area_refuted :
  exists b, u32_box b /\ edges_fit b /\ ~ cell_count (in_box b) (box_area b).
Proof.
  exists (Box 0 0 65536 65536). unfold u32_box, is_u32, edges_fit. simpl. unfold two32.
  repeat split; try easy. intros H. apply Geometry.area_counts_iff in H.
  - discriminate.
  - unfold u32_box, is_u32, two32. simpl. repeat split; easy.
Qed.
Print Assumptions c04_area_refuted.

(** C04, refuted: some box does not intersect itself, though its area is right. *)
Theorem c04_intersection_refuted :
  exists b, u32_box b /\ area_fits b /\ 0 < bw b /\ 0 < bh b /\
    ~ cell_count (fun c => in_box b c /\ in_box b c) (box_inter b b).
Proof.
  exists (Box 4294967290 0 10 10). unfold u32_box, is_u32, area_fits. simpl. unfold two32.
  repeat split; try easy. apply Geometry.self_intersection_wrong.
  - unfold u32_box, is_u32, two32. simpl. repeat split; easy.
  - unfold edges_fit, two32. simpl. intros [H _]. discriminate.
  - easy.
  - easy.
Qed.
Print Assumptions c04_intersection_refuted.

(** C04.  The extent of the problem: a box with an edge at or beyond 2^32
    intersects no box at all. *)
Theorem c04_overflow_intersects_nothing : forall a b,
  u32_box a -> ~ edges_fit a -> box_inter a b = 0.
Proof. exact Geometry.overflow_intersects_nothing. Qed.
Print Assumptions c04_overflow_intersects_nothing.

Example c04_case :
  let a := Box 4294967290 0 10 10 in
  u32_box a /\ ~ edges_fit a /\ box_area a = 100 /\ box_inter a a = 0.
Proof.
  unfold u32_box, is_u32, edges_fit. simpl. unfold two32. repeat split; easy.
Qed.

(** C05.  Signed boxes: defined and right, ... *)
Theorem c05_signed_intersection : forall a b,
  i32_edges a b -> i32_shared a b ->
  exists n, box_inter_ty ty_i32 a b = Ok n /\
            cell_count (fun c => in_box a c /\ in_box b c) n.
Proof. exact Geometry.signed_inter_counts. Qed.
Print Assumptions c05_signed_intersection.

(** C05.  ... or undefined, exactly when a result leaves the type. *)
Theorem c05_signed_undefined_iff : forall a b,
  box_inter_ty ty_i32 a b = UB <-> ~ (i32_edges a b /\ i32_shared a b).
Proof. exact Geometry.signed_inter_ub. Qed.
Print Assumptions c05_signed_undefined_iff.

(** C05.  Boxes of negative size intersect nothing. *)
Theorem c05_negative_size : forall a b,
  bw a <= 0 \/ bh a <= 0 ->
  i32_edges a b -> i32_shared a b -> box_inter_ty ty_i32 a b = Ok 0.
Proof. exact Geometry.signed_negative_empty. Qed.
Print Assumptions c05_negative_size.

Example c05_case :
  box_inter_ty ty_i32 (Box (-10) (-10) 20 20) (Box (-5) 0 20 20) = Ok 150 /\
  box_inter_ty ty_i32 (Box 2147483647 0 1 1) (Box 0 0 1 1) = UB /\
  box_inter_ty ty_i32 (Box 0 0 (-5) 10) (Box (-5) 0 10 10) = Ok 0 /\
  i32_edges (Box (-10) (-10) 20 20) (Box (-5) 0 20 20) /\
  i32_shared (Box (-10) (-10) 20 20) (Box (-5) 0 20 20).
Proof.
  repeat split; try reflexivity; try discriminate.
  right. right. repeat split; discriminate.
Qed.
