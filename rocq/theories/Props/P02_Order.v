(** C06-C08: comparison operators. *)
From Coq Require Import Ascii String List ZArith Permutation.
From Flocq Require Import BinarySingleNaN.
From Verif.Model Require Import Cpp Floats Box Events.
From Verif.Spec Require Import Order.
From Verif.Proofs Require Order.
Import ListNotations.

(** C06.  Boxes: one total order, the lexicographic one. *)
Theorem c06_box_total_order : total_order cmp_box.
Proof. exact Order.total_order_box. Qed.
Print Assumptions c06_box_total_order.

Theorem c06_box_lexicographic : forall a b, box_lt a b = true <-> box_before a b.
Proof. exact Order.box_lt_before. Qed.
Print Assumptions c06_box_lexicographic.

(** C06.  Strings (std::string's own operators). *)
Theorem c06_string_total_order : total_order cmp_str.
Proof. exact Order.total_order_str. Qed.
Print Assumptions c06_string_total_order.

Theorem c06_string_lexicographic : forall a b, str_lt a b = true <-> str_before a b.
Proof. exact Order.str_lt_before. Qed.
Print Assumptions c06_string_lexicographic.

(** C06.  Locations. *)
Theorem c06_docbox_total_order : total_order cmp_docbox.
Proof. exact Order.total_order_docbox. Qed.
Print Assumptions c06_docbox_total_order.

Theorem c06_docbox_lexicographic : forall a b, docbox_lt a b = true <-> docbox_before a b.
Proof. exact Order.docbox_lt_before. Qed.
Print Assumptions c06_docbox_lexicographic.

(** C06.  Events over any two types whose operators form a total order. *)
Theorem c06_event_total_order : forall Q L (cq : Cmp Q) (cl : Cmp L),
  total_order cq -> total_order cl -> total_order (cmp_event cq cl).
Proof. exact @Order.total_order_event. Qed.
Print Assumptions c06_event_total_order.

Theorem c06_event_lexicographic : forall Q L (cq : Cmp Q) (cl : Cmp L) qb lb,
  total_order cq ->
  (forall x y, c_lt cq x y = true <-> qb x y) ->
  (forall x y, c_lt cl x y = true <-> lb x y) ->
  forall a b, event_lt cq cl a b = true <-> event_before qb lb a b.
Proof. exact @Order.event_lt_before. Qed.
Print Assumptions c06_event_lexicographic.

(** C06.  The derived operators agree with [<] (and [==], [!=] do by
    [total_order]): [a > b], [a <= b] and [a >= b] mean what they should, for
    boxes, locations and events. *)
Theorem c06_derived_operators :
  (forall a b, (box_gt a b = true <-> box_before b a) /\
               (box_le a b = true <-> ~ box_before b a) /\
               (box_ge a b = true <-> ~ box_before a b)) /\
  (forall a b, (docbox_gt a b = true <-> docbox_before b a) /\
               (docbox_le a b = true <-> ~ docbox_before b a) /\
               (docbox_ge a b = true <-> ~ docbox_before a b)) /\
  (forall Q L (cq : Cmp Q) (cl : Cmp L) a b,
     event_gt cq cl a b = event_lt cq cl b a /\
     event_le cq cl a b = negb (event_lt cq cl b a) /\
     event_ge cq cl a b = negb (event_lt cq cl a b)).
Proof.
  split; [|split]; intros.
  - unfold box_gt, box_le, box_ge, box_gt.
    rewrite !Bool.negb_true_iff, <- !Bool.not_true_iff_false, !Order.box_lt_before.
    repeat split; auto.
  - unfold docbox_gt, docbox_le, docbox_ge, docbox_gt.
    rewrite !Bool.negb_true_iff, <- !Bool.not_true_iff_false, !Order.docbox_lt_before.
    repeat split; auto.
  - repeat split.
Qed.
Print Assumptions c06_derived_operators.

(** C06.  Hence std::sort on them is defined and has one possible result. *)
Theorem c06_sort_deterministic : forall A (c : Cmp A) srt srt' l l',
  total_order c -> sort_contract srt -> sort_contract srt' -> Permutation l l' ->
  std_sort srt (c_lt c) l = std_sort srt' (c_lt c) l' /\ std_sort srt (c_lt c) l <> UB.
Proof.
  intros A c srt srt' l l' Ht Hs Hs' Hp.
  rewrite !Order.std_sort_ok by (apply Order.total_order_swo; assumption).
  destruct (Hs A (c_lt c) l (Order.total_order_swo c Ht l)) as [P1 S1].
  destruct (Hs' A (c_lt c) l' (Order.total_order_swo c Ht l')) as [P2 S2].
  split; [|discriminate]. f_equal.
  apply (Order.sorted_unique (c_lt c)); auto.
  - intros x y _ _ H1 H2. destruct (to_total c Ht x y) as [H|[H|H]]; congruence.
  - transitivity l; [apply Permutation_sym; assumption|]. transitivity l'; assumption.
Qed.
Print Assumptions c06_sort_deterministic.

(** Some sorting algorithm meets the contract. *)
Theorem c06_contract_satisfiable : sort_contract isort.
Proof. exact Order.isort_contract. Qed.
Print Assumptions c06_contract_satisfiable.

Example c06_case :
  box_lt (Box 3 5 400 40) (Box 3 6 1 1) = true /\
  str_lt (lit "d10") (lit "d2") = true /\
  docbox_lt (DocBox (lit "d1") (Box 9 9 9 9)) (DocBox (lit "d2") (Box 0 0 0 0)) = true /\
  std_sort isort (c_lt cmp_str) [lit "q2"; lit "q1"; lit "q10"]
    = Ok [lit "q1"; lit "q10"; lit "q2"].
Proof. repeat split. Qed.

(** C07.  Without NaN scores, the order of scored events is a strict weak
    order whose ties are the events that compare equal. *)
Theorem c07_scored_strict_weak_order : forall E (ce : Cmp E),
  total_order ce -> swo_for numeric (scored_lt ce).
Proof. exact @Order.swo_scored. Qed.
Print Assumptions c07_scored_strict_weak_order.

Theorem c07_scored_order : forall E (ce : Cmp E), total_order ce ->
  forall x y, numeric x -> numeric y ->
    (scored_lt ce x y = true <->
     f32_lt (sc_score x) (sc_score y) = true \/
     (same_number (sc_score x) (sc_score y) /\ c_lt ce (sc_base x) (sc_base y) = true)).
Proof. exact (fun E ce H => Order.scored_lt_spec ce). Qed.
Print Assumptions c07_scored_order.

Theorem c07_scored_ties : forall E (ce : Cmp E), total_order ce ->
  forall x y, numeric x -> numeric y ->
    (scored_lt ce x y = false /\ scored_lt ce y x = false) <-> scored_eq ce x y = true.
Proof. exact @Order.scored_trichotomy. Qed.
Print Assumptions c07_scored_ties.

(** C07.  [==], [!=], [>] and [>=]. *)
Theorem c07_scored_operators : forall E (ce : Cmp E), total_order ce ->
  forall x y,
    (scored_eq ce x y = true <->
       same_number (sc_score x) (sc_score y) /\ sc_base x = sc_base y) /\
    scored_ne ce x y = negb (scored_eq ce x y) /\
    scored_gt ce x y = scored_lt ce y x /\
    scored_ge ce x y = negb (scored_lt ce x y).
Proof.
  intros E ce H x y. split; [apply Order.scored_eq_spec, H|].
  split; [apply Order.scored_ne_spec, H|]. split; reflexivity.
Qed.
Print Assumptions c07_scored_operators.

(** C07.  With a NaN score the order is not strict weak as soon as two other
    elements are ordered: std::sort is then undefined. *)
Theorem c07_nan_breaks_order : forall E (ce : Cmp E) n a b,
  ~ numeric n -> scored_lt ce a b = true -> ~ swo_on (scored_lt ce) [n; a; b].
Proof. exact @Order.scored_nan_not_swo. Qed.
Print Assumptions c07_nan_breaks_order.

Example c07_case :
  let e := Event (lit "q1") (DocBox (lit "d1") (Box 0 0 9 9)) in
  let f := Event (lit "q1") (DocBox (lit "d1") (Box 0 0 9 10)) in
  let lt := scored_lt cmp_shaped in
  lt (Scored e (f32_of_Z 1)) (Scored e (f32_of_Z 2)) = true /\
  lt (Scored e (f32_of_Z 1)) (Scored f (f32_of_Z 1)) = true /\
  scored_eq cmp_shaped (Scored e (B754_zero true)) (Scored e (B754_zero false)) = true /\
  ~ numeric (Scored e (B754_nan : f32)) /\ numeric (Scored e (f32_of_Z 1)) /\
  std_sort isort lt [Scored e B754_nan; Scored e (f32_of_Z 1); Scored e (f32_of_Z 2)] = UB.
Proof. repeat split; try discriminate. Qed.

(** C08, refuted: [<=] disagrees with [<]. *)
Theorem c08_scored_le_refuted :
  exists a b : scored shaped, numeric a /\ numeric b /\
    scored_lt cmp_shaped a b = true /\ scored_le cmp_shaped a b = false.
Proof.
  exists (Scored (Event (lit "q") (DocBox (lit "d") (Box 0 0 1 1))) (f32_of_Z 1)).
  exists (Scored (Event (lit "q") (DocBox (lit "d") (Box 0 0 1 1))) (f32_of_Z 2)).
  repeat split.
Qed.
Print Assumptions c08_scored_le_refuted.

(** C08.  The extent: [<=] is right only on events that compare equal. *)
Theorem c08_scored_le_right_iff_equal : forall E (ce : Cmp E), total_order ce ->
  forall a b, numeric a -> numeric b ->
    (scored_le ce a b = negb (scored_lt ce b a) <-> scored_eq ce a b = true).
Proof. exact @Order.scored_le_wrong. Qed.
Print Assumptions c08_scored_le_right_iff_equal.

Example c08_case :
  let e := Event (lit "q1") (DocBox (lit "d1") (Box 0 0 9 9)) in
  scored_le cmp_shaped (Scored e (f32_of_Z 1)) (Scored e (f32_of_Z 1)) = true /\
  scored_le cmp_shaped (Scored e (f32_of_Z 1)) (Scored e (f32_of_Z 2)) = false /\
  scored_le cmp_shaped (Scored e (f32_of_Z 2)) (Scored e (f32_of_Z 1)) = true.
Proof. repeat split. Qed.
