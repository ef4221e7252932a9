(** C78: numbers as text. *)
From Coq Require Import Ascii String List Bool ZArith Reals Lra Lia.
From Flocq Require Import Core BinarySingleNaN.
From Verif.Model Require Import Cpp Floats Stream Output Text.
From Verif.Spec Require Import Reader Text.
From Verif.Proofs Require Reader Text Digits.
Import ListNotations.
Local Open Scope Z_scope.

(** C78.  A finite double is written rounded to six significant digits, in the
    shortest way. *)
Theorem c78_short nan (v : f64) : is_finite v = true -> short_form (write_short nan v) (Bsign v) (digits 6 (B2R v)).
Proof. apply Text.write_short_spec. Qed.
Print Assumptions c78_short.

(** C78.  The same for a finite float. *)
Theorem c78_score nan (v : f32) : is_finite v = true -> short_form (write_float nan v) (Bsign v) (digits 6 (B2R v)).
Proof. apply Digits.write_float_spec. Qed.
Print Assumptions c78_score.

(** C78.  In curve files a finite double is written with seven significant
    digits. *)
Theorem c78_scientific nan (v : f64) : is_finite v = true ->
  scientific_form (write_scientific nan v) (Bsign v) (digits 7 (B2R v)).
Proof. apply Text.write_scientific_spec. Qed.
Print Assumptions c78_scientific.

(** C78.  There is only one such text. *)
Theorem c78_unique b b' neg v : (short_form b neg v -> short_form b' neg v -> b = b') /\
  (scientific_form b neg v -> scientific_form b' neg v -> b = b').
Proof. split; [apply Text.short_form_unique|apply Text.scientific_form_unique]. Qed.
Print Assumptions c78_unique.

(** C78.  The text is a decimal number with exactly that sign and value. *)
Theorem c78_decimal b neg v : short_form b neg v \/ scientific_form b neg v ->
  exists m e, decimal_text b neg m e /\ v = decimal_value neg m e.
Proof. intros [H|H]; [now apply Digits.short_form_decimal|now apply Digits.scientific_form_decimal]. Qed.
Print Assumptions c78_decimal.

(** C78.  Equal texts: equal signs and equal rounded values. *)
Theorem c78_equal nan (v v' : f64) : is_finite v = true -> is_finite v' = true ->
  (write_short nan v = write_short nan v' <-> Bsign v = Bsign v' /\ digits 6 (B2R v) = digits 6 (B2R v')) /\
  (write_scientific nan v = write_scientific nan v' <-> Bsign v = Bsign v' /\ digits 7 (B2R v) = digits 7 (B2R v')).
Proof.
  intros F F'. assert (S := c78_short nan v F). assert (S' := c78_short nan v' F').
  assert (T := c78_scientific nan v F). assert (T' := c78_scientific nan v' F'). split; split.
  - intros E. rewrite <- E in S'. destruct (c78_decimal _ _ _ (or_introl S)) as (m & e & D & V).
    destruct (c78_decimal _ _ _ (or_introl S')) as (m' & e' & D' & V').
    exact (Digits.decimal_same _ _ _ _ _ _ _ _ _ D V D' V').
  - intros [E1 E2]. rewrite E1, E2 in S. exact (proj1 (c78_unique _ _ _ _) S S').
  - intros E. rewrite <- E in T'. destruct (c78_decimal _ _ _ (or_intror T)) as (m & e & D & V).
    destruct (c78_decimal _ _ _ (or_intror T')) as (m' & e' & D' & V').
    exact (Digits.decimal_same _ _ _ _ _ _ _ _ _ D V D' V').
  - intros [E1 E2]. rewrite E1, E2 in T. exact (proj2 (c78_unique _ _ _ _) T T').
Qed.
Print Assumptions c78_equal.

(** C78.  Rounding to digits is monotone, ... *)
Theorem c78_monotone p x y : 0 < p -> (x <= y)%R -> (digits p x <= digits p y)%R.
Proof. intros P. now apply Digits.digits_le. Qed.
Print Assumptions c78_monotone.

(** ... changes nothing that has few digits already, ... *)
Theorem c78_exact p m k : 0 < p -> Z.abs m < 10 ^ p -> digits p (IZR m * powerRZ 10 k) = (IZR m * powerRZ 10 k)%R.
Proof. intros P. now apply Digits.digits_exact. Qed.
Print Assumptions c78_exact.

(** ... and is off by half a unit of the last digit at most. *)
Theorem c78_error x : (Rabs (digits 6 x - x) <= Rabs x / 200000 /\ Rabs (digits 7 x - x) <= Rabs x / 2000000)%R.
Proof.
  split; eapply Rle_trans.
  - apply (Digits.digits_error 6 Digits.six).
  - change (- (6) + 1) with (- (5)). rewrite (Digits.bp_neg 5) by lia. change (10 ^ 5) with 100000. lra.
  - apply (Digits.digits_error 7 Digits.seven).
  - change (- (7) + 1) with (- (6)). rewrite (Digits.bp_neg 6) by lia. change (10 ^ 6) with 1000000. lra.
Qed.
Print Assumptions c78_error.

(** C78.  A score read from a text with at most six digits is written as the
    same number, if it is not tiny. *)
Theorem c78_score_kept nan b neg m e v : decimal_text b neg m e -> score_text b v -> m < 10 ^ 6 ->
  (/ 2 ^ 126 <= Rabs (decimal_value neg m e))%R -> short_form (write_float nan v) neg (decimal_value neg m e).
Proof.
  intros D (neg' & m' & e' & D' & F & S & V) M B.
  assert (E : decimal_value neg m e = decimal_value neg' m' e' /\ neg = neg').
  { destruct (Digits.decimal_same _ _ _ _ _ _ _ _ _ D eq_refl D' eq_refl). auto. }
  destruct E as [E <-]. rewrite <- E in V. rewrite <- S at 1. rewrite <- (Digits.six_digits_kept (decimal_value neg m e)).
  - rewrite <- V. now apply Digits.write_float_spec.
  - apply Digits.decimal_value_format. split; [|exact M]. destruct D as (s & ip & fp & ex & x & _ & _ & (f & _ & N & _) & _).
    exact (Reader.numeral_nonneg _ _ N).
  - rewrite <- Digits.tiny. exact B.
Qed.
Print Assumptions c78_score_kept.

(** C78.  A written score can be read again, and it is then written the same
    way, if it is not tiny. *)
Theorem c78_score_again nan (v : f32) : is_finite v = true -> exists w, score_text (write_float nan v) w /\
  ((/ 2 ^ 125 <= Rabs (B2R v))%R -> write_float nan w = write_float nan v).
Proof.
  intros F. destruct (Digits.write_float_read nan v F) as (w & T & V & D). exists w. split; [exact T|]. intros B.
  apply (Text.short_form_unique _ _ (Bsign v) (digits 6 (B2R v))); [|now apply c78_score].
  assert (S := T). destruct S as (neg & m & e & D' & Fw & Sw & _).
  destruct (c78_decimal _ _ _ (or_introl (c78_score nan v F))) as (m' & e' & D2 & V2).
  destruct (Digits.decimal_same _ _ _ _ _ _ _ _ _ D2 V2 D' eq_refl) as [<- _].
  rewrite <- D, <- Sw; [now apply c78_score|]. destruct (c78_error (B2R v)) as [E _].
  rewrite <- Digits.tiny. assert (H := Rabs_triang_inv (B2R v) (digits 6 (B2R v))).
  rewrite Rabs_minus_sym in E. assert (P : (0 < / 2 ^ 126)%R) by (apply Rinv_0_lt_compat, pow_lt; lra).
  replace (/ 2 ^ 125)%R with (2 * / 2 ^ 126)%R in B by (field; lra). lra.
Qed.
Print Assumptions c78_score_again.

(** Doubles and their texts: halfway cases, exponents, a carry to a new digit. *)
Example c78_case_text : map (fun q : Z * Z => let (m, e) := q in write_short (lit "nan") (of_decimal 53 1024 false m e))
    [(1, -1); (1000005, -1); (1000015, -1); (9999995, -1); (999999499, -3); (123456, -10); (99999949, -12); (1, 300); (0, 0)] =
  map lit ["0.1"; "100000"; "100002"; "1e+06"; "999999"; "1.23456e-05"; "9.99999e-05"; "1e+300"; "0"]%string.
Proof. vm_compute. reflexivity. Qed.

Example c78_case_scientific : map (fun q : Z * Z => let (m, e) := q in write_scientific (lit "nan") (of_decimal 53 1024 true m e))
    [(1, 0); (3333333333, -10); (99999996, -7); (0, 0)] =
  map lit ["-1.000000e+00"; "-3.333333e-01"; "-1.000000e+01"; "-0.000000e+00"]%string.
Proof. vm_compute. reflexivity. Qed.

(** 0.85 is no float, but it is written as read. *)
Example c78_case_score : exists v, score_text (lit "+8.5E-1") v /\ decimal_text (lit "+8.5E-1") false 85 (-2) /\
  85 < 10 ^ 6 /\ (/ 2 ^ 126 <= Rabs (decimal_value false 85 (-2)))%R /\ write_float (lit "nan") v = lit "0.85".
Proof.
  assert (D : decimal_text (lit "+8.5E-1") false 85 (-2)).
  { exists ["+"%char], (lit "8"), (lit ".5"), (lit "E-1"), (-1). split; [reflexivity|]. split; [constructor|]. split.
    - exists (lit "5"). split; [now right|]. split; [|reflexivity].
      change 85 with (10 * 8 + 5). apply (nm_more ["8"%char]); [apply nm_one|]; split; reflexivity || lia.
    - right. exists "E"%char, ["-"%char], true, ["1"%char], 1. split; [reflexivity|]. split; [now right|].
      split; [constructor|]. split; [|reflexivity]. apply nm_one. split; reflexivity || lia. }
  exists (of_decimal 24 128 false 85 (-2)). split; [|split; [exact D|split; [reflexivity|split; [|vm_compute; reflexivity]]]].
  - assert (C := Reader.of_decimal_correct 24 128 prec32 emax32 false 85 (-2) ltac:(lia)). cbv zeta in C.
    assert (F : is_finite (of_decimal 24 128 false 85 (-2)) = true) by (vm_compute; reflexivity).
    revert C. destruct (Rlt_bool _ _); [|intros H; rewrite H in F; discriminate F]. intros (_ & S & V).
    exists false, 85, (-2). split; [exact D|]. split; [exact F|]. split; [exact S|exact V].
  - unfold decimal_value. cbn [powerRZ]. assert (H : (1 <= 2 ^ 126)%R) by (apply pow_R1_Rle; lra).
    assert (K : (/ 2 ^ 126 <= / 1)%R) by (apply Rinv_le; lra).
    assert (K4 : (/ 2 ^ 126 <= / 2)%R).
    { apply Rinv_le; [lra|]. rewrite <- (pow_1 2) at 1. apply Rle_pow; [lra|lia]. }
    rewrite Rabs_pos_eq; simpl; lra.
Qed.

(** Different doubles may have the same text. *)
Example c78_case_equal : let v := of_decimal 53 1024 false 12345661 (-8) in let v' := of_decimal 53 1024 false 12345669 (-8) in
  is_finite v = true /\ is_finite v' = true /\ B2SF v <> B2SF v' /\ write_short [] v = write_short [] v' /\
  write_scientific [] v <> write_scientific [] v'.
Proof. vm_compute. repeat split; discriminate. Qed.
