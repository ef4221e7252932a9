(** Rounding to decimal digits, and reading the text back. *)
From Coq Require Import Ascii String List Bool ZArith Lia Lra Reals.
From Flocq Require Import Core BinarySingleNaN Relative.
From Verif.Model Require Import Cpp Floats Events Stream Output Text.
From Verif.Spec Require Import Reader Text.
From Verif.Proofs Require Import FloatFacts Reader Text.
From Verif.Proofs Require Double.
Import ListNotations.
Local Open Scope Z_scope.

Section Digits.
  Variable p : Z.
  Context (P : Prec_gt_0 p).

  Lemma digits_le x y : (x <= y)%R -> (digits p x <= digits p y)%R.
  Proof. apply round_le; apply FLX_exp_valid || apply valid_rnd_N; assumption. Qed.

  Lemma digits_opp x : digits p (- x) = (- digits p x)%R.
  Proof. apply round_NE_opp. Qed.

  Lemma digits_exact m k : Z.abs m < 10 ^ p -> digits p (IZR m * powerRZ 10 k) = (IZR m * powerRZ 10 k)%R.
  Proof.
    intros M. apply round_generic; [apply valid_rnd_N|]. apply generic_format_FLX. rewrite powerRZ_bp.
    exists (Float radix10 m k); [reflexivity|exact M].
  Qed.

  Lemma digits_error x : (Rabs (digits p x - x) <= / 2 * bp (- p + 1) * Rabs x)%R.
  Proof. apply relative_error_N_FLX. exact P. Qed.

  Lemma digits_format x : generic_format radix10 (FLX_exp p) (digits p x).
  Proof. apply generic_format_round; [now apply FLX_exp_valid|apply valid_rnd_N]. Qed.

  (** A number close to one with p digits. *)
  Lemma digits_near d f : generic_format radix10 (FLX_exp p) d -> (0 < d)%R -> (Rabs (f - d) < d * bp (- p) / 2)%R ->
    digits p f = d.
  Proof.
    intros G D H. apply Rabs_lt_inv in H. set (k := mag radix10 d : Z).
    assert (K := bpow_mag_gt radix10 d). rewrite Rabs_pos_eq in K by lra. fold k in K.
    assert (U : ulp radix10 (FLX_exp p) d = bp (k - p)).
    { rewrite ulp_neq_0 by lra. reflexivity. }
    assert (B : (d * bp (- p) < bp (k - p))%R).
    { unfold Zminus. rewrite bpow_plus. apply Rmult_lt_compat_r; [apply bpow_gt_0|exact K]. }
    assert (V := FLX_exp_valid p). apply Rle_antisym; unfold digits.
    - apply round_N_le_midp; [exact V|exact G|]. rewrite succ_eq_pos by lra. rewrite U. lra.
    - apply round_N_ge_midp; [exact V|exact G|]. rewrite pred_eq_pos by lra. unfold pred_pos. fold k.
      destruct (Req_bool_spec d (bp (k - 1))) as [E|E].
      + change (FLX_exp p (k - 1)) with (k - 1 - p).
        replace (bp (k - 1 - p)) with (d * bp (- p))%R by (rewrite E at 1; rewrite <- bpow_plus; f_equal; lia). lra.
      + rewrite U. lra.
  Qed.
End Digits.

#[local] Instance six : Prec_gt_0 6 := eq_refl.
#[local] Instance seven : Prec_gt_0 7 := eq_refl.

Lemma bp_neg k : 0 <= k -> bp (- k) = (/ IZR (10 ^ k))%R.
Proof. intros K. rewrite bpow_opp, bp_Z by exact K. reflexivity. Qed.

(** ** Six digits survive the conversion to float *)

Lemma nearest_close d : (bpow radix2 (-126) <= Rabs d)%R -> (Rabs (nearest_f32 d - d) <= / 2 * bpow radix2 (-23) * Rabs d)%R.
Proof. intros H. exact (relative_error_N_FLT radix2 (-149) 24 eq_refl (fun x => negb (Z.even x)) d H). Qed.

Lemma six_digits_kept d : generic_format radix10 (FLX_exp 6) d -> (bpow radix2 (-126) <= Rabs d)%R ->
  digits 6 (nearest_f32 d) = d.
Proof.
  assert (W : forall d, generic_format radix10 (FLX_exp 6) d -> (0 < d)%R -> (bpow radix2 (-126) <= d)%R -> digits 6 (nearest_f32 d) = d).
  { clear d. intros d G D M. apply (digits_near 6 six); [exact G|exact D|]. assert (C := nearest_close d). rewrite !Rabs_pos_eq in C by lra.
    specialize (C M). eapply Rle_lt_trans; [exact C|]. rewrite (bp_neg 6) by lia. change (10 ^ 6) with 1000000.
    change (bpow radix2 (-23)) with (/ 8388608)%R. lra. }
  intros G M. assert (B := bpow_gt_0 radix2 (-126)). destruct (Rtotal_order d 0) as [H|[H|H]].
  - rewrite Rabs_left in M by exact H. assert (E := W (- d)%R (generic_format_opp _ _ _ G) ltac:(lra) M).
    unfold nearest_f32 in *. rewrite round_NE_opp, digits_opp in E. lra.
  - subst d. rewrite Rabs_R0 in M. lra.
  - rewrite Rabs_pos_eq in M by lra. now apply W.
Qed.

Lemma decimal_value_format neg m e : 0 <= m < 10 ^ 6 -> generic_format radix10 (FLX_exp 6) (decimal_value neg m e).
Proof.
  intros M. apply generic_format_FLX. exists (Float radix10 (if neg then - m else m) e).
  - unfold F2R, decimal_value. cbn [Fnum Fexp]. rewrite powerRZ_bp. destruct neg; rewrite ?opp_IZR; ring.
  - cbn [Fnum]. destruct neg; rewrite ?Z.abs_opp; rewrite Z.abs_eq by lia; exact (proj2 M).
Qed.

(** ** Reading the text *)

Lemma signed_decimal neg m e : signed neg (IZR m * powerRZ 10 e) = decimal_value neg m e.
Proof. unfold signed, decimal_value. destruct neg; ring. Qed.

Lemma minus_sign neg : sign (minus neg) neg.
Proof. destruct neg; constructor. Qed.

Lemma exponent_text ex x : exponent_form ex x -> exists c s' neg' ds n, ex = c :: s' ++ ds /\ (c = "e"%char \/ c = "E"%char) /\
  sign s' neg' /\ numeral ds n /\ x = if neg' then - n else n.
Proof.
  intros (ds & -> & N & _). exists "e"%char, [if x <? 0 then "-"%char else "+"%char], (x <? 0), ds, (Z.abs x).
  split; [reflexivity|]. split; [now left|]. split; [destruct (x <? 0); constructor|]. split; [exact N|].
  destruct (Z.ltb_spec x 0); lia.
Qed.

Lemma short_form_decimal b neg v : short_form b neg v -> exists m e, decimal_text b neg m e /\ v = decimal_value neg m e.
Proof.
  intros [[_ (ip & fp & f & m & -> & _ & _ & [F _] & N & ->)]|[_ (c & fp & f & m & ex & x & -> & _ & [F _] & X & N & ->)]].
  - exists m, (- Z.of_nat (List.length f)). split; [|apply signed_decimal].
    exists (minus neg), ip, fp, [], 0. split; [now rewrite app_nil_r|]. split; [apply minus_sign|]. split; [|now left].
    exists f. split; [tauto|]. split; [exact N|lia].
  - exists m, (x - Z.of_nat (List.length f)). split; [|apply signed_decimal].
    exists (minus neg), [c], fp, ex, x. split; [reflexivity|]. split; [apply minus_sign|]. split.
    + exists f. split; [tauto|]. split; [exact N|reflexivity].
    + right. destruct (exponent_text ex x X) as (c' & s' & neg' & ds & n & H). now exists c', s', neg', ds, n.
Qed.

Lemma scientific_form_decimal b neg v : scientific_form b neg v -> exists m e, decimal_text b neg m e /\ v = decimal_value neg m e.
Proof.
  intros (c & f & m & ex & x & -> & L & X & _ & N & ->). exists m, (x - 6). split; [|apply signed_decimal].
  exists (minus neg), [c], ("."%char :: f), ex, x. split; [reflexivity|]. split; [apply minus_sign|]. split.
  - exists f. split; [now right|]. split; [exact N|]. rewrite L. reflexivity.
  - right. destruct (exponent_text ex x X) as (c' & s' & neg' & ds & n & H). now exists c', s', neg', ds, n.
Qed.

(** The largest float written with six digits. *)
Lemma digits_f32_max (v : f32) : is_finite v = true -> (Rabs (nearest_f32 (digits 6 (B2R v))) < bpow radix2 128)%R.
Proof.
  intros Fv. set (M := (IZR 340282 * bp 33)%R).
  assert (FM : generic_format radix10 (FLX_exp 6) M).
  { apply generic_format_FLX. exists (Float radix10 340282 33); [reflexivity|reflexivity]. }
  assert (MP : (0 < M)%R) by (apply Rmult_lt_0_compat; [lra|apply bpow_gt_0]).
  assert (Mg : (mag radix10 M : Z) = 39).
  { apply mag_unique_pos. unfold M. change (39 - 1) with (5 + 33). change 39 with (6 + 33). rewrite !bpow_plus.
    assert (B := bpow_gt_0 radix10 33). change (bp 5) with 100000%R. change (bp 6) with 1000000%R. split; nra. }
  set (T := (bpow radix2 128 - bpow radix2 104)%R).
  assert (Bd : (Rabs (B2R v) <= T)%R).
  { exact (abs_B2R_le_emax_minus_prec 24 128 eq_refl v). }
  assert (Big : (bpow radix2 128 - bpow radix2 104 < M + bp 33 / 2)%R).
  { unfold M. rewrite <- (IZR_Zpower radix2) by lia. rewrite <- (IZR_Zpower radix2 104) by lia.
    rewrite <- (bp_Z 33) by lia.
    change (Z.pow radix2 128) with 340282366920938463463374607431768211456.
    change (Z.pow radix2 104) with 20282409603651670423947251286016.
    change (10 ^ 33) with 1000000000000000000000000000000000. lra. }
  assert (Small : (M <= T)%R).
  { unfold M, T. rewrite <- (IZR_Zpower radix2) by lia. rewrite <- (IZR_Zpower radix2 104) by lia.
    rewrite <- (bp_Z 33) by lia.
    change (Z.pow radix2 128) with 340282366920938463463374607431768211456.
    change (Z.pow radix2 104) with 20282409603651670423947251286016.
    change (10 ^ 33) with 1000000000000000000000000000000000. lra. }
  assert (S : (digits 6 T <= M)%R).
  { unfold digits. apply round_N_le_midp; [apply FLX_exp_valid; exact six|exact FM|]. rewrite succ_eq_pos by lra.
    rewrite ulp_neq_0 by lra. unfold cexp. rewrite Mg. change (FLX_exp 6 39) with 33. unfold T. lra. }
  assert (Up : (Rabs (digits 6 (B2R v)) <= T)%R).
  { apply Rabs_le. apply Rabs_le_inv in Bd. destruct Bd as [B1 B2]. split.
    - apply (digits_le 6 six) in B1. rewrite digits_opp in B1. lra.
    - apply (digits_le 6 six) in B2. lra. }
  assert (FT : generic_format radix2 (FLT_exp (-149) 24) T).
  { apply generic_format_FLT. exists (Float radix2 (2 ^ 24 - 1) 104); [|reflexivity|cbn; lia].
    unfold F2R, T. cbn [Fnum Fexp]. rewrite minus_IZR. change (IZR (2 ^ 24)) with (IZR (Z.pow radix2 24)).
    rewrite (IZR_Zpower radix2) by lia. replace (bpow radix2 128) with (bpow radix2 24 * bpow radix2 104)%R by (rewrite <- bpow_plus; reflexivity). ring. }
  apply Rle_lt_trans with T.
  - unfold nearest_f32. apply Rabs_le. apply Rabs_le_inv in Up. split.
    + rewrite <- (round_generic radix2 (FLT_exp (-149) 24) ZnearestE T) by exact FT. rewrite <- round_NE_opp.
      apply round_le; [apply FLT_exp_valid; reflexivity|apply valid_rnd_N|apply Up].
    + rewrite <- (round_generic radix2 (FLT_exp (-149) 24) ZnearestE T) by exact FT.
      apply round_le; [apply FLT_exp_valid; reflexivity|apply valid_rnd_N|apply Up].
  - unfold T. assert (B := bpow_gt_0 radix2 104). lra.
Qed.

Lemma f64_of_f32_sign (x : f32) : is_finite x = true -> Bsign (f64_of_f32 x) = Bsign x.
Proof.
  destruct x as [s|s| |s m e Hb]; try discriminate; intros _; [reflexivity|].
  set (y := B754_finite s m e Hb : f32).
  assert (V : F2R (Float radix2 (cond_Zopp s (Zpos m)) e) = B2R y) by reflexivity.
  generalize (binary_normalize_correct 53 1024 prec64 emax64 mode_NE (cond_Zopp s (Zpos m)) e s).
  assert (Q : round radix2 (SpecFloat.fexp 53 1024) ZnearestE (F2R (Float radix2 (cond_Zopp s (Zpos m)) e)) = B2R y)
    by (rewrite V; exact (rnd64_id _ (Double.fmt32_64 _ (B2R_fmt32 y)))).
  cbv zeta. simpl round_mode. rewrite Q. rewrite Rlt_bool_true.
  - intros [_ [_ H]]. change (f64_of_f32 y) with (binary_normalize 53 1024 prec64 emax64 mode_NE (cond_Zopp s (Zpos m)) e s).
    rewrite H, V. change (Bsign y) with s. destruct s; [rewrite Rcompare_Lt|rewrite Rcompare_Gt]; trivial; unfold y, B2R.
    + now apply F2R_lt_0.
    + now apply F2R_gt_0.
  - eapply Rlt_trans; [apply (abs_B2R_lt_emax 24 128 y)|]. apply bpow_lt. reflexivity.
Qed.

Theorem write_float_spec nan (v : f32) : is_finite v = true -> short_form (write_float nan v) (Bsign v) (digits 6 (B2R v)).
Proof.
  intros F. unfold write_float. destruct (Double.f64_of_f32_exact v F) as [E Fi].
  rewrite <- E, <- (f64_of_f32_sign v F). now apply write_short_spec.
Qed.

(** A score written and read again. *)
Theorem write_float_read nan (v : f32) : is_finite v = true -> exists w, score_text (write_float nan v) w /\
  B2R w = nearest_f32 (digits 6 (B2R v)) /\
  ((bpow radix2 (-126) <= Rabs (digits 6 (B2R v)))%R -> digits 6 (B2R w) = digits 6 (B2R v)).
Proof.
  intros F. destruct (short_form_decimal _ _ _ (write_float_spec nan v F)) as (m & e & D & E).
  assert (M : 0 <= m). { destruct D as (s & ip & fp & ex & x & _ & _ & (f & _ & N & _) & _). exact (numeral_nonneg _ _ N). }
  assert (C := of_decimal_correct 24 128 prec32 emax32 (Bsign v) m e M). cbv zeta in C. rewrite <- E in C.
  assert (L := digits_f32_max v F).
  exists (of_decimal 24 128 (Bsign v) m e). change (round radix2 (SpecFloat.fexp 24 128) ZnearestE (digits 6 (B2R v))) with (nearest_f32 (digits 6 (B2R v))) in C.
  rewrite Rlt_bool_true in C by exact L. destruct C as (F' & S & V).
  split; [|split; [exact V|]].
  - exists (Bsign v), m, e. rewrite <- E. easy.
  - intros B. rewrite V. apply six_digits_kept; [apply digits_format; exact six|exact B].
Qed.

(** ** One text, one number *)

Lemma tiny : (/ 2 ^ 126)%R = bpow radix2 (-126).
Proof. change (-126) with (- (126)). rewrite bpow_opp. f_equal. rewrite <- (IZR_Zpower radix2) by lia. rewrite pow_IZR. reflexivity. Qed.

Lemma decimal_scan b neg m e : decimal_text b neg m e ->
  fst (read_sign b) = neg /\ fa_mant (fst (scan_float (snd (read_sign b)))) = m /\
  fa_exp (fst (scan_float (snd (read_sign b)))) - fa_frac (fst (scan_float (snd (read_sign b)))) = e.
Proof.
  intros (s & ip & fp & xx & k & -> & S & (f & FP & NM & ->) & X). rewrite (read_sign_app s neg _ S).
  - destruct (scan_float_app ip fp f xx k m [] FP NM X) as (a & E & _ & M & Q); [now intros c t|].
    rewrite app_nil_r in E. cbn [fst snd]. rewrite E. auto.
  - apply numeral_iff in NM as (NN & FD & _). destruct ip as [|c ip].
    + destruct FP as [[_ ->]| ->]; [easy|]. simpl. apply head_not_cons. now intros [?|?].
    + simpl. apply head_not_cons. inversion FD; subst. now apply digit_not_sign.
Qed.

Lemma decimal_same b neg m e v neg' m' e' v' : decimal_text b neg m e -> v = decimal_value neg m e ->
  decimal_text b neg' m' e' -> v' = decimal_value neg' m' e' -> neg = neg' /\ v = v'.
Proof.
  intros D -> D' ->. apply decimal_scan in D as (<- & <- & <-). apply decimal_scan in D' as (<- & <- & <-). auto.
Qed.
