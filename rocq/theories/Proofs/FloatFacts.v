(** Facts about IEEE arithmetic, from Flocq. *)
From Coq Require Import ZArith Bool Reals Lra Lia Psatz.
From Flocq Require Import Core BinarySingleNaN Relative.
From Verif.Model Require Import Floats.
Local Open Scope R_scope.

Section Format.
  Context (prec emax : Z) {Hp : Prec_gt_0 prec} {He : Prec_lt_emax prec emax}.
  Notation float := (binary_float prec emax).
  Notation fexp := (SpecFloat.fexp prec emax).
  Notation emin := (SpecFloat.emin prec emax).

  (** The nearest float, without overflow. *)
  Definition rnd (x : R) : R := round radix2 fexp ZnearestE x.
  Definition fmt (x : R) : Prop := generic_format radix2 fexp x.

  Lemma fexp_FLT e : fexp e = FLT_exp emin prec e.
  Proof. reflexivity. Qed.

  #[local] Instance fexp_valid : Valid_exp fexp.
  Proof. apply fexp_correct. exact Hp. Qed.

  #[local] Instance fexp_mono : Monotone_exp fexp.
  Proof. apply fexp_monotone. Qed.

  Lemma rnd_le x y : x <= y -> rnd x <= rnd y.
  Proof. apply round_le; typeclasses eauto. Qed.

  Lemma rnd_id x : fmt x -> rnd x = x.
  Proof. apply round_generic. typeclasses eauto. Qed.

  Lemma rnd_fmt x : fmt (rnd x).
  Proof. apply generic_format_round; typeclasses eauto. Qed.

  Lemma rnd_ge x y : fmt x -> x <= y -> x <= rnd y.
  Proof. apply round_ge_generic; typeclasses eauto. Qed.

  Lemma rnd_le_fmt x y : fmt y -> x <= y -> rnd x <= y.
  Proof. apply round_le_generic; typeclasses eauto. Qed.

  Lemma B2R_fmt (x : float) : fmt (B2R x).
  Proof. apply generic_format_B2R. Qed.

  Lemma fmt_0 : fmt 0.
  Proof. apply generic_format_0. Qed.

  Lemma rnd_0 : rnd 0 = 0.
  Proof. apply rnd_id, fmt_0. Qed.

  Lemma fmt_opp x : fmt x -> fmt (- x).
  Proof. apply generic_format_opp. Qed.

  Lemma rnd_opp x : rnd (- x) = - rnd x.
  Proof. apply round_NE_opp. Qed.

  Lemma emin_val : (emin = 3 - emax - prec)%Z.
  Proof. reflexivity. Qed.

  Lemma fmt_bpow e : (emin <= e)%Z -> fmt (bpow radix2 e).
  Proof.
    intros H. apply generic_format_bpow. rewrite fexp_FLT. unfold FLT_exp.
    assert (0 < prec)%Z by exact Hp. lia.
  Qed.

  Lemma emin_neg : (emin <= 0)%Z.
  Proof.
    rewrite emin_val. assert (0 < prec)%Z by exact Hp. assert (prec < emax)%Z by exact He. lia.
  Qed.

  (** m 2^e with at most [prec] bits. *)
  Lemma fmt_F2R m e : (Z.abs m < 2 ^ prec)%Z -> (emin <= e)%Z -> fmt (IZR m * bpow radix2 e).
  Proof.
    intros Hm Hem. apply (generic_format_FLT radix2 emin prec).
    exists (Float radix2 m e); simpl; auto.
  Qed.

  Lemma fmt_Z z : (Z.abs z <= 2 ^ prec)%Z -> fmt (IZR z).
  Proof.
    intros Hz. assert (E := emin_neg). assert (P : (0 < prec)%Z) by exact Hp.
    destruct (Z.eq_dec (Z.abs z) (2 ^ prec)) as [Ez|Nz].
    - assert (K : fmt (bpow radix2 prec)) by (apply fmt_bpow; lia).
      assert (Kz : bpow radix2 prec = IZR (2 ^ prec)) by (symmetry; apply (IZR_Zpower radix2); lia).
      destruct (Z.abs_eq_or_opp z) as [Hz'|Hz'].
      + rewrite <- Hz', Ez, <- Kz. exact K.
      + replace z with (- (2 ^ prec))%Z by lia. rewrite opp_IZR, <- Kz. apply fmt_opp, K.
    - replace (IZR z) with (IZR z * bpow radix2 0) by (simpl; lra).
      apply fmt_F2R; lia.
  Qed.

  Lemma fmt_1 : fmt 1.
  Proof.
    apply (fmt_Z 1). simpl Z.abs. assert (0 < prec)%Z by exact Hp.
    replace 1%Z with (2 ^ 0)%Z by reflexivity. apply Z.pow_le_mono_r; lia.
  Qed.

  Lemma rnd_nonneg x : 0 <= x -> 0 <= rnd x.
  Proof. intros H. rewrite <- rnd_0. apply rnd_le, H. Qed.

  (** Multiplication by two is exact when there is no underflow. *)
  Lemma rnd_double x : bpow radix2 (emin + prec) <= Rabs x -> rnd (2 * x) = 2 * rnd x.
  Proof.
    intros Hx. assert (Nx : x <> 0).
    { intros ->. rewrite Rabs_R0 in Hx. assert (K := bpow_gt_0 radix2 (emin + prec)). lra. }
    unfold rnd, round, F2R, scaled_mantissa, cexp. simpl.
    assert (M : (mag radix2 (2 * x) = mag radix2 x + 1 :> Z)%Z).
    { rewrite Rmult_comm. replace 2 with (bpow radix2 1) by (simpl; lra).
      apply mag_mult_bpow. exact Nx. }
    assert (G : (emin + prec + 1 <= mag radix2 x)%Z) by (apply mag_ge_bpow; replace (emin + prec + 1 - 1)%Z with (emin + prec)%Z by lia; exact Hx).
    rewrite M, !fexp_FLT. unfold FLT_exp. rewrite !Z.max_l by lia.
    replace (mag radix2 x + 1 - prec)%Z with ((mag radix2 x - prec) + 1)%Z by lia.
    rewrite Z.opp_add_distr, !bpow_plus.
    replace (2 * x * (bpow radix2 (- (mag radix2 x - prec)) * bpow radix2 (- (1))))
      with (x * bpow radix2 (- (mag radix2 x - prec))) by (simpl; lra).
    change (bpow radix2 1) with 2. ring.
  Qed.

  Lemma bpow_2 e : (0 <= e)%Z -> bpow radix2 e = IZR (2 ^ e).
  Proof. intros H. symmetry. apply (IZR_Zpower radix2 e H). Qed.

  (** ** The operations *)

  Lemma ofZ_correct z : (Z.abs z <= 2 ^ (emax - 1))%Z ->
    let f := binary_normalize prec emax Hp He mode_NE z 0 false in
    B2R f = rnd (IZR z) /\ is_finite f = true.
  Proof.
    intros Hz f. assert (0 < prec)%Z by exact Hp. assert (prec < emax)%Z by exact He.
    assert (K := binary_normalize_correct prec emax Hp He mode_NE z 0 false).
    cbv zeta in K.
    replace (F2R (Float radix2 z 0)) with (IZR z) in K
      by (unfold F2R; simpl; lra).
    simpl round_mode in K.
    rewrite Rlt_bool_true in K.
    - destruct K as [K1 [K2 _]]. split; [exact K1|exact K2].
    - apply Rle_lt_trans with (bpow radix2 (emax - 1)); [|apply bpow_lt; lia].
      apply abs_round_le_generic; try typeclasses eauto.
      + apply fmt_bpow. assert (E := emin_neg). lia.
      + rewrite bpow_2 by lia. rewrite <- abs_IZR. apply IZR_le, Hz.
  Qed.

  Lemma ofZ_exact z : (Z.abs z <= 2 ^ prec)%Z ->
    let f := binary_normalize prec emax Hp He mode_NE z 0 false in
    B2R f = IZR z /\ is_finite f = true.
  Proof.
    intros Hz f. assert (0 < prec)%Z by exact Hp. assert (prec < emax)%Z by exact He.
    destruct (ofZ_correct z) as [K1 K2].
    - apply Z.le_trans with (1 := Hz). apply Z.pow_le_mono_r; lia.
    - split; [|exact K2]. unfold f. rewrite K1. apply rnd_id, fmt_Z, Hz.
  Qed.

  Lemma small_no_overflow x e : (emin <= e < emax)%Z -> Rabs x <= bpow radix2 e ->
    Rlt_bool (Rabs (round radix2 fexp (round_mode mode_NE) x)) (bpow radix2 emax) = true.
  Proof.
    intros H Hx. apply Rlt_bool_true.
    apply Rle_lt_trans with (bpow radix2 e); [|apply bpow_lt; lia].
    apply abs_round_le_generic; try typeclasses eauto; auto.
    apply fmt_bpow. lia.
  Qed.

  Lemma plus_correct (x y : float) e : is_finite x = true -> is_finite y = true ->
    (emin <= e < emax)%Z -> Rabs (B2R x + B2R y) <= bpow radix2 e ->
    B2R (Bplus mode_NE x y) = rnd (B2R x + B2R y) /\ is_finite (Bplus mode_NE x y) = true.
  Proof.
    intros Hx Hy Hb H. assert (K := Bplus_correct prec emax Hp He mode_NE x y Hx Hy).
    rewrite (small_no_overflow _ e Hb H) in K. destruct K as [K1 [K2 _]]. auto.
  Qed.

  Lemma minus_correct (x y : float) e : is_finite x = true -> is_finite y = true ->
    (emin <= e < emax)%Z -> Rabs (B2R x - B2R y) <= bpow radix2 e ->
    B2R (Bminus mode_NE x y) = rnd (B2R x - B2R y) /\ is_finite (Bminus mode_NE x y) = true.
  Proof.
    intros Hx Hy Hb H. assert (K := Bminus_correct prec emax Hp He mode_NE x y Hx Hy).
    rewrite (small_no_overflow _ e Hb H) in K. destruct K as [K1 [K2 _]]. auto.
  Qed.

  Lemma mult_correct (x y : float) e : is_finite x = true -> is_finite y = true ->
    (emin <= e < emax)%Z -> Rabs (B2R x * B2R y) <= bpow radix2 e ->
    B2R (Bmult mode_NE x y) = rnd (B2R x * B2R y) /\ is_finite (Bmult mode_NE x y) = true.
  Proof.
    intros Hx Hy Hb H. assert (K := Bmult_correct prec emax Hp He mode_NE x y).
    rewrite (small_no_overflow _ e Hb H) in K. destruct K as [K1 [K2 _]].
    split; auto. rewrite K2, Hx, Hy. reflexivity.
  Qed.

  Lemma div_correct (x y : float) e : is_finite x = true -> is_finite y = true -> B2R y <> 0 ->
    (emin <= e < emax)%Z -> Rabs (B2R x / B2R y) <= bpow radix2 e ->
    B2R (Bdiv mode_NE x y) = rnd (B2R x / B2R y) /\ is_finite (Bdiv mode_NE x y) = true.
  Proof.
    intros Hx Hy Ny Hb H. assert (K := Bdiv_correct prec emax Hp He mode_NE x y Ny).
    rewrite (small_no_overflow _ e Hb H) in K. destruct K as [K1 [K2 _]].
    split; auto. rewrite K2. exact Hx.
  Qed.

  Lemma leb_R (x y : float) : is_finite x = true -> is_finite y = true ->
    (Bleb x y = true <-> B2R x <= B2R y).
  Proof.
    intros Hx Hy. rewrite Bleb_correct by auto.
    destruct (Rle_bool_spec (B2R x) (B2R y)); split; auto; try discriminate. lra.
  Qed.

  Lemma ltb_R (x y : float) : is_finite x = true -> is_finite y = true ->
    (Bltb x y = true <-> B2R x < B2R y).
  Proof.
    intros Hx Hy. rewrite Bltb_correct by auto.
    destruct (Rlt_bool_spec (B2R x) (B2R y)); split; auto; try discriminate. lra.
  Qed.

  Lemma eqb_R (x y : float) : is_finite x = true -> is_finite y = true ->
    (Beqb x y = true <-> B2R x = B2R y).
  Proof.
    intros Hx Hy. rewrite Beqb_correct by auto.
    destruct (Req_bool_spec (B2R x) (B2R y)); split; auto; try discriminate.
  Qed.

  (** The relative error. *)
  Lemma rnd_rel x : bpow radix2 (emin + prec - 1) <= Rabs x ->
    Rabs (rnd x - x) <= / 2 * bpow radix2 (- prec + 1) * Rabs x.
  Proof. apply relative_error_N_FLT. exact Hp. Qed.
End Format.

Arguments rnd prec emax x : clear implicits.
Arguments fmt prec emax x : clear implicits.

Notation rnd32 := (rnd 24 128).
Notation rnd64 := (rnd 53 1024).
Notation fmt32 := (fmt 24 128).
Notation fmt64 := (fmt 53 1024).

Lemma f32_of_Z_correct z : (Z.abs z <= 2 ^ 127)%Z ->
  B2R (f32_of_Z z) = rnd32 (IZR z) /\ is_finite (f32_of_Z z) = true.
Proof. intros H. apply (ofZ_correct 24 128 z H). Qed.

Lemma f32_of_Z_exact z : (Z.abs z <= 2 ^ 24)%Z ->
  B2R (f32_of_Z z) = IZR z /\ is_finite (f32_of_Z z) = true.
Proof. intros H. apply (ofZ_exact 24 128 z H). Qed.

Lemma f64_of_Z_correct z : (Z.abs z <= 2 ^ 1023)%Z ->
  B2R (f64_of_Z z) = rnd64 (IZR z) /\ is_finite (f64_of_Z z) = true.
Proof. intros H. apply (ofZ_correct 53 1024 z H). Qed.

Lemma f64_of_Z_exact z : (Z.abs z <= 2 ^ 53)%Z ->
  B2R (f64_of_Z z) = IZR z /\ is_finite (f64_of_Z z) = true.
Proof. intros H. apply (ofZ_exact 53 1024 z H). Qed.

Lemma f32_1_R : B2R f32_1 = 1 /\ is_finite f32_1 = true.
Proof. apply (f32_of_Z_exact 1). easy. Qed.

Lemma f32_half_R : B2R f32_half = / 2 /\ is_finite f32_half = true.
Proof. split; [|reflexivity]. unfold f32_half. cbv -[IZR Rmult Rinv Rdiv]. lra. Qed.

Lemma f32_ge_R x y : is_finite x = true -> is_finite y = true ->
  (f32_ge x y = true <-> B2R y <= B2R x).
Proof. intros Hx Hy. unfold f32_ge. apply leb_R; auto. Qed.

Lemma f32_lt_R x y : is_finite x = true -> is_finite y = true ->
  (f32_lt x y = true <-> B2R x < B2R y).
Proof. intros Hx Hy. unfold f32_lt. apply ltb_R; auto. Qed.

(** The lemmas at the two formats. *)
Definition rnd32_le := ltac:(first [exact (@rnd_le 24 128 prec32 emax32) | exact (@rnd_le 24 128 prec32) | exact (@rnd_le 24 128)]).
Definition rnd64_le := ltac:(first [exact (@rnd_le 53 1024 prec64 emax64) | exact (@rnd_le 53 1024 prec64) | exact (@rnd_le 53 1024)]).
Definition rnd32_id := ltac:(first [exact (@rnd_id 24 128 prec32 emax32) | exact (@rnd_id 24 128 prec32) | exact (@rnd_id 24 128)]).
Definition rnd64_id := ltac:(first [exact (@rnd_id 53 1024 prec64 emax64) | exact (@rnd_id 53 1024 prec64) | exact (@rnd_id 53 1024)]).
Definition rnd32_fmt32 := ltac:(first [exact (@rnd_fmt 24 128 prec32 emax32) | exact (@rnd_fmt 24 128 prec32) | exact (@rnd_fmt 24 128)]).
Definition rnd64_fmt64 := ltac:(first [exact (@rnd_fmt 53 1024 prec64 emax64) | exact (@rnd_fmt 53 1024 prec64) | exact (@rnd_fmt 53 1024)]).
Definition rnd32_ge := ltac:(first [exact (@rnd_ge 24 128 prec32 emax32) | exact (@rnd_ge 24 128 prec32) | exact (@rnd_ge 24 128)]).
Definition rnd64_ge := ltac:(first [exact (@rnd_ge 53 1024 prec64 emax64) | exact (@rnd_ge 53 1024 prec64) | exact (@rnd_ge 53 1024)]).
Definition rnd32_le_fmt32 := ltac:(first [exact (@rnd_le_fmt 24 128 prec32 emax32) | exact (@rnd_le_fmt 24 128 prec32) | exact (@rnd_le_fmt 24 128)]).
Definition rnd64_le_fmt64 := ltac:(first [exact (@rnd_le_fmt 53 1024 prec64 emax64) | exact (@rnd_le_fmt 53 1024 prec64) | exact (@rnd_le_fmt 53 1024)]).
Definition B2R_fmt32 := ltac:(first [exact (@B2R_fmt 24 128 prec32 emax32) | exact (@B2R_fmt 24 128 prec32) | exact (@B2R_fmt 24 128)]).
Definition B2R_fmt64 := ltac:(first [exact (@B2R_fmt 53 1024 prec64 emax64) | exact (@B2R_fmt 53 1024 prec64) | exact (@B2R_fmt 53 1024)]).
Definition fmt32_0 := ltac:(first [exact (@fmt_0 24 128 prec32 emax32) | exact (@fmt_0 24 128 prec32) | exact (@fmt_0 24 128)]).
Definition fmt64_0 := ltac:(first [exact (@fmt_0 53 1024 prec64 emax64) | exact (@fmt_0 53 1024 prec64) | exact (@fmt_0 53 1024)]).
Definition rnd32_0 := ltac:(first [exact (@rnd_0 24 128 prec32 emax32) | exact (@rnd_0 24 128 prec32) | exact (@rnd_0 24 128)]).
Definition rnd64_0 := ltac:(first [exact (@rnd_0 53 1024 prec64 emax64) | exact (@rnd_0 53 1024 prec64) | exact (@rnd_0 53 1024)]).
Definition fmt32_opp := ltac:(first [exact (@fmt_opp 24 128 prec32 emax32) | exact (@fmt_opp 24 128 prec32) | exact (@fmt_opp 24 128)]).
Definition fmt64_opp := ltac:(first [exact (@fmt_opp 53 1024 prec64 emax64) | exact (@fmt_opp 53 1024 prec64) | exact (@fmt_opp 53 1024)]).
Definition rnd32_opp := ltac:(first [exact (@rnd_opp 24 128 prec32 emax32) | exact (@rnd_opp 24 128 prec32) | exact (@rnd_opp 24 128)]).
Definition rnd64_opp := ltac:(first [exact (@rnd_opp 53 1024 prec64 emax64) | exact (@rnd_opp 53 1024 prec64) | exact (@rnd_opp 53 1024)]).
Definition fmt32_bpow := ltac:(first [exact (@fmt_bpow 24 128 prec32 emax32) | exact (@fmt_bpow 24 128 prec32) | exact (@fmt_bpow 24 128)]).
Definition fmt64_bpow := ltac:(first [exact (@fmt_bpow 53 1024 prec64 emax64) | exact (@fmt_bpow 53 1024 prec64) | exact (@fmt_bpow 53 1024)]).
Definition fmt32_F2R := ltac:(first [exact (@fmt_F2R 24 128 prec32 emax32) | exact (@fmt_F2R 24 128 prec32) | exact (@fmt_F2R 24 128)]).
Definition fmt64_F2R := ltac:(first [exact (@fmt_F2R 53 1024 prec64 emax64) | exact (@fmt_F2R 53 1024 prec64) | exact (@fmt_F2R 53 1024)]).
Definition fmt32_Z := ltac:(first [exact (@fmt_Z 24 128 prec32 emax32) | exact (@fmt_Z 24 128 prec32) | exact (@fmt_Z 24 128)]).
Definition fmt64_Z := ltac:(first [exact (@fmt_Z 53 1024 prec64 emax64) | exact (@fmt_Z 53 1024 prec64) | exact (@fmt_Z 53 1024)]).
Definition fmt32_1 := ltac:(first [exact (@fmt_1 24 128 prec32 emax32) | exact (@fmt_1 24 128 prec32) | exact (@fmt_1 24 128)]).
Definition fmt64_1 := ltac:(first [exact (@fmt_1 53 1024 prec64 emax64) | exact (@fmt_1 53 1024 prec64) | exact (@fmt_1 53 1024)]).
Definition rnd32_nonneg := ltac:(first [exact (@rnd_nonneg 24 128 prec32 emax32) | exact (@rnd_nonneg 24 128 prec32) | exact (@rnd_nonneg 24 128)]).
Definition rnd64_nonneg := ltac:(first [exact (@rnd_nonneg 53 1024 prec64 emax64) | exact (@rnd_nonneg 53 1024 prec64) | exact (@rnd_nonneg 53 1024)]).
Definition rnd32_double := ltac:(first [exact (@rnd_double 24 128 prec32 emax32) | exact (@rnd_double 24 128 prec32) | exact (@rnd_double 24 128)]).
Definition rnd64_double := ltac:(first [exact (@rnd_double 53 1024 prec64 emax64) | exact (@rnd_double 53 1024 prec64) | exact (@rnd_double 53 1024)]).
Definition f32_plus_correct := ltac:(first [exact (@plus_correct 24 128 prec32 emax32) | exact (@plus_correct 24 128 prec32) | exact (@plus_correct 24 128)]).
Definition f64_plus_correct := ltac:(first [exact (@plus_correct 53 1024 prec64 emax64) | exact (@plus_correct 53 1024 prec64) | exact (@plus_correct 53 1024)]).
Definition f32_minus_correct := ltac:(first [exact (@minus_correct 24 128 prec32 emax32) | exact (@minus_correct 24 128 prec32) | exact (@minus_correct 24 128)]).
Definition f64_minus_correct := ltac:(first [exact (@minus_correct 53 1024 prec64 emax64) | exact (@minus_correct 53 1024 prec64) | exact (@minus_correct 53 1024)]).
Definition f32_mult_correct := ltac:(first [exact (@mult_correct 24 128 prec32 emax32) | exact (@mult_correct 24 128 prec32) | exact (@mult_correct 24 128)]).
Definition f64_mult_correct := ltac:(first [exact (@mult_correct 53 1024 prec64 emax64) | exact (@mult_correct 53 1024 prec64) | exact (@mult_correct 53 1024)]).
Definition f32_div_correct := ltac:(first [exact (@div_correct 24 128 prec32 emax32) | exact (@div_correct 24 128 prec32) | exact (@div_correct 24 128)]).
Definition f64_div_correct := ltac:(first [exact (@div_correct 53 1024 prec64 emax64) | exact (@div_correct 53 1024 prec64) | exact (@div_correct 53 1024)]).
Definition rnd32_rel := ltac:(first [exact (@rnd_rel 24 128 prec32 emax32) | exact (@rnd_rel 24 128 prec32) | exact (@rnd_rel 24 128)]).
Definition rnd64_rel := ltac:(first [exact (@rnd_rel 53 1024 prec64 emax64) | exact (@rnd_rel 53 1024 prec64) | exact (@rnd_rel 53 1024)]).
