(** Precision, recall and AP in binary32. *)
From Coq Require Import List Bool ZArith Reals Lra Lia Sorted.
From Flocq Require Import Core BinarySingleNaN Relative.
From Verif.Model Require Import Cpp Floats Matches Assessment Single.
From Verif.Spec Require Import Order Objects Matching Collapse Metrics Double Single.
From Verif.Proofs Require Import FloatFacts Collapse Metrics.
From Verif.Proofs Require AveragePrecision.
From Verif.Proofs Require Import Double.
Import ListNotations.
Local Open Scope cpp_scope.
Local Open Scope R_scope.

Lemma nearest_rnd32 x : nearest32 x = rnd32 x.
Proof. reflexivity. Qed.

Lemma u32_pos : 0 < u32.
Proof. apply bpow_gt_0. Qed.

Lemma u64_u32 : u64 * IZR (2 ^ 29) = u32.
Proof. unfold u64, u32. change (IZR (2 ^ 29)) with (bpow radix2 29). rewrite <- bpow_plus. reflexivity. Qed.

(** ** Conversion *)

Lemma f32_of_f64_correct (x : f64) e : (-149 <= e < 128)%Z -> is_finite x = true -> Rabs (B2R x) <= bpow radix2 e ->
  is_finite (f32_of_f64 x) = true /\ B2R (f32_of_f64 x) = rnd32 (B2R x).
Proof.
  destruct x as [s|s| |s m ex Hb]; try discriminate; intros He _ H; [split; [reflexivity|cbn; now rewrite rnd32_0]|].
  set (y := B754_finite s m ex Hb : f64) in *.
  assert (V : F2R (Float radix2 (cond_Zopp s (Zpos m)) ex) = B2R y) by reflexivity.
  generalize (binary_normalize_correct 24 128 prec32 emax32 mode_NE (cond_Zopp s (Zpos m)) ex s).
  cbv zeta. simpl round_mode. rewrite V.
  assert (Q := small_no_overflow 24 128 (B2R y) e ltac:(change (SpecFloat.emin 24 128) with (-149)%Z; lia) H). simpl round_mode in Q. rewrite Q.
  intros [H1 [H2 _]]. split; assumption.
Qed.

(** ** Rounding *)

Lemma rnd32_err x e : (-100 <= e)%Z -> Rabs x < bpow radix2 e -> Rabs (rnd32 x - x) <= bpow radix2 (e - 25).
Proof.
  intros He H. destruct (Req_dec x 0) as [->|N].
  - rewrite rnd32_0, Rminus_0_r, Rabs_R0. apply bpow_ge_0.
  - unfold rnd. eapply Rle_trans; [apply error_le_half_ulp; typeclasses eauto|].
    rewrite ulp_neq_0 by exact N. replace (e - 25)%Z with (-1 + (e - 24))%Z by lia.
    rewrite bpow_plus. change (bpow radix2 (-1)) with (/ 2).
    apply Rmult_le_compat_l; [lra|]. apply bpow_le.
    unfold cexp. rewrite fexp_FLT. unfold FLT_exp. change (SpecFloat.emin 24 128) with (-149)%Z.
    assert (M : (mag radix2 x <= e)%Z) by (apply mag_le_bpow; assumption). lia.
Qed.

Lemma rnd32_err1 x : Rabs x <= 1 -> Rabs (rnd32 x - x) <= u32 / 2.
Proof.
  intros H. assert (E : u32 / 2 = bpow radix2 (0 - 25)) by (vm_compute; lra). rewrite E.
  destruct (Req_dec (Rabs x) 1) as [K|K].
  - assert (F : fmt 24 128 x).
    { destruct (Rcase_abs x) as [L|L].
      - rewrite Rabs_left in K by exact L. replace x with (- 1) by lra. apply fmt32_opp, fmt32_1.
      - rewrite Rabs_right in K by exact L. subst x. apply fmt32_1. }
    rewrite (rnd32_id _ F), Rminus_diag_eq, Rabs_R0 by reflexivity. apply bpow_ge_0.
  - apply rnd32_err; [lia|]. simpl. lra.
Qed.

Lemma rnd32_01 x : 0 <= x <= 1 -> 0 <= rnd32 x <= 1.
Proof. intros [A B]. split; [apply rnd32_nonneg, A|apply rnd32_le_fmt32; [apply fmt32_1|exact B]]. Qed.

Lemma rnd32_err_le x k : 1 <= k -> Rabs x <= k -> Rabs (rnd32 x - x) <= k * u32.
Proof.
  intros Hk Hx. assert (U := u32_pos). destruct (Rle_dec (Rabs x) 1) as [K|K].
  - assert (E := rnd32_err1 x K). nra.
  - assert (E := rnd32_rel x). change (SpecFloat.emin 24 128 + 24 - 1)%Z with (-126)%Z in E.
    assert (B : bpow radix2 (-126) <= 1) by (change 1 with (bpow radix2 0); apply bpow_le; lia).
    specialize (E ltac:(lra)). change (- (24) + 1)%Z with (1 + -24)%Z in E.
    rewrite bpow_plus in E. fold u32 in E. change (bpow radix2 1) with 2 in E. nra.
Qed.

(** ** Whole numbers *)

Definition whole32 (x : f32) (z : Z) : Prop := is_finite x = true /\ B2R x = IZR z.

Lemma whole32_nat n : (Z.of_nat n <= 2 ^ 24)%Z -> whole32 (f32_of_Z (Z.of_nat n)) (Z.of_nat n).
Proof. intros H. destruct (f32_of_Z_exact (Z.of_nat n)) as [A B]; [lia|]. split; assumption. Qed.

Lemma bpow_30 : bpow radix2 30 = IZR (2 ^ 30).
Proof. reflexivity. Qed.

Lemma whole32_add x y a b : whole32 x a -> whole32 y b -> (0 <= a)%Z -> (0 <= b)%Z -> (a + b <= 2 ^ 24)%Z ->
  whole32 (f32_add x y) (a + b).
Proof.
  intros [Fx Vx] [Fy Vy] Ha Hb H. destruct (f32_plus_correct x y 30) as [A B]; auto.
  - split; [vm_compute; discriminate|reflexivity].
  - rewrite Vx, Vy, <- plus_IZR, bpow_30, <- abs_IZR. apply IZR_le. lia.
  - split; [exact B|]. unfold f32_add. rewrite A, Vx, Vy, <- plus_IZR. apply rnd32_id, fmt32_Z. lia.
Qed.

Lemma whole32_sub x y a b : whole32 x a -> whole32 y b -> (0 <= b <= a)%Z -> (a <= 2 ^ 24)%Z ->
  whole32 (f32_sub x y) (a - b).
Proof.
  intros [Fx Vx] [Fy Vy] Ha H. destruct (f32_minus_correct x y 30) as [A B]; auto.
  - split; [vm_compute; discriminate|reflexivity].
  - rewrite Vx, Vy, <- minus_IZR, bpow_30, <- abs_IZR. apply IZR_le. lia.
  - split; [exact B|]. unfold f32_sub. rewrite A, Vx, Vy, <- minus_IZR. apply rnd32_id, fmt32_Z. lia.
Qed.

Lemma div01_32 x y : is_finite x = true -> is_finite y = true -> 0 <= B2R x <= B2R y -> 0 < B2R y ->
  is_finite (f32_div x y) = true /\ B2R (f32_div x y) = rnd32 (B2R x / B2R y).
Proof.
  intros Fx Fy H P. assert (Q := ratio01 _ _ H P). destruct Q as [Q1 Q2].
  destruct (f32_div_correct x y 0) as [A B]; auto; try lra.
  - split; [vm_compute; discriminate|reflexivity].
  - simpl. rewrite Rabs_right; lra.
Qed.

(** ** Precision and recall *)

Definition sprec_ok (d : f32) (r : R) : Prop :=
  is_finite d = true /\ 0 <= B2R d <= 1 /\ Rabs (B2R d - r) <= u32 /\ 0 <= r <= 1.

Definition srec_ok (d : f32) (r : R) : Prop :=
  is_finite d = true /\ B2R d = rnd32 r /\ 0 <= r <= 1.

(** The difference from 1 of a float that is not too small is a double. *)
Lemma sub_exact q : fmt32 q -> (q = 0 \/ bpow radix2 (-24) <= q) -> q <= 1 -> fmt64 (1 - q).
Proof.
  intros F [->|L] U; [rewrite Rminus_0_r; apply fmt64_1|].
  assert (C : (-47 <= cexp radix2 (SpecFloat.fexp 24 128) q)%Z).
  { unfold cexp. rewrite fexp_FLT. unfold FLT_exp. change (SpecFloat.emin 24 128) with (-149)%Z.
    assert (M : (-23 <= mag radix2 q)%Z).
    { apply mag_ge_bpow. rewrite Rabs_right; [exact L|]. apply Rle_ge, (Rle_trans _ _ _ (bpow_ge_0 radix2 (-24)) L). }
    lia. }
  unfold fmt, generic_format in F. set (e := cexp radix2 (SpecFloat.fexp 24 128) q) in *.
  set (m := Ztrunc (scaled_mantissa radix2 (SpecFloat.fexp 24 128) q)) in *. unfold F2R in F. cbn [Fnum Fexp] in F.
  assert (E : 1 - q = IZR (2 ^ 47 - m * 2 ^ (e + 47)) * bpow radix2 (-47)).
  { rewrite minus_IZR, mult_IZR. change (2 ^ (e + 47))%Z with (radix2 ^ (e + 47))%Z. rewrite (IZR_Zpower radix2 (e + 47)) by lia.
    change (IZR (2 ^ 47)) with (bpow radix2 47). rewrite Rmult_minus_distr_r, <- bpow_plus, Rmult_assoc, <- bpow_plus.
    replace (e + 47 + -47)%Z with e by lia. rewrite <- F. reflexivity. }
  rewrite E. apply fmt64_F2R; [|vm_compute; discriminate].
  assert (B : 0 <= 1 - q <= 1) by (split; [lra|]; assert (P := bpow_ge_0 radix2 (-24)); lra).
  rewrite E in B. assert (P : 0 < bpow radix2 (-47)) by apply bpow_gt_0.
  assert (P1 : bpow radix2 47 * bpow radix2 (-47) = 1) by (rewrite <- bpow_plus; reflexivity).
  destruct B as [B1 B2]. assert (Z1 : (0 <= 2 ^ 47 - m * 2 ^ (e + 47))%Z) by (apply le_IZR; nra).
  assert (Z2 : (2 ^ 47 - m * 2 ^ (e + 47) <= 2 ^ 47)%Z) by (apply le_IZR; apply Rmult_le_reg_r with (1 := P); change (IZR (2 ^ 47)) with (bpow radix2 47); rewrite P1; exact B2).
  rewrite Z.abs_eq by exact Z1. eapply Z.le_lt_trans; [exact Z2|reflexivity].
Qed.

Lemma single_precision_ok n fp P : (Z.of_nat n <= 2 ^ 24)%Z -> whole32 fp P -> (0 <= P <= Z.of_nat n)%Z ->
  sprec_ok (single_precision n fp) (precision_of RArith n (IZR P)).
Proof.
  intros Hn [Ff Vf] HP. unfold single_precision, precision_of. assert (U := u32_pos).
  destruct (Nat.ltb_spec 0 n) as [K|K].
  - ar. destruct (whole32_nat n Hn) as [Fn Vn].
    assert (N0 : 0 < IZR (Z.of_nat n)) by (apply IZR_lt; lia).
    assert (R1 : 0 <= IZR P <= IZR (Z.of_nat n)) by (split; apply IZR_le; lia).
    destruct (div01_32 fp (f32_of_Z (Z.of_nat n))) as [A B]; auto; try (rewrite ?Vf, ?Vn; assumption).
    rewrite Vf, Vn in B. assert (Q := ratio01 _ _ R1 N0). unfold in01 in Q.
    assert (Q' := rnd32_01 _ Q). rewrite <- B in Q'. rewrite INR_IZR_INZ.
    destruct (f64_of_f32_exact _ A) as [V1 F1]. rewrite <- V1 in Q'.
    destruct (sub01 _ F1 Q') as [C D].
    assert (X : fmt64 (1 - B2R (f64_of_f32 (f32_div fp (f32_of_Z (Z.of_nat n)))))).
    { rewrite V1. apply sub_exact; [apply B2R_fmt32| |rewrite <- V1; lra].
      destruct (Z.eq_dec P 0) as [->|NP]; [left; rewrite B; unfold Rdiv; rewrite Rmult_0_l; apply rnd32_0|right].
      rewrite B. apply rnd32_ge; [apply fmt32_bpow; vm_compute; discriminate|].
      apply Rmult_le_reg_r with (IZR (Z.of_nat n)); [exact N0|]. unfold Rdiv. rewrite Rmult_assoc, Rinv_l, Rmult_1_r by lra.
      assert (N1 : IZR (Z.of_nat n) <= IZR (2 ^ 24)) by (apply IZR_le, Hn). assert (P1 : 1 <= IZR P) by (apply IZR_le; lia).
      assert (B1 : bpow radix2 (-24) * IZR (2 ^ 24) = 1) by (change (IZR (2 ^ 24)) with (bpow radix2 24); rewrite <- bpow_plus; reflexivity).
      assert (B2 := bpow_gt_0 radix2 (-24)). nra. }
    rewrite (rnd64_id _ X), V1 in D.
    destruct (f32_of_f64_correct _ 0 ltac:(lia) C) as [F2 V2]; [rewrite D; simpl bpow; rewrite <- V1; apply Rabs_le; lra|].
    split; [exact F2|]. rewrite V2, D. rewrite V1 in Q'. split; [apply rnd32_01; lra|].
    split; [|lra].
    assert (E1 := rnd32_err1 (IZR P / IZR (Z.of_nat n))). rewrite <- B in E1.
    assert (E2 := rnd32_err1 (1 - B2R (f32_div fp (f32_of_Z (Z.of_nat n))))).
    unfold Rabs in *. repeat (destruct Rcase_abs in *); lra.
  - ar. destruct one64 as [F1 V1].
    destruct (f32_of_f64_correct _ 0 ltac:(lia) F1) as [F2 V2]; [rewrite V1; simpl bpow; apply Rabs_le; lra|].
    split; [exact F2|]. rewrite V2, V1, (rnd32_id 1 fmt32_1). split; [lra|]. split; [|lra].
    rewrite Rminus_diag_eq, Rabs_R0 by reflexivity. lra.
Qed.

Lemma single_recall_ok TR nr fn N : (Z.of_nat TR <= 2 ^ 24)%Z -> whole32 fn N -> (0 <= N <= Z.of_nat nr)%Z ->
  (nr <= TR)%nat -> srec_ok (recall_of FArith TR nr fn) (recall_of RArith TR nr (IZR N)).
Proof.
  intros Hn Wf HN Hr. unfold recall_of.
  destruct (Nat.ltb_spec 0 TR) as [K|K].
  - cbn [FArith RArith num a_nat a_sub a_div]. destruct (whole32_nat TR Hn) as [Ft Vt].
    destruct (whole32_sub (f32_of_Z (Z.of_nat nr)) fn (Z.of_nat nr) N) as [Fd Vd]; auto; try lia.
    { apply whole32_nat. lia. }
    assert (N0 : 0 < IZR (Z.of_nat TR)) by (apply IZR_lt; lia).
    assert (R1 : 0 <= IZR (Z.of_nat nr - N) <= IZR (Z.of_nat TR)) by (split; apply IZR_le; lia).
    destruct (div01_32 (f32_sub (f32_of_Z (Z.of_nat nr)) fn) (f32_of_Z (Z.of_nat TR))) as [A B]; auto;
      try (rewrite ?Vd, ?Vt; assumption).
    rewrite Vd, Vt in B. rewrite !INR_IZR_INZ. split; [exact A|].
    rewrite B, minus_IZR. split; [reflexivity|]. rewrite <- minus_IZR. apply ratio01; assumption.
  - unfold a1. cbn [FArith RArith num a_nat]. change (INR 1) with 1. destruct (whole32_nat 1 ltac:(vm_compute; discriminate)) as [F1 V1].
    split; [exact F1|]. change (IZR (Z.of_nat 1)) with 1 in V1. rewrite V1, (rnd32_id 1 fmt32_1). split; [reflexivity|lra].
Qed.

Lemma single_loop_ok TR errors : (Z.of_nat TR <= 2 ^ 24)%Z -> forall nr nh fp fn P N,
  (forall c, In c errors -> whole c) ->
  whole32 fp P -> whole32 fn N -> (0 <= P <= Z.of_nat nh)%Z -> (0 <= N <= Z.of_nat nr)%Z ->
  (Z.of_nat (nh + hypotheses errors) <= 2 ^ 24)%Z -> (nr + references errors <= TR)%nat ->
  Forall2 (fun d r => sprec_ok (fst d) (fst r) /\ srec_ok (snd d) (snd r))
    (single_loop TR nr nh fp fn errors) (pr_loop RArith TR nr nh (IZR P) (IZR N) errors).
Proof.
  intros HT. induction errors as [|c t IH]; intros nr nh fp fn P N W Wp Wn HP HN Hh Hr; simpl; [constructor|].
  destruct (W c (or_introl eq_refl)) as [p [n [F1 [V1 [F2 [V2 [B1 B2]]]]]]].
  change (hypotheses (c :: t)) with (ec_nh c + hypotheses t)%nat in Hh.
  change (references (c :: t)) with (ec_nr c + references t)%nat in Hr.
  assert (Wp' : whole32 (f32_add fp (ec_fp c)) (P + p)) by (apply whole32_add; auto; try lia; split; assumption).
  assert (Wn' : whole32 (f32_add fn (ec_fn c)) (N + n)) by (apply whole32_add; auto; try lia; split; assumption).
  rewrite V1, V2, <- !plus_IZR. constructor.
  - split; [apply single_precision_ok|apply single_recall_ok]; auto; simpl; try lia.
  - apply IH; auto; simpl; try lia. intros; apply W; simpl; auto.
Qed.

Lemma single_pr_ok errors interpolate : (forall c, In c errors -> whole c) ->
  (Z.of_nat (hypotheses errors) <= 2 ^ 24)%Z -> (Z.of_nat (references errors) <= 2 ^ 24)%Z ->
  Forall2 sprec_ok (fst (single_curves errors false)) (fst (precision_recall RArith errors false)) /\
  Forall2 srec_ok (snd (single_curves errors interpolate)) (snd (precision_recall RArith errors interpolate)).
Proof.
  intros W Hh Hr. unfold precision_recall, single_curves. rewrite total_refs. simpl fst. simpl snd.
  assert (L := single_loop_ok (references errors) errors Hr 0 0 f32_0 f32_0 0 0 W).
  change (a0 RArith) with (IZR 0).
  assert (Z0 : whole32 f32_0 0) by (split; reflexivity).
  specialize (L Z0 Z0). simpl in L. specialize (L ltac:(lia) ltac:(lia) Hh ltac:(lia)).
  revert L. generalize (single_loop (references errors) 0 0 f32_0 f32_0 errors).
  generalize (pr_loop RArith (references errors) 0 0 (IZR 0) (IZR 0) errors).
  intros a b F. induction F as [|x y ? ? [A B] F [I1 I2]]; simpl; split; constructor; auto.
Qed.

(** ** Interpolation *)

Lemma max_F a b x y : sprec_ok a x -> sprec_ok b y -> sprec_ok (a_max FArith a b) (a_max RArith x y).
Proof.
  intros [Fa [Ba [Ea Xa]]] [Fb [Bb [Eb Xb]]]. unfold a_max. simpl.
  assert (L := ltb_R 24 128 a b Fa Fb). unfold f32_lt.
  destruct (Bltb a b) eqn:E; destruct (Rlt_dec x y) as [K|K].
  - split; auto.
  - split; [auto|]. split; [auto|]. split; [|auto]. apply proj1 in L. specialize (L eq_refl).
    unfold Rabs in *. repeat (destruct Rcase_abs in *); lra.
  - split; [auto|]. split; [auto|]. split; [|auto].
    assert (~ B2R a < B2R b) by (intros Q; apply L in Q; congruence).
    unfold Rabs in *. repeat (destruct Rcase_abs in *); lra.
  - split; auto.
Qed.

Lemma interp_F a x : Forall2 sprec_ok a x -> Forall2 sprec_ok (interp FArith a) (interp RArith x).
Proof.
  induction 1 as [|d r a x H F IH]; simpl; [constructor|].
  inversion IH as [E1 E2|d' r' a' x' H' F' E1 E2]; [auto|].
  constructor; [apply max_F; auto|]. constructor; auto.
Qed.

Lemma single_pr_all errors interpolate pr rc pr' rc' : (forall c, In c errors -> whole c) ->
  (Z.of_nat (hypotheses errors) <= 2 ^ 24)%Z -> (Z.of_nat (references errors) <= 2 ^ 24)%Z ->
  single_curves errors interpolate = (pr, rc) ->
  precision_recall RArith errors interpolate = (pr', rc') ->
  Forall2 sprec_ok pr pr' /\ Forall2 srec_ok rc rc'.
Proof.
  intros W Hh Hr E E'. destruct (single_pr_ok errors interpolate W Hh Hr) as [A B].
  rewrite E, E' in B. split; [|exact B].
  unfold precision_recall, single_curves in *. simpl in A.
  injection E; intros _ <-. injection E'; intros _ <-.
  destruct interpolate; [apply interp_F; exact A|exact A].
Qed.

Lemma single_matches RE HE (score : HE -> f32) (l : list (match_t RE HE)) c i pr rc pr' rc' :
  (forall m, In m l -> zero_one (m_err m)) -> (Z.of_nat (length l) <= 2 ^ 24)%Z ->
  single_curves (points score c l) i = (pr, rc) ->
  precision_recall_matches RArith score l c i = (pr', rc') ->
  Forall2 sprec_ok pr pr' /\ Forall2 srec_ok rc rc'.
Proof.
  intros H L. unfold precision_recall_matches.
  destruct (points_totals score c l) as [E1 E2]. destruct (hyps_le l).
  apply single_pr_all; [apply points_whole, H|rewrite E1; lia|rewrite E2; lia].
Qed.

(** ** Average precision *)

Definition sclose (e : R) (d : f32) (r : R) : Prop :=
  is_finite d = true /\ 0 <= B2R d <= 1 /\ Rabs (B2R d - r) <= e /\ 0 <= r <= 1.

Lemma srec_close d r : srec_ok d r -> sclose u32 d r.
Proof.
  intros [F [V B]]. assert (E := rnd32_err1 r). assert (U := u32_pos). split; [exact F|]. rewrite V.
  split; [apply rnd32_01, B|]. split; [|exact B]. rewrite Rabs_right in E by lra. specialize (E ltac:(lra)). lra.
Qed.

Lemma single_height_ok trap q y p x :
  match q, y with Some d, Some r => sclose u32 d r | None, None => True | _, _ => False end ->
  sclose u32 p x -> near01 (3 * u32) (single_height trap q p) (height RArith trap y x).
Proof.
  intros Q P. assert (U := u32_pos).
  assert (P' : near01 (3 * u32) (f64_of_f32 p) x).
  { destruct P as (F & B & E & X). destruct (f64_of_f32_exact p F) as [V F']. split; [exact F'|]. rewrite V. split; [exact B|]. split; [lra|exact X]. }
  destruct q as [q|], y as [y|]; try contradiction; [|exact P'].
  unfold height, single_height. destruct trap; [|exact P']. ar.
  destruct P as [Fp [Bp [Ep Xp]]], Q as [Fq [Bq [Eq Xq]]].
  destruct (f32_plus_correct p q 1) as [V1 F1]; auto; [exps|simpl bpow; rewrite Rabs_right; lra|].
  fold (f32_add p q) in V1, F1.
  assert (E1 : Rabs (rnd32 (B2R p + B2R q) - (B2R p + B2R q)) <= 2 * u32)
    by (apply rnd32_err_le; [lra|rewrite Rabs_right; lra]).
  assert (B1 : 0 <= rnd32 (B2R p + B2R q) <= 2).
  { split; [apply rnd32_nonneg; lra|]. apply rnd32_le_fmt32; [|lra]. apply (fmt32_Z 2). vm_compute. discriminate. }
  rewrite <- V1 in E1, B1. destruct (f64_of_f32_exact _ F1) as [V3 F3]. rewrite <- V3 in E1, B1. destruct half64 as [Fh Vh].
  destruct (f64_mult_correct f64_half (f64_of_f32 (f32_add p q)) 0) as [V2 F2]; auto; [exps|simpl bpow; rewrite Vh, Rabs_right; lra|].
  fold (f64_mul f64_half (f64_of_f32 (f32_add p q))) in V2, F2. rewrite Vh in V2.
  split; [exact F2|]. rewrite V2. split; [apply rnd64_01; lra|]. split; [|lra].
  assert (E2 := rnd64_err1 (/ 2 * B2R (f64_of_f32 (f32_add p q)))). rewrite Rabs_right in E2 by lra. specialize (E2 ltac:(lra)).
  assert (U64 := u64_u32). assert (W := u64_pos). change (IZR (2 ^ 29)) with 536870912 in U64.
  unfold Rabs in *. repeat (destruct Rcase_abs in *); lra.
Qed.

Definition ssum (k : nat) (d : f32) (r : R) : Prop :=
  is_finite d = true /\ 0 <= B2R d <= INR k /\
  Rabs (B2R d - r) <= INR k * (INR k + 11) / 2 * u32 /\ 0 <= r <= INR k.

Lemma ssum_step k s t h y rd r : (Z.of_nat (S k) <= 2 ^ 24)%Z -> ssum k s t ->
  sclose u32 rd r -> near01 (3 * u32) h y -> ssum (S k) (single_step s rd h) (t + r * y).
Proof.
  intros Hk [Fs [Bs [Es Xs]]] [Fr [Br [Er Xr]]] [Fh [Bh [Eh Xh]]].
  assert (U := u32_pos). assert (W := u64_pos). unfold single_step.
  destruct (f64_of_f32_exact s Fs) as [Vs Gs]. destruct (f64_of_f32_exact rd Fr) as [Vr Gr].
  rewrite <- Vs in Bs, Es. rewrite <- Vr in Br, Er.
  set (s' := f64_of_f32 s) in *. set (r' := f64_of_f32 rd) in *. clearbody s' r'.
  assert (P01 : 0 <= B2R r' * B2R h <= 1) by nra. assert (Q01 : 0 <= r * y <= 1) by nra.
  destruct (f64_mult_correct r' h 0) as [V1 F1]; auto; [exps|simpl bpow; rewrite Rabs_right; lra|].
  fold (f64_mul r' h) in V1, F1.
  assert (E1 := rnd64_err1 (B2R r' * B2R h)). rewrite Rabs_right in E1 by lra. specialize (E1 ltac:(lra)).
  assert (M1 := rnd64_01 _ P01). rewrite <- V1 in E1, M1.
  assert (U3 : 0 <= 3 * u32) by lra.
  assert (G := prod_near (B2R r') r (B2R h) y _ _ (Rlt_le _ _ U) U3 Er Eh Br Xh).
  assert (K0 := pos_INR k). unfold ssum. rewrite S_INR.
  assert (Kb : INR k + 1 <= IZR (2 ^ 24)).
  { rewrite <- S_INR, INR_IZR_INZ. apply IZR_le, Hk. }
  assert (Kc : IZR (2 ^ 24) <= bpow radix2 53) by (change (bpow radix2 53) with (IZR (2 ^ 53)); apply IZR_le; lia).
  destruct (f64_plus_correct s' (f64_mul r' h) 53) as [V2 F2]; auto; [exps|rewrite Rabs_right; lra|].
  fold (f64_add s' (f64_mul r' h)) in V2, F2.
  assert (E2 := rnd64_err_le (B2R s' + B2R (f64_mul r' h)) (INR k + 1) ltac:(lra)).
  rewrite Rabs_right in E2 by lra. specialize (E2 ltac:(lra)).
  assert (N1 : 0 <= rnd64 (B2R s' + B2R (f64_mul r' h))) by (apply rnd64_nonneg; lra).
  assert (N2 : rnd64 (B2R s' + B2R (f64_mul r' h)) <= INR k + 1).
  { apply rnd64_le_fmt64; [|lra]. rewrite <- S_INR, INR_IZR_INZ. apply fmt64_Z. lia. }
  rewrite <- V2 in E2, N1, N2. clear V2. set (a := f64_add s' (f64_mul r' h)) in *. clearbody a.
  destruct (f32_of_f64_correct a 24 ltac:(lia) F2) as [F3 V3].
  { rewrite Rabs_right by lra. change (bpow radix2 24) with (IZR (2 ^ 24)). lra. }
  assert (E3 := rnd32_err_le (B2R a) (INR k + 1) ltac:(lra)). rewrite Rabs_right in E3 by lra. specialize (E3 N2).
  split; [exact F3|]. rewrite V3. split; [split|split].
  - apply rnd32_nonneg. lra.
  - apply rnd32_le_fmt32; [|lra]. rewrite <- S_INR, INR_IZR_INZ. apply fmt32_Z. lia.
  - assert (T : (INR k + 1) * u64 + u64 / 2 <= u32).
    { assert (U64 := u64_u32). change (IZR (2 ^ 29)) with 536870912 in U64. change (IZR (2 ^ 24)) with 16777216 in Kb. nra. }
    replace ((INR k + 1) * (INR k + 1 + 11) / 2 * u32)
      with (INR k * (INR k + 11) / 2 * u32 + (INR k + 6) * u32) by field.
    replace ((INR k + 6) * u32) with ((INR k + 1) * u32 + 5 * u32) by ring.
    clear Hk Kb Kc U3. unfold Rabs in *. repeat (destruct Rcase_abs in *); lra.
  - lra.
Qed.

Lemma single_ap1_ok trap : forall pr pr', Forall2 sprec_ok pr pr' -> forall rc rc', Forall2 srec_ok rc rc' ->
  length pr = length rc -> forall k q y s t,
  match q, y with Some d, Some r => sclose u32 d r | None, None => True | _, _ => False end ->
  (Z.of_nat (k + length pr) <= 2 ^ 24)%Z -> ssum k s t ->
  ssum (k + length pr) (single_ap1 trap q s pr rc) (ap1_loop RArith trap y t pr' rc').
Proof.
  induction 1 as [|p p' pr pr' H F IH]; intros rc rc' G L k q y s t Q B S; simpl.
  - rewrite Nat.add_0_r. destruct rc, rc'; exact S.
  - inversion G as [|r r' rt rt' Hr Gr]; subst; [discriminate|].
    simpl in L, B. injection L as L. simpl.
    replace (k + Datatypes.S (length pr))%nat with (Datatypes.S k + length pr)%nat by lia.
    apply IH; auto; try lia; try exact H.
    apply ssum_step; auto; [lia|apply srec_close, Hr|]. apply (single_height_ok trap q y); auto.
Qed.

Lemma single_ap2_ok trap : forall pr pr', Forall2 sprec_ok pr pr' -> forall rc rc', Forall2 srec_ok rc rc' ->
  length pr = length rc -> forall k q y v w s t, sprec_ok q y -> srec_ok v w ->
  (Z.of_nat (k + length pr) <= 2 ^ 24)%Z -> ssum k s t ->
  ssum (k + length pr) (single_ap2 trap q v s pr rc) (ap2_loop RArith trap y w t pr' rc').
Proof.
  induction 1 as [|p p' pr pr' H F IH]; intros rc rc' G L k q y v w s t Q W B S; simpl.
  - rewrite Nat.add_0_r. destruct rc, rc'; exact S.
  - inversion G as [|r r' rt rt' Hr Gr]; subst; [discriminate|].
    simpl in L, B. injection L as L. simpl.
    replace (k + Datatypes.S (length pr))%nat with (Datatypes.S k + length pr)%nat by lia.
    apply IH; auto; try lia.
    apply ssum_step; auto; [lia|apply srec_close, W|]. apply (single_height_ok trap (Some q) (Some y)); auto.
Qed.

Lemma ssum_0 : ssum 0 f32_0 (a0 RArith).
Proof.
  split; [reflexivity|]. change (B2R f32_0) with 0. simpl. split; [lra|]. split; [|lra].
  rewrite Rminus_0_r, Rabs_R0. lra.
Qed.

Lemma ssum_sub n a x b y : (Z.of_nat (S n) <= 2 ^ 24)%Z -> ssum (S n) a x -> ssum n b y ->
  is_finite (f32_sub a b) = true /\
  Rabs (B2R (f32_sub a b) - (x - y)) <= INR (S n) * (INR (S n) + 12) * u32.
Proof.
  intros Hn [Fa [Ba [Ea Xa]]] [Fb [Bb [Eb Xb]]]. assert (U := u32_pos).
  rewrite S_INR in *. assert (K0 := pos_INR n).
  assert (Kb : INR n + 1 <= bpow radix2 24).
  { rewrite <- S_INR, INR_IZR_INZ. change (bpow radix2 24) with (IZR (2 ^ 24)). apply IZR_le, Hn. }
  assert (A : Rabs (B2R a - B2R b) <= INR n + 1) by (apply Rabs_le; lra).
  destruct (f32_minus_correct a b 24) as [V1 F1]; auto; [exps|lra|].
  fold (f32_sub a b) in V1, F1. split; [exact F1|]. rewrite V1.
  assert (E1 := rnd32_err_le _ (INR n + 1) ltac:(lra) A).
  assert (Z : INR n * (INR n + 11) / 2 * u32 + (INR n + 1) * (INR n + 1 + 11) / 2 * u32 + (INR n + 1) * u32
    <= (INR n + 1) * (INR n + 1 + 12) * u32).
  { assert (0 <= INR n * u32) by nra. nra. }
  unfold Rabs in *. repeat (destruct Rcase_abs in *); lra.
Qed.

Lemma single_ap_ok pr pr' rc rc' trap : Forall2 sprec_ok pr pr' -> Forall2 srec_ok rc rc' -> length pr = length rc ->
  (Z.of_nat (length pr) <= 2 ^ 24)%Z ->
  exists a x, single_ap pr rc trap = Ok a /\ ap_curves RArith pr' rc' trap = Ok x /\
    is_finite a = true /\ Rabs (B2R a - x) <= INR (length pr) * (INR (length pr) + 12) * u32.
Proof.
  intros Hp Hr L B. unfold ap_curves, single_ap. assert (Lp := Forall2_length _ _ _ Hp). assert (Lr := Forall2_length _ _ _ Hr).
  assert (Q1 : Nat.eqb (length pr) (length rc) = true) by (apply Nat.eqb_eq; exact L).
  assert (Q2 : Nat.eqb (@length (num RArith) pr') (@length (num RArith) rc') = true)
    by (apply Nat.eqb_eq; transitivity (length pr); [symmetry; exact Lp|transitivity (length rc); assumption]).
  rewrite Q1, Q2. clear Q1 Q2.
  eexists _, _. split; [reflexivity|]. split; [reflexivity|].
  assert (S1 := single_ap1_ok trap pr pr' Hp rc rc' Hr L 0 None None f32_0 (a0 RArith) I B ssum_0). simpl plus in S1.
  destruct Hp as [|p p' pr pr' H Hp].
  - destruct rc; [|discriminate]. inversion Hr; subst. split; [reflexivity|].
    replace (B2R _) with 0 by reflexivity. simpl. rewrite Rminus_0_r, Rminus_0_r, Rabs_R0. lra.
  - destruct Hr as [|r r' rc rc' H' Hr]; [discriminate|].
    simpl in L. injection L as L. simpl length in *.
    assert (S2 := single_ap2_ok trap pr pr' Hp rc rc' Hr L 0 p p' r r' f32_0 (a0 RArith) H H' ltac:(lia) ssum_0).
    simpl plus in S2. apply ssum_sub; auto.
Qed.

Lemma single_lengths errors i pr rc : single_curves errors i = (pr, rc) ->
  length pr = length errors /\ length rc = length errors.
Proof.
  unfold single_curves. intros E. injection E as <- <-.
  assert (K : forall n nr nh fp fn, length (single_loop n nr nh fp fn errors) = length errors).
  { intros n. induction errors as [|c t IH]; intros; simpl; auto. }
  assert (Li : forall l : list f32, length (interp FArith l) = length l) by exact (interp_length FArith).
  destruct i; rewrite ?Li, !map_length, !K; auto.
Qed.

Lemma single_error RE HE (score : HE -> f32) (l : list (match_t RE HE)) c i pr rc pr' rc' :
  (forall m, In m l -> zero_one (m_err m)) -> (Z.of_nat (length l) <= 2 ^ 24)%Z ->
  single_curves (points score c l) i = (pr, rc) ->
  precision_recall_matches RArith score l c i = (pr', rc') ->
  Forall2 (close32 u32) pr pr' /\ Forall2 (fun d r => is_single d (nearest32 r)) rc rc'.
Proof.
  intros H L E E'. destruct (single_matches _ _ score l c i pr rc pr' rc' H L E E') as [A B]. split.
  - clear - A. induction A as [|d r a b (F & _ & G & _)]; constructor; auto. split; assumption.
  - clear - B. induction B as [|d r a b (F & G & _)]; constructor; auto. split; assumption.
Qed.

Lemma single_ap_error RE HE (score : HE -> f32) (l : list (match_t RE HE)) c i trap pr rc :
  (forall m, In m l -> zero_one (m_err m)) -> (Z.of_nat (length l) <= 2 ^ 24)%Z ->
  single_curves (points score c l) i = (pr, rc) ->
  exists a x, single_ap pr rc trap = Ok a /\ global_ap RArith score l c i trap = Ok x /\
    close32 (INR (length l) * (INR (length l) + 12) * u32) a x.
Proof.
  intros H L E. unfold global_ap.
  destruct (precision_recall_matches RArith score l c i) as [pr' rc'] eqn:E'.
  destruct (single_matches RE HE score l c i pr rc pr' rc' H L E E') as [Hp Hr].
  destruct (single_lengths _ _ _ _ E) as [L1 L2]. assert (L3 := points_length score c l).
  destruct (single_ap_ok pr pr' rc rc' trap Hp Hr) as [a [x [A1 [A2 [A3 A4]]]]]; [lia|lia|].
  exists a, x. repeat split; auto. eapply Rle_trans; [exact A4|].
  apply Rmult_le_compat_r; [apply Rlt_le, u32_pos|].
  assert (INR (length pr) <= INR (length l)) by (apply le_INR; lia).
  assert (0 <= INR (length pr)) by apply pos_INR. nra.
Qed.

Lemma single_recall_sorted rc rc' : Forall2 srec_ok rc rc' -> nondecreasing rc' -> nondecreasing (map (fun d => B2R d) rc).
Proof.
  unfold nondecreasing. induction 1 as [|d r rc rc' [F [V B]] G IH]; intros S; simpl; constructor.
  - inversion S; auto.
  - inversion S as [|? ? S' A E]; subst. apply Forall_forall. intros y K. apply in_map_iff in K.
    destruct K as [e [<- K]]. apply In_nth_error in K. destruct K as [i E].
    assert (N : exists r', nth_error rc' i = Some r' /\ srec_ok e r').
    { clear - G E. revert i E. induction G as [|x y a b P G IH]; intros [|i] E; simpl in E; try discriminate.
      - injection E as <-. simpl. eauto.
      - simpl. apply IH, E. }
    destruct N as [r' [N1 [_ [N2 _]]]]. rewrite V, N2. apply rnd32_le.
    rewrite Forall_forall in A. apply A. eapply nth_error_In, N1.
Qed.

Lemma F_lt_v a b : is_finite a = true -> is_finite b = true -> (a_lt FArith a b = true <-> B2R a < B2R b).
Proof. intros A B. apply ltb_R; auto. Qed.

Lemma single_bounds RE HE (score : HE -> f32) (l : list (match_t RE HE)) c i pr rc :
  (forall m, In m l -> zero_one (m_err m)) -> (Z.of_nat (length l) <= 2 ^ 24)%Z ->
  single_curves (points score c l) i = (pr, rc) ->
  Forall unit_f32 pr /\ Forall unit_f32 rc /\ nondecreasing (map (fun d : f32 => B2R d) rc) /\
  (i = true -> nonincreasing (map (fun d : f32 => B2R d) pr)).
Proof.
  intros H L E. destruct (precision_recall_matches RArith score l c i) as [pr' rc'] eqn:E'.
  destruct (single_matches RE HE score l c i pr rc pr' rc' H L E E') as [Hp Hr].
  assert (U1 : Forall unit_f32 pr).
  { clear - Hp. induction Hp as [|d r a b [A [B _]]]; constructor; auto. split; assumption. }
  split; [exact U1|]. split; [|split].
  - clear - Hr. induction Hr as [|d r a b [A [B C]]]; constructor; auto. split; [exact A|]. rewrite B. apply rnd32_01, C.
  - apply single_recall_sorted with (1 := Hr).
    assert (V := points_bounded RE HE score c l H).
    destruct (pr_curve (points score c l) i) as [pr0 [pr1 [rc1 [E0 [E1 [C _]]]]]].
    destruct (curve_bounds _ _ _ V C) as [_ [_ B3]].
    unfold precision_recall_matches in E'. rewrite E1 in E'. injection E' as _ <-. exact B3.
  - intros ->. unfold single_curves in E. injection E as E _.
    unfold nonincreasing. apply sorted_map with (P := fun a b : f32 => B2R b <= B2R a); [intros; lra|].
    rewrite <- E. apply (interp_sorted FArith (fun a => is_finite a = true) (fun a : f32 => B2R a) F_lt_v).
    apply Forall_forall. intros d K.
    assert (G := single_pr_ok (points score c l) false (points_whole score c l H)).
    destruct (points_totals score c l) as [T1 T2]. destruct (hyps_le l).
    rewrite T1, T2 in G. destruct G as [G _]; [lia|lia|]. simpl in G.
    destruct (Forall2_in _ _ _ _ G K) as [y [P _]]. exact P.
Qed.

(** ** AP of errors *)

(** The hits of a point are 0 or 1. *)
Definition unit_hits (e : counts) : Prop :=
  let tp := f32_sub (f32_of_Z (Z.of_nat (ec_nh e))) (ec_fp e) in is_finite tp = true /\ 0 <= B2R tp <= 1.

Lemma zero_one_hits e : zero_one e -> unit_hits (counts_of e).
Proof.
  destruct e as [fp fn]. intros [[A|A] [B|B]]; cbn [me_fp me_fn] in A, B; subst fp fn; unfold unit_hits, counts_of; cbn [ec_nh ec_fp me_fp];
  match goal with |- context [f32_sub ?a ?b] => assert (V : B2SF (f32_sub a b) = B2SF f32_0 \/ B2SF (f32_sub a b) = B2SF f32_1) by (vm_compute; auto); set (x := f32_sub a b) in * end;
  destruct V as [V|V]; apply B2SF_inj in V; rewrite V; split; try reflexivity; try (change (B2R f32_0) with 0; lra); rewrite (proj1 f32_1_R); lra.
Qed.

Lemma single_errors_ok trap : forall errors, (forall e, In e errors -> unit_hits e) -> forall pr pr', Forall2 sprec_ok pr pr' ->
  length pr = length errors -> forall k q y s t,
  match q, y with Some d, Some r => sclose u32 d r | None, None => True | _, _ => False end ->
  (Z.of_nat (k + length pr) <= 2 ^ 24)%Z -> ssum k s t ->
  ssum (k + length pr) (single_errors_loop trap q s errors pr) (ap_errors_loop RArith trap y t errors pr').
Proof.
  induction errors as [|e errors IH]; intros W pr pr' F L k q y s t Q B S.
  - destruct F; [|discriminate]. simpl. now rewrite Nat.add_0_r.
  - destruct F as [|p p' pr pr' H F]; [discriminate|]. simpl in L, B. injection L as L. simpl.
    replace (k + Datatypes.S (length pr))%nat with (Datatypes.S k + length pr)%nat by lia.
    apply IH; auto; try lia; [intros; apply W; simpl; auto|].
    destruct (W e (or_introl eq_refl)) as [Ft Bt].
    apply ssum_step; auto; [lia| |apply (single_height_ok trap q y); auto].
    split; [exact Ft|]. split; [exact Bt|]. split; [|exact Bt]. rewrite Rminus_diag_eq, Rabs_R0 by reflexivity. apply Rlt_le, u32_pos.
Qed.

Lemma single_errors_error RE HE (score : HE -> f32) (l : list (match_t RE HE)) i trap pr rc :
  (forall m, In m l -> zero_one (m_err m)) -> (Z.of_nat (length l) <= 2 ^ 24)%Z ->
  single_curves (points score false l) i = (pr, rc) ->
  exists a x, single_ap_errors (points score false l) pr trap = Ok a /\
    ap_errors RArith (points score false l) (fst (precision_recall_matches RArith score l false i)) trap = Ok x /\
    close32 (INR (length l) * (INR (length l) + 12) * u32) a x.
Proof.
  intros H L E. destruct (precision_recall_matches RArith score l false i) as [pr' rc'] eqn:E'. cbn [fst].
  destruct (single_matches RE HE score l false i pr rc pr' rc' H L E E') as [Hp Hr].
  destruct (single_lengths _ _ _ _ E) as [L1 L2]. assert (L3 : length (points score false l) = length l) by (unfold points, get_match_errors; apply map_length).
  assert (Lp := Forall2_length _ _ _ Hp).
  assert (S := single_errors_ok trap (points score false l)
    ltac:(intros e I; unfold points, get_match_errors in I; apply in_map_iff in I as (m & <- & I); apply zero_one_hits, H, I)
    pr pr' Hp L1 0 None None f32_0 (a0 RArith) I ltac:(simpl; lia) ssum_0). simpl plus in S.
  unfold single_ap_errors, ap_errors.
  assert (Q1 : Nat.eqb (length pr) (length (points score false l)) = true) by (apply Nat.eqb_eq; exact L1).
  assert (Q2 : Nat.eqb (@length (num RArith) pr') (length (points score false l)) = true) by (apply Nat.eqb_eq; rewrite <- L1; symmetry; exact Lp).
  rewrite Q1, Q2, total_refs. eexists _, _. split; [reflexivity|]. split; [reflexivity|].
  destruct (points_totals score false l) as [_ T2]. destruct (hyps_le l) as [_ Rl]. rewrite <- T2 in Rl.
  set (s := single_errors_loop trap None f32_0 (points score false l) pr) in *. set (t := ap_errors_loop RArith trap None (a0 RArith) (points score false l) pr') in *.
  change (ssum (length pr) s t) in S. clearbody s t. set (n := references (points score false l)) in *. clearbody n. rewrite L1, L3 in S.
  assert (U := u32_pos). assert (K0 := pos_INR (length l)). set (k := length l) in *.
  destruct (Nat.ltb_spec 0 n) as [N|N].
  - cbn [a_div RArith a_nat]. destruct S as (Fs & Bs & Es & Xs). destruct (whole32_nat n ltac:(lia)) as [Fn Vn]. rewrite <- INR_IZR_INZ in Vn.
    assert (N1 : 1 <= INR n) by (change 1 with (INR 1); apply le_INR; lia).
    assert (K1 : 1 <= INR k) by (change 1 with (INR 1); apply le_INR; lia).
    assert (Q : 0 <= B2R s / INR n <= INR k).
    { split; [apply Rmult_le_pos; [lra|apply Rlt_le, Rinv_0_lt_compat; lra]|].
      apply Rmult_le_reg_r with (INR n); [lra|]. unfold Rdiv. rewrite Rmult_assoc, Rinv_l, Rmult_1_r by lra. nra. }
    assert (Kb : INR k <= bpow radix2 24) by (rewrite INR_IZR_INZ; change (bpow radix2 24) with (IZR (2 ^ 24)); apply IZR_le, L).
    destruct (f32_div_correct s (f32_of_Z (Z.of_nat n)) 24) as [V F]; auto; [rewrite Vn; lra|exps|rewrite Vn, Rabs_right; lra|].
    fold (f32_div s (f32_of_Z (Z.of_nat n))) in V, F. rewrite Vn in V. split; [exact F|]. rewrite V.
    assert (E1 := rnd32_err_le (B2R s / INR n) (INR k) K1). rewrite Rabs_right in E1 by lra. specialize (E1 ltac:(lra)).
    assert (E2 : Rabs (B2R s / INR n - t / INR n) <= INR k * (INR k + 11) / 2 * u32).
    { replace (B2R s / INR n - t / INR n) with ((B2R s - t) * / INR n) by (unfold Rdiv; ring).
      rewrite Rabs_mult, (Rabs_right (/ INR n)) by (apply Rle_ge, Rlt_le, Rinv_0_lt_compat; lra).
      assert (I1 : 0 < / INR n <= 1) by (split; [apply Rinv_0_lt_compat; lra|rewrite <- Rinv_1; apply Rinv_le_contravar; lra]).
      assert (P := Rabs_pos (B2R s - t)).
      apply Rle_trans with (Rabs (B2R s - t) * 1); [apply Rmult_le_compat_l; lra|rewrite Rmult_1_r; exact Es]. }
    assert (T : INR k * u32 + INR k * (INR k + 11) / 2 * u32 <= INR k * (INR k + 12) * u32).
    { assert (P := Rmult_le_pos _ _ K0 (Rlt_le _ _ U)). replace (INR k * (INR k + 11) / 2 * u32) with ((INR k + 11) / 2 * (INR k * u32)) by field.
      replace (INR k * (INR k + 12) * u32) with ((INR k + 12) * (INR k * u32)) by ring. set (z := INR k * u32) in *. clearbody z. nra. }
    unfold Rabs in *. repeat (destruct Rcase_abs in *); lra.
  - split; [reflexivity|]. change (B2R f32_0) with 0. change (a0 RArith) with 0. rewrite Rminus_0_r, Rabs_R0.
    apply Rmult_le_pos; [|lra]. apply Rmult_le_pos; lra.
Qed.

(** ** Witnesses *)

(** [ComputeAP] of the curves of a list of matches. *)
Definition single_of (l : list (match_t nat nat)) c i trap : outcome f32 :=
  let '(pr, rc) := single_curves (points down c l) i in single_ap pr rc trap.

Definition over_one32 (o : outcome f32) : bool := match o with Ok a => f32_lt f32_1 a | _ => false end.
Definition under_one32 (o : outcome f32) : bool := match o with Ok a => f32_lt a f32_1 | _ => false end.

Lemma one32_v : is_finite f32_1 = true /\ B2R f32_1 = 1.
Proof. destruct (whole32_nat 1 ltac:(simpl; lia)) as [A B]. split; [exact A|exact B]. Qed.

Lemma single_of_ap (l : list (match_t nat nat)) c i trap : (forall m, In m l -> zero_one (m_err m)) -> (Z.of_nat (length l) <= 2 ^ 24)%Z ->
  exists pr rc a x, single_curves (points down c l) i = (pr, rc) /\ single_ap pr rc trap = Ok a /\
    single_of l c i trap = Ok a /\ is_finite a = true /\ global_ap RArith down l c i trap = Ok x.
Proof.
  intros H L. destruct (single_curves (points down c l) i) as [pr rc] eqn:E.
  destruct (single_ap_error _ _ down l c i trap pr rc H L E) as (a & x & A & X & F & _).
  exists pr, rc, a, x. unfold single_of. rewrite E. auto.
Qed.

Lemma single_above_one :
  exists (score : nat -> f32) (l : list (match_t nat nat)) pr rc a x,
    (forall m, In m l -> zero_one (m_err m)) /\ length l = 3%nat /\
    single_curves (points score true l) true = (pr, rc) /\ single_ap pr rc true = Ok a /\
    global_ap RArith score l true true true = Ok x /\ x <= 1 < B2R a.
Proof.
  destruct (single_of_ap (hits_fps 1 2) true true true (hits_fps_01 1 2) ltac:(vm_compute; discriminate)) as (pr & rc & a & x & E & A & S & F & X).
  exists down, (hits_fps 1 2), pr, rc, a, x. split; [apply hits_fps_01|]. split; [reflexivity|]. split; [exact E|]. split; [exact A|]. split; [exact X|]. split.
  - apply (ap_01 _ _ _ _ _ _ _ _ (hits_fps_01 1 2) X).
  - assert (O : over_one32 (single_of (hits_fps 1 2) true true true) = true) by (vm_compute; reflexivity). rewrite S in O. simpl in O.
    destruct one32_v as [F1 V1]. rewrite <- V1. apply (ltb_R 24 128); auto.
Qed.

Lemma single_below_one :
  exists (score : nat -> f32) (l : list (match_t nat nat)) pr rc a,
    (forall m, In m l -> zero_one (m_err m)) /\ perfect l /\ length l = 15%nat /\
    single_curves (points score false l) true = (pr, rc) /\ single_ap pr rc true = Ok a /\
    global_ap RArith score l false true true = Ok 1 /\ B2R a < 1.
Proof.
  destruct (single_of_ap (hits_fps 15 0) false true true (hits_fps_01 15 0) ltac:(vm_compute; discriminate)) as (pr & rc & a & x & E & A & S & F & X).
  assert (P : perfect (hits_fps 15 0)).
  { assert (N : f32_0 <> f32_1) by (intros K; assert (Q : f32_eq f32_1 f32_0 = false) by reflexivity; rewrite <- K in Q; discriminate).
    assert (H : forall m, In m (hits_fps 15 0) -> exists n, m = hit n).
    { intros m K. unfold hits_fps in K. simpl seq in K at 2. rewrite app_nil_r in K. apply in_map_iff in K.
      destruct K as [n [<- _]]. eauto. }
    split.
    - intros m K Fm. destruct (H m K) as [n ->]. apply N. exact Fm.
    - intros u b v d w Q Fa _. destruct (H b) as [n ->]; [rewrite Q; apply in_or_app; right; left; reflexivity|].
      apply N. exact Fa. }
  exists down, (hits_fps 15 0), pr, rc, a. split; [apply hits_fps_01|]. split; [exact P|]. split; [reflexivity|].
  split; [exact E|]. split; [exact A|]. split.
  - apply (AveragePrecision.perfect_ap down); [apply hits_fps_01|vm_compute; lia|exact P].
  - assert (O : under_one32 (single_of (hits_fps 15 0) false true true) = true) by (vm_compute; reflexivity). rewrite S in O. simpl in O.
    destruct one32_v as [F1 V1]. rewrite <- V1. apply (ltb_R 24 128); auto.
Qed.
