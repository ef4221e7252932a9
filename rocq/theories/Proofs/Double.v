(** Precision, recall and AP in binary64. *)
From Coq Require Import List Bool ZArith Reals Lra Lia Sorted Permutation.
From Flocq Require Import Core BinarySingleNaN Relative.
From Verif.Model Require Import Cpp Floats Matches Assessment.
From Verif.Spec Require Import Order Objects Matching Collapse Metrics Double.
From Verif.Proofs Require Import FloatFacts Collapse Metrics.
From Verif.Proofs Require AveragePrecision Curves.
Import ListNotations.
Local Open Scope cpp_scope.
Local Open Scope R_scope.

Lemma nearest_rnd x : nearest64 x = rnd64 x.
Proof. reflexivity. Qed.

Lemma u64_val : u64 = / IZR (2 ^ 53).
Proof. reflexivity. Qed.

(** ** Conversion *)

Lemma fmt32_64 x : fmt 24 128 x -> fmt 53 1024 x.
Proof.
  unfold fmt. intros H. apply generic_inclusion_mag with (2 := H).
  intros _. rewrite !fexp_FLT. unfold FLT_exp. change (SpecFloat.emin 53 1024) with (-1074)%Z.
  change (SpecFloat.emin 24 128) with (-149)%Z. lia.
Qed.

Lemma f64_of_f32_exact x : is_finite x = true ->
  B2R (f64_of_f32 x) = B2R x /\ is_finite (f64_of_f32 x) = true.
Proof.
  destruct x as [s|s| |s m e Hb]; try discriminate; intros _; [split; reflexivity|].
  set (y := B754_finite s m e Hb : f32).
  assert (V : F2R (Float radix2 (cond_Zopp s (Zpos m)) e) = B2R y) by reflexivity.
  assert (F : fmt 53 1024 (B2R y)) by (apply fmt32_64, B2R_fmt32).
  assert (B := abs_B2R_lt_emax 24 128 y).
  generalize (binary_normalize_correct 53 1024 prec64 emax64 mode_NE (cond_Zopp s (Zpos m)) e s).
  assert (Q : round radix2 (SpecFloat.fexp 53 1024) ZnearestE (F2R (Float radix2 (cond_Zopp s (Zpos m)) e)) = B2R y)
    by (rewrite V; exact (rnd64_id _ F)).
  cbv zeta. simpl round_mode. rewrite Q. rewrite Rlt_bool_true.
  - intros [H1 [H2 _]]. split; assumption.
  - eapply Rlt_trans; [exact B|]. apply bpow_lt. reflexivity.
Qed.

(** ** Rounding below one *)

Lemma rnd64_err x e : (-1000 <= e)%Z -> Rabs x < bpow radix2 e -> Rabs (rnd64 x - x) <= bpow radix2 (e - 54).
Proof.
  intros He H. destruct (Req_dec x 0) as [->|N].
  - rewrite rnd64_0, Rminus_0_r, Rabs_R0. apply bpow_ge_0.
  - unfold rnd. eapply Rle_trans; [apply error_le_half_ulp; typeclasses eauto|].
    rewrite ulp_neq_0 by exact N. replace (e - 54)%Z with (-1 + (e - 53))%Z by lia.
    rewrite bpow_plus. change (bpow radix2 (-1)) with (/ 2).
    apply Rmult_le_compat_l; [lra|]. apply bpow_le.
    unfold cexp. rewrite fexp_FLT. unfold FLT_exp. change (SpecFloat.emin 53 1024) with (-1074)%Z.
    assert (M : (mag radix2 x <= e)%Z) by (apply mag_le_bpow; assumption). lia.
Qed.

Lemma rnd64_err1 x : Rabs x <= 1 -> Rabs (rnd64 x - x) <= u64 / 2.
Proof.
  intros H. assert (E : u64 / 2 = bpow radix2 (0 - 54)) by (vm_compute; lra). rewrite E.
  destruct (Req_dec (Rabs x) 1) as [K|K].
  - assert (F : fmt 53 1024 x).
    { destruct (Rcase_abs x) as [L|L].
      - rewrite Rabs_left in K by exact L. replace x with (- 1) by lra. apply fmt64_opp, fmt64_1.
      - rewrite Rabs_right in K by exact L. subst x. apply fmt64_1. }
    rewrite (rnd64_id _ F), Rminus_diag_eq, Rabs_R0 by reflexivity. apply bpow_ge_0.
  - apply rnd64_err; [lia|]. simpl. lra.
Qed.

Lemma rnd64_01 x : 0 <= x <= 1 -> 0 <= rnd64 x <= 1.
Proof. intros [A B]. split; [apply rnd64_nonneg, A|apply rnd64_le_fmt64; [apply fmt64_1|exact B]]. Qed.

Definition wholef (x : f64) (z : Z) : Prop := is_finite x = true /\ B2R x = IZR z.

Lemma wholef_nat n : (Z.of_nat n <= 2 ^ 53)%Z -> wholef (f64_of_Z (Z.of_nat n)) (Z.of_nat n).
Proof. intros H. destruct (f64_of_Z_exact (Z.of_nat n)) as [A B]; [lia|]. split; assumption. Qed.

Lemma one64 : is_finite (f64_of_Z 1) = true /\ B2R (f64_of_Z 1) = 1.
Proof. destruct (f64_of_Z_exact 1) as [A B]; [vm_compute; discriminate|]. split; assumption. Qed.

Lemma bpow_60 : bpow radix2 60 = IZR (2 ^ 60).
Proof. reflexivity. Qed.

Lemma wholef_add x y a b : wholef x a -> wholef y b -> (0 <= a)%Z -> (0 <= b)%Z -> (a + b <= 2 ^ 53)%Z ->
  wholef (f64_add x y) (a + b).
Proof.
  intros [Fx Vx] [Fy Vy] Ha Hb H. destruct (f64_plus_correct x y 60) as [A B]; auto.
  - split; [vm_compute; discriminate|reflexivity].
  - rewrite Vx, Vy, <- plus_IZR, bpow_60, <- abs_IZR. apply IZR_le. lia.
  - split; [exact B|]. unfold f64_add. rewrite A, Vx, Vy, <- plus_IZR. apply rnd64_id, fmt64_Z. lia.
Qed.

Lemma wholef_sub x y a b : wholef x a -> wholef y b -> (0 <= b <= a)%Z -> (a <= 2 ^ 53)%Z ->
  wholef (f64_sub x y) (a - b).
Proof.
  intros [Fx Vx] [Fy Vy] Ha H. destruct (f64_minus_correct x y 60) as [A B]; auto.
  - split; [vm_compute; discriminate|reflexivity].
  - rewrite Vx, Vy, <- minus_IZR, bpow_60, <- abs_IZR. apply IZR_le. lia.
  - split; [exact B|]. unfold f64_sub. rewrite A, Vx, Vy, <- minus_IZR. apply rnd64_id, fmt64_Z. lia.
Qed.

Lemma div01 x y : is_finite x = true -> is_finite y = true -> 0 <= B2R x <= B2R y -> 0 < B2R y ->
  is_finite (f64_div x y) = true /\ B2R (f64_div x y) = rnd64 (B2R x / B2R y).
Proof.
  intros Fx Fy H P. assert (Q := ratio01 _ _ H P). destruct Q as [Q1 Q2].
  destruct (f64_div_correct x y 0) as [A B]; auto; try lra.
  - split; [vm_compute; discriminate|reflexivity].
  - simpl. rewrite Rabs_right; lra.
Qed.

Lemma sub01 x : is_finite x = true -> 0 <= B2R x <= 1 ->
  is_finite (f64_sub (f64_of_Z 1) x) = true /\ B2R (f64_sub (f64_of_Z 1) x) = rnd64 (1 - B2R x).
Proof.
  intros Fx H. destruct one64 as [F1 V1].
  destruct (f64_minus_correct (f64_of_Z 1) x 0) as [A B]; auto.
  - split; [vm_compute; discriminate|reflexivity].
  - simpl bpow. rewrite V1. apply Rabs_le. lra.
  - rewrite V1 in A. split; assumption.
Qed.

(** ** Precision and recall *)

(** The errors of a point are whole numbers within its counts. *)
Definition whole (c : counts) : Prop :=
  exists p n, is_finite (ec_fp c) = true /\ B2R (ec_fp c) = IZR p /\
    is_finite (ec_fn c) = true /\ B2R (ec_fn c) = IZR n /\
    (0 <= p <= Z.of_nat (ec_nh c))%Z /\ (0 <= n <= Z.of_nat (ec_nr c))%Z.

Definition prec_ok (d : f64) (r : R) : Prop :=
  is_finite d = true /\ 0 <= B2R d <= 1 /\ Rabs (B2R d - r) <= u64 /\ 0 <= r <= 1.

Definition rec_ok (d : f64) (r : R) : Prop :=
  is_finite d = true /\ B2R d = rnd64 r /\ 0 <= r <= 1.

Ltac ar := unfold a1, a0; cbn [DArith RArith num a_nat a_f32 a_half a_add a_sub a_mul a_div a_lt];
  change (f64_of_Z (Z.of_nat 1)) with (f64_of_Z 1); change (INR 1) with 1.

Lemma precision_D n fp P : (Z.of_nat n <= 2 ^ 53)%Z -> wholef fp P -> (0 <= P <= Z.of_nat n)%Z ->
  prec_ok (precision_of DArith n fp) (precision_of RArith n (IZR P)).
Proof.
  intros Hn [Ff Vf] HP. unfold precision_of.
  assert (U : 0 < u64) by apply bpow_gt_0.
  destruct (Nat.ltb_spec 0 n) as [K|K].
  - ar. destruct (wholef_nat n Hn) as [Fn Vn].
    assert (N0 : 0 < IZR (Z.of_nat n)) by (apply IZR_lt; lia).
    assert (R1 : 0 <= IZR P <= IZR (Z.of_nat n)) by (split; apply IZR_le; lia).
    destruct (div01 fp (f64_of_Z (Z.of_nat n))) as [A B]; auto; try (rewrite ?Vf, ?Vn; assumption).
    rewrite Vf, Vn in B. assert (Q := ratio01 _ _ R1 N0). unfold in01 in Q.
    assert (Q' := rnd64_01 _ Q). rewrite <- B in Q'.
    destruct (sub01 _ A Q') as [C D]. rewrite INR_IZR_INZ.
    ar. split; [exact C|]. rewrite D. split; [apply rnd64_01; lra|].
    split; [|lra].
    assert (E1 := rnd64_err1 (IZR P / IZR (Z.of_nat n))). rewrite <- B in E1.
    assert (E2 := rnd64_err1 (1 - B2R (f64_div fp (f64_of_Z (Z.of_nat n))))).
    unfold Rabs in *. repeat (destruct Rcase_abs in *); lra.
  - ar. destruct one64 as [F1 V1].
    split; [exact F1|]. rewrite V1. split; [lra|]. split; [|lra].
    rewrite Rminus_diag_eq, Rabs_R0 by reflexivity. lra.
Qed.

Lemma recall_D TR nr fn N : (Z.of_nat TR <= 2 ^ 53)%Z -> wholef fn N -> (0 <= N <= Z.of_nat nr)%Z ->
  (nr <= TR)%nat -> rec_ok (recall_of DArith TR nr fn) (recall_of RArith TR nr (IZR N)).
Proof.
  intros Hn Wf HN Hr. unfold recall_of.
  destruct (Nat.ltb_spec 0 TR) as [K|K].
  - ar. destruct (wholef_nat TR Hn) as [Ft Vt].
    destruct (wholef_sub (f64_of_Z (Z.of_nat nr)) fn (Z.of_nat nr) N) as [Fd Vd]; auto; try lia.
    { apply wholef_nat. lia. }
    assert (N0 : 0 < IZR (Z.of_nat TR)) by (apply IZR_lt; lia).
    assert (R1 : 0 <= IZR (Z.of_nat nr - N) <= IZR (Z.of_nat TR)) by (split; apply IZR_le; lia).
    destruct (div01 (f64_sub (f64_of_Z (Z.of_nat nr)) fn) (f64_of_Z (Z.of_nat TR))) as [A B]; auto;
      try (rewrite ?Vd, ?Vt; assumption).
    rewrite Vd, Vt in B. rewrite !INR_IZR_INZ. split; [exact A|].
    rewrite B, minus_IZR. split; [reflexivity|]. rewrite <- minus_IZR. apply ratio01; assumption.
  - ar. destruct one64 as [F1 V1].
    split; [exact F1|]. rewrite V1, (rnd64_id 1 fmt64_1). split; [reflexivity|lra].
Qed.

Lemma pr_loop_D TR errors : (Z.of_nat TR <= 2 ^ 53)%Z -> forall nr nh fp fn P N,
  (forall c, In c errors -> whole c) ->
  wholef fp P -> wholef fn N -> (0 <= P <= Z.of_nat nh)%Z -> (0 <= N <= Z.of_nat nr)%Z ->
  (Z.of_nat (nh + hypotheses errors) <= 2 ^ 53)%Z -> (nr + references errors <= TR)%nat ->
  Forall2 (fun d r => prec_ok (fst d) (fst r) /\ rec_ok (snd d) (snd r))
    (pr_loop DArith TR nr nh fp fn errors) (pr_loop RArith TR nr nh (IZR P) (IZR N) errors).
Proof.
  intros HT. induction errors as [|c t IH]; intros nr nh fp fn P N W Wp Wn HP HN Hh Hr; simpl; [constructor|].
  destruct (W c (or_introl eq_refl)) as [p [n [F1 [V1 [F2 [V2 [B1 B2]]]]]]].
  change (hypotheses (c :: t)) with (ec_nh c + hypotheses t)%nat in Hh.
  change (references (c :: t)) with (ec_nr c + references t)%nat in Hr.
  destruct (f64_of_f32_exact _ F1) as [E1 G1]. destruct (f64_of_f32_exact _ F2) as [E2 G2].
  assert (Wp' : wholef (f64_add fp (f64_of_f32 (ec_fp c))) (P + p)).
  { apply wholef_add; auto; try lia. split; [exact G1|congruence]. }
  assert (Wn' : wholef (f64_add fn (f64_of_f32 (ec_fn c))) (N + n)).
  { apply wholef_add; auto; try lia. split; [exact G2|congruence]. }
  rewrite V1, V2, <- !plus_IZR. constructor.
  - split; [apply precision_D|apply recall_D]; auto; simpl; try lia.
  - apply IH; auto; simpl; try lia. intros; apply W; simpl; auto.
Qed.

Lemma pr_D errors interpolate : (forall c, In c errors -> whole c) ->
  (Z.of_nat (hypotheses errors) <= 2 ^ 53)%Z -> (Z.of_nat (references errors) <= 2 ^ 53)%Z ->
  Forall2 prec_ok (fst (precision_recall DArith errors false)) (fst (precision_recall RArith errors false)) /\
  Forall2 rec_ok (snd (precision_recall DArith errors interpolate)) (snd (precision_recall RArith errors interpolate)).
Proof.
  intros W Hh Hr. unfold precision_recall. rewrite total_refs. simpl fst. simpl snd.
  assert (L := pr_loop_D (references errors) errors Hr 0 0 (a0 DArith) (a0 DArith) 0 0 W).
  change (a0 RArith) with (IZR 0). 
  assert (Z0 : wholef (a0 DArith) 0) by (apply (wholef_nat 0); simpl; lia).
  specialize (L Z0 Z0). simpl in L. specialize (L ltac:(lia) ltac:(lia) Hh ltac:(lia)).
  revert L. generalize (pr_loop DArith (references errors) 0 0 (a0 DArith) (a0 DArith) errors).
  generalize (pr_loop RArith (references errors) 0 0 (IZR 0) (IZR 0) errors).
  intros a b F. induction F as [|x y ? ? [A B] F [I1 I2]]; simpl; split; constructor; auto.
Qed.

(** ** Interpolation *)

Lemma max_D a b x y : prec_ok a x -> prec_ok b y ->
  prec_ok (a_max DArith a b) (a_max RArith x y).
Proof.
  intros [Fa [Ba [Ea Xa]]] [Fb [Bb [Eb Xb]]]. unfold a_max. simpl.
  assert (L := ltb_R 53 1024 a b Fa Fb). unfold f64_lt.
  destruct (Bltb a b) eqn:E; destruct (Rlt_dec x y) as [K|K].
  - split; auto.
  - split; [auto|]. split; [auto|]. split; [|auto]. apply proj1 in L. specialize (L eq_refl).
    unfold Rabs in *. repeat (destruct Rcase_abs in *); lra.
  - split; [auto|]. split; [auto|]. split; [|auto].
    assert (~ B2R a < B2R b) by (intros Q; apply L in Q; congruence).
    unfold Rabs in *. repeat (destruct Rcase_abs in *); lra.
  - split; auto.
Qed.

Lemma interp_D a x : Forall2 prec_ok a x -> Forall2 prec_ok (interp DArith a) (interp RArith x).
Proof.
  induction 1 as [|d r a x H F IH]; simpl; [constructor|].
  inversion IH as [E1 E2|d' r' a' x' H' F' E1 E2]; [auto|].
  constructor; [apply max_D; auto|]. constructor; auto.
Qed.

Lemma pr_D_all errors interpolate pr rc pr' rc' : (forall c, In c errors -> whole c) ->
  (Z.of_nat (hypotheses errors) <= 2 ^ 53)%Z -> (Z.of_nat (references errors) <= 2 ^ 53)%Z ->
  precision_recall DArith errors interpolate = (pr, rc) ->
  precision_recall RArith errors interpolate = (pr', rc') ->
  Forall2 prec_ok pr pr' /\ Forall2 rec_ok rc rc'.
Proof.
  intros W Hh Hr E E'. destruct (pr_D errors interpolate W Hh Hr) as [A B].
  rewrite E, E' in B. split; [|exact B].
  unfold precision_recall in *. simpl in A.
  injection E; intros _ <-. injection E'; intros _ <-.
  destruct interpolate; [apply interp_D; exact A|exact A].
Qed.

(** ** Points of 0/1 matches *)

Section Points01.
  Context {RE HE : Type} (score : HE -> f32).
  Notation M := (match_t RE HE).

  Lemma whole_01 z b : (0 <= z <= cap)%Z -> (z <= b)%Z ->
    is_finite (f32_of_Z z) = true /\ B2R (f32_of_Z z) = IZR z /\ (0 <= z <= b)%Z.
  Proof.
    intros H K. destruct (f32_of_Z_exact z) as [A B]; [unfold cap in H; lia|]. auto with zarith.
  Qed.

  Lemma ones_nh (l : list M) : (forall m, In m l -> zero_one (m_err m)) ->
    (ones me_fp l <= Z.of_nat (total (fun x => me_nh (m_err x)) l))%Z /\
    (ones me_fn l <= Z.of_nat (total (fun x => me_nr (m_err x)) l))%Z.
  Proof.
    induction l as [|m t IH]; intros H; [simpl; lia|].
    destruct IH as [I1 I2]; [intros; apply H; simpl; auto|].
    rewrite !total_cons. change (ones me_fp (m :: t)) with (is_one (me_fp (m_err m)) + ones me_fp t)%Z.
    change (ones me_fn (m :: t)) with (is_one (me_fn (m_err m)) + ones me_fn t)%Z.
    destruct (H m (or_introl eq_refl)) as [Hp Hn].
    assert (A : (is_one (me_fp (m_err m)) <= Z.of_nat (me_nh (m_err m)))%Z /\
                (is_one (me_fn (m_err m)) <= Z.of_nat (me_nr (m_err m)))%Z).
    { unfold me_nh, me_nr. destruct Hp as [->| ->]; destruct Hn as [->| ->]; vm_compute; split; discriminate. }
    lia.
  Qed.

  Lemma point_whole (m : M) t : (forall x, In x (m :: t) -> zero_one (m_err x)) -> whole (point m t).
  Proof.
    intros H. rewrite (point_zero_one m t H). destruct (ones_nh _ H) as [A B].
    assert (C := ones_range me_fp (m :: t)). assert (D := ones_range me_fn (m :: t)).
    unfold whole. simpl ec_fp. simpl ec_fn. simpl ec_nh. simpl ec_nr.
    assert (K : (0 < cap)%Z) by reflexivity.
    exists (Z.min (ones me_fp (m :: t)) cap), (Z.min (ones me_fn (m :: t)) cap).
    destruct (whole_01 (Z.min (ones me_fp (m :: t)) cap) (Z.of_nat (total (fun x => me_nh (m_err x)) (m :: t)))) as [? [? ?]]; [lia|lia|].
    destruct (whole_01 (Z.min (ones me_fn (m :: t)) cap) (Z.of_nat (total (fun x => me_nr (m_err x)) (m :: t)))) as [? [? ?]]; [lia|lia|].
    repeat split; auto; lia.
  Qed.

  Lemma raw_whole (m : M) : zero_one (m_err m) -> whole (counts_of (m_err m)).
  Proof. intros H. apply (point_whole m []). intros x [<-|[]]. exact H. Qed.

  Lemma collapse_whole (l : list M) : (forall m, In m l -> zero_one (m_err m)) ->
    forall c, In c (collapse_matches score l) -> whole c.
  Proof.
    remember (length l) as n. assert (L : (length l <= n)%nat) by lia. clear Heqn. revert l L.
    induction n as [|n IH]; intros [|m t] L H c K; simpl in L; try lia; try (simpl in K; contradiction).
    rewrite collapse_cons in K. destruct K as [<-|K].
    - apply point_whole. intros x [<-|Q]; apply H; simpl; auto. right. eapply same_in, Q.
    - apply (IH (rest score m t)); auto.
      + assert (R := rest_length score m t). lia.
      + intros x Q. apply H. right. eapply rest_in, Q.
  Qed.

  Lemma points_whole c (l : list M) : (forall m, In m l -> zero_one (m_err m)) ->
    forall x, In x (points score c l) -> whole x.
  Proof.
    intros H x K. destruct c; [apply (collapse_whole l H), K|].
    simpl in K. unfold get_match_errors in K. apply in_map_iff in K. destruct K as [m [<- K]].
    apply raw_whole, H, K.
  Qed.

  Lemma list_sum_total {A} (f : A -> nat) l : list_sum (map f l) = total f l.
  Proof. reflexivity. Qed.

  Lemma points_totals c (l : list M) :
    hypotheses (points score c l) = hyps l /\ references (points score c l) = refs l.
  Proof.
    destruct c; simpl.
    - apply (collapse_totals score l).
    - unfold hypotheses, references, get_match_errors, hyps, refs, total. rewrite !map_map. auto.
  Qed.

  Lemma total_le_length {A} (f : A -> nat) l : (forall x, (f x <= 1)%nat) -> (total f l <= length l)%nat.
  Proof. intros H. unfold total. induction l as [|x t IH]; simpl; [lia|]. specialize (H x). lia. Qed.

  Lemma hyps_le (l : list M) : (hyps l <= length l)%nat /\ (refs l <= length l)%nat.
  Proof.
    split; apply total_le_length; intros x; unfold me_nh, me_nr;
      match goal with |- context [if ?b then _ else _] => destruct b end; lia.
  Qed.

  Lemma points_length c (l : list M) : (length (points score c l) <= length l)%nat.
  Proof.
    destruct c; [|simpl; unfold get_match_errors; rewrite map_length; lia].
    simpl. remember (length l) as n. assert (L : (length l <= n)%nat) by lia. clear Heqn. revert l L.
    induction n as [|n IH]; intros [|m t] L; simpl in L; try (simpl; lia).
    rewrite collapse_cons. simpl. assert (R := rest_length score m t).
    specialize (IH (rest score m t)). lia.
  Qed.
End Points01.

Lemma matches_D RE HE (score : HE -> f32) (l : list (match_t RE HE)) c i pr rc pr' rc' :
  (forall m, In m l -> zero_one (m_err m)) -> (Z.of_nat (length l) <= 2 ^ 53)%Z ->
  precision_recall_matches DArith score l c i = (pr, rc) ->
  precision_recall_matches RArith score l c i = (pr', rc') ->
  Forall2 prec_ok pr pr' /\ Forall2 rec_ok rc rc'.
Proof.
  intros H L. unfold precision_recall_matches.
  destruct (points_totals score c l) as [E1 E2]. destruct (hyps_le l).
  apply pr_D_all; [apply points_whole, H|rewrite E1; lia|rewrite E2; lia].
Qed.

(** ** Average precision *)

Lemma u64_pos : 0 < u64.
Proof. apply bpow_gt_0. Qed.

Lemma rnd64_err_le x k : 1 <= k -> Rabs x <= k -> Rabs (rnd64 x - x) <= k * u64.
Proof.
  intros Hk Hx. assert (U := u64_pos). destruct (Rle_dec (Rabs x) 1) as [K|K].
  - assert (E := rnd64_err1 x K). nra.
  - assert (E := rnd64_rel x). change (SpecFloat.emin 53 1024 + 53 - 1)%Z with (-1022)%Z in E.
    assert (B : bpow radix2 (-1022) <= 1) by (change 1 with (bpow radix2 0); apply bpow_le; lia).
    specialize (E ltac:(lra)). change (- (53) + 1)%Z with (1 + -53)%Z in E.
    rewrite bpow_plus in E. fold u64 in E. change (bpow radix2 1) with 2 in E. nra.
Qed.

(** A double in [0,1] that is near a real in [0,1]. *)
Definition near01 (e : R) (d : f64) (r : R) : Prop :=
  is_finite d = true /\ 0 <= B2R d <= 1 /\ Rabs (B2R d - r) <= e /\ 0 <= r <= 1.

Lemma near01_le e e' d r : e <= e' -> near01 e d r -> near01 e' d r.
Proof. unfold near01. intros L [A [B [C D]]]. repeat split; auto; lra. Qed.

Lemma rec_near d r : rec_ok d r -> near01 u64 d r.
Proof.
  intros [F [V B]]. assert (E := rnd64_err1 r). assert (U := u64_pos). split; [exact F|]. rewrite V.
  split; [apply rnd64_01, B|]. split; [|exact B]. rewrite Rabs_right in E by lra. specialize (E ltac:(lra)). lra.
Qed.

Lemma half64 : is_finite f64_half = true /\ B2R f64_half = / 2.
Proof. split; [reflexivity|]. unfold f64_half. cbv -[IZR Rmult Rinv Rdiv]. lra. Qed.

Ltac exps := split; [vm_compute; discriminate|reflexivity].

Lemma height_D trap q y p x :
  match q, y with Some d, Some r => near01 u64 d r | None, None => True | _, _ => False end ->
  near01 u64 p x -> near01 (3 * u64) (height DArith trap q p) (height RArith trap y x).
Proof.
  intros Q P. assert (U := u64_pos). assert (P' : near01 (3 * u64) p x) by (apply near01_le with (2 := P); lra).
  destruct q as [q|], y as [y|]; try contradiction; [|exact P'].
  unfold height. destruct trap; [|exact P']. ar.
  destruct P as [Fp [Bp [Ep Xp]]], Q as [Fq [Bq [Eq Xq]]].
  destruct (f64_plus_correct p q 1) as [V1 F1]; auto; [exps|simpl bpow; rewrite Rabs_right; lra|].
  fold (f64_add p q) in V1, F1.
  assert (E1 : Rabs (rnd64 (B2R p + B2R q) - (B2R p + B2R q)) <= 2 * u64)
    by (apply rnd64_err_le; [lra|rewrite Rabs_right; lra]).
  assert (B1 : 0 <= rnd64 (B2R p + B2R q) <= 2).
  { split; [apply rnd64_nonneg; lra|]. apply rnd64_le_fmt64; [|lra]. apply (fmt64_Z 2). vm_compute. discriminate. }
  rewrite <- V1 in E1, B1. destruct half64 as [Fh Vh].
  destruct (f64_mult_correct f64_half (f64_add p q) 0) as [V2 F2]; auto; [exps|simpl bpow; rewrite Vh, Rabs_right; lra|].
  fold (f64_mul f64_half (f64_add p q)) in V2, F2. rewrite Vh in V2.
  split; [exact F2|]. rewrite V2. split; [apply rnd64_01; lra|]. split; [|lra].
  assert (E2 := rnd64_err1 (/ 2 * B2R (f64_add p q))). rewrite Rabs_right in E2 by lra. specialize (E2 ltac:(lra)).
  unfold Rabs in *. repeat (destruct Rcase_abs in *); lra.
Qed.

Lemma prod_near a x b y e f : 0 <= e -> 0 <= f -> Rabs (a - x) <= e -> Rabs (b - y) <= f ->
  0 <= a <= 1 -> 0 <= y <= 1 -> Rabs (a * b - x * y) <= e + f.
Proof.
  intros He Hf Ha Hb Ia Iy. replace (a * b - x * y) with (a * (b - y) + (a - x) * y) by ring.
  eapply Rle_trans; [apply Rabs_triang|]. rewrite !Rabs_mult.
  rewrite (Rabs_right a) by lra. rewrite (Rabs_right y) by lra.
  assert (0 <= Rabs (b - y)) by apply Rabs_pos. assert (0 <= Rabs (a - x)) by apply Rabs_pos. nra.
Qed.

(** Partial sums after [k] terms. *)
Definition psum (k : nat) (d : f64) (r : R) : Prop :=
  is_finite d = true /\ 0 <= B2R d <= INR k /\
  Rabs (B2R d - r) <= INR k * (INR k + 11) / 2 * u64 /\ 0 <= r <= INR k.

Lemma psum_step k s t h y rd r : (Z.of_nat (S k) <= 2 ^ 53)%Z -> psum k s t ->
  near01 u64 rd r -> near01 (3 * u64) h y ->
  psum (S k) (f64_add s (f64_mul rd h)) (t + r * y).
Proof.
  intros Hk [Fs [Bs [Es Xs]]] [Fr [Br [Er Xr]]] [Fh [Bh [Eh Xh]]].
  assert (U := u64_pos).
  assert (P01 : 0 <= B2R rd * B2R h <= 1) by nra. assert (Q01 : 0 <= r * y <= 1) by nra.
  destruct (f64_mult_correct rd h 0) as [V1 F1]; auto; [exps|simpl bpow; rewrite Rabs_right; lra|].
  fold (f64_mul rd h) in V1, F1.
  assert (E1 := rnd64_err1 (B2R rd * B2R h)). rewrite Rabs_right in E1 by lra. specialize (E1 ltac:(lra)).
  assert (M1 := rnd64_01 _ P01). rewrite <- V1 in E1, M1.
  assert (U3 : 0 <= 3 * u64) by lra.
  assert (G := prod_near (B2R rd) r (B2R h) y _ _ (Rlt_le _ _ U) U3 Er Eh Br Xh).
  assert (K0 := pos_INR k). unfold psum. rewrite S_INR.
  assert (Kb : INR k + 1 <= bpow radix2 53).
  { rewrite <- S_INR, INR_IZR_INZ. change (bpow radix2 53) with (IZR (2 ^ 53)). apply IZR_le, Hk. }
  destruct (f64_plus_correct s (f64_mul rd h) 53) as [V2 F2]; auto; [exps|rewrite Rabs_right; lra|].
  fold (f64_add s (f64_mul rd h)) in V2, F2.
  assert (E2 := rnd64_err_le (B2R s + B2R (f64_mul rd h)) (INR k + 1) ltac:(lra)).
  rewrite Rabs_right in E2 by lra. specialize (E2 ltac:(lra)).
  split; [exact F2|]. rewrite V2. split; [split|split].
  - apply rnd64_nonneg. lra.
  - apply rnd64_le_fmt64; [|lra]. rewrite <- S_INR, INR_IZR_INZ. apply fmt64_Z. lia.
  - replace ((INR k + 1) * (INR k + 1 + 11) / 2 * u64)
      with (INR k * (INR k + 11) / 2 * u64 + (INR k + 6) * u64) by field.
    replace ((INR k + 6) * u64) with ((INR k + 1) * u64 + 5 * u64) by ring.
    unfold Rabs in *. repeat (destruct Rcase_abs in *); lra.
  - lra.
Qed.

Lemma ap1_D trap : forall pr pr', Forall2 prec_ok pr pr' -> forall rc rc', Forall2 rec_ok rc rc' ->
  length pr = length rc -> forall k q y s t,
  match q, y with Some d, Some r => near01 u64 d r | None, None => True | _, _ => False end ->
  (Z.of_nat (k + length pr) <= 2 ^ 53)%Z -> psum k s t ->
  psum (k + length pr) (ap1_loop DArith trap q s pr rc) (ap1_loop RArith trap y t pr' rc').
Proof.
  induction 1 as [|p p' pr pr' H F IH]; intros rc rc' G L k q y s t Q B S; simpl.
  - rewrite Nat.add_0_r. destruct rc, rc'; exact S.
  - inversion G as [|r r' rt rt' Hr Gr]; subst; [discriminate|].
    simpl in L, B. injection L as L. simpl.
    replace (k + Datatypes.S (length pr))%nat with (Datatypes.S k + length pr)%nat by lia.
    apply IH; auto; try lia; try exact H.
    apply psum_step; auto; [lia|apply rec_near, Hr|]. apply (height_D trap q y); auto.
Qed.

Lemma ap2_D trap : forall pr pr', Forall2 prec_ok pr pr' -> forall rc rc', Forall2 rec_ok rc rc' ->
  length pr = length rc -> forall k q y v w s t, prec_ok q y -> rec_ok v w ->
  (Z.of_nat (k + length pr) <= 2 ^ 53)%Z -> psum k s t ->
  psum (k + length pr) (ap2_loop DArith trap q v s pr rc) (ap2_loop RArith trap y w t pr' rc').
Proof.
  induction 1 as [|p p' pr pr' H F IH]; intros rc rc' G L k q y v w s t Q W B S; simpl.
  - rewrite Nat.add_0_r. destruct rc, rc'; exact S.
  - inversion G as [|r r' rt rt' Hr Gr]; subst; [discriminate|].
    simpl in L, B. injection L as L. simpl.
    replace (k + Datatypes.S (length pr))%nat with (Datatypes.S k + length pr)%nat by lia.
    apply IH; auto; try lia.
    apply psum_step; auto; [lia|apply rec_near, W|]. apply (height_D trap (Some q) (Some y)); auto.
Qed.

Lemma psum_0 : psum 0 (a0 DArith) (a0 RArith).
Proof.
  assert (F : is_finite (a0 DArith) = true) by reflexivity.
  assert (V : B2R (a0 DArith) = 0) by reflexivity.
  split; [exact F|]. rewrite V. simpl. split; [lra|]. split; [|lra].
  rewrite Rminus_0_r, Rabs_R0. lra.
Qed.

Lemma psum_sub n a x b y : (Z.of_nat (S n) <= 2 ^ 53)%Z -> psum (S n) a x -> psum n b y ->
  is_finite (f64_sub a b) = true /\
  Rabs (B2R (f64_sub a b) - (x - y)) <= INR (S n) * (INR (S n) + 12) * u64.
Proof.
  intros Hn [Fa [Ba [Ea Xa]]] [Fb [Bb [Eb Xb]]]. assert (U := u64_pos).
  rewrite S_INR in *. assert (K0 := pos_INR n).
  assert (Kb : INR n + 1 <= bpow radix2 53).
  { rewrite <- S_INR, INR_IZR_INZ. change (bpow radix2 53) with (IZR (2 ^ 53)). apply IZR_le, Hn. }
  assert (A : Rabs (B2R a - B2R b) <= INR n + 1) by (apply Rabs_le; lra).
  destruct (f64_minus_correct a b 53) as [V1 F1]; auto; [exps|lra|].
  fold (f64_sub a b) in V1, F1. split; [exact F1|]. rewrite V1.
  assert (E1 := rnd64_err_le _ (INR n + 1) ltac:(lra) A).
  assert (Z : INR n * (INR n + 11) / 2 * u64 + (INR n + 1) * (INR n + 1 + 11) / 2 * u64 + (INR n + 1) * u64
    <= (INR n + 1) * (INR n + 1 + 12) * u64).
  { assert (0 <= INR n * u64) by nra. nra. }
  unfold Rabs in *. repeat (destruct Rcase_abs in *); lra.
Qed.

Lemma Forall2_length {A B} (P : A -> B -> Prop) a b : Forall2 P a b -> length a = length b.
Proof. induction 1; simpl; auto. Qed.

Lemma ap_D pr pr' rc rc' trap : Forall2 prec_ok pr pr' -> Forall2 rec_ok rc rc' -> length pr = length rc ->
  (Z.of_nat (length pr) <= 2 ^ 53)%Z ->
  exists a x, ap_curves DArith pr rc trap = Ok a /\ ap_curves RArith pr' rc' trap = Ok x /\
    is_finite a = true /\ Rabs (B2R a - x) <= INR (length pr) * (INR (length pr) + 12) * u64.
Proof.
  intros Hp Hr L B. unfold ap_curves. assert (Lp := Forall2_length _ _ _ Hp). assert (Lr := Forall2_length _ _ _ Hr).
  assert (Q1 : Nat.eqb (@length (num DArith) pr) (@length (num DArith) rc) = true) by (apply Nat.eqb_eq; exact L).
  assert (Q2 : Nat.eqb (@length (num RArith) pr') (@length (num RArith) rc') = true)
    by (apply Nat.eqb_eq; transitivity (length pr); [symmetry; exact Lp|transitivity (length rc); assumption]).
  rewrite Q1, Q2. clear Q1 Q2.
  eexists _, _. split; [reflexivity|]. split; [reflexivity|].
  assert (S1 := ap1_D trap pr pr' Hp rc rc' Hr L 0 None None (a0 DArith) (a0 RArith) I B psum_0). simpl plus in S1.
  destruct Hp as [|p p' pr pr' H Hp].
  - destruct rc; [|discriminate]. inversion Hr; subst. split; [reflexivity|].
    replace (B2R _) with 0 by reflexivity. simpl. rewrite Rminus_0_r, Rminus_0_r, Rabs_R0. lra.
  - destruct Hr as [|r r' rc rc' H' Hr]; [discriminate|].
    simpl in L. injection L as L. simpl length in *.
    assert (S2 := ap2_D trap pr pr' Hp rc rc' Hr L 0 p p' r r' (a0 DArith) (a0 RArith) H H' ltac:(lia) psum_0).
    simpl plus in S2. apply psum_sub; auto.
Qed.

Lemma pr_lengths A errors i pr rc : precision_recall A errors i = (pr, rc) ->
  length pr = length errors /\ length rc = length errors.
Proof.
  unfold precision_recall. intros E. injection E as <- <-.
  assert (K : forall n nr nh fp fn, length (pr_loop A n nr nh fp fn errors) = length errors).
  { intros n. induction errors as [|c t IH]; intros; simpl; auto. }
  destruct i; rewrite ?interp_length, !map_length, !K; auto.
Qed.

Lemma global_ap_D RE HE (score : HE -> f32) (l : list (match_t RE HE)) c i trap :
  (forall m, In m l -> zero_one (m_err m)) -> (Z.of_nat (length l) <= 2 ^ 53)%Z ->
  exists a x, global_ap DArith score l c i trap = Ok a /\ global_ap RArith score l c i trap = Ok x /\
    is_finite a = true /\ Rabs (B2R a - x) <= INR (length l) * (INR (length l) + 12) * u64.
Proof.
  intros H L. unfold global_ap.
  destruct (precision_recall_matches DArith score l c i) as [pr rc] eqn:E.
  destruct (precision_recall_matches RArith score l c i) as [pr' rc'] eqn:E'.
  destruct (matches_D RE HE score l c i pr rc pr' rc' H L E E') as [Hp Hr].
  unfold precision_recall_matches in E. destruct (pr_lengths _ _ _ _ _ E) as [L1 L2].
  assert (L3 := points_length score c l). change (num DArith) with f64 in *.
  destruct (ap_D pr pr' rc rc' trap Hp Hr) as [a [x [A1 [A2 [A3 A4]]]]]; [lia|lia|].
  exists a, x. repeat split; auto. eapply Rle_trans; [exact A4|].
  apply Rmult_le_compat_r; [apply Rlt_le, u64_pos|].
  assert (INR (length pr) <= INR (length l)) by (apply le_INR; lia).
  assert (0 <= INR (length pr)) by apply pos_INR. nra.
Qed.

(** ** Bounds and order *)

Lemma whole_bounded c : whole c -> bounded c.
Proof.
  intros [p [n [F1 [V1 [F2 [V2 [B1 B2]]]]]]]. unfold bounded. rewrite V1, V2, !INR_IZR_INZ.
  repeat split; auto; apply IZR_le; lia.
Qed.

Lemma points_bounded RE HE (score : HE -> f32) c (l : list (match_t RE HE)) :
  (forall m, In m l -> zero_one (m_err m)) -> forall x, In x (points score c l) -> bounded x.
Proof. intros H x K. apply whole_bounded, (points_whole score c l H x K). Qed.

Lemma ap_01 RE HE (score : HE -> f32) (l : list (match_t RE HE)) c i trap x :
  (forall m, In m l -> zero_one (m_err m)) -> global_ap RArith score l c i trap = Ok x -> in01 x.
Proof.
  intros H G. assert (V := points_bounded RE HE score c l H).
  destruct (pr_curve (points score c l) i) as [pr0 [pr [rc [E0 [E [C [L [I _]]]]]]]].
  destruct (curve_bounds _ _ _ V C) as [B1 [B2 B3]].
  unfold global_ap, precision_recall_matches in G. rewrite E in G.
  rewrite (ap_area trap pr rc L) in G. injection G as <-. apply area_01; auto.
Qed.

Lemma sorted_map {A} (P : A -> A -> Prop) (Q : R -> R -> Prop) (f : A -> R) l :
  (forall a b, P a b -> Q (f a) (f b)) -> StronglySorted P l -> StronglySorted Q (map f l).
Proof.
  intros H. induction 1 as [|x t S IH F]; simpl; constructor; auto.
  apply Forall_forall. intros y K. apply in_map_iff in K. destruct K as [z [<- K]].
  rewrite Forall_forall in F. auto.
Qed.

Lemma recall_sorted rc rc' : Forall2 rec_ok rc rc' -> nondecreasing rc' -> nondecreasing (map (fun d => B2R d) rc).
Proof.
  unfold nondecreasing. induction 1 as [|d r rc rc' [F [V B]] G IH]; intros S; simpl; constructor.
  - inversion S; auto.
  - inversion S as [|? ? S' A E]; subst. apply Forall_forall. intros y K. apply in_map_iff in K.
    destruct K as [e [<- K]]. apply In_nth_error in K. destruct K as [i E].
    assert (N : exists r', nth_error rc' i = Some r' /\ rec_ok e r').
    { clear - G E. revert i E. induction G as [|x y a b P G IH]; intros [|i] E; simpl in E; try discriminate.
      - injection E as <-. simpl. eauto.
      - simpl. apply IH, E. }
    destruct N as [r' [N1 [_ [N2 _]]]]. rewrite V, N2. apply rnd64_le.
    rewrite Forall_forall in A. apply A. eapply nth_error_In, N1.
Qed.

Lemma Forall2_in {A B} (P : A -> B -> Prop) a b x : Forall2 P a b -> In x a -> exists y, P x y.
Proof. induction 1 as [|u v a b H F IH]; intros K; [destruct K|]. destruct K as [<-|K]; eauto. Qed.

Lemma D_lt_v a b : is_finite a = true -> is_finite b = true -> (a_lt DArith a b = true <-> B2R a < B2R b).
Proof. intros A B. apply ltb_R; auto. Qed.

Lemma matches_D_bounds RE HE (score : HE -> f32) (l : list (match_t RE HE)) c i pr rc :
  (forall m, In m l -> zero_one (m_err m)) -> (Z.of_nat (length l) <= 2 ^ 53)%Z ->
  precision_recall_matches DArith score l c i = (pr, rc) ->
  Forall unit_f64 pr /\ Forall unit_f64 rc /\ nondecreasing (map (fun d : f64 => B2R d) rc) /\
  (i = true -> nonincreasing (map (fun d : f64 => B2R d) pr)).
Proof.
  intros H L E. destruct (precision_recall_matches RArith score l c i) as [pr' rc'] eqn:E'.
  destruct (matches_D RE HE score l c i pr rc pr' rc' H L E E') as [Hp Hr].
  assert (U1 : Forall unit_f64 pr).
  { clear - Hp. induction Hp as [|d r a b [A [B _]]]; constructor; auto. split; assumption. }
  split; [exact U1|]. split; [|split].
  - clear - Hr. induction Hr as [|d r a b [A [B C]]]; constructor; auto. split; [exact A|]. rewrite B. apply rnd64_01, C.
  - apply recall_sorted with (1 := Hr).
    assert (V := points_bounded RE HE score c l H).
    destruct (pr_curve (points score c l) i) as [pr0 [pr1 [rc1 [E0 [E1 [C _]]]]]].
    destruct (curve_bounds _ _ _ V C) as [_ [_ B3]].
    unfold precision_recall_matches in E'. rewrite E1 in E'. injection E' as _ <-. exact B3.
  - intros ->. unfold precision_recall_matches, precision_recall in E. injection E as E _.
    unfold nonincreasing. apply sorted_map with (P := fun a b : f64 => B2R b <= B2R a); [intros; lra|].
    rewrite <- E. apply (interp_sorted DArith (fun a => is_finite a = true) (fun a : f64 => B2R a) D_lt_v).
    apply Forall_forall. intros d K.
    assert (G := pr_D (points score c l) false (points_whole score c l H)).
    destruct (points_totals score c l) as [T1 T2]. destruct (hyps_le l).
    rewrite T1, T2 in G. destruct G as [G _]; [lia|lia|]. simpl in G.
    destruct (Forall2_in _ _ _ _ G K) as [y [P _]]. exact P.
Qed.

(** ** Mean AP *)

Definition msum (N : R) (k : nat) (s : f64) (t : R) : Prop :=
  is_finite s = true /\ Rabs (B2R s) <= 2 * INR k /\
  Rabs (B2R s - t) <= (INR k * N + INR k * (INR k + 1)) * u64.

Lemma msum_step N k s t a x : (Z.of_nat (S k) <= 2 ^ 52)%Z -> 0 <= N -> N * u64 <= 1 -> msum N k s t ->
  is_finite a = true -> Rabs (B2R a - x) <= N * u64 -> in01 x -> msum N (S k) (f64_add s a) (t + x).
Proof.
  intros Hk N0 N1 [Fs [Bs Es]] Fa Ea Xa. assert (U := u64_pos). unfold in01 in Xa.
  assert (Ba : Rabs (B2R a) <= 2) by (unfold Rabs in *; repeat (destruct Rcase_abs in *); lra).
  assert (K0 := pos_INR k). unfold msum. rewrite S_INR.
  assert (Bt : Rabs (B2R s + B2R a) <= 2 * (INR k + 1)) by (eapply Rle_trans; [apply Rabs_triang|]; lra).
  assert (Kb : 2 * (INR k + 1) <= bpow radix2 53).
  { rewrite <- S_INR, INR_IZR_INZ. change (bpow radix2 53) with (IZR (2 ^ 53)). rewrite <- mult_IZR. apply IZR_le. lia. }
  destruct (f64_plus_correct s a 53) as [V F]; auto; [exps|lra|].
  fold (f64_add s a) in V, F. split; [exact F|]. rewrite V.
  assert (E := rnd64_err_le _ (2 * (INR k + 1)) ltac:(lra) Bt).
  split.
  - assert (G : fmt64 (2 * (INR k + 1))).
    { rewrite <- S_INR, INR_IZR_INZ, <- mult_IZR. apply fmt64_Z. lia. }
    assert (B2 := Rabs_le_inv _ _ Bt). 
    apply Rabs_le. split; [|apply rnd64_le_fmt64; [exact G|lra]].
    assert (G' : fmt64 (- (2 * (INR k + 1)))) by apply fmt64_opp, G.
    rewrite <- (rnd64_id _ G'). apply rnd64_le. lra.
  - replace (((INR k + 1) * N + (INR k + 1) * (INR k + 1 + 1)) * u64)
      with ((INR k * N + INR k * (INR k + 1)) * u64 + N * u64 + 2 * (INR k + 1) * u64) by ring.
    unfold Rabs in *. repeat (destruct Rcase_abs in *); lra.
Qed.

Section MeanD.
  Context {RE HE : Type} (score : HE -> f32) (srt : sort_fn).
  Notation M := (match_t RE HE).

  (** A group whose sorted form exists, has 0/1 errors and [n] matches. *)
  Definition group_ok (n : nat) (sort : bool) (g : list M) : Prop :=
    exists g', maybe_sort score srt sort g = Ok g' /\
      (forall m, In m g' -> zero_one (m_err m)) /\ (length g' <= n)%nat.

  Lemma mean_loop_D n c i trap sort : (Z.of_nat n <= 2 ^ 26)%Z ->
    forall groups k s t, (forall g, In g groups -> group_ok n sort g) ->
    (Z.of_nat (k + length groups) <= 2 ^ 52)%Z -> msum (INR n * (INR n + 12)) k s t ->
    exists a x,
      ofold (fun s g => let* g' := maybe_sort score srt sort g in
        let* ap := global_ap DArith score g' c i trap in Ok (a_add DArith s ap)) groups s = Ok a /\
      ofold (fun s g => let* g' := maybe_sort score srt sort g in
        let* ap := global_ap RArith score g' c i trap in Ok (a_add RArith s ap)) groups t = Ok x /\
      msum (INR n * (INR n + 12)) (k + length groups) a x.
  Proof.
    intros Hn. assert (N0 := pos_INR n). assert (U := u64_pos).
    assert (Nb : INR n <= IZR (2 ^ 26)) by (rewrite INR_IZR_INZ; apply IZR_le, Hn).
    assert (N1 : INR n * (INR n + 12) * u64 <= 1).
    { rewrite u64_val. assert (INR n * (INR n + 12) <= IZR (2 ^ 53)) by (simpl in *; nra).
      apply Rmult_le_reg_r with (IZR (2 ^ 53)); [simpl; lra|].
      rewrite Rmult_assoc, Rinv_l; simpl in *; lra. }
    induction groups as [|g t IH]; intros k s t' H L S.
    - simpl in *. rewrite Nat.add_0_r. exists s, t'. auto.
    - destruct (H g (or_introl eq_refl)) as [g' [Eg [Zg Lg]]].
      destruct (global_ap_D RE HE score g' c i trap Zg) as [a [x [A1 [A2 [A3 A4]]]]]; [lia|].
      assert (X := ap_01 RE HE score g' c i trap x Zg A2).
      destruct (IH (Datatypes.S k) (f64_add s a) (t' + x)) as [b [y [B1 [B2 B3]]]].
      + intros; apply H; simpl; auto.
      + simpl in L. lia.
      + simpl in L. apply msum_step; auto; [lia|nra|].
        eapply Rle_trans; [exact A4|]. apply Rmult_le_compat_r; [lra|].
        assert (INR (length g') <= INR n) by (apply le_INR; lia).
        assert (0 <= INR (length g')) by apply pos_INR. nra.
      + exists b, y. replace (k + length (g :: t))%nat with (Datatypes.S k + length t)%nat by (simpl; lia).
        split; [|split; [|exact B3]].
        * cbn [ofold obind]. rewrite Eg. cbn [obind]. rewrite A1. cbn [obind]. exact B1.
        * cbn [ofold obind]. rewrite Eg. cbn [obind]. rewrite A2. cbn [obind]. exact B2.
  Qed.

  Lemma mean_ap_D n c i trap sort groups : (Z.of_nat n <= 2 ^ 26)%Z ->
    (Z.of_nat (length groups) <= 2 ^ 52)%Z -> (forall g, In g groups -> group_ok n sort g) ->
    exists a x, mean_ap DArith score srt groups c i trap sort = Ok a /\
      mean_ap RArith score srt groups c i trap sort = Ok x /\ is_finite a = true /\
      Rabs (B2R a - x) <= (INR n * (INR n + 12) + INR (length groups) + 3) * u64.
  Proof.
    intros Hn Hg H. assert (U := u64_pos). assert (N0 := pos_INR n).
    assert (Z0 : msum (INR n * (INR n + 12)) 0 (a0 DArith) (a0 RArith)).
    { split; [reflexivity|]. replace (B2R (a0 DArith)) with 0 by reflexivity. simpl.
      rewrite Rminus_0_r, Rabs_R0. lra. }
    destruct (mean_loop_D n c i trap sort Hn groups 0 _ _ H Hg Z0) as [s [t [E1 [E2 [Fs [Bs Es]]]]]].
    unfold mean_ap. rewrite E1, E2. simpl plus in *. cbn [obind].
    eexists _, _. split; [reflexivity|]. split; [reflexivity|].
    unfold mean_of. destruct (Nat.ltb_spec 0 (length groups)) as [K|K].
    - ar. set (m := length groups) in *.
      destruct (wholef_nat m) as [Fm Vm]; [lia|].
      assert (M1 : 1 <= INR m) by (change 1 with (INR 1); apply le_INR; lia).
      rewrite <- INR_IZR_INZ in Vm.
      assert (Q : Rabs (B2R s / INR m) <= 2).
      { unfold Rdiv. rewrite Rabs_mult, (Rabs_right (/ INR m)) by (apply Rle_ge, Rlt_le, Rinv_0_lt_compat; lra).
        apply Rmult_le_reg_r with (INR m); [lra|]. rewrite Rmult_assoc, Rinv_l by lra. lra. }
      destruct (f64_div_correct s (f64_of_Z (Z.of_nat m)) 1) as [V F]; auto; [rewrite Vm; lra|exps|rewrite Vm; exact Q|].
      fold (f64_div s (f64_of_Z (Z.of_nat m))) in V, F. split; [exact F|]. rewrite V, Vm.
      assert (E := rnd64_err_le _ 2 ltac:(lra) Q).
      assert (D : Rabs (B2R s / INR m - t / INR m) <= (INR n * (INR n + 12) + (INR m + 1)) * u64).
      { replace (B2R s / INR m - t / INR m) with ((B2R s - t) * / INR m) by (field; lra).
        rewrite Rabs_mult, (Rabs_right (/ INR m)) by (apply Rle_ge, Rlt_le, Rinv_0_lt_compat; lra).
        apply Rmult_le_reg_r with (INR m); [lra|]. rewrite Rmult_assoc, Rinv_l by lra. lra. }
      replace ((INR n * (INR n + 12) + INR m + 3) * u64)
        with ((INR n * (INR n + 12) + (INR m + 1)) * u64 + 2 * u64) by ring.
      unfold Rabs in *. repeat (destruct Rcase_abs in *); lra.
    - split; [reflexivity|]. replace (B2R (a0 DArith)) with 0 by reflexivity.
      simpl. rewrite Rminus_0_r, Rabs_R0. assert (0 <= INR (length groups)) by apply pos_INR. nra.
  Qed.
End MeanD.

(** ** Witnesses *)

Section Witness.
  Notation M := (match_t nat nat).

  (** Scores 100, 99, ... *)
  Definition down (h : nat) : f32 := f32_of_Z (100 - Z.of_nat h).
  Definition hit (n : nat) : M := match_pair n n me_default.

  (** [n] hits, then [k] false positives, by decreasing score. *)
  Definition hits_fps (n k : nat) : list M := map hit (seq 0 n) ++ map (@make_fp nat nat) (seq n k).

  Definition over_one (o : outcome f64) : bool := match o with Ok a => f64_lt (f64_of_Z 1) a | _ => false end.
  Definition under_one (o : outcome f64) : bool := match o with Ok a => f64_lt a (f64_of_Z 1) | _ => false end.
End Witness.

Lemma hits_fps_01 n k m : In m (hits_fps n k) -> zero_one (m_err m).
Proof.
  unfold hits_fps. intros K. apply in_app_or in K.
  destruct K as [K|K]; apply in_map_iff in K; destruct K as [x [<- _]]; unfold zero_one; simpl; auto.
Qed.

Lemma over_R o : over_one o = true -> forall a, o = Ok a -> is_finite a = true -> 1 < B2R a.
Proof.
  intros H a -> F. simpl in H. destruct one64 as [F1 V1]. rewrite <- V1. apply (ltb_R 53 1024); auto.
Qed.

Lemma under_R o : under_one o = true -> forall a, o = Ok a -> is_finite a = true -> B2R a < 1.
Proof.
  intros H a -> F. simpl in H. destruct one64 as [F1 V1]. rewrite <- V1. apply (ltb_R 53 1024); auto.
Qed.

Lemma above_one (n k : nat) c i trap : (Z.of_nat (n + k) <= 2 ^ 53)%Z ->
  over_one (global_ap DArith down (hits_fps n k) c i trap) = true ->
  exists a x, global_ap DArith down (hits_fps n k) c i trap = Ok a /\ global_ap RArith down (hits_fps n k) c i trap = Ok x /\ x <= 1 < B2R a.
Proof.
  intros L H. destruct (global_ap_D _ _ down (hits_fps n k) c i trap) as [a [x [A [B [C D]]]]].
  - apply hits_fps_01.
  - unfold hits_fps. rewrite app_length, !map_length, !seq_length. exact L.
  - exists a, x. split; [exact A|]. split; [exact B|]. split.
    + apply (ap_01 _ _ _ _ _ _ _ _ (hits_fps_01 n k) B).
    + apply (over_R _ H a A C).
Qed.

Lemma above_one_refuted :
  exists (score : nat -> f32) (l l' : list (match_t nat nat)),
    (forall m, In m (l ++ l') -> zero_one (m_err m)) /\
    length l = 8%nat /\ length l' = 3%nat /\
    (exists a x, global_ap DArith score l true true true = Ok a /\
       global_ap RArith score l true true true = Ok x /\ x <= 1 < B2R a) /\
    (exists a x, global_ap DArith score l' false false false = Ok a /\
       global_ap RArith score l' false false false = Ok x /\ x <= 1 < B2R a).
Proof.
  exists down, (hits_fps 2 6), (hits_fps 2 1). split; [|split; [reflexivity|split; [reflexivity|split]]].
  - intros m K. apply in_app_or in K. destruct K as [K|K]; apply (hits_fps_01 _ _ _ K).
  - apply above_one; [vm_compute; discriminate|vm_compute; reflexivity].
  - apply above_one; [vm_compute; discriminate|vm_compute; reflexivity].
Qed.

Lemma below_one_refuted :
  exists (score : nat -> f32) (l : list (match_t nat nat)),
    (forall m, In m l -> zero_one (m_err m)) /\ perfect l /\
    global_ap RArith score l false true true = Ok 1 /\
    exists a, global_ap DArith score l false true true = Ok a /\ B2R a < 1.
Proof.
  exists down, (hits_fps 63 0). split; [apply hits_fps_01|].
  assert (P : perfect (hits_fps 63 0)).
  { assert (N : f32_0 <> f32_1) by (intros K; assert (E : f32_eq f32_1 f32_0 = false) by reflexivity; rewrite <- K in E; discriminate).
    assert (H : forall m, In m (hits_fps 63 0) -> exists n, m = hit n).
    { intros m K. unfold hits_fps in K. simpl seq in K at 2. rewrite app_nil_r in K. apply in_map_iff in K.
      destruct K as [n [<- _]]. eauto. }
    split.
    - intros m K F. destruct (H m K) as [n ->]. apply N. exact F.
    - intros u a v b w E Fa _. destruct (H a) as [n ->]; [rewrite E; apply in_or_app; right; left; reflexivity|].
      apply N. exact Fa. }
  split; [exact P|]. split.
  - apply (AveragePrecision.perfect_ap down); [apply hits_fps_01|vm_compute; lia|exact P].
  - destruct (global_ap_D _ _ down (hits_fps 63 0) false true true) as [a [x [A [B [C D]]]]].
    + apply hits_fps_01.
    + vm_compute. discriminate.
    + exists a. split; [exact A|]. apply (under_R _ (eq_refl : under_one (global_ap DArith down (hits_fps 63 0) false true true) = true) a A C).
Qed.

Lemma matches_D_error RE HE (score : HE -> f32) (l : list (match_t RE HE)) c i pr rc pr' rc' :
  (forall m, In m l -> zero_one (m_err m)) -> (Z.of_nat (length l) <= 2 ^ 53)%Z ->
  precision_recall_matches DArith score l c i = (pr, rc) ->
  precision_recall_matches RArith score l c i = (pr', rc') ->
  Forall2 (within u64) pr pr' /\ Forall2 (fun d r => is_double d (nearest64 r)) rc rc'.
Proof.
  intros H L E E'. destruct (matches_D RE HE score l c i pr rc pr' rc' H L E E') as [Hp Hr]. split.
  - clear - Hp. induction Hp as [|d r a b [A [B [C D]]]]; constructor; auto. split; assumption.
  - clear - Hr. induction Hr as [|d r a b [A [B C]]]; constructor; auto. split; assumption.
Qed.

Lemma mean_ap_error RE HE (score : HE -> f32) (srt : sort_fn) n
  (groups : list (list (match_t RE HE))) c i trap sort :
  sort_contract srt -> (Z.of_nat n <= 2 ^ 26)%Z -> (Z.of_nat (length groups) <= 2 ^ 52)%Z ->
  (forall g, In g groups -> (length g <= n)%nat /\ (sort = true -> ranked score g) /\
     forall m, In m g -> zero_one (m_err m)) ->
  exists a x, mean_ap DArith score srt groups c i trap sort = Ok a /\
    mean_ap RArith score srt groups c i trap sort = Ok x /\
    within ((INR n * (INR n + 12) + INR (length groups) + 3) * u64) a x.
Proof.
  intros C Hn Hg H. apply (mean_ap_D score srt n c i trap sort groups Hn Hg).
  intros g K. destruct (H g K) as [A [B D]]. unfold group_ok, maybe_sort. destruct sort.
  - destruct (Curves.sort_matches_spec score srt g C (B eq_refl)) as [s [E [P _]]].
    exists s. split; [exact E|]. split.
    + intros m Km. apply D. eapply Permutation_in; [apply Permutation_sym, P|exact Km].
    + rewrite <- (Permutation_length P). exact A.
  - exists g. auto.
Qed.
