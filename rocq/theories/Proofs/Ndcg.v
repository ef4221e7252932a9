(** Proofs about the normalised discounted cumulative gain. *)
From Coq Require Import List Bool ZArith Sorted Reals Lra Lia Permutation.
Import ListNotations.
From Flocq Require Import Core BinarySingleNaN.
From Verif.Model Require Import Cpp Floats Events Matches Assessment.
From Verif.Spec Require Import Order Objects Matching Collapse Metrics.
From Verif.Proofs Require Import Order FloatFacts Matching Collapse Metrics AveragePrecision.
From Verif.Proofs Require Objects.
Local Open Scope R_scope.

(** ** Discounts *)

Lemma ln_pos x : 1 < x -> 0 < ln x.
Proof. intros H. rewrite <- ln_1. apply ln_increasing; lra. Qed.

Lemma INR_1 i : (0 < i)%nat -> 1 <= INR i.
Proof. intros H. change 1 with (INR 1). apply le_INR. lia. Qed.

Lemma discount_pos i : (0 < i)%nat -> 0 < discount i.
Proof.
  intros H. unfold discount. assert (K := INR_1 i H). apply Rdiv_lt_0_compat; apply ln_pos; lra.
Qed.

Lemma discount_lt i j : (0 < i < j)%nat -> discount j < discount i.
Proof.
  intros H. unfold discount, Rdiv. assert (K := INR_1 i ltac:(lia)).
  assert (L : INR i < INR j) by (apply lt_INR; lia).
  apply Rmult_lt_compat_l; [apply ln_pos; lra|].
  apply Rinv_lt_contravar; [apply Rmult_lt_0_compat; apply ln_pos; lra|].
  apply ln_increasing; lra.
Qed.

Lemma discount_le i j : (0 < i <= j)%nat -> discount j <= discount i.
Proof.
  intros H. destruct (Nat.eq_dec i j) as [->|N]; [lra|]. left. apply discount_lt. lia.
Qed.

(** Weighted sums of discounts. *)
Fixpoint dsum (i : nat) (ws : list R) : R :=
  match ws with
  | [] => 0
  | w :: t => w * discount i + dsum (S i) t
  end.

Definition rsum (ws : list R) : R := sum_of (fun w => w) ws.

Lemma dsum_app i a b : dsum i (a ++ b) = dsum i a + dsum (i + length a) b.
Proof.
  revert i. induction a as [|w a IH]; intros i; simpl; [rewrite Nat.add_0_r; lra|].
  rewrite IH. replace (S i + length a)%nat with (i + S (length a))%nat by lia. lra.
Qed.

Definition dsum' (d : R) (i : nat) (ws : list R) : R := dsum i ws - d * rsum ws.

Lemma dsum'_cons d i w t : dsum' d i (w :: t) = w * (discount i - d) + dsum' d (S i) t.
Proof. unfold dsum', rsum. simpl. lra. Qed.

Lemma dsum'_neg d i ws : (0 < i)%nat -> discount i <= d -> Forall in01 ws -> dsum' d i ws <= 0.
Proof.
  revert i. induction ws as [|w ws IH]; intros i Hi Hd H.
  - unfold dsum', rsum. simpl. lra.
  - inversion H as [|? ? H1 H2]; subst. rewrite dsum'_cons. unfold in01 in H1.
    assert (D : discount (S i) <= discount i) by (apply discount_le; lia).
    assert (I := IH (S i) ltac:(lia) ltac:(lra) H2). nra.
Qed.

Lemma dsum'_max i ws n : (0 < i)%nat -> Forall in01 ws ->
  dsum' (discount (i + n)) i ws <= dsum' (discount (i + n)) i (repeat 1 n).
Proof.
  revert i n. induction ws as [|w ws IH]; intros i n Hi H.
  - assert (G : forall k j, (0 < j)%nat -> (j + k <= i + n)%nat -> 0 <= dsum' (discount (i + n)) j (repeat 1 k)).
    { induction k as [|k IHk]; intros j Hj L; [unfold dsum', rsum; simpl; lra|].
      cbn [repeat]. rewrite dsum'_cons. assert (D : discount (i + n) <= discount j) by (apply discount_le; lia).
      assert (K := IHk (S j) ltac:(lia) ltac:(lia)). lra. }
    specialize (G n i Hi ltac:(lia)). unfold dsum' at 1, rsum. simpl. lra.
  - inversion H as [|? ? H1 H2]; subst. unfold in01 in H1. destruct n as [|n].
    + rewrite Nat.add_0_r. eapply Rle_trans; [apply dsum'_neg; auto; lra|]. unfold dsum', rsum. simpl. lra.
    + cbn [repeat]. rewrite !dsum'_cons. specialize (IH (S i) n ltac:(lia) H2).
      replace (S i + n)%nat with (i + S n)%nat in IH by lia.
      assert (D : discount (i + S n) <= discount i) by (apply discount_le; lia). nra.
Qed.

Lemma rsum_repeat n : rsum (repeat 1 n) = INR n.
Proof. unfold rsum. induction n as [|n IH]; [reflexivity|]. cbn [repeat]. rewrite sum_of_cons, IH, S_INR. lra. Qed.

(** No weights of total [n] beat [n] ones at the front. *)
Lemma dsum_max i ws n : (0 < i)%nat -> Forall in01 ws -> rsum ws <= INR n -> dsum i ws <= dsum i (repeat 1 n).
Proof.
  intros Hi H L. assert (M := dsum'_max i ws n Hi H). unfold dsum' in M. rewrite rsum_repeat in M.
  assert (D := discount_pos (i + n) ltac:(lia)). nra.
Qed.

Lemma dsum_nonneg i ws : (0 < i)%nat -> Forall (fun w => 0 <= w) ws -> 0 <= dsum i ws.
Proof.
  revert i. induction ws as [|w ws IH]; intros i Hi H; simpl; [lra|].
  inversion H; subst. assert (D := discount_pos i Hi). assert (I := IH (S i) ltac:(lia) ltac:(auto)). nra.
Qed.

(** ** The model *)

(** Gain of each hypothesis of a point. *)
Definition rel32 (c : counts) : f32 := f32_sub f32_1 (f32_div (ec_fp c) (f32_of_Z (Z.of_nat (ec_nh c)))).
Definition gain2 (c : counts) : R := Rpower 2 (B2R (rel32 c)) - 1.
Definition gains (pts : list counts) : list R := concat (map (fun c => repeat (gain2 c) (ec_nh c)) pts).

Lemma term_eq g i : (0 < i)%nat ->
  a_div RArith g (t_log2 RTrans (i + 1)) = g * discount i.
Proof.
  intros H. cbn. rewrite plus_INR. change (INR 1) with 1. unfold discount.
  assert (K := INR_1 i H). field. split; apply Rgt_not_eq, ln_pos; lra.
Qed.

Lemma dcg_inner_sum r n i d : (0 < i)%nat ->
  dcg_inner RArith RTrans r n i d = d + dsum i (repeat (Rpower 2 r - 1) n).
Proof.
  revert i d. induction n as [|n IH]; intros i d Hi; simpl; [lra|].
  rewrite IH by lia.
  change (a_add RArith d (a_div RArith (a_sub RArith (t_exp2 RTrans r) (a1 RArith)) (t_log2 RTrans (i + 1)))
          + dsum (S i) (repeat (Rpower 2 r - 1) n) =
          d + ((Rpower 2 r - 1) * discount i + dsum (S i) (repeat (Rpower 2 r - 1) n))).
  rewrite term_eq by exact Hi. cbn. unfold a1. cbn. lra.
Qed.

Lemma dcg_loop_sum pts i d : (0 < i)%nat ->
  dcg_loop RArith RTrans i d pts = d + dsum i (gains pts).
Proof.
  revert i d. induction pts as [|c pts IH]; intros i d Hi; [simpl; lra|].
  cbn [dcg_loop]. unfold gains. cbn [map concat]. fold (gains pts). rewrite dsum_app, repeat_length.
  destruct (Nat.ltb_spec 0 (ec_nh c)) as [H|H].
  - rewrite IH by lia. rewrite dcg_inner_sum by exact Hi. unfold gain2, rel32.
    change (a_f32 RArith) with (fun x : f32 => B2R x). cbv beta. lra.
  - replace (ec_nh c) with 0%nat by lia. rewrite IH by exact Hi. simpl. rewrite Nat.add_0_r. lra.
Qed.

Lemma z_loop_sum n i z : (0 < i)%nat -> z_loop RArith RTrans n i z = z + dsum i (repeat 1 n).
Proof.
  revert i z. induction n as [|n IH]; intros i z Hi; simpl; [lra|]. rewrite IH by lia.
  change (a_add RArith z (a_div RArith (a1 RArith) (t_log2 RTrans (i + 1))) + dsum (S i) (repeat 1 n) =
          z + (1 * discount i + dsum (S i) (repeat 1 n))).
  rewrite term_eq by exact Hi. unfold a1. cbn. lra.
Qed.

Lemma ndcg_sum pts :
  ndcg RArith RTrans pts =
  if Nat.ltb 0 (references pts) then dsum 1 (gains pts) / dsum 1 (repeat 1 (references pts)) else 0.
Proof.
  unfold ndcg. rewrite total_refs. destruct (Nat.ltb 0 (references pts)); auto.
  rewrite dcg_loop_sum, z_loop_sum by lia. change (a_div RArith) with Rdiv. unfold a0.
  change (a_nat RArith 0) with 0. rewrite !Rplus_0_l. reflexivity.
Qed.

Lemma z_pos n : (0 < n)%nat -> 0 < dsum 1 (repeat 1 n).
Proof.
  intros H. destruct n as [|n]; [lia|]. simpl. assert (D := discount_pos 1 ltac:(lia)).
  assert (0 <= dsum 2 (repeat 1 n)); [|lra]. apply dsum_nonneg; [lia|].
  apply Forall_forall. intros x K. apply repeat_spec in K. lra.
Qed.

(** Bounds from weights that are at most their references. *)
Lemma ndcg_bounds pts : Forall in01 (gains pts) -> rsum (gains pts) <= INR (references pts) ->
  in01 (ndcg RArith RTrans pts).
Proof.
  intros H L. rewrite ndcg_sum. destruct (Nat.ltb_spec 0 (references pts)) as [P|P]; [|unfold in01; lra].
  apply ratio01; [|apply z_pos; exact P]. split.
  - apply dsum_nonneg; [lia|]. eapply Forall_impl; [|exact H]. unfold in01. tauto.
  - apply dsum_max; auto.
Qed.

(** ** Convexity of the exponential *)

Lemma exp_chord a b t : 0 <= t <= 1 -> exp ((1 - t) * a + t * b) <= (1 - t) * exp a + t * exp b.
Proof.
  intros H. set (m := (1 - t) * a + t * b).
  assert (T : forall x, exp m * (1 + (x - m)) <= exp x).
  { intros x. replace x with (m + (x - m)) at 2 by lra. rewrite exp_plus.
    apply Rmult_le_compat_l; [left; apply exp_pos|]. apply exp_ineq1_le. }
  assert (A := T a). assert (B := T b). assert (P := exp_pos m).
  assert (E : exp m = (1 - t) * (exp m * (1 + (a - m))) + t * (exp m * (1 + (b - m)))) by (unfold m; ring).
  rewrite E. nra.
Qed.

Lemma pow_chord a b t : 0 <= t <= 1 ->
  Rpower 2 ((1 - t) * a + t * b) <= (1 - t) * Rpower 2 a + t * Rpower 2 b.
Proof.
  intros H. unfold Rpower. replace (((1 - t) * a + t * b) * ln 2) with ((1 - t) * (a * ln 2) + t * (b * ln 2)) by ring.
  apply exp_chord. exact H.
Qed.

Lemma pow_half : Rpower 2 (/ 2) <= 17 / 12.
Proof.
  rewrite Rpower_sqrt by lra. assert (S := sqrt_sqrt 2 ltac:(lra)). assert (P := sqrt_pos 2). nra.
Qed.

Lemma pow_0 : Rpower 2 0 = 1. Proof. apply Rpower_O. lra. Qed.
Lemma pow_1 : Rpower 2 1 = 2. Proof. apply Rpower_1. lra. Qed.

Lemma pow_upper x : in01 x -> Rpower 2 x - 1 <= x - x * (1 - x) / 6.
Proof.
  unfold in01. intros H. assert (P := pow_half).
  destruct (Rle_dec x (/ 2)) as [L|L].
  - assert (C := pow_chord 0 (/ 2) (2 * x) ltac:(lra)). rewrite pow_0 in C.
    replace ((1 - 2 * x) * 0 + 2 * x * / 2) with x in C by field.
    assert (2 * x * Rpower 2 (/ 2) <= 2 * x * (17 / 12)) by (apply Rmult_le_compat_l; lra).
    nra.
  - assert (C := pow_chord (/ 2) 1 (2 * x - 1) ltac:(lra)). rewrite pow_1 in C.
    replace ((1 - (2 * x - 1)) * / 2 + (2 * x - 1) * 1) with x in C by field.
    assert ((1 - (2 * x - 1)) * Rpower 2 (/ 2) <= (1 - (2 * x - 1)) * (17 / 12)) by (apply Rmult_le_compat_l; lra).
    nra.
Qed.

Lemma pow_lower x : 0 <= x -> 0 <= Rpower 2 x - 1.
Proof. intros H. rewrite <- pow_0. assert (Rpower 2 0 <= Rpower 2 x) by (apply Rle_Rpower; lra). lra. Qed.

Lemma pow_upper' x : in01 x -> in01 (Rpower 2 x - 1) /\ Rpower 2 x - 1 <= x.
Proof.
  intros H. assert (U := pow_upper x H). unfold in01 in *. assert (L := pow_lower x ltac:(lra)). split; [split|]; nra.
Qed.

(** ** Gains of points *)

(** The quotient and difference in float32. *)
Lemma rel32_R c k : (0 < ec_nh c)%nat -> (Z.of_nat (ec_nh c) <= 2 ^ 24)%Z ->
  is_finite (ec_fp c) = true -> B2R (ec_fp c) = k -> 0 <= k <= INR (ec_nh c) ->
  B2R (rel32 c) = rnd32 (1 - rnd32 (k / INR (ec_nh c))) /\ 0 <= rnd32 (k / INR (ec_nh c)) <= 1.
Proof.
  intros Hn Hm F E K. destruct (f32_of_Z_exact (Z.of_nat (ec_nh c))) as [En Fn]; [lia|].
  rewrite <- INR_IZR_INZ in En. assert (P : 0 < INR (ec_nh c)) by (apply lt_0_INR; lia).
  assert (R := ratio01 k (INR (ec_nh c)) K P). unfold in01 in R.
  destruct (f32_div_correct (ec_fp c) (f32_of_Z (Z.of_nat (ec_nh c))) 1 F Fn) as [Eq Fq].
  - rewrite En. lra.
  - easy.
  - rewrite E, En, Rabs_pos_eq by lra. simpl. lra.
  - rewrite E, En in Eq.
    assert (Q : 0 <= rnd32 (k / INR (ec_nh c)) <= 1).
    { split; [apply rnd32_nonneg; lra|]. apply rnd32_le_fmt32; [apply fmt32_1|lra]. }
    split; [|exact Q]. unfold rel32, f32_sub, f32_div.
    destruct f32_1_R as [O O'].
    destruct (f32_minus_correct f32_1 (Bdiv mode_NE (ec_fp c) (f32_of_Z (Z.of_nat (ec_nh c)))) 1 O' Fq) as [Em _].
    + easy.
    + rewrite Eq, O, Rabs_pos_eq by lra. simpl. lra.
    + rewrite Em, Eq, O. reflexivity.
Qed.

Lemma rel32_in01 c k : (0 < ec_nh c)%nat -> (Z.of_nat (ec_nh c) <= 2 ^ 24)%Z ->
  is_finite (ec_fp c) = true -> B2R (ec_fp c) = k -> 0 <= k <= INR (ec_nh c) -> in01 (B2R (rel32 c)).
Proof.
  intros Hn Hm F E K. destruct (rel32_R c k Hn Hm F E K) as [-> Q]. split.
  - apply rnd32_nonneg. lra.
  - apply rnd32_le_fmt32; [apply fmt32_1|lra].
Qed.

Lemma rel32_all_wrong c : (0 < ec_nh c)%nat -> (Z.of_nat (ec_nh c) <= 2 ^ 24)%Z ->
  is_finite (ec_fp c) = true -> B2R (ec_fp c) = INR (ec_nh c) -> B2R (rel32 c) = 0.
Proof.
  intros Hn Hm F E. assert (P : 0 < INR (ec_nh c)) by (apply lt_0_INR; lia).
  destruct (rel32_R c (INR (ec_nh c)) Hn Hm F E ltac:(lra)) as [-> Q].
  replace (INR (ec_nh c) / INR (ec_nh c)) with 1 by (field; lra).
  rewrite (rnd32_id 1 fmt32_1). replace (1 - 1) with 0 by lra. apply rnd32_0.
Qed.

Lemma rel32_all_right c : (0 < ec_nh c)%nat -> (Z.of_nat (ec_nh c) <= 2 ^ 24)%Z ->
  is_finite (ec_fp c) = true -> B2R (ec_fp c) = 0 -> B2R (rel32 c) = 1.
Proof.
  intros Hn Hm F E. assert (P : 0 < INR (ec_nh c)) by (apply lt_0_INR; lia).
  destruct (rel32_R c 0 Hn Hm F E ltac:(lra)) as [-> Q].
  replace (0 / INR (ec_nh c)) with 0 by (field; lra).
  rewrite rnd32_0. replace (1 - 0) with 1 by lra. apply rnd32_id, fmt32_1.
Qed.

Lemma gains_01 pts : (forall c, In c pts -> (0 < ec_nh c)%nat -> in01 (gain2 c)) -> Forall in01 (gains pts).
Proof.
  intros H. apply Forall_forall. intros g K. unfold gains in K. apply in_concat in K. destruct K as [l [K1 K2]].
  apply in_map_iff in K1. destruct K1 as [c' [<- K1]].
  assert (N : (0 < ec_nh c')%nat) by (destruct (ec_nh c'); [destruct K2|lia]).
  apply repeat_spec in K2. subst. auto.
Qed.

Lemma gains_sum pts : rsum (gains pts) = sum_of (fun c => INR (ec_nh c) * gain2 c) pts.
Proof.
  unfold gains, rsum. induction pts as [|c pts IH]; [reflexivity|].
  cbn [map concat]. rewrite sum_of_app, sum_of_cons, IH. f_equal.
  generalize (ec_nh c). intros n. induction n as [|n IHn]; [simpl; lra|].
  cbn [repeat]. rewrite sum_of_cons, IHn, S_INR. lra.
Qed.

(** Single matches. *)
Lemma raw_gain e : fractions e -> (0 < me_nh e)%nat ->
  in01 (gain2 (counts_of e)) /\ gain2 (counts_of e) <= INR (me_nr e).
Proof.
  intros H N. assert (Hn : me_nh e = 1%nat) by (assert (K := Objects.nh_le_1 e); lia).
  destruct H as [[F U] [F' U']].
  assert (I : in01 (B2R (rel32 (counts_of e)))).
  { apply rel32_in01 with (B2R (me_fp e)); simpl ec_nh; simpl ec_fp; rewrite ?Hn; auto; try lia; simpl; lra. }
  destruct (pow_upper' _ I) as [G1 G2]. fold (gain2 (counts_of e)) in G1, G2. split; auto.
  destruct (me_nr e) as [|n] eqn:En.
  - assert (O : B2R (me_fp e) = 1).
    { unfold me_nr in En. destruct (f32_lt (me_fp e) f32_1) eqn:L; [discriminate|].
      destruct f32_1_R as [O O']. assert (~ B2R (me_fp e) < 1); [|lra].
      intros C. rewrite <- O in C. apply (proj2 (f32_lt_R _ _ F O')) in C. congruence. }
    rewrite rel32_all_wrong in G2; simpl ec_nh; simpl ec_fp; rewrite ?Hn; auto; lia.
  - rewrite S_INR. assert (P := pos_INR n). unfold in01 in G1. lra.
Qed.

Lemma ndcg_raw_01 RE HE (score : HE -> f32) (l : list (match_t RE HE)) :
  (forall m, In m l -> fractions (m_err m)) -> in01 (global_ndcg RArith RTrans score l false).
Proof.
  intros H. unfold global_ndcg. rewrite raw_points. apply ndcg_bounds.
  - apply gains_01. intros c K N. apply in_map_iff in K. destruct K as [m [<- K]]. apply raw_gain; auto.
  - rewrite gains_sum. unfold references. rewrite <- sum_of_INR. apply sum_of_le.
    intros c K. apply in_map_iff in K. destruct K as [m [<- K]]. unfold cnt. cbn [ec_nh ec_nr counts_of].
    destruct (me_nh (m_err m)) as [|n] eqn:En.
    + simpl INR at 1. rewrite Rmult_0_l. apply pos_INR.
    + assert (L := Objects.nh_le_1 (m_err m)). assert (n = 0%nat) as -> by lia. simpl INR at 1. rewrite Rmult_1_l.
      apply raw_gain; auto. lia.
Qed.

(** Runs. *)
Lemma run_gain c k : (0 < ec_nh c)%nat -> (Z.of_nat (ec_nh c) <= 2 ^ 19)%Z ->
  is_finite (ec_fp c) = true -> B2R (ec_fp c) = IZR k -> (0 <= k <= Z.of_nat (ec_nh c))%Z ->
  in01 (gain2 c) /\ INR (ec_nh c) * gain2 c <= INR (ec_nh c) - IZR k.
Proof.
  intros Hn Hm F E K.
  assert (Hm' : (Z.of_nat (ec_nh c) <= 2 ^ 24)%Z) by lia.
  assert (K1 : 0 <= IZR k <= INR (ec_nh c)).
  { rewrite INR_IZR_INZ. split; apply IZR_le; lia. }
  assert (I := rel32_in01 c (IZR k) Hn Hm' F E K1).
  destruct (pow_upper' _ I) as [G1 G2]. split; auto.
  assert (P : 0 < INR (ec_nh c)) by (apply lt_0_INR; lia).
  destruct (Z.eq_dec k (Z.of_nat (ec_nh c))) as [->|Nk].
  { rewrite <- INR_IZR_INZ in *. rewrite rel32_all_wrong in G2 by auto. fold (gain2 c) in G2. unfold gain2.
    rewrite rel32_all_wrong by auto. rewrite pow_0. lra. }
  destruct (Z.eq_dec k 0) as [->|N0].
  { fold (gain2 c) in G1. unfold in01 in G1. nra. }
  (* rounding errors *)
  destruct (rel32_R c (IZR k) Hn Hm' F E K1) as [R Q].
  set (n := INR (ec_nh c)) in *. set (x := IZR k / n) in *. set (q := rnd32 x) in *.
  assert (Hx : / n <= x <= 1 - / n).
  { unfold x. assert (1 <= IZR k) by (apply (IZR_le 1); lia).
    assert (IZR k <= n - 1) by (unfold n; rewrite INR_IZR_INZ, <- minus_IZR; apply IZR_le; lia).
    split.
    - unfold Rdiv. rewrite <- (Rmult_1_l (/ n)) at 1. apply Rmult_le_compat_r; [left; apply Rinv_0_lt_compat; lra|lra].
    - replace (1 - / n) with ((n - 1) / n) by (field; lra). unfold Rdiv. apply Rmult_le_compat_r; [left; apply Rinv_0_lt_compat; lra|lra]. }
  assert (Hi : / 524288 <= / n <= / 2).
  { split; apply Rinv_le_contravar; try lra.
    - unfold n. rewrite INR_IZR_INZ. apply IZR_le. lia.
    - unfold n. rewrite INR_IZR_INZ. apply IZR_le. lia. }
  assert (Rel : forall y, / 1048576 <= y <= 1 -> Rabs (rnd32 y - y) <= / 16777216).
  { intros y Hy. assert (Ra := rnd32_rel y).
    eapply Rle_trans; [apply Ra|].
    - rewrite Rabs_pos_eq by lra. eapply Rle_trans; [|apply Hy].
      apply Rle_trans with (bpow radix2 (-20)); [apply bpow_le; easy|simpl; lra].
    - rewrite Rabs_pos_eq by lra. change (bpow radix2 (- (24) + 1)) with (/ 8388608). lra. }
  assert (D1 := Rel x ltac:(lra)). apply Rabs_le_inv in D1. fold q in D1.
  assert (D2 := Rel (1 - q) ltac:(lra)). apply Rabs_le_inv in D2. rewrite <- R in D2.
  assert (U := pow_upper _ I). fold (gain2 c) in U. set (r := B2R (rel32 c)) in *.
  assert (Hr : r <= (1 - x) + / 8388608) by lra.
  assert (Goal : gain2 c <= 1 - x).
  { set (s := 1 - x) in *. set (d := / 8388608) in *.
    assert (S : s * (1 - s) >= / 1048576).
    { assert (/ n * (1 - / n) <= s * (1 - s)) by (unfold s; nra). nra. }
    assert (M : r - r * (1 - r) / 6 <= (s + d) - (s + d) * (1 - (s + d)) / 6).
    { unfold in01 in I. assert (0 <= s + d <= 2) by (unfold s, d; lra). nra. }
    assert (T : (s + d) - (s + d) * (1 - (s + d)) / 6 <= s).
    { assert (0 <= s <= 1) by (unfold s; lra). unfold d in *. nra. }
    lra. }
  replace (n - IZR k) with (n * (1 - x)) by (unfold x; field; lra). apply Rmult_le_compat_l; lra.
Qed.

Lemma collapse_point RE HE (score : HE -> f32) (l : list (match_t RE HE)) c :
  ranked score l -> In c (collapse_matches score l) ->
  exists r, r <> [] /\ incl r l /\ (length r <= length l)%nat /\ counted_as r c /\
    ((forall m, In m r -> fractions (m_err m)) -> bounded c) /\
    ((forall m, In m r -> zero_one (m_err m)) -> (Z.of_nat (length r) <= 2 ^ 24)%Z -> summed_as r c).
Proof.
  intros R K. destruct (collapse_spec score l R) as [rs [[A1 A2 _ _] B]].
  assert (F : forall r, In r rs -> r <> [] /\ incl r l /\ (length r <= length l)%nat).
  { intros r Hr. split; [auto|]. split.
    - intros m Hm. rewrite <- A1. apply in_concat. eauto.
    - rewrite <- A1. clear -Hr. induction rs as [|s rs IH]; [destruct Hr|]. simpl. rewrite app_length.
      destruct Hr as [->|Hr]; [lia|]. specialize (IH Hr). lia. }
  clear A1 A2. induction B as [|r c' rs cs B1 B2 IH]; [destruct K|]. destruct K as [<-|K].
  - exists r. destruct (F r (or_introl eq_refl)) as [F1 [F2 F3]]. tauto.
  - apply IH; auto. intros r' Hr. apply F. right. exact Hr.
Qed.

Lemma total_nh_length RE HE (r : list (match_t RE HE)) : (total (fun m => me_nh (m_err m)) r <= length r)%nat.
Proof.
  induction r as [|m r IH]; [unfold total; simpl; lia|].
  rewrite total_cons. assert (Q := Objects.nh_le_1 (m_err m)). simpl. lia.
Qed.

Lemma ndcg_collapsed_01 RE HE (score : HE -> f32) (l : list (match_t RE HE)) :
  (forall m, In m l -> zero_one (m_err m)) -> ranked score l -> (Z.of_nat (length l) <= 2 ^ 19)%Z ->
  in01 (global_ndcg RArith RTrans score l true).
Proof.
  intros Z R L. unfold global_ndcg.
  assert (Hb : forall c, In c (points score true l) -> (0 < ec_nh c)%nat ->
            in01 (gain2 c) /\ INR (ec_nh c) * gain2 c <= INR (ec_nr c)).
  { intros c K N.
    assert (Bc : balanced c) by (apply (balanced_points _ _ score l true); auto; intros _; split; auto; lia).
    destruct Bc as [[F1 [F2 [B1 B2]]] [G _]].
    destruct (collapse_point _ _ score l c R K) as [r [_ [I [Lr [[C1 C2] [_ S]]]]]].
    assert (Zr : forall m, In m r -> zero_one (m_err m)) by (intros m Hm; apply Z, I, Hm).
    destruct (S Zr) as [S1 S2]; [lia|].
    assert (E : B2R (ec_fp c) = IZR (ones me_fp r)) by (rewrite S1, ones_sum; auto; intros m Hm; apply Zr, Hm).
    assert (T := total_nh_length _ _ r). rewrite <- C1 in T.
    destruct (run_gain c (ones me_fp r)) as [R1 R2]; auto.
    - lia.
    - split; [apply ones_range|]. apply le_IZR. rewrite <- E, <- INR_IZR_INZ. lra.
    - split; auto. unfold gain in G. rewrite <- E in R2. lra. }
  apply ndcg_bounds.
  - apply gains_01. intros c K N. apply Hb; auto.
  - rewrite gains_sum. unfold references. rewrite <- sum_of_INR. apply sum_of_le. intros c K.
    destruct (ec_nh c) as [|n] eqn:En; [simpl INR at 1; rewrite Rmult_0_l; apply pos_INR|].
    rewrite <- En. apply Hb; auto. lia.
Qed.

(** ** Textbook form *)

Lemma raw_gain_01 (RE HE : Type) (m : match_t RE HE) : zero_one (m_err m) -> (0 < me_nh (m_err m))%nat ->
  gain2 (cnt m) = if is_hitb m then 1 else 0.
Proof.
  intros Z N. assert (N1 : me_nh (m_err m) = 1%nat) by (assert (K := Objects.nh_le_1 (m_err m)); lia).
  destruct f32_1_R as [O O'].
  unfold is_hitb. unfold gain2. assert (E10 := f32_10).
  destruct (zero_one_cases _ Z) as [[A B]|[[A B]|[[A B]|[A B]]]]; unfold cnt; rewrite B, A; cbn [me_fp me_fn].
  - rewrite rel32_all_right; simpl ec_nh; simpl ec_fp; auto; try lia. rewrite pow_1.
    change (f32_eq f32_0 f32_0) with true. simpl. lra.
  - rewrite rel32_all_wrong; simpl ec_nh; simpl ec_fp; auto; try lia. rewrite pow_0, E10. simpl. lra.
  - exfalso. assert (X : me_nh (m_err m) = 0%nat) by (change (me_nh (m_err m)) with (ec_nh (counts_of (m_err m))); rewrite B; reflexivity). lia.
  - rewrite rel32_all_wrong; simpl ec_nh; simpl ec_fp; auto; try lia. rewrite pow_0, E10. simpl. lra.
Qed.

Lemma gains_relevances RE HE (l : list (match_t RE HE)) : (forall m, In m l -> zero_one (m_err m)) ->
  gains (map cnt l) = map (fun b : bool => if b then 1 else 0) (relevances l).
Proof.
  intros H. unfold gains, relevances. rewrite !map_map. induction l as [|m l IH]; [reflexivity|].
  cbn [map concat filter]. rewrite IH by (intros x K; apply H; right; exact K).
  assert (N := Objects.nh_le_1 (m_err m)). change (ec_nh (cnt m)) with (me_nh (m_err m)).
  destruct (Nat.ltb_spec 0 (me_nh (m_err m))) as [P|P].
  - assert (N1 : me_nh (m_err m) = 1%nat) by lia. rewrite N1. cbn [repeat map app].
    rewrite raw_gain_01 by (auto; apply H; left; reflexivity). reflexivity.
  - assert (N1 : me_nh (m_err m) = 0%nat) by lia. rewrite N1. reflexivity.
Qed.

Lemma dsum_dcg i rel : dsum i (map (fun b : bool => if b then 1 else 0) rel) = dcg i rel.
Proof. revert i. induction rel as [|b rel IH]; intros i; simpl; auto. rewrite IH. destruct b; lra. Qed.

Lemma dsum_ideal i n : dsum i (repeat 1 n) = dcg i (repeat true n).
Proof. revert i. induction n as [|n IH]; intros i; simpl; auto. rewrite IH. lra. Qed.

Lemma ndcg_textbook RE HE (score : HE -> f32) (l : list (match_t RE HE)) :
  (forall m, In m l -> zero_one (m_err m)) -> (refs l > 0)%nat ->
  global_ndcg RArith RTrans score l false = dcg 1 (relevances l) / ideal (refs l).
Proof.
  intros H Hr. unfold global_ndcg. rewrite raw_points, ndcg_sum, refs_map.
  destruct (Nat.ltb_spec 0 (refs l)) as [P|P]; [|lia].
  rewrite gains_relevances by exact H. rewrite dsum_dcg, dsum_ideal. reflexivity.
Qed.

(** ** Perfect rankings *)

Definition count_true (rel : list bool) : nat := length (filter (fun b => b) rel).

Lemma dcg_max i rel n : (0 < i)%nat -> (count_true rel <= n)%nat -> dcg i rel <= dcg i (repeat true n).
Proof.
  intros Hi H. rewrite <- dsum_dcg, <- dsum_ideal. apply dsum_max; auto.
  - apply Forall_forall. intros w K. apply in_map_iff in K. destruct K as [b [<- _]]. unfold in01. destruct b; lra.
  - apply Rle_trans with (INR (count_true rel)); [|apply le_INR, H].
    right. clear H. unfold rsum, count_true. rewrite sum_of_map.
    induction rel as [|b rel IH]; [reflexivity|]. rewrite sum_of_cons, IH. cbn [filter].
    destruct b; [cbn [length]; rewrite S_INR|]; lra.
Qed.

Lemma dcg_shift i n : (0 < i)%nat -> (0 < n)%nat -> dcg (S i) (repeat true n) < dcg i (repeat true n).
Proof.
  intros Hi Hn. destruct n as [|n]; [lia|]. clear Hn. revert i Hi.
  induction n as [|n IH]; intros i Hi.
  - simpl. assert (D := discount_lt i (S i) ltac:(lia)). lra.
  - change (repeat true (S (S n))) with (true :: repeat true (S n)). cbn [dcg].
    assert (D := discount_lt i (S i) ltac:(lia)). assert (I := IH (S i) ltac:(lia)). lra.
Qed.

Lemma dcg_pos i n : (0 < i)%nat -> (0 < n)%nat -> 0 < dcg i (repeat true n).
Proof.
  intros Hi Hn. rewrite <- dsum_ideal. destruct n as [|n]; [lia|]. simpl.
  assert (D := discount_pos i Hi). assert (0 <= dsum (S i) (repeat 1 n)); [|lra].
  apply dsum_nonneg; [lia|]. apply Forall_forall. intros x K. apply repeat_spec in K. lra.
Qed.

Lemma dcg_eq_max i rel n : (0 < i)%nat -> (count_true rel <= n)%nat ->
  (dcg i rel = dcg i (repeat true n) <-> exists k, rel = repeat true n ++ repeat false k).
Proof.
  revert i n. induction rel as [|b rel IH]; intros i n Hi H.
  - destruct n as [|n].
    + split; [intros _; exists 0%nat; reflexivity|reflexivity].
    + split; [|intros [k K]; discriminate].
      intros E. assert (P := dcg_pos i (S n) Hi ltac:(lia)). change (dcg i []) with 0 in E. lra.
  - destruct b, n as [|n].
    + unfold count_true in H. simpl in H. lia.
    + unfold count_true in H. simpl in H.
      assert (I := IH (S i) n ltac:(lia) ltac:(unfold count_true; lia)). cbn [repeat dcg]. split.
      * intros E. destruct (proj1 I ltac:(lra)) as [k K]. exists k. simpl. congruence.
      * intros [k K]. simpl in K. injection K as K. rewrite (proj2 I (ex_intro _ k K)). reflexivity.
    + assert (I := IH (S i) 0%nat ltac:(lia) H). cbn [repeat dcg] in *. split.
      * intros E. destruct (proj1 I ltac:(lra)) as [k K]. exists (S k). simpl in *. congruence.
      * intros [k K]. destruct k as [|k]; [discriminate|]. simpl in K. injection K as K.
        rewrite (proj2 I (ex_intro _ k K)). lra.
    + split; [|intros [k K]; discriminate]. intros E. exfalso. cbn [dcg] in E.
      assert (M := dcg_max (S i) rel (S n) ltac:(lia) H).
      assert (S := dcg_shift i (S n) Hi ltac:(lia)). cbn [dcg repeat] in *. lra.
Qed.

(** Hits first and nothing missed, as lists. *)
Lemma perfect_relevances RE HE (l : list (match_t RE HE)) : (forall m, In m l -> zero_one (m_err m)) ->
  (perfect l <-> exists k, relevances l = repeat true (refs l) ++ repeat false k).
Proof.
  intros H.
  (* each kind of match *)
  assert (Kind : forall m : match_t RE HE, zero_one (m_err m) ->
    (is_hitb m = true /\ is_hit m /\ ~ is_fp m /\ ~ is_fn m /\ me_nh (m_err m) = 1%nat /\ me_nr (m_err m) = 1%nat) \/
    (is_hitb m = false /\ ~ is_hit m /\ is_fp m /\ ~ is_fn m /\ me_nh (m_err m) = 1%nat /\ me_nr (m_err m) = 0%nat) \/
    (is_hitb m = false /\ ~ is_hit m /\ is_fn m /\ me_nr (m_err m) = 1%nat)).
  { intros m Z. assert (E10 := f32_10).
    assert (N : f32_0 <> f32_1) by (intros K; rewrite <- K in E10; discriminate).
    assert (N' : f32_1 <> f32_0) by congruence.
    unfold is_hitb, is_hit, is_fp, is_fn.
    destruct (zero_one_cases _ Z) as [[A _]|[[A _]|[[A _]|[A _]]]]; rewrite A; cbn [me_fp me_fn].
    - left. repeat split; auto.
    - right. left. repeat split; auto. intros [K _]. auto.
    - right. right. repeat split; auto. intros [_ K]. auto.
    - right. right. repeat split; auto. intros [_ K]. auto. }
  (* hits never exceed references *)
  assert (Cnt : forall l : list (match_t RE HE), (forall m, In m l -> zero_one (m_err m)) ->
    (count_true (relevances l) <= refs l)%nat /\
    (count_true (relevances l) = refs l -> forall m, In m l -> ~ is_fn m)).
  { clear l H. unfold count_true, relevances, refs. induction l as [|m l IH]; intros H; [split; [simpl; lia|intros _ m []]|].
    destruct IH as [I1 I2]; [intros x K; apply H; right; exact K|].
    rewrite total_cons. cbn [filter]. destruct (Kind m (H m (or_introl eq_refl))) as [K|[K|K]].
    - destruct K as [K1 [K2 [K3 [K4 [K5 K6]]]]]. rewrite K5, K6. change (Nat.ltb 0 1) with true; cbv iota. cbn [map filter]. rewrite K1. simpl length.
      split; [lia|]. intros E x [<-|Kx]; auto; try (apply I2; auto; lia).
    - destruct K as [K1 [K2 [K3 [K4 [K5 K6]]]]]. rewrite K5, K6. change (Nat.ltb 0 1) with true; cbv iota. cbn [map filter]. rewrite K1.
      split; [lia|]. intros E x [<-|Kx]; auto; try (apply I2; auto).
    - destruct K as [K1 [K2 [K3 K6]]]. rewrite K6.
      destruct (Nat.ltb 0 (me_nh (m_err m))); cbn [map filter]; rewrite ?K1; split; try lia; intros; lia. }
  split.
  - revert H. induction l as [|m l IH]; intros H [P1 P2]; [exists 0%nat; reflexivity|].
    assert (H' : forall x, In x l -> zero_one (m_err x)) by (intros x K; apply H; right; exact K).
    assert (P' : perfect l).
    { split; [intros x K; apply P1; right; exact K|].
      intros u a v b w E. apply (P2 (m :: u) a v b w). simpl. congruence. }
    destruct (Kind m (H m (or_introl eq_refl))) as [K|[K|K]].
    + destruct K as [K1 [K2 [K3 [K4 [K5 K6]]]]]. destruct (IH H' P') as [k E]. exists k.
      unfold relevances, refs in *. rewrite total_cons. cbn [filter]. rewrite K5, K6. change (Nat.ltb 0 1) with true; cbv iota. cbn [map].
      rewrite K1, E. reflexivity.
    + destruct K as [K1 [K2 [K3 [K4 [K5 K6]]]]].
      (* nothing but false positives follows *)
      assert (A : forall x, In x l -> is_hitb x = false /\ me_nh (m_err x) = 1%nat /\ me_nr (m_err x) = 0%nat).
      { intros x Kx. destruct (Kind x (H' x Kx)) as [Q|[Q|Q]].
        - exfalso. apply in_split in Kx. destruct Kx as [u [v ->]].
          apply (P2 [] m u x v eq_refl K3). tauto.
        - tauto.
        - exfalso. apply (P1 x); [right; exact Kx|tauto]. }
      exists (S (length l)). unfold relevances, refs. rewrite total_cons, K6. cbn [filter]. rewrite K5. change (Nat.ltb 0 1) with true; cbv iota. cbn [map].
      rewrite K1. clear -A. assert (E0 : total (fun m => me_nr (m_err m)) l = 0%nat /\
        map is_hitb (filter (fun m => Nat.ltb 0 (me_nh (m_err m))) l) = repeat false (length l)).
      { induction l as [|x l IH]; [split; reflexivity|].
        destruct IH as [I1 I2]; [intros y K; apply A; right; exact K|].
        destruct (A x (or_introl eq_refl)) as [A1 [A2 A3]].
        rewrite total_cons. cbn [filter]. rewrite A2, A3. change (Nat.ltb 0 1) with true; cbv iota. cbn [map length repeat]. rewrite A1, I1, I2. auto. }
      destruct E0 as [-> ->]. reflexivity.
    + exfalso. apply (P1 m); [left; reflexivity|tauto].
  - intros [k E].
    destruct (Cnt l H) as [_ C2].
    assert (CT : count_true (relevances l) = refs l).
    { rewrite E. unfold count_true. rewrite filter_app, app_length.
      assert (F1 : forall n, length (filter (fun b : bool => b) (repeat true n)) = n) by (induction n; simpl; auto).
      assert (F2 : forall n, length (filter (fun b : bool => b) (repeat false n)) = 0%nat) by (induction n; simpl; auto).
      rewrite F1, F2. lia. }
    split; [apply C2, CT|].
    intros u a v b w El Fa Hb.
    assert (Za : zero_one (m_err a)) by (apply H; rewrite El; apply in_or_app; right; left; reflexivity).
    assert (Ib : In b l) by (rewrite El; apply in_or_app; right; right; apply in_or_app; right; left; reflexivity).
    assert (Zb : zero_one (m_err b)) by (apply H, Ib).
    destruct (Kind a Za) as [Ka|[Ka|Ka]]; [tauto| |].
    + destruct (Kind b Zb) as [Kb|[Kb|Kb]]; [|tauto|tauto].
      destruct Ka as [Ka1 [_ [_ [_ [Ka2 _]]]]]. destruct Kb as [Kb1 [_ [_ [_ [Kb2 _]]]]].
      assert (Er : exists x y z, relevances l = x ++ false :: y ++ true :: z).
      { rewrite El. unfold relevances. rewrite filter_app. cbn [filter]. rewrite filter_app. cbn [filter].
        rewrite Ka2, Kb2. change (Nat.ltb 0 1) with true; cbv iota. rewrite map_app. cbn [map]. rewrite map_app. cbn [map]. rewrite Ka1, Kb1. eauto. }
      destruct Er as [x [y [z Er]]]. rewrite E in Er. clear -Er.
      revert x Er. generalize (refs l). intros n. induction n as [|n IH]; intros x Er.
      * assert (In true (repeat false k)).
        { simpl in Er. rewrite Er. apply in_or_app. right. right. apply in_or_app. right. left. reflexivity. }
        apply repeat_spec in H. discriminate.
      * destruct x as [|x1 x]; [discriminate|]. simpl in Er. injection Er as _ Er. eapply IH; eauto.
    + apply (C2 CT a); [|tauto]. rewrite El. apply in_or_app. right. left. reflexivity.
Qed.

Lemma ndcg_perfect RE HE (score : HE -> f32) (l : list (match_t RE HE)) :
  (forall m, In m l -> zero_one (m_err m)) -> (refs l > 0)%nat ->
  (global_ndcg RArith RTrans score l false = 1 <-> perfect l).
Proof.
  intros H Hr. rewrite ndcg_textbook by auto.
  assert (P : 0 < ideal (refs l)) by (apply dcg_pos; lia).
  rewrite perfect_relevances by exact H.
  assert (C : (count_true (relevances l) <= refs l)%nat).
  { clear Hr P. unfold count_true, relevances, refs. induction l as [|m l IH]; [simpl; lia|].
    specialize (IH (fun x K => H x (or_intror K))). rewrite total_cons. cbn [filter].
    assert (Hm := H m (or_introl eq_refl)).
    destruct (Nat.ltb 0 (me_nh (m_err m))); [|lia]. cbn [map filter]. destruct (is_hitb m) eqn:B; [|lia].
    apply hitb_spec in B; auto. destruct B as [B1 B2]. cbn [length].
    assert (N : me_nr (m_err m) = 1%nat) by (destruct (m_err m) as [p q]; simpl in B1, B2; subst; reflexivity). lia. }
  rewrite <- (dcg_eq_max 1 (relevances l) (refs l) ltac:(lia) C). fold (ideal (refs l)). split.
  - intros E. apply (f_equal (fun x => x * ideal (refs l))) in E. unfold Rdiv in E.
    rewrite Rmult_assoc, Rinv_l, Rmult_1_r, Rmult_1_l in E; lra.
  - intros ->. apply (Rinv_r (ideal (refs l))). lra.
Qed.

(** ** Degenerate inputs *)

Lemma ndcg_no_refs RE HE (score : HE -> f32) (l : list (match_t RE HE)) A (T : Trans A) collapse :
  refs l = 0%nat -> global_ndcg A T score l collapse = a0 A.
Proof.
  intros H. unfold global_ndcg, ndcg. rewrite total_refs.
  assert (R0 : references (points score collapse l) = 0%nat).
  { destruct collapse; [|rewrite raw_points, refs_map; exact H].
    unfold references, total. simpl. rewrite (proj2 (collapse_totals score l)). exact H. }
  rewrite R0. reflexivity.
Qed.

Lemma ndcg_no_hyps RE HE (score : HE -> f32) (l : list (match_t RE HE)) collapse :
  hyps l = 0%nat -> global_ndcg RArith RTrans score l collapse = 0.
Proof.
  intros H. unfold global_ndcg. rewrite ndcg_sum.
  assert (H0 : hypotheses (points score collapse l) = 0%nat).
  { destruct collapse; [|rewrite raw_points, hyps_map; exact H].
    unfold hypotheses, total. simpl. rewrite (proj1 (collapse_totals score l)). exact H. }
  assert (G : gains (points score collapse l) = []).
  { revert H0. generalize (points score collapse l). intros pts. unfold hypotheses, gains, total.
    induction pts as [|c pts IH]; intros E; [reflexivity|]. simpl in *.
    replace (ec_nh c) with 0%nat by lia. simpl. apply IH. lia. }
  rewrite G. destruct (Nat.ltb 0 _); simpl; unfold Rdiv; lra.
Qed.

(** ** Pure runs *)

Lemma gains_app a b : gains (a ++ b) = gains a ++ gains b.
Proof. unfold gains. rewrite map_app, concat_app. reflexivity. Qed.

(** All hypotheses of a run are right, or all are wrong. *)
Definition pure_run {RE HE} (r : list (match_t RE HE)) : Prop :=
  forall a b, In a r -> In b r -> (0 < me_nh (m_err a))%nat -> (0 < me_nh (m_err b))%nat -> is_hitb a = is_hitb b.

Lemma gains_pure RE HE (r : list (match_t RE HE)) (b : bool) :
  (forall m, In m r -> zero_one (m_err m)) ->
  (forall m, In m r -> (0 < me_nh (m_err m))%nat -> is_hitb m = b) ->
  gains (map cnt r) = repeat (if b then 1 else 0) (total (fun m => me_nh (m_err m)) r) /\
  sum_of (fun m => B2R (me_fp (m_err m))) r = if b then 0 else INR (total (fun m => me_nh (m_err m)) r).
Proof.
  intros Z P. induction r as [|m r IH]; [split; [reflexivity|destruct b; reflexivity]|].
  destruct IH as [I1 I2]; [intros x K; apply Z; right; exact K|intros x K; apply P; right; exact K|].
  assert (Zm := Z m (or_introl eq_refl)). assert (Pm := P m (or_introl eq_refl)).
  rewrite total_cons, sum_of_cons, I2. change (map cnt (m :: r)) with ([cnt m] ++ map cnt r). rewrite gains_app, I1.
  assert (N := Objects.nh_le_1 (m_err m)).
  assert (G : gains [cnt m] = repeat (if b then 1 else 0) (me_nh (m_err m)) /\
              B2R (me_fp (m_err m)) = if b then 0 else INR (me_nh (m_err m))).
  { unfold gains. simpl concat. rewrite app_nil_r. change (ec_nh (cnt m)) with (me_nh (m_err m)).
    destruct f32_1_R as [O O']. assert (E10 := f32_10).
    destruct (Nat.eq_dec (me_nh (m_err m)) 0) as [E|E].
    - rewrite E. split; [reflexivity|].
      destruct (zero_one_cases _ Zm) as [[A B]|[[A B]|[[A B]|[A B]]]]; rewrite A in E |- *; try discriminate E.
      simpl me_fp. rewrite f32_0_R. destruct b; reflexivity.
    - assert (E1 : me_nh (m_err m) = 1%nat) by lia. specialize (Pm ltac:(lia)).
      rewrite E1. rewrite raw_gain_01 by (auto; lia). rewrite Pm. split; [reflexivity|].
      unfold is_hitb in Pm.
      destruct (zero_one_cases _ Zm) as [[A B]|[[A B]|[[A B]|[A B]]]]; rewrite A in Pm, E1 |- *; cbn [me_fp me_fn] in *.
      + assert (b = true) as -> by (rewrite <- Pm; reflexivity). apply f32_0_R.
      + rewrite E10 in Pm. subst b. exact O.
      + exfalso. assert (X : me_nh (MatchError f32_0 f32_1) = 0%nat) by reflexivity. lia.
      + rewrite E10 in Pm. subst b. exact O. }
  destruct G as [G1 G2]. rewrite G1, G2, <- repeat_app. split; [reflexivity|]. destruct b; [lra|]. rewrite plus_INR. reflexivity.
Qed.

Lemma gains_run RE HE (r : list (match_t RE HE)) c :
  (forall m, In m r -> zero_one (m_err m)) -> pure_run r -> (Z.of_nat (length r) <= 2 ^ 24)%Z ->
  counted_as r c -> bounded c -> summed_as r c -> gains [c] = gains (map cnt r).
Proof.
  intros Z P L [C1 C2] [F1 [F2 _]] [S1 _].
  assert (B : exists b, forall m, In m r -> (0 < me_nh (m_err m))%nat -> is_hitb m = b).
  { destruct (existsb (fun m => Nat.ltb 0 (me_nh (m_err m))) r) eqn:E.
    - apply existsb_exists in E. destruct E as [x [K1 K2]]. apply Nat.ltb_lt in K2.
      exists (is_hitb x). intros m K N. apply P; auto.
    - exists true. intros m K N. exfalso. apply Bool.not_true_iff_false in E. apply E.
      apply existsb_exists. exists m. split; auto. apply Nat.ltb_lt, N. }
  destruct B as [b B]. destruct (gains_pure _ _ r b Z B) as [G1 G2]. rewrite G1.
  unfold gains. simpl concat. rewrite app_nil_r. rewrite C1.
  destruct (Nat.eq_dec (total (fun m => me_nh (m_err m)) r) 0) as [E0|E0]; [rewrite E0; reflexivity|].
  f_equal. unfold gain2. assert (T := total_nh_length _ _ r). destruct b.
  - rewrite rel32_all_right; try lia; auto; [rewrite pow_1; lra|rewrite S1; exact G2].
  - rewrite rel32_all_wrong; try lia; auto; [rewrite pow_0; lra|]. rewrite S1, C1. exact G2.
Qed.

Lemma ndcg_pure RE HE (score : HE -> f32) (l : list (match_t RE HE)) :
  (forall m, In m l -> zero_one (m_err m)) -> ranked score l -> (Z.of_nat (length l) <= 2 ^ 24)%Z ->
  (forall a b, In a l -> In b l -> (me_nh (m_err a) > 0)%nat -> (me_nh (m_err b) > 0)%nat ->
     tie score a b -> (is_hit a <-> is_hit b)) ->
  global_ndcg RArith RTrans score l true = global_ndcg RArith RTrans score l false.
Proof.
  intros Z R L P. unfold global_ndcg. rewrite !ndcg_sum.
  assert (Nr : references (points score true l) = references (points score false l)).
  { rewrite (raw_points score l). rewrite refs_map. unfold references, total. simpl.
    apply (proj2 (collapse_totals score l)). }
  assert (G : gains (points score true l) = gains (points score false l)).
  { rewrite raw_points. simpl points.
    destruct (collapse_spec score l R) as [rs [[A1 A2 A3 _] B]].
    assert (F : forall r, In r rs -> (forall m, In m r -> zero_one (m_err m)) /\ pure_run r /\ (Z.of_nat (length r) <= 2 ^ 24)%Z).
    { intros r Hr. assert (I : incl r l) by (intros m Hm; rewrite <- A1; apply in_concat; eauto). split; [auto|]. split.
      - intros a b Ka Kb Na Nb. assert (Q := P a b (I _ Ka) (I _ Kb) Na Nb (A3 r a b Hr Ka Kb)).
        rewrite <- (hitb_spec a), <- (hitb_spec b) in Q by auto.
        destruct (is_hitb a), (is_hitb b); auto; [symmetry|]; apply Q; reflexivity.
      - assert (length r <= length l)%nat; [|lia]. rewrite <- A1. clear -Hr.
        induction rs as [|s rs IH]; [destruct Hr|]. simpl. rewrite app_length. destruct Hr as [->|Hr]; [lia|]. specialize (IH Hr). lia. }
    clear Nr. revert B. generalize (collapse_matches score l). intros cs0 B. rewrite <- A1. clear A1 A2 A3. induction B as [|r c rs cs [B1 [B2 B3]] _ IH]; [reflexivity|].
    change (c :: cs) with ([c] ++ cs). simpl concat. rewrite map_app, !gains_app.
    rewrite IH by (intros x K; apply F; right; exact K). f_equal.
    destruct (F r (or_introl eq_refl)) as [F1 [F2 F3]].
    apply gains_run; auto. apply B2. intros m Hm. apply zero_one_fractions; auto. }
  rewrite Nr, G. reflexivity.
Qed.

Lemma ndcg_no_hits RE HE (score : HE -> f32) (l : list (match_t RE HE)) collapse :
  (forall m, In m l -> zero_one (m_err m)) -> (forall m, In m l -> ~ is_hit m) ->
  (collapse = true -> ranked score l /\ (Z.of_nat (length l) <= 2 ^ 24)%Z) ->
  global_ndcg RArith RTrans score l collapse = 0.
Proof.
  intros Z N C.
  assert (E : global_ndcg RArith RTrans score l collapse = global_ndcg RArith RTrans score l false).
  { destruct collapse; [|reflexivity]. destruct (C eq_refl) as [C1 C2]. apply ndcg_pure; auto.
    intros a b Ka Kb _ _ _. split; intros K; exfalso; [exact (N a Ka K)|exact (N b Kb K)]. }
  rewrite E. destruct (refs l) eqn:Er; [apply (ndcg_no_refs _ _ score l RArith RTrans false Er)|].
  rewrite ndcg_textbook by (auto; lia). 
  assert (D : forall i, dcg i (relevances l) = 0).
  { unfold relevances. clear -Z N. induction l as [|m l IH]; intros i; [reflexivity|]. cbn [filter].
    assert (I : forall i, dcg i (map is_hitb (filter (fun m => Nat.ltb 0 (me_nh (m_err m))) l)) = 0).
    { apply IH; [intros x K; apply Z|intros x K; apply N]; right; exact K. }
    destruct (Nat.ltb 0 (me_nh (m_err m))); [|apply I]. cbn [map dcg].
    destruct (is_hitb m) eqn:B; [|rewrite I; lra].
    exfalso. apply hitb_spec in B; [|apply Z; left; reflexivity]. apply (N m); [left; reflexivity|exact B]. }
  rewrite D. unfold Rdiv. apply Rmult_0_l.
Qed.
