(** NDCG in double arithmetic. *)
From Coq Require Import List Bool ZArith Reals Lra Lia Permutation.
From Flocq Require Import Core BinarySingleNaN.
From Verif.Model Require Import Cpp Floats Matches Assessment.
From Verif.Spec Require Import Order Matching Collapse Metrics Curves Double Bootstrap Gain Libm.
From Verif.Proofs Require Import FloatFacts Double.
From Verif.Proofs Require Objects Matching Collapse Metrics AveragePrecision Ndcg Gain Curves.
Import ListNotations.
Local Open Scope cpp_scope.
Local Open Scope R_scope.

Lemma u64_small : u64 <= / 1000.
Proof. rewrite u64_val. apply Rinv_le; [lra|]. apply IZR_le. lia. Qed.

Lemma pow_12 x : 0 <= x <= 1 -> 1 <= Rpower 2 x <= 2.
Proof.
  intros H. assert (A := Ndcg.pow_lower x ltac:(lra)). destruct (Ndcg.pow_upper' x H) as [[_ B] _]. lra.
Qed.

Lemma discount_1 : discount 1 = 1.
Proof.
  unfold discount. change (INR 1) with 1. replace (1 + 1) with 2 by lra.
  assert (0 < ln 2) by (apply Ndcg.ln_pos; lra). field. lra.
Qed.

Lemma discount_01 i : (1 <= i)%nat -> 0 < discount i <= 1.
Proof.
  intros H. split; [apply Ndcg.discount_pos; lia|]. rewrite <- discount_1. apply Ndcg.discount_le. lia.
Qed.

Lemma discount_log i : (1 <= i)%nat -> ln (INR (i + 1)) / ln 2 = / discount i.
Proof.
  intros H. unfold discount. rewrite plus_INR. change (INR 1) with 1.
  assert (K := Ndcg.INR_1 i ltac:(lia)). assert (0 < ln 2) by (apply Ndcg.ln_pos; lra).
  assert (0 < ln (INR i + 1)) by (apply Ndcg.ln_pos; lra). field. split; lra.
Qed.

Section T.
  Context (T : Trans DArith) (HT : accurate T).

  (** [g] over the logarithm of [i + 1]. *)
  Lemma quot_D (s : f64) g i : (1 <= i)%nat -> (Z.of_nat (i + 1) <= 2 ^ 54)%Z ->
    is_finite s = true -> 0 <= B2R s -> Rabs (B2R s - g) <= 6 * u64 -> in01 g ->
    let t := f64_div s (t_log2 T (i + 1)) in
    is_finite t = true /\ 0 <= B2R t /\ Rabs (B2R t - g * discount i) <= 10 * u64 /\ in01 (g * discount i).
  Proof.
    intros Hi Hn Fs S0 Es G t. destruct (ac_log2 T HT (i + 1)) as [[Fl El] L1]; [lia|].
    rewrite (discount_log i Hi) in El. assert (D := discount_01 i Hi). set (d := discount i) in *.
    set (L := t_log2 T (i + 1)) in *. change (num DArith) with f64 in L. assert (U := u64_pos). assert (U' := u64_small).
    unfold in01 in *.
    assert (I0 : 0 < / B2R L) by (apply Rinv_0_lt_compat; lra).
    assert (I1 : / B2R L <= 1) by (rewrite <- Rinv_1; apply Rinv_le; lra).
    (* the reciprocal *)
    assert (Er : Rabs (/ B2R L - d) <= 2 * u64).
    { replace (/ B2R L - d) with ((/ d - B2R L) * (d * / B2R L)) by (field; lra).
      rewrite Rabs_mult, (Rabs_pos_eq (d * / B2R L)) by nra. rewrite Rabs_minus_sym in El.
      eapply Rle_trans; [apply Rmult_le_compat_r; [nra|exact El]|].
      replace (2 * u64 * / d * (d * / B2R L)) with (2 * u64 * / B2R L) by (field; lra). nra. }
    assert (Bs : B2R s <= 2) by (unfold Rabs in Es; destruct Rcase_abs in Es; lra).
    assert (Q0 : 0 <= B2R s / B2R L) by (unfold Rdiv; nra).
    assert (Q : Rabs (B2R s / B2R L) <= 2) by (rewrite Rabs_pos_eq by exact Q0; unfold Rdiv; nra).
    destruct (f64_div_correct s L 1 Fs Fl) as [V F]; [lra|easy|exact Q|].
    change (is_finite t = true) in F. change (B2R t = rnd64 (B2R s / B2R L)) in V.
    split; [exact F|]. rewrite V. split; [apply rnd64_nonneg, Q0|]. split; [|nra].
    assert (E := rnd64_err_le _ 2 ltac:(lra) Q).
    assert (M : Rabs (B2R s / B2R L - g * d) <= 8 * u64).
    { replace (B2R s / B2R L - g * d) with ((B2R s - g) * / B2R L + g * (/ B2R L - d)) by (unfold Rdiv; ring).
      eapply Rle_trans; [apply Rabs_triang|]. rewrite !Rabs_mult, (Rabs_pos_eq (/ B2R L)), (Rabs_pos_eq g) by lra.
      assert (0 <= Rabs (B2R s - g)) by apply Rabs_pos. assert (0 <= Rabs (/ B2R L - d)) by apply Rabs_pos. nra. }
    replace (10 * u64) with (2 * u64 + 8 * u64) by ring.
    replace (rnd64 (B2R s / B2R L) - g * d)
      with ((rnd64 (B2R s / B2R L) - B2R s / B2R L) + (B2R s / B2R L - g * d)) by ring.
    eapply Rle_trans; [apply Rabs_triang|]. lra.
  Qed.

  (** A term of the gain. *)
  Lemma term_D (r : f64) i : (1 <= i)%nat -> (Z.of_nat (i + 1) <= 2 ^ 54)%Z -> unit_f64 r ->
    let t := f64_div (f64_sub (t_exp2 T r) (f64_of_Z 1)) (t_log2 T (i + 1)) in
    is_finite t = true /\ 0 <= B2R t /\ Rabs (B2R t - (Rpower 2 (B2R r) - 1) * discount i) <= 10 * u64 /\
    in01 ((Rpower 2 (B2R r) - 1) * discount i).
  Proof.
    intros Hi Hn Ur. destruct (ac_exp2 T HT r Ur) as [[Fe Ee] E1]. destruct Ur as [_ Ur].
    assert (P := pow_12 _ Ur). assert (U := u64_pos). assert (U' := u64_small). destruct one64 as [F1 V1].
    set (e := t_exp2 T r) in *. change (num DArith) with f64 in e.
    assert (Be : B2R e <= 2 + 4 * u64) by (unfold Rabs in Ee; destruct Rcase_abs in Ee; nra).
    assert (B : Rabs (B2R e - B2R (f64_of_Z 1)) <= 2) by (rewrite V1, Rabs_pos_eq by lra; lra).
    destruct (f64_minus_correct e (f64_of_Z 1) 1 Fe F1) as [V F]; [easy|exact B|].
    apply quot_D; auto.
    - change (0 <= B2R (f64_sub e (f64_of_Z 1))). unfold f64_sub. rewrite V. apply rnd64_nonneg. lra.
    - change (Rabs (B2R (f64_sub e (f64_of_Z 1)) - (Rpower 2 (B2R r) - 1)) <= 6 * u64).
      unfold f64_sub. rewrite V, V1. rewrite V1 in B. assert (E := rnd64_err_le _ 2 ltac:(lra) B).
      replace (rnd64 (B2R e - 1) - (Rpower 2 (B2R r) - 1))
        with ((rnd64 (B2R e - 1) - (B2R e - 1)) + (B2R e - Rpower 2 (B2R r))) by ring.
      eapply Rle_trans; [apply Rabs_triang|]. nra.
    - unfold in01. lra.
  Qed.

  (** A term of the normalisation. *)
  Lemma norm_D i : (1 <= i)%nat -> (Z.of_nat (i + 1) <= 2 ^ 54)%Z ->
    let t := f64_div (f64_of_Z 1) (t_log2 T (i + 1)) in
    is_finite t = true /\ 0 <= B2R t /\ Rabs (B2R t - discount i) <= 10 * u64 /\ in01 (discount i).
  Proof.
    intros Hi Hn. destruct one64 as [F1 V1]. assert (U := u64_pos).
    destruct (quot_D (f64_of_Z 1) 1 i Hi Hn F1) as (A & B & C & D).
    - lra.
    - rewrite V1. replace (1 - 1) with 0 by ring. rewrite Rabs_R0. lra.
    - unfold in01. lra.
    - rewrite Rmult_1_l in C, D. auto.
  Qed.

  (** ** Sums *)

  (** A sum of [k] terms, at least [b]. *)
  Definition gsum (b : R) (k : nat) (s : f64) (t : R) : Prop := msum 10 k s t /\ b <= B2R s.

  Lemma gsum_step b k s t a x : fmt64 b -> (Z.of_nat (S k) <= 2 ^ 52)%Z -> gsum b k s t ->
    is_finite a = true -> 0 <= B2R a -> Rabs (B2R a - x) <= 10 * u64 -> in01 x -> gsum b (S k) (f64_add s a) (t + x).
  Proof.
    intros Fb Hk [M B] Fa A0 Ea X. assert (U' := u64_small). assert (M' := M).
    split; [apply msum_step; auto; lra|]. destruct M' as (Fs & Bs & _).
    assert (K0 := pos_INR k).
    assert (Kb : 2 * INR k + 2 <= bpow radix2 53).
    { rewrite INR_IZR_INZ. change (bpow radix2 53) with (IZR (2 ^ 53)). rewrite <- mult_IZR, <- plus_IZR. apply IZR_le. lia. }
    unfold in01 in X.
    assert (Ba : B2R a <= 2) by (unfold Rabs in Ea; destruct Rcase_abs in Ea; lra).
    destruct (f64_plus_correct s a 53 Fs Fa) as [V _]; [easy| |].
    { eapply Rle_trans; [apply Rabs_triang|]. rewrite (Rabs_pos_eq (B2R a)) by exact A0. lra. }
    unfold f64_add. rewrite V. apply rnd64_ge; [exact Fb|lra].
  Qed.

  Lemma inner_D (r : f64) n : unit_f64 r -> forall i k s t, (1 <= i)%nat -> (Z.of_nat (i + n) <= 2 ^ 53)%Z ->
    (Z.of_nat (k + n) <= 2 ^ 52)%Z -> gsum 0 k s t ->
    gsum 0 (k + n) (dcg_inner DArith T r n i s) (dcg_inner RArith RTrans (B2R r) n i t).
  Proof.
    intros Ur. induction n as [|n IH]; intros i k s t Hi Hn Hk G.
    - rewrite Nat.add_0_r. exact G.
    - cbn [dcg_inner]. replace (k + S n)%nat with (S k + n)%nat by lia.
      apply IH; try lia.
      destruct (term_D r i Hi) as (F & P & E & X); [lia|exact Ur|].
      assert (H := Ndcg.term_eq (Rpower 2 (B2R r) - 1) i ltac:(lia)).
      change (gsum 0 (S k) (f64_add s (f64_div (f64_sub (t_exp2 T r) (f64_of_Z 1)) (t_log2 T (i + 1))))
        (t + a_div RArith (Rpower 2 (B2R r) - 1) (t_log2 RTrans (i + 1)))).
      rewrite H. apply gsum_step; auto; [apply fmt64_0|lia].
  Qed.

  (** The relevance of a point, for any size. *)
  Lemma rel_unit c : whole c -> (0 < ec_nh c)%nat -> (Z.of_nat (ec_nh c) <= 2 ^ 53)%Z ->
    is_finite (Ndcg.rel32 c) = true /\ 0 <= B2R (Ndcg.rel32 c) <= 1.
  Proof.
    intros (p & n & Fp & Vp & _ & _ & Bp & _) Hn Hm. unfold Ndcg.rel32.
    destruct (f32_of_Z_correct (Z.of_nat (ec_nh c))) as [Vn Fn]; [lia|].
    assert (P : 0 <= B2R (ec_fp c)) by (rewrite Vp; apply IZR_le; lia).
    assert (L : B2R (ec_fp c) <= B2R (f32_of_Z (Z.of_nat (ec_nh c)))).
    { rewrite Vn. apply rnd32_ge; [apply B2R_fmt32|]. rewrite Vp. apply IZR_le. lia. }
    assert (N : 1 <= B2R (f32_of_Z (Z.of_nat (ec_nh c)))).
    { rewrite Vn. apply rnd32_ge; [apply fmt32_1|]. apply IZR_le. lia. }
    set (m := f32_of_Z (Z.of_nat (ec_nh c))) in *.
    assert (Q : 0 <= B2R (ec_fp c) / B2R m <= 1).
    { unfold Rdiv. assert (0 < / B2R m) by (apply Rinv_0_lt_compat; lra). split; [nra|].
      apply Rmult_le_reg_r with (B2R m); [lra|]. rewrite Rmult_assoc, Rinv_l by lra. lra. }
    destruct (f32_div_correct (ec_fp c) m 1 Fp Fn) as [Eq Fq]; [lra|easy|rewrite Rabs_pos_eq by lra; simpl; lra|].
    assert (Q' : 0 <= rnd32 (B2R (ec_fp c) / B2R m) <= 1).
    { split; [apply rnd32_nonneg; lra|]. apply rnd32_le_fmt32; [apply fmt32_1|lra]. }
    destruct f32_1_R as [O O']. rewrite <- Eq in Q'.
    destruct (f32_minus_correct f32_1 (Bdiv mode_NE (ec_fp c) m) 1 O' Fq) as [Em Fm]; [easy| |].
    { rewrite O, Rabs_pos_eq by lra. simpl. lra. }
    split; [exact Fm|]. unfold f32_sub, f32_div. rewrite Em, O.
    split; [apply rnd32_nonneg; lra|]. apply rnd32_le_fmt32; [apply fmt32_1|lra].
  Qed.

  Lemma dcg_D pts : (forall c, In c pts -> whole c) -> forall i k s t, (1 <= i)%nat ->
    (Z.of_nat (i + list_sum (map ec_nh pts)) <= 2 ^ 53)%Z -> (Z.of_nat (k + list_sum (map ec_nh pts)) <= 2 ^ 52)%Z ->
    gsum 0 k s t ->
    gsum 0 (k + list_sum (map ec_nh pts)) (dcg_loop DArith T i s pts) (dcg_loop RArith RTrans i t pts).
  Proof.
    induction pts as [|c pts IH]; intros W i k s t Hi Hn Hk G.
    - cbn. rewrite Nat.add_0_r. exact G.
    - cbn [dcg_loop map list_sum] in *. fold (Ndcg.rel32 c).
      change (list_sum (ec_nh c :: map ec_nh pts)) with (ec_nh c + list_sum (map ec_nh pts))%nat in *.
      rewrite Nat.add_assoc.
      destruct (Nat.ltb_spec 0 (ec_nh c)) as [P|P].
      + apply IH; [intros; apply W; now right|lia|lia|lia|].
        destruct (rel_unit c) as [F U]; [apply W; now left|exact P|lia|].
        destruct (f64_of_f32_exact (Ndcg.rel32 c) F) as [V F'].
        change (a_f32 RArith (Ndcg.rel32 c)) with (B2R (Ndcg.rel32 c)).
        change (a_f32 DArith (Ndcg.rel32 c)) with (f64_of_f32 (Ndcg.rel32 c)).
        rewrite <- V. apply inner_D; auto; [split; [exact F'|rewrite V; exact U]|lia|lia].
      + replace (ec_nh c) with 0%nat in * by lia. rewrite Nat.add_0_r. apply IH; auto; intros; apply W; now right.
  Qed.

  Lemma z_D n : forall b i k s t, fmt64 b -> (1 <= i)%nat -> (Z.of_nat (i + n) <= 2 ^ 53)%Z ->
    (Z.of_nat (k + n) <= 2 ^ 52)%Z -> gsum b k s t ->
    gsum b (k + n) (z_loop DArith T n i s) (z_loop RArith RTrans n i t).
  Proof.
    induction n as [|n IH]; intros b i k s t Fb Hi Hn Hk G.
    - rewrite Nat.add_0_r. exact G.
    - cbn [z_loop]. replace (k + S n)%nat with (S k + n)%nat by lia. apply IH; try lia; [exact Fb|].
      destruct (norm_D i Hi) as (F & P & E & X); [lia|].
      assert (H := Ndcg.term_eq 1 i ltac:(lia)).
      change (gsum b (S k) (f64_add s (f64_div (f64_of_Z 1) (t_log2 T (i + 1))))
        (t + a_div RArith 1 (t_log2 RTrans (i + 1)))).
      rewrite H, Rmult_1_l. apply gsum_step; auto. lia.
  Qed.

  Lemma gsum_0 : gsum 0 0 (a0 DArith) (a0 RArith).
  Proof.
    split; [|unfold a0; cbn; lra]. split; [reflexivity|]. replace (B2R (a0 DArith : f64)) with 0 by reflexivity. simpl.
    change (a0 RArith) with 0. rewrite Rminus_0_r, Rabs_R0. lra.
  Qed.

  (** The first term is 1, hence the sum at least a half. *)
  Lemma z_D_half n : (0 < n)%nat -> (Z.of_nat n <= 2 ^ 52)%Z ->
    gsum (/ 2) n (z_loop DArith T n 1 (a0 DArith)) (z_loop RArith RTrans n 1 (a0 RArith)).
  Proof.
    intros P Hn. destruct n as [|n]; [lia|]. cbn [z_loop].
    assert (Fh : fmt64 (/ 2)).
    { replace (/ 2) with (bpow radix2 (-1)) by reflexivity. apply fmt64_bpow. easy. }
    change (S n) with (1 + n)%nat. apply (z_D n); try lia; [exact Fh|].
    destruct (norm_D 1 ltac:(lia)) as (F & P1 & E & X); [lia|].
    assert (H := Ndcg.term_eq 1 1 ltac:(lia)). rewrite Rmult_1_l in H.
    assert (G : gsum 0 1 (f64_add (f64_of_Z 0) (f64_div (f64_of_Z 1) (t_log2 T (1 + 1))))
        (0 + a_div RArith 1 (t_log2 RTrans (1 + 1)))).
    { rewrite H. apply gsum_step; auto; [apply fmt64_0|lia|exact gsum_0]. }
    change (gsum (/ 2) 1 (f64_add (f64_of_Z 0) (f64_div (f64_of_Z 1) (t_log2 T (1 + 1))))
        (0 + a_div RArith 1 (t_log2 RTrans (1 + 1)))).
    destruct G as [M _]. split; [exact M|]. destruct M as (_ & _ & M). rewrite H, discount_1 in M.
    assert (U' := u64_small). change (INR 1) with 1 in M. unfold Rabs in M. destruct Rcase_abs in M; lra.
  Qed.

  (** ** The quotient *)

  Lemma ndcg_moderate pts n : (forall c, In c pts -> whole c) -> (list_sum (map ec_nh pts) <= n)%nat ->
    (references pts <= n)%nat -> (Z.of_nat n <= 2 ^ 51)%Z ->
    is_finite (ndcg DArith T pts : f64) = true /\ 0 <= B2R (ndcg DArith T pts : f64) <= bpow radix2 54.
  Proof.
    intros W Hh Hr Hn. unfold ndcg. rewrite Metrics.total_refs.
    destruct (Nat.ltb_spec 0 (references pts)) as [P|P].
    2: { split; [reflexivity|]. change (B2R (a0 DArith : f64)) with 0. assert (0 < bpow radix2 54) by apply bpow_gt_0. lra. }
    destruct (dcg_D pts W 1 0 _ _ ltac:(lia) ltac:(lia) ltac:(lia) gsum_0) as [(Fd & Bd & _) D0].
    destruct (z_D_half (references pts) P ltac:(lia)) as [(Fz & _ & _) Z0].
    set (d := dcg_loop DArith T 1 (a0 DArith) pts) in *. set (z := z_loop DArith T (references pts) 1 (a0 DArith)) in *.
    change (num DArith) with f64 in d, z.
    assert (K : 4 * INR (0 + list_sum (map ec_nh pts)) <= bpow radix2 53).
    { rewrite INR_IZR_INZ. change (bpow radix2 53) with (IZR (2 ^ 53)). rewrite <- mult_IZR. apply IZR_le. lia. }
    rewrite Rabs_pos_eq in Bd by exact D0.
    assert (I : 0 < / B2R z <= 2).
    { split; [apply Rinv_0_lt_compat; lra|]. rewrite <- (Rinv_inv 2). apply Rinv_le; lra. }
    assert (Q : 0 <= B2R d / B2R z <= bpow radix2 53) by (unfold Rdiv; nra).
    destruct (f64_div_correct d z 53 Fd Fz) as [V F]; [lra|easy|rewrite Rabs_pos_eq; lra|].
    change (a_div DArith d z) with (Bdiv mode_NE d z). split; [exact F|]. rewrite V.
    split; [apply rnd64_nonneg; lra|].
    assert (bpow radix2 53 <= bpow radix2 54) by (apply bpow_le; lia).
    eapply Rle_trans; [apply rnd64_le_fmt64 with (y := bpow radix2 53)|]; [apply fmt64_bpow; easy|lra|lra].
  Qed.

  Lemma ndcg_D pts n : (forall c, In c pts -> whole c) -> (list_sum (map ec_nh pts) <= n)%nat ->
    (references pts <= n)%nat -> (Z.of_nat n <= 2 ^ 25)%Z -> in01 (ndcg RArith RTrans pts) ->
    within (3 * INR n * (INR n + 12) * u64) (ndcg DArith T pts) (ndcg RArith RTrans pts).
  Proof.
    intros W Hh Hr Hn X. assert (U := u64_pos). assert (N0 := pos_INR n).
    destruct (ndcg_moderate pts n W Hh Hr ltac:(lia)) as [Fq _]. split; [exact Fq|]. clear Fq.
    revert X. unfold ndcg. rewrite !Metrics.total_refs.
    destruct (Nat.ltb_spec 0 (references pts)) as [P|P].
    2: { intros _. change (B2R (a0 DArith : f64)) with 0. change (a0 RArith) with 0. rewrite Rminus_0_r, Rabs_R0.
         apply Rmult_le_pos; [nra|lra]. }
    destruct (dcg_D pts W 1 0 _ _ ltac:(lia) ltac:(lia) ltac:(lia) gsum_0) as [(Fd & Bd & Ed) D0].
    destruct (z_D_half (references pts) P ltac:(lia)) as [(Fz & _ & Ez) Z0].
    assert (Z1 : 1 <= z_loop RArith RTrans (references pts) 1 (a0 RArith)).
    { rewrite Ndcg.z_loop_sum by lia. change (a0 RArith) with 0. destruct (references pts) as [|m]; [lia|].
      simpl. rewrite discount_1. assert (0 <= Ndcg.dsum 2 (repeat 1 m)); [|lra]. apply Ndcg.dsum_nonneg; [lia|].
      apply Forall_forall. intros x K. apply repeat_spec in K. lra. }
    rewrite Nat.add_0_l in Bd, Ed.
    set (d := dcg_loop DArith T 1 (a0 DArith) pts) in *. set (z := z_loop DArith T (references pts) 1 (a0 DArith)) in *.
    set (D := dcg_loop RArith RTrans 1 (a0 RArith) pts) in *. set (Z := z_loop RArith RTrans (references pts) 1 (a0 RArith)) in *.
    change (num DArith) with f64 in d, z. change (num RArith) with R in D, Z.
    change (a_div RArith D Z) with (D / Z). intros X. unfold in01 in X.
    set (e := (INR n * (INR n + 11)) * u64).
    assert (Hh' : INR (list_sum (map ec_nh pts)) <= INR n) by (apply le_INR; lia).
    assert (Hr' : INR (references pts) <= INR n) by (apply le_INR; lia).
    assert (P0 := pos_INR (list_sum (map ec_nh pts))). assert (P1 := pos_INR (references pts)).
    assert (Ed' : Rabs (B2R d - D) <= e).
    { eapply Rle_trans; [exact Ed|]. unfold e. apply Rmult_le_compat_r; [lra|]. nra. }
    assert (Ez' : Rabs (B2R z - Z) <= e).
    { eapply Rle_trans; [exact Ez|]. unfold e. apply Rmult_le_compat_r; [lra|]. nra. }
    assert (Nb : INR n <= IZR (2 ^ 25)) by (rewrite INR_IZR_INZ; apply IZR_le, Hn).
    assert (Eb : e <= / 7).
    { unfold e. rewrite u64_val. apply Rmult_le_reg_r with (IZR (2 ^ 53)); [simpl; lra|].
      rewrite Rmult_assoc, Rinv_l by (simpl; lra). simpl in *. nra. }
    assert (N1 : 1 <= INR n) by (change 1 with (INR 1); apply le_INR; lia).
    assert (E0 : 0 <= e) by (eapply Rle_trans; [apply Rabs_pos|exact Ed']).
    assert (Zb : 6 / 7 <= B2R z) by (unfold Rabs in Ez'; destruct Rcase_abs in Ez'; lra).
    assert (I : 0 < / B2R z <= 7 / 6).
    { split; [apply Rinv_0_lt_compat; lra|]. replace (7 / 6) with (/ (6 / 7)) by field. apply Rinv_le; lra. }
    assert (Q : Rabs (B2R d / B2R z - D / Z) <= 7 / 3 * e).
    { replace (B2R d / B2R z - D / Z) with ((B2R d - D) * / B2R z + D / Z * ((Z - B2R z) * / B2R z))
        by (field; lra).
      eapply Rle_trans; [apply Rabs_triang|]. rewrite !Rabs_mult, (Rabs_pos_eq (/ B2R z)), (Rabs_pos_eq (D / Z)) by lra.
      rewrite (Rabs_minus_sym Z). assert (0 <= Rabs (B2R d - D)) by apply Rabs_pos.
      assert (0 <= Rabs (B2R z - Z)) by apply Rabs_pos.
      assert (Rabs (B2R d - D) * / B2R z <= 7 / 6 * e) by nra.
      assert (0 <= Rabs (B2R z - Z) * / B2R z <= 7 / 6 * e) by nra. nra. }
    assert (Q2 : Rabs (B2R d / B2R z) <= 2).
    { unfold Rabs in Q |- *. repeat destruct Rcase_abs in *; try destruct Rcase_abs; lra. }
    destruct (f64_div_correct d z 1 Fd Fz) as [V F]; [lra|easy|exact Q2|].
    change (a_div DArith d z) with (Bdiv mode_NE d z). rewrite V.
    assert (E := rnd64_err_le _ 2 ltac:(lra) Q2).
    replace (rnd64 (B2R d / B2R z) - D / Z)
      with ((rnd64 (B2R d / B2R z) - B2R d / B2R z) + (B2R d / B2R z - D / Z)) by ring.
    eapply Rle_trans; [apply Rabs_triang|].
    assert (F2 : 2 * u64 + 7 / 3 * e <= 3 * INR n * (INR n + 12) * u64).
    { unfold e. replace (2 * u64 + 7 / 3 * (INR n * (INR n + 11) * u64))
        with ((2 + 7 / 3 * (INR n * (INR n + 11))) * u64) by ring.
      apply Rmult_le_compat_r; [lra|]. nra. }
    lra.
  Qed.
End T.

(** ** Matches *)

Section Matches.
  Context {RE HE : Type} (score : HE -> f32) (T : Trans DArith) (HT : accurate T).
  Notation M := (match_t RE HE).

  Lemma points_sizes c (l : list M) : (list_sum (map ec_nh (points score c l)) <= length l)%nat /\
    (references (points score c l) <= length l)%nat.
  Proof.
    destruct (points_totals score c l) as [A B]. destruct (hyps_le l) as [C D].
    unfold hypotheses in A. rewrite list_sum_total, A, B. auto.
  Qed.

  Lemma global_moderate c (l : list M) : (forall m, In m l -> zero_one (m_err m)) -> (Z.of_nat (length l) <= 2 ^ 51)%Z ->
    is_finite (global_ndcg DArith T score l c : f64) = true /\
    0 <= B2R (global_ndcg DArith T score l c : f64) <= bpow radix2 54.
  Proof.
    intros Z L. destruct (points_sizes c l). unfold global_ndcg.
    apply ndcg_moderate with (n := length l); auto. apply points_whole, Z.
  Qed.

  Lemma global_exact_01 c (l : list M) : (forall m, In m l -> zero_one (m_err m)) ->
    (c = true -> ranked score l /\ (Z.of_nat (length l) <= 2 ^ 19)%Z) -> in01 (global_ndcg RArith RTrans score l c).
  Proof.
    intros Z H. destruct c.
    - destruct (H eq_refl). now apply Ndcg.ndcg_collapsed_01.
    - apply Ndcg.ndcg_raw_01. intros m K. apply AveragePrecision.zero_one_fractions, Z, K.
  Qed.

  Lemma global_ndcg_D c (l : list M) : (forall m, In m l -> zero_one (m_err m)) ->
    (c = true -> ranked score l /\ (Z.of_nat (length l) <= 2 ^ 19)%Z) -> (Z.of_nat (length l) <= 2 ^ 25)%Z ->
    within (3 * INR (length l) * (INR (length l) + 12) * u64) (global_ndcg DArith T score l c)
      (global_ndcg RArith RTrans score l c).
  Proof.
    intros Z H L. destruct (points_sizes c l). apply ndcg_D; auto; [apply points_whole, Z|].
    now apply global_exact_01.
  Qed.
End Matches.

(** ** Means *)

Section Means.
  Context {X : Type}.

  (** Close statistics of groups have close means. *)
  Lemma mean_close (N : R) (fD : X -> outcome f64) (fR : X -> outcome R) groups : 0 <= N -> N * u64 <= 1 ->
    (Z.of_nat (length groups) <= 2 ^ 52)%Z ->
    (forall g, In g groups -> exists a x, fD g = Ok a /\ fR g = Ok x /\ within (N * u64) a x /\ in01 x) ->
    exists s t, ofold (fun s g => let* v := fD g in Ok (f64_add s v)) groups (a0 DArith : f64) = Ok s /\
      ofold (fun s g => let* v := fR g in Ok (s + v)) groups 0 = Ok t /\
      within ((N + INR (length groups) + 3) * u64) (mean_of DArith s (length groups)) (mean_of RArith t (length groups)).
  Proof.
    intros N0 N1 Hg H. assert (U := u64_pos).
    assert (L : forall gs k s t, incl gs groups -> (Z.of_nat (k + length gs) <= 2 ^ 52)%Z -> msum N k s t ->
      exists s' t', ofold (fun s g => let* v := fD g in Ok (f64_add s v)) gs s = Ok s' /\
        ofold (fun s g => let* v := fR g in Ok (s + v)) gs t = Ok t' /\ msum N (k + length gs) s' t').
    { induction gs as [|g gs IH]; intros k s t I K S.
      - simpl in *. rewrite Nat.add_0_r. eauto.
      - simpl length in *. destruct (H g (I g (or_introl eq_refl))) as (a & x & A & B & [F E] & O).
        destruct (IH (Datatypes.S k) (f64_add s a) (t + x)) as (s' & t' & C & D & S').
        + intros y Hy. apply I. now right.
        + lia.
        + apply msum_step; auto. lia.
        + exists s', t'. cbn [ofold obind]. rewrite A, B. cbn [obind].
          replace (k + Datatypes.S (length gs))%nat with (Datatypes.S k + length gs)%nat by lia. auto. }
    assert (Z0 : msum N 0 (a0 DArith) 0).
    { split; [reflexivity|]. replace (B2R (a0 DArith : f64)) with 0 by reflexivity. simpl.
      rewrite Rminus_0_r, Rabs_R0. lra. }
    destruct (L groups 0%nat _ _ (incl_refl _) Hg Z0) as (s & t & E1 & E2 & Fs & Bs & Es).
    exists s, t. split; [exact E1|]. split; [exact E2|]. clear L Z0 E1 E2. simpl plus in *.
    unfold mean_of. destruct (Nat.ltb_spec 0 (length groups)) as [K|K].
    - set (m := length groups) in *.
      destruct (wholef_nat m) as [Fm Vm]; [lia|].
      assert (M1 : 1 <= INR m) by (change 1 with (INR 1); apply le_INR; lia).
      rewrite <- INR_IZR_INZ in Vm.
      assert (Q : Rabs (B2R s / INR m) <= 2).
      { unfold Rdiv. rewrite Rabs_mult, (Rabs_right (/ INR m)) by (apply Rle_ge, Rlt_le, Rinv_0_lt_compat; lra).
        apply Rmult_le_reg_r with (INR m); [lra|]. rewrite Rmult_assoc, Rinv_l by lra. lra. }
      destruct (f64_div_correct s (f64_of_Z (Z.of_nat m)) 1) as [V F]; auto; [rewrite Vm; lra|easy|rewrite Vm; exact Q|].
      change (a_div DArith s (a_nat DArith m)) with (Bdiv mode_NE s (f64_of_Z (Z.of_nat m))).
      change (a_div RArith t (a_nat RArith m)) with (t / INR m).
      split; [exact F|]. rewrite V, Vm.
      assert (E := rnd64_err_le _ 2 ltac:(lra) Q).
      assert (D : Rabs (B2R s / INR m - t / INR m) <= (N + (INR m + 1)) * u64).
      { replace (B2R s / INR m - t / INR m) with ((B2R s - t) * / INR m) by (field; lra).
        rewrite Rabs_mult, (Rabs_right (/ INR m)) by (apply Rle_ge, Rlt_le, Rinv_0_lt_compat; lra).
        apply Rmult_le_reg_r with (INR m); [lra|]. rewrite Rmult_assoc, Rinv_l by lra. lra. }
      replace ((N + INR m + 3) * u64) with ((N + (INR m + 1)) * u64 + 2 * u64) by ring.
      replace (rnd64 (B2R s / INR m) - t / INR m)
        with ((rnd64 (B2R s / INR m) - B2R s / INR m) + (B2R s / INR m - t / INR m)) by ring.
      eapply Rle_trans; [apply Rabs_triang|]. lra.
    - split; [reflexivity|]. change (B2R (a0 DArith : f64)) with 0. change (a0 RArith) with 0.
      rewrite Rminus_0_r, Rabs_R0. assert (0 <= INR (length groups)) by apply pos_INR. nra.
  Qed.

  (** Means of numbers of moderate size. *)
  Lemma mean_bounded (f : X -> outcome f64) groups : (Z.of_nat (length groups) <= 2 ^ 52)%Z ->
    (forall g, In g groups -> exists a, f g = Ok a /\ is_finite a = true /\ Rabs (B2R a) <= bpow radix2 60) ->
    exists s, ofold (fun s g => let* v := f g in Ok (f64_add s v)) groups (a0 DArith : f64) = Ok s /\
      is_finite (mean_of DArith s (length groups) : f64) = true /\
      Rabs (B2R (mean_of DArith s (length groups) : f64)) <= bpow radix2 60.
  Proof.
    intros Hg H. assert (B0 := bpow_gt_0 radix2 60).
    assert (L : forall gs k s, incl gs groups -> (Z.of_nat (k + length gs) <= 2 ^ 52)%Z -> is_finite s = true ->
      Rabs (B2R s) <= INR k * bpow radix2 60 ->
      exists s', ofold (fun s g => let* v := f g in Ok (f64_add s v)) gs s = Ok s' /\ is_finite s' = true /\
        Rabs (B2R s') <= INR (k + length gs) * bpow radix2 60).
    { induction gs as [|g gs IH]; intros k s I K Fs Bs.
      - simpl in *. rewrite Nat.add_0_r. eauto.
      - simpl length in *. destruct (H g (I g (or_introl eq_refl))) as (a & A & F & B).
        assert (T : Rabs (B2R s + B2R a) <= INR (Datatypes.S k) * bpow radix2 60).
        { rewrite S_INR. eapply Rle_trans; [apply Rabs_triang|]. lra. }
        assert (Gf : fmt64 (INR (Datatypes.S k) * bpow radix2 60)).
        { rewrite INR_IZR_INZ. apply fmt64_F2R; [lia|easy]. }
        assert (Bd : INR (Datatypes.S k) * bpow radix2 60 <= bpow radix2 113).
        { change 113%Z with (53 + 60)%Z. rewrite bpow_plus. apply Rmult_le_compat_r; [lra|].
          rewrite INR_IZR_INZ. change (bpow radix2 53) with (IZR (2 ^ 53)). apply IZR_le. lia. }
        destruct (f64_plus_correct s a 113 Fs F) as [V Fv]; [easy|lra|].
        destruct (IH (Datatypes.S k) (f64_add s a)) as (s' & C & D & S').
        + intros y Hy. apply I. now right.
        + lia.
        + exact Fv.
        + unfold f64_add. rewrite V. assert (T2 := Rabs_le_inv _ _ T).
          apply Rabs_le. split; [|apply rnd64_le_fmt64; [exact Gf|lra]].
          apply rnd64_ge; [apply fmt64_opp, Gf|lra].
        + exists s'. cbn [ofold obind]. rewrite A. cbn [obind].
          replace (k + Datatypes.S (length gs))%nat with (Datatypes.S k + length gs)%nat by lia. auto. }
    destruct (L groups 0%nat (a0 DArith) (incl_refl _) Hg eq_refl) as (s & E1 & Fs & Bs).
    { change (B2R (a0 DArith : f64)) with 0. rewrite Rabs_R0. simpl. lra. }
    exists s. split; [exact E1|]. clear L E1. simpl plus in *.
    unfold mean_of. destruct (Nat.ltb_spec 0 (length groups)) as [K|K].
    - set (m := length groups) in *.
      destruct (wholef_nat m) as [Fm Vm]; [lia|].
      assert (M1 : 1 <= INR m) by (change 1 with (INR 1); apply le_INR; lia).
      rewrite <- INR_IZR_INZ in Vm.
      assert (Q : Rabs (B2R s / INR m) <= bpow radix2 60).
      { unfold Rdiv. rewrite Rabs_mult, (Rabs_right (/ INR m)) by (apply Rle_ge, Rlt_le, Rinv_0_lt_compat; lra).
        apply Rmult_le_reg_r with (INR m); [lra|]. rewrite Rmult_assoc, Rinv_l by lra. lra. }
      destruct (f64_div_correct s (f64_of_Z (Z.of_nat m)) 60) as [V F]; auto; [rewrite Vm; lra|easy|rewrite Vm; exact Q|].
      change (a_div DArith s (a_nat DArith m)) with (Bdiv mode_NE s (f64_of_Z (Z.of_nat m))).
      split; [exact F|]. rewrite V, Vm. assert (Q2 := Rabs_le_inv _ _ Q).
      assert (Gf : fmt64 (bpow radix2 60)) by (apply fmt64_bpow; easy).
      apply Rabs_le. split; [|apply rnd64_le_fmt64; [exact Gf|lra]].
      apply rnd64_ge; [apply fmt64_opp, Gf|lra].
    - split; [reflexivity|]. change (B2R (a0 DArith : f64)) with 0. rewrite Rabs_R0. lra.
  Qed.
End Means.

Section Groups.
  Context {RE HE : Type} (score : HE -> f32) (srt : sort_fn) (Hs : sort_contract srt) (T : Trans DArith) (HT : accurate T).
  Notation M := (match_t RE HE).

  Lemma ofold_ext {X S} (f g : S -> X -> outcome S) l : (forall s x, f s x = g s x) -> forall s, ofold f l s = ofold g l s.
  Proof. intros H. induction l as [|x l IH]; intros s; [reflexivity|]. cbn [ofold]. rewrite H. destruct (g s x); cbn [obind]; auto. Qed.

  (** A group that may be sorted. *)
  Definition usable (n : nat) (sort : bool) (g : list M) : Prop :=
    (length g <= n)%nat /\ (sort = true -> ranked score g) /\ forall m, In m g -> zero_one (m_err m).

  Lemma usable_sorted n sort g : usable n sort g -> exists g', maybe_sort score srt sort g = Ok g' /\ Permutation g g'.
  Proof.
    intros (A & B & C). unfold maybe_sort. destruct sort; [|eauto].
    destruct (Curves.sort_matches_spec score srt g Hs (B eq_refl)) as (s & E & P & _). eauto.
  Qed.

  Lemma usable_perm n sort g g' : usable n sort g -> Permutation g g' -> usable n sort g'.
  Proof.
    intros (A & B & C) P. split; [rewrite <- (Permutation_length P); exact A|]. split.
    - intros S m K. apply (B S), (Permutation_in _ (Permutation_sym P) K).
    - intros m K. apply C. eapply Permutation_in; [apply Permutation_sym, P|exact K].
  Qed.

  Lemma mean_ndcg_D n c sort (groups : list (list M)) : (Z.of_nat n <= 2 ^ 25)%Z -> (Z.of_nat (length groups) <= 2 ^ 52)%Z ->
    (forall g, In g groups -> usable n sort g /\ (c = true -> ranked score g /\ (Z.of_nat (length g) <= 2 ^ 19)%Z)) ->
    exists a x, mean_ndcg DArith T score srt groups c sort = Ok a /\
      mean_ndcg RArith RTrans score srt groups c sort = Ok x /\
      within ((3 * INR n * (INR n + 12) + INR (length groups) + 3) * u64) a x.
  Proof.
    intros Hn Hg H. assert (U := u64_pos). assert (N0 := pos_INR n).
    assert (Nb : INR n <= IZR (2 ^ 25)) by (rewrite INR_IZR_INZ; apply IZR_le, Hn).
    destruct (mean_close (3 * INR n * (INR n + 12))
      (fun g => let* g' := maybe_sort score srt sort g in Ok (global_ndcg DArith T score g' c : f64))
      (fun g => let* g' := maybe_sort score srt sort g in Ok (global_ndcg RArith RTrans score g' c : R))
      groups) as (s & t & E1 & E2 & W).
    - nra.
    - rewrite u64_val. apply Rmult_le_reg_r with (IZR (2 ^ 53)); [simpl; lra|].
      rewrite Rmult_assoc, Rinv_l by (simpl; lra). simpl in *. nra.
    - exact Hg.
    - intros g K. destruct (H g K) as [Ug Cg]. destruct (usable_sorted n sort g Ug) as (g' & E & P).
      destruct (usable_perm _ _ _ _ Ug P) as (A & B & C). rewrite E. cbn [obind].
      assert (Cg' : c = true -> ranked score g' /\ (Z.of_nat (length g') <= 2 ^ 19)%Z).
      { intros D. destruct (Cg D) as [R1 L1]. split; [|rewrite <- (Permutation_length P); exact L1].
        intros m Km. apply R1, (Permutation_in _ (Permutation_sym P) Km). }
      eexists _, _. split; [reflexivity|]. split; [reflexivity|].
      split; [|apply global_exact_01; auto].
      destruct (global_ndcg_D score T HT c g' C Cg') as [F D]; [lia|]. split; [exact F|].
      eapply Rle_trans; [exact D|]. apply Rmult_le_compat_r; [lra|].
      assert (INR (length g') <= INR n) by (apply le_INR; lia). assert (0 <= INR (length g')) by apply pos_INR. nra.
    - exists (mean_of DArith s (length groups)), (mean_of RArith t (length groups)).
      unfold mean_ndcg. split; [|split; [|exact W]].
      + rewrite (ofold_ext _ (fun s g => let* v := (let* g' := maybe_sort score srt sort g in Ok (global_ndcg DArith T score g' c : f64)) in Ok (f64_add s v))).
        * change (a0 DArith) with (a0 DArith : f64). rewrite E1. reflexivity.
        * intros s' g. destruct (maybe_sort score srt sort g); reflexivity.
      + rewrite (ofold_ext _ (fun s g => let* v := (let* g' := maybe_sort score srt sort g in Ok (global_ndcg RArith RTrans score g' c : R)) in Ok (s + v))).
        * change (a0 RArith) with 0. rewrite E2. reflexivity.
        * intros s' g. destruct (maybe_sort score srt sort g); reflexivity.
  Qed.

  (** ** Moderate values *)

  Lemma moderate_60 v : is_finite v = true -> Rabs (B2R v) <= bpow radix2 60 -> moderate v.
  Proof. intros F B. split; [exact F|]. eapply Rle_trans; [exact B|]. apply bpow_le. lia. Qed.

  Lemma ap_moderate (l : list M) c i trap : (forall m, In m l -> zero_one (m_err m)) -> (Z.of_nat (length l) <= 2 ^ 53)%Z ->
    exists v, global_ap DArith score l c i trap = Ok v /\ is_finite v = true /\ Rabs (B2R v) <= bpow radix2 60.
  Proof.
    intros Z L. destruct (global_ap_D RE HE score l c i trap Z L) as (a & x & A & B & F & E).
    assert (X := ap_01 RE HE score l c i trap x Z B). unfold in01 in X.
    exists a. split; [exact A|]. split; [exact F|].
    assert (Nb : INR (length l) <= IZR (2 ^ 53)) by (rewrite INR_IZR_INZ; apply IZR_le, L).
    assert (N0 := pos_INR (length l)).
    assert (K : INR (length l) * (INR (length l) + 12) * u64 <= IZR (2 ^ 55)).
    { rewrite u64_val. apply Rmult_le_reg_r with (IZR (2 ^ 53)); [simpl; lra|].
      rewrite Rmult_assoc, Rinv_l by (simpl; lra). simpl in *. nra. }
    change (bpow radix2 60) with (IZR (2 ^ 60)).
    unfold Rabs in *. repeat destruct Rcase_abs in *; simpl in *; lra.
  Qed.

  Lemma ndcg_bound_60 (l : list M) c : (forall m, In m l -> zero_one (m_err m)) -> (Z.of_nat (length l) <= 2 ^ 51)%Z ->
    is_finite (global_ndcg DArith T score l c : f64) = true /\ Rabs (B2R (global_ndcg DArith T score l c : f64)) <= bpow radix2 60.
  Proof.
    intros Z L. destruct (global_moderate score T HT c l Z L) as [F B]. split; [exact F|].
    rewrite Rabs_pos_eq by apply B. eapply Rle_trans; [apply B|]. apply bpow_le. lia.
  Qed.

  Lemma concat_usable n (groups : list (list M)) : (forall g, In g groups -> ranked score g /\ forall m, In m g -> zero_one (m_err m)) ->
    (length (concat groups) <= n)%nat -> usable n true (concat groups).
  Proof.
    intros H L. split; [exact L|]. split.
    - intros _ m K. apply in_concat in K as (g & I & K). apply (H g I), K.
    - intros m K. apply in_concat in K as (g & I & K). apply (H g I), K.
  Qed.

  (** The four statistics of lists of groups. *)
  Lemma gap_groups (groups : list (list M)) c i trap : (forall g, In g groups -> ranked score g /\ forall m, In m g -> zero_one (m_err m)) ->
    (Z.of_nat (length (concat groups)) <= 2 ^ 51)%Z ->
    exists v, global_ap_groups DArith score srt groups c i trap true = Ok v /\ moderate v.
  Proof.
    intros H L. assert (Ug := concat_usable _ groups H (le_n _)).
    destruct (usable_sorted _ _ _ Ug) as (g' & E & P). destruct (usable_perm _ _ _ _ Ug P) as (A & _ & C).
    destruct (ap_moderate g' c i trap C) as (v & V & F & B); [lia|].
    exists v. unfold global_ap_groups. rewrite E. split; [exact V|apply moderate_60; auto].
  Qed.

  Lemma gndcg_groups (groups : list (list M)) c : (forall g, In g groups -> ranked score g /\ forall m, In m g -> zero_one (m_err m)) ->
    (Z.of_nat (length (concat groups)) <= 2 ^ 51)%Z ->
    exists v, global_ndcg_groups DArith T score srt groups c true = Ok v /\ moderate v.
  Proof.
    intros H L. assert (Ug := concat_usable _ groups H (le_n _)).
    destruct (usable_sorted _ _ _ Ug) as (g' & E & P). destruct (usable_perm _ _ _ _ Ug P) as (A & _ & C).
    destruct (ndcg_bound_60 g' c C) as (F & B); [lia|].
    eexists. unfold global_ndcg_groups. rewrite E. split; [reflexivity|apply moderate_60; auto].
  Qed.

  Lemma map_groups (groups : list (list M)) c i trap : (forall g, In g groups -> ranked score g /\ forall m, In m g -> zero_one (m_err m)) ->
    (Z.of_nat (length groups) <= 2 ^ 52)%Z -> (forall g, In g groups -> (Z.of_nat (length g) <= 2 ^ 51)%Z) ->
    exists v, mean_ap DArith score srt groups c i trap true = Ok v /\ moderate v.
  Proof.
    intros H L Lg.
    destruct (mean_bounded (fun g => let* g' := maybe_sort score srt true g in global_ap DArith score g' c i trap) groups L)
      as (s & E & F & B).
    - intros g K. destruct (H g K) as [R1 Z1]. assert (Ug : usable (length g) true g) by (split; auto).
      destruct (usable_sorted _ _ _ Ug) as (g' & E & P). destruct (usable_perm _ _ _ _ Ug P) as (A & _ & C).
      specialize (Lg g K). destruct (ap_moderate g' c i trap C) as (v & V & F & B); [lia|].
      exists v. rewrite E. auto.
    - exists (mean_of DArith s (length groups)). split; [|apply moderate_60; auto].
      unfold mean_ap. refine (f_equal (fun o => let* sum := o in Ok (mean_of DArith sum (length groups))) (y := Ok s) _).
      rewrite <- E. apply ofold_ext. intros s' g. destruct (maybe_sort score srt true g); reflexivity.
  Qed.

  Lemma mndcg_groups (groups : list (list M)) c : (forall g, In g groups -> ranked score g /\ forall m, In m g -> zero_one (m_err m)) ->
    (Z.of_nat (length groups) <= 2 ^ 52)%Z -> (forall g, In g groups -> (Z.of_nat (length g) <= 2 ^ 51)%Z) ->
    exists v, mean_ndcg DArith T score srt groups c true = Ok v /\ moderate v.
  Proof.
    intros H L Lg.
    destruct (mean_bounded (fun g => let* g' := maybe_sort score srt true g in Ok (global_ndcg DArith T score g' c : f64)) groups L)
      as (s & E & F & B).
    - intros g K. destruct (H g K) as [R1 Z1]. assert (Ug : usable (length g) true g) by (split; auto).
      destruct (usable_sorted _ _ _ Ug) as (g' & E & P). destruct (usable_perm _ _ _ _ Ug P) as (A & _ & C).
      specialize (Lg g K). destruct (ndcg_bound_60 g' c C) as (F & B); [lia|].
      eexists. rewrite E. split; [reflexivity|]. auto.
    - exists (mean_of DArith s (length groups)). split; [|apply moderate_60; auto].
      unfold mean_ndcg.
      rewrite (ofold_ext _ (fun s g => let* v := (let* g' := maybe_sort score srt true g in Ok (global_ndcg DArith T score g' c : f64)) in Ok (f64_add s v))).
      + change (a0 DArith) with (a0 DArith : f64). rewrite E. reflexivity.
      + intros s' g. destruct (maybe_sort score srt true g); reflexivity.
  Qed.
End Groups.

(** ** A library that meets the assumption *)

(** The double nearest to a real number. *)
Definition nearest_f64 (x : R) : f64 :=
  binary_normalize 53 1024 prec64 emax64 mode_NE
    (ZnearestE (scaled_mantissa radix2 (FLT_exp (-1074) 53) x)) (cexp radix2 (FLT_exp (-1074) 53) x) false.

Lemma nearest_f64_R x : Rabs x <= bpow radix2 1000 -> is_double (nearest_f64 x) (nearest64 x).
Proof.
  intros H. unfold is_double, nearest_f64.
  assert (E : F2R (Float radix2 (ZnearestE (scaled_mantissa radix2 (FLT_exp (-1074) 53) x)) (cexp radix2 (FLT_exp (-1074) 53) x)) = nearest64 x)
    by reflexivity.
  assert (C := binary_normalize_correct 53 1024 prec64 emax64 mode_NE
    (ZnearestE (scaled_mantissa radix2 (FLT_exp (-1074) 53) x)) (cexp radix2 (FLT_exp (-1074) 53) x) false).
  cbv zeta in C. rewrite E in C.
  assert (G : fmt64 (nearest64 x)) by (rewrite nearest_rnd; apply rnd64_fmt64).
  assert (B : Rabs (nearest64 x) <= bpow radix2 1000).
  { rewrite nearest_rnd. apply Rabs_le_inv in H. assert (F : fmt64 (bpow radix2 1000)) by (apply fmt64_bpow; easy).
    apply Rabs_le. split; [apply rnd64_ge; [apply fmt64_opp, F|lra]|apply rnd64_le_fmt64; [exact F|lra]]. }
  replace (round radix2 (SpecFloat.fexp 53 1024) (round_mode mode_NE) (nearest64 x)) with (nearest64 x) in C
    by (symmetry; apply (rnd64_id _ G)).
  rewrite Rlt_bool_true in C.
  - destruct C as (V & F & _). split; assumption.
  - eapply Rle_lt_trans; [exact B|]. apply bpow_lt. lia.
Qed.

Definition ideal_libm : Trans DArith :=
  mkTrans DArith (fun x : f64 => nearest_f64 (Rpower 2 (B2R x))) (fun n => nearest_f64 (ln (INR n) / ln 2)).

Lemma nearest_rel x : 1 <= x <= bpow radix2 100 -> within (2 * u64 * x) (nearest_f64 x) x /\ 1 <= B2R (nearest_f64 x).
Proof.
  intros H. destruct (nearest_f64_R x) as [F V].
  { rewrite Rabs_pos_eq by lra. eapply Rle_trans; [apply H|]. apply bpow_le. lia. }
  assert (U := u64_pos). rewrite nearest_rnd in V. split; [split; [exact F|]|].
  - rewrite V. assert (E := rnd64_err_le x x ltac:(lra) ltac:(rewrite Rabs_pos_eq; lra)). nra.
  - rewrite V. apply rnd64_ge; [apply fmt64_1|lra].
Qed.

Lemma ideal_accurate : accurate ideal_libm.
Proof.
  assert (B : bpow radix2 100 = IZR (2 ^ 100)) by reflexivity.
  constructor.
  - intros x [F H]. apply nearest_rel. assert (P := pow_12 _ H). rewrite B. simpl. lra.
  - intros n H. apply nearest_rel.
    assert (L2 : 0 < ln 2) by (apply Ndcg.ln_pos; lra).
    assert (A : 2 <= INR n) by (change 2 with (INR 2); apply le_INR; lia).
    assert (C : ln 2 <= ln (INR n)).
    { destruct (Req_dec (INR n) 2) as [->|D]; [lra|]. apply Rlt_le, ln_increasing; lra. }
    assert (D : ln (INR n) <= INR n).
    { assert (Q := exp_ineq1_le (ln (INR n))). rewrite exp_ln in Q by lra. lra. }
    assert (E : / 2 <= ln 2) by apply Rlt_le, ln_lt_2.
    split.
    + apply Rmult_le_reg_r with (ln 2); [exact L2|]. unfold Rdiv. rewrite Rmult_assoc, Rinv_l by lra. lra.
    + apply Rmult_le_reg_r with (ln 2); [exact L2|]. unfold Rdiv. rewrite Rmult_assoc, Rinv_l by lra.
      assert (G : INR n <= IZR (2 ^ 54)) by (rewrite INR_IZR_INZ; apply IZR_le; lia). rewrite B. simpl in *. nra.
Qed.
