(** Samplers and bootstrap intervals. *)
From Coq Require Import List Bool ZArith Reals Lra Lia Permutation Sorted.
From Coq Require QArith.
From Flocq Require Import Core BinarySingleNaN Mult_error.
From Verif.Model Require Import Cpp Floats Matches Assessment Bootstrap.
From Verif.Spec Require Import Order Objects Matching Grouping Collapse Metrics Double Bootstrap.
From Verif.Proofs Require Import FloatFacts Order Double.
From Verif.Proofs Require AveragePrecision Collapse Curves Grouping Rational.
Import ListNotations.

(** ** Samplers *)

Section Samplers.
  Context {M : Type} (default : M).

  Lemma draw_many_spec g n l : forall k, (n = 0 \/ l <> []) ->
    length (fst (draw_many default g k n l)) = n /\ incl (fst (draw_many default g k n l)) l.
  Proof.
    induction n as [|n IH]; intros k H; simpl.
    - split; auto. intros x [].
    - destruct H as [H|H]; [discriminate|]. unfold draw. destruct (rng_next g k (length l)) as [v k1].
      specialize (IH k1 (or_intror H)). destruct (draw_many default g k1 n l) as [r k'] eqn:E.
      simpl in *. destruct IH as [I1 I2]. split; [lia|].
      intros x [<-|K]; [|auto]. apply nth_In. apply Nat.mod_upper_bound. destruct l; [congruence|discriminate].
  Qed.

  Lemma draw_group g k grp : length (fst (draw_many default g k (length grp) grp)) = length grp /\
    incl (fst (draw_many default g k (length grp) grp)) grp.
  Proof. apply draw_many_spec. destruct grp; [left; reflexivity|right; discriminate]. Qed.

  Lemma groups_loop_spec g original n : forall k, (n = 0 \/ original <> []) ->
    length (fst (groups_loop default g k n original)) = n /\
    (forall s, In s (fst (groups_loop default g k n original)) ->
       exists grp, In grp original /\ length s = length grp /\ incl s grp).
  Proof.
    induction n as [|n IH]; intros k H; simpl.
    - split; auto. intros s [].
    - destruct H as [H|H]; [discriminate|]. unfold draw. destruct (rng_next g k (length original)) as [v k1].
      set (q := nth (v mod length original) original []).
      assert (Q : In q original).
      { apply nth_In. apply Nat.mod_upper_bound. destruct original; [congruence|discriminate]. }
      destruct (draw_group g k1 q) as [D1 D2].
      destruct (draw_many default g k1 (length q) q) as [d k2] eqn:Ed. simpl in D1, D2.
      specialize (IH k2 (or_intror H)). destruct (groups_loop default g k2 n original) as [r k3] eqn:Er.
      simpl in *. destruct IH as [I1 I2]. split; [lia|].
      intros s [<-|K]; eauto.
  Qed.

  Lemma by_query_sound g k original : resample original (fst (by_query_sampler default g k original)).
  Proof.
    unfold by_query_sampler. destruct (groups_loop_spec g original (length original) k) as [A B].
    - destruct original; [left; reflexivity|right; discriminate].
    - split; assumption.
  Qed.

  Lemma draw_many_draws g n l : forall k, snd (draw_many default (stream g) k n l) = k + n.
  Proof.
    induction n as [|n IH]; intros k; simpl; [lia|].
    specialize (IH (S k)). simpl in IH. destruct (draw_many default (stream g) (S k) n l). simpl in *. lia.
  Qed.

  Lemma groups_loop_draws g original n : forall k, (n = 0 \/ original <> []) ->
    snd (groups_loop default (stream g) k n original) =
      k + n + total (@length M) (fst (groups_loop default (stream g) k n original)).
  Proof.
    induction n as [|n IH]; intros k H; simpl; [unfold total; simpl; lia|].
    destruct H as [H|H]; [discriminate|].
    set (q := nth (g k mod length original) original []).
    assert (D := draw_many_draws g (length q) q (S k)). destruct (draw_group (stream g) (S k) q) as [D1 _]. simpl in D, D1.
    destruct (draw_many default (stream g) (S k) (length q) q) as [d k2] eqn:Ed. simpl in D, D1.
    specialize (IH k2 (or_intror H)). simpl in IH. destruct (groups_loop default (stream g) k2 n original) as [r k3] eqn:Er.
    simpl in *. change (total (@length M) (d :: r)) with (length d + total (@length M) r). lia.
  Qed.

  Lemma by_query_draws g k original :
    snd (by_query_sampler default (stream g) k original) =
      k + length original + total (@length M) (fst (by_query_sampler default (stream g) k original)).
  Proof.
    unfold by_query_sampler. apply groups_loop_draws.
    destruct original; [left; reflexivity|right; discriminate].
  Qed.

  (** The stream has the numbers [ds] from [k] on. *)
  Definition has (g : nat -> nat) (k : nat) (ds : list nat) : Prop :=
    forall i d, nth_error ds i = Some d -> g (k + i) = d.

  Lemma has_app g k a b : has g k (a ++ b) -> has g k a /\ has g (k + length a) b.
  Proof.
    intros H. split; intros i d E.
    - apply H. rewrite nth_error_app1; auto. apply nth_error_Some. congruence.
    - rewrite <- Nat.add_assoc. apply H. rewrite nth_error_app2 by lia.
      replace (length a + i - length a) with i by lia. exact E.
  Qed.

  Lemma draw_many_complete l s : incl s l ->
    exists ds, length ds = length s /\
      forall g k, has g k ds -> draw_many default (stream g) k (length s) l = (s, k + length s).
  Proof.
    induction s as [|x s IH]; intros H.
    - exists []. split; auto. intros g k _. simpl. f_equal. lia.
    - destruct IH as [ds [L D]]; [intros y K; apply H; right; exact K|].
      destruct (In_nth l x default (H x (or_introl eq_refl))) as [i [Hi Ei]].
      exists (i :: ds). split; [simpl; lia|]. intros g k G. simpl.
      rewrite D.
      + rewrite <- (Nat.add_0_r k), (G 0 i eq_refl), Nat.mod_small by exact Hi. rewrite Ei. f_equal. lia.
      + intros j d E. replace (S k + j) with (k + S j) by lia. apply G. exact E.
  Qed.

  Lemma groups_complete original sample :
    (forall s, In s sample -> exists g, In g original /\ length s = length g /\ incl s g) ->
    exists ds, forall g k, has g k ds ->
      groups_loop default (stream g) k (length sample) original = (sample, k + length ds).
  Proof.
    induction sample as [|s sample IH]; intros H.
    - exists []. intros g k _. simpl. f_equal. lia.
    - destruct IH as [ds D]; [intros x K; apply H; right; exact K|].
      destruct (H s (or_introl eq_refl)) as [grp [Hg [Hl Hi]]].
      destruct (draw_many_complete grp s Hi) as [ds' [L' D']].
      destruct (In_nth original grp [] Hg) as [i [Li Ei]].
      exists (i :: ds' ++ ds). intros g k G. simpl.
      assert (G0 : g k = i) by (rewrite <- (Nat.add_0_r k); apply (G 0 i eq_refl)).
      assert (G1 : has g (S k) (ds' ++ ds)).
      { intros j d E. replace (S k + j) with (k + S j) by lia. apply G. exact E. }
      apply has_app in G1. destruct G1 as [G1 G2].
      rewrite G0, Nat.mod_small, Ei by exact Li. rewrite <- Hl, (D' g (S k) G1).
      rewrite L' in G2. rewrite (D _ _ G2). f_equal. rewrite app_length. lia.
  Qed.

  Lemma by_query_complete original sample k : resample original sample ->
    exists s, fst (by_query_sampler default (stream s) k original) = sample.
  Proof.
    intros [L H]. destruct (groups_complete original sample H) as [ds D].
    exists (fun i => nth (i - k) ds 0). unfold by_query_sampler. rewrite <- L, D; auto.
    intros i d E. replace (k + i - k) with i by lia. apply nth_error_nth, E.
  Qed.

  (** ** MatchesSampler *)

  Lemma matches_sampler_spec g k original sampled :
    exists kept drawn, fst (matches_sampler default g k original sampled) = kept ++ drawn /\
      length kept = length original /\ length drawn = length original /\ incl drawn original /\
      (sampled = [] -> kept = repeat default (length original)).
  Proof.
    unfold matches_sampler. set (n := length original).
    destruct (draw_group g k original) as [A B]. fold n in A, B.
    destruct (draw_many default g k n original) as [d k'] eqn:E. simpl in *.
    eexists _, d. split; [reflexivity|]. split.
    - rewrite app_length, firstn_length, repeat_length. lia.
    - split; [exact A|]. split; [exact B|]. intros ->. rewrite firstn_nil. simpl length. rewrite Nat.sub_0_r. reflexivity.
  Qed.

  Lemma matches_sampler_size g k original sampled : original <> [] ->
    length (fst (matches_sampler default g k original sampled)) <> length original.
  Proof.
    intros H. destruct (matches_sampler_spec g k original sampled) as [a [b [E [L1 [L2 _]]]]].
    rewrite E, app_length. assert (length original <> 0) by (destruct original; [congruence|discriminate]). lia.
  Qed.
End Samplers.

(** A sample of one false positive has a hit. *)
Lemma sampler_hits_refuted :
  let original : list (match_t unit unit) := [make_fp tt] in
  forall score interpolate trapezoid g k,
    global_ap RArith score original false interpolate trapezoid = Ok 0%R /\
    global_ap RArith score (fst (matches_sampler match_default g k original [])) false interpolate trapezoid = Ok 1%R.
Proof.
  intros original score i t g k.
  assert (N : f32_0 <> f32_1) by (intros K; assert (E : f32_eq f32_1 f32_0 = false) by reflexivity; rewrite <- K in E; discriminate).
  split.
  - apply AveragePrecision.no_refs; [|reflexivity|discriminate].
    intros m [<-|[]]. unfold zero_one. simpl. auto.
  - destruct (matches_sampler_spec match_default g k original []) as [kp [dr [E [L1 [L2 [I D]]]]]].
    rewrite E, (D eq_refl). clear E D. simpl in L2. destruct dr as [|y [|z dr]]; try discriminate.
    destruct (I y (or_introl eq_refl)) as [<-|[]]. simpl repeat. simpl app.
    apply (AveragePrecision.perfect_ap score).
    + intros m [<-|[<-|[]]]; unfold zero_one; simpl; auto.
    + vm_compute. lia.
    + split.
      * intros m [<-|[<-|[]]] F; apply N; exact F.
      * intros u a v b w E Fa [Hb _]. destruct u as [|x [|y u]]; simpl in E.
        -- injection E as <- E. apply N. exact Fa.
        -- injection E as <- <- E. destruct v; discriminate.
        -- injection E as _ _ E. destruct u; discriminate.
Qed.

(** ** Indices *)

Local Open Scope R_scope.

Lemma u64_R : u64 = / 9007199254740992.
Proof. reflexivity. Qed.

(** The largest double below one. *)
Definition below1 : R := 1 - u64.

Lemma fmt_below1 : fmt64 below1.
Proof.
  unfold below1. replace (1 - u64) with (IZR (2 ^ 53 - 1) * bpow radix2 (-53)).
  - apply fmt64_F2R; [vm_compute; reflexivity|]. vm_compute. discriminate.
  - fold u64. rewrite u64_R. simpl. lra.
Qed.

Lemma fmt_lt_1 x : fmt64 x -> x < 1 -> x <= below1.
Proof.
  intros F H. unfold below1.
  assert (P := pred_ge_gt radix2 (SpecFloat.fexp 53 1024) x 1 F fmt64_1 H).
  eapply Rle_trans; [exact P|]. apply Req_le.
  change 1 with (bpow radix2 0). rewrite pred_bpow. reflexivity.
Qed.

Lemma scale_lt x n : 0 <= x <= below1 -> (1 <= n <= 2 ^ 53)%Z -> rnd64 (x * IZR n) < IZR n.
Proof.
  intros Hx Hn. assert (U := u64_pos). unfold below1 in Hx.
  set (k := Z.log2 n). assert (K := Z.log2_spec n ltac:(lia)). fold k in K.
  assert (K0 : (0 <= k)%Z) by apply Z.log2_nonneg.
  assert (K1 : (k <= 53)%Z) by (apply Z.log2_le_mono with (a := n) (b := (2 ^ 53)%Z); lia).
  assert (Bk : bpow radix2 k = IZR (2 ^ k)) by (apply bpow_2; exact K0).
  assert (N0 : 0 < IZR n) by (apply IZR_lt; lia).
  assert (X : x * IZR n <= (1 - u64) * IZR n) by (apply Rmult_le_compat_r; lra).
  destruct (Z.eq_dec n (2 ^ k)) as [E|E].
  - assert (F : fmt64 ((1 - u64) * IZR n)).
    { rewrite E, <- Bk. replace ((1 - u64) * bpow radix2 k) with (IZR (2 ^ 53 - 1) * bpow radix2 (k - 53)).
      - apply fmt64_F2R; [vm_compute; reflexivity|]. change (SpecFloat.emin 53 1024) with (-1074)%Z. lia.
      - unfold Zminus at 2. rewrite bpow_plus. fold u64. rewrite u64_R. simpl. lra. }
    eapply Rle_lt_trans; [apply rnd64_le_fmt64; [exact F|exact X]|]. nra.
  - assert (Nk : IZR n < bpow radix2 (k + 1)).
    { rewrite bpow_2 by lia. apply IZR_lt. replace (k + 1)%Z with (Z.succ k) by lia. lia. }
    assert (Lk : bpow radix2 k < IZR n) by (rewrite Bk; apply IZR_lt; lia).
    assert (R := rnd64_err (x * IZR n) (k + 1) ltac:(lia)).
    assert (A : 0 <= x * IZR n) by (apply Rmult_le_pos; lra).
    rewrite (Rabs_right (x * IZR n)) in R by lra. specialize (R ltac:(nra)).
    replace (k + 1 - 54)%Z with (k + -53)%Z in R by lia. rewrite bpow_plus in R. fold u64 in R.
    assert (bpow radix2 k * u64 < IZR n * u64) by (apply Rmult_lt_compat_r; lra).
    unfold Rabs in R. destruct Rcase_abs in R; lra.
Qed.

Lemma trunc_spec (x : f64) : Btrunc x = Ztrunc (B2R x).
Proof.
  apply eq_IZR. rewrite (Btrunc_correct 53 1024 emax64 x). apply round_FIX_IZR.
Qed.

Lemma size_ok (x : f64) : is_finite x = true -> -1 < B2R x < IZR two64 ->
  exists z, size_of_f64 x = Ok z /\ z = Ztrunc (B2R x) /\ (0 <= z)%Z.
Proof.
  intros F H. exists (Ztrunc (B2R x)).
  assert (B : (0 <= Ztrunc (B2R x) < two64)%Z).
  { destruct (Rlt_dec (B2R x) 0) as [L|L].
    - unfold Ztrunc. rewrite Rlt_bool_true by exact L. rewrite (Zceil_imp 0); [split; [lia|reflexivity]|].
      simpl. lra.
    - rewrite Ztrunc_floor by lra. split; [apply (Zfloor_lub 0); simpl; lra|].
      apply lt_IZR. eapply Rle_lt_trans; [apply Zfloor_lb|]. lra. }
  split; [|split; [reflexivity|lia]].
  assert (T := trunc_spec x). unfold size_of_f64. destruct x; try discriminate F; rewrite T;
    rewrite (proj2 (Z.leb_le _ _)), (proj2 (Z.ltb_lt _ _)) by lia; reflexivity.
Qed.

Lemma size_cases (x : f64) :
  size_of_f64 x = UB \/ (is_finite x = true /\ size_of_f64 x = Ok (Ztrunc (B2R x)) /\ (0 <= Ztrunc (B2R x))%Z).
Proof.
  assert (T := trunc_spec x). unfold size_of_f64. destruct x; auto; rewrite T.
  - right. split; [reflexivity|]. destruct (_ && _) eqn:E in |- *; simpl in *.
    + rewrite Ztrunc_IZR. split; [reflexivity|lia].
    + exfalso. rewrite Ztrunc_IZR in E. discriminate.
  - destruct (_ && _) eqn:E in |- *; auto. right. apply andb_true_iff in E. destruct E as [E _].
    apply Z.leb_le in E. auto.
Qed.

Lemma mul_half alpha : is_finite alpha = true -> Rabs (B2R alpha) <= 2 ->
  is_finite (f64_mul alpha f64_half) = true /\ B2R (f64_mul alpha f64_half) = half_level alpha.
Proof.
  intros F H. destruct half64 as [Fh Vh].
  destruct (f64_mult_correct alpha f64_half 1) as [V G]; auto.
  - exps.
  - rewrite Vh. change (bpow radix2 1) with 2. rewrite Rabs_mult, (Rabs_right (/ 2)) by lra. lra.
  - split; [exact G|]. unfold f64_mul. rewrite V, Vh. reflexivity.
Qed.

Lemma level_bounds alpha : usable_level alpha ->
  0 <= half_level alpha <= below1 /\ 0 <= rest_level alpha <= below1.
Proof.
  intros [F H]. assert (U := u64_pos). unfold rest_level.
  assert (A : 0 <= half_level alpha <= below1).
  { unfold half_level. rewrite nearest_rnd. split; [apply rnd64_nonneg; lra|].
    destruct (Rlt_dec (B2R alpha / 2) (1 / 2)) as [L|L].
    - apply rnd64_le_fmt64; [apply fmt_below1|]. unfold below1. rewrite u64_R. lra.
    - (* alpha is at least 1: halving is exact *)
      assert (G : fmt64 (B2R alpha / 2)).
      { replace (B2R alpha / 2) with (B2R alpha * bpow radix2 (-1)) by (simpl; lra).
        apply (mult_bpow_exact_FLT radix2 (-1074) 53 (B2R alpha) (-1)); [apply B2R_fmt64|].
        assert (1 <= mag radix2 (B2R alpha))%Z by (apply mag_ge_bpow; simpl; rewrite Rabs_right; lra). lia. }
      rewrite (rnd64_id _ G). apply fmt_lt_1; [exact G|lra]. }
  split; [exact A|]. rewrite nearest_rnd. split; [apply rnd64_nonneg; unfold below1 in A; lra|].
  destruct (Rle_dec u64 (half_level alpha)) as [L|L].
  - apply rnd64_le_fmt64; [apply fmt_below1|]. unfold below1. lra.
  - (* between 2^-54 (excluded) and 2^-53: rounded down *)
    assert (G : half_level alpha = B2R alpha / 2).
    { unfold half_level. rewrite nearest_rnd. apply rnd64_id.
      replace (B2R alpha / 2) with (B2R alpha * bpow radix2 (-1)) by (simpl; lra).
      apply (mult_bpow_exact_FLT radix2 (-1074) 53 (B2R alpha) (-1)); [apply B2R_fmt64|].
      assert (-52 <= mag radix2 (B2R alpha))%Z by (apply mag_ge_bpow; change (-52 - 1)%Z with (-53)%Z; fold u64; rewrite Rabs_right; lra). lia. }
    rewrite G in *. eapply Rle_trans.
    + apply (round_N_le_midp radix2 (SpecFloat.fexp 53 1024) _ below1 (1 - B2R alpha / 2)).
      * apply fmt_below1.
      * replace (succ radix2 (SpecFloat.fexp 53 1024) below1) with 1; [unfold below1; lra|].
        assert (S := succ_pred radix2 (SpecFloat.fexp 53 1024) 1 fmt64_1).
        change 1 with (bpow radix2 0) in S at 1. rewrite pred_bpow in S.
        symmetry. exact S.
    + lra.
Qed.

Lemma scale_ok x (r : R) n : is_finite x = true -> B2R x = r -> 0 <= r <= below1 -> (1 <= n <= 2 ^ 53)%Z ->
  exists z, size_of_f64 (f64_mul x (f64_of_Z n)) = Ok z /\ z = Ztrunc (nearest64 (r * IZR n)) /\ (0 <= z < n)%Z.
Proof.
  intros F V B N. destruct (f64_of_Z_exact n) as [Vn Fn]; [lia|].
  assert (U := u64_pos). assert (N0 : 0 < IZR n) by (apply IZR_lt; lia).
  assert (N1 : IZR n <= bpow radix2 53) by (change (bpow radix2 53) with (IZR (2 ^ 53)); apply IZR_le; lia).
  assert (P : 0 <= r * IZR n <= IZR n) by (unfold below1 in B; nra).
  destruct (f64_mult_correct x (f64_of_Z n) 53) as [Vm Fm]; auto; [exps|rewrite V, Vn, Rabs_right; lra|].
  fold (f64_mul x (f64_of_Z n)) in Vm, Fm. rewrite V, Vn in Vm.
  assert (S := scale_lt r n B N). assert (Q := rnd64_nonneg _ (proj1 P)).
  destruct (size_ok _ Fm) as [z [Hz [Ez Pz]]].
  - rewrite Vm. split; [lra|]. eapply Rlt_le_trans; [exact S|]. apply IZR_le. unfold two64. lia.
  - exists z. split; [exact Hz|]. rewrite Vm in Ez. split; [exact Ez|]. split; [exact Pz|].
    rewrite Ez, Ztrunc_floor by exact Q. apply lt_IZR. eapply Rle_lt_trans; [apply Zfloor_lb|exact S].
Qed.

Lemma scale_big x n : is_finite x = true -> 1 <= B2R x -> (0 <= n <= 2 ^ 53)%Z ->
  size_of_f64 (f64_mul x (f64_of_Z n)) = UB \/
  exists z, size_of_f64 (f64_mul x (f64_of_Z n)) = Ok z /\ (n <= z)%Z.
Proof.
  intros F X N. destruct (f64_of_Z_exact n) as [Vn Fn]; [lia|].
  destruct (size_cases (f64_mul x (f64_of_Z n))) as [H|[G [H P]]]; [left; exact H|right].
  exists (Ztrunc (B2R (f64_mul x (f64_of_Z n)))). split; [exact H|].
  assert (C := Bmult_correct 53 1024 prec64 emax64 mode_NE x (f64_of_Z n)).
  destruct (Rlt_bool _ _) in C.
  - destruct C as [C _]. unfold f64_mul. rewrite C, Vn. simpl round_mode.
    change (round radix2 (SpecFloat.fexp 53 1024) ZnearestE (B2R x * IZR n)) with (rnd64 (B2R x * IZR n)).
    assert (L : IZR n <= rnd64 (B2R x * IZR n)).
    { apply rnd64_ge; [apply fmt64_Z; lia|]. assert (0 <= IZR n) by (apply IZR_le; lia). nra. }
    rewrite Ztrunc_floor; [apply Zfloor_lub; exact L|]. assert (0 <= IZR n) by (apply IZR_le; lia). lra.
  - exfalso. unfold f64_mul in G. destruct (Bmult mode_NE x (f64_of_Z n)); try discriminate; simpl in C;
      unfold binary_overflow in C; destruct (xorb _ _) in C; discriminate C.
Qed.

Lemma scale_inf x n : is_finite x = false -> size_of_f64 (f64_mul x (f64_of_Z n)) = UB.
Proof.
  intros F. unfold f64_mul. destruct x; try discriminate; destruct (f64_of_Z n); reflexivity.
Qed.

(** Levels that are not usable give an index that is undefined or too big. *)
Definition bad_index (o : outcome Z) (n : Z) : Prop := o = UB \/ exists z, o = Ok z /\ (n <= z)%Z.

Lemma level_bad alpha n : (0 <= n <= 2 ^ 53)%Z -> ~ usable_level alpha ->
  bad_index (ci_li alpha n) n \/ bad_index (ci_ui alpha n) n.
Proof.
  intros N H. unfold ci_li, ci_ui. destruct (is_finite alpha) eqn:F.
  - destruct (Rle_dec 2 (B2R alpha)) as [G|G].
    + right. unfold bad_index. destruct half64 as [Fh Vh].
      assert (E : Rabs (B2R alpha * B2R f64_half) <= bpow radix2 1023).
      { rewrite Vh, Rabs_right by lra. assert (B := abs_B2R_lt_emax 53 1024 alpha).
        rewrite Rabs_right in B by lra. replace (bpow radix2 1023) with (bpow radix2 1024 * / 2); [lra|].
        change 1024%Z with (1023 + 1)%Z. rewrite bpow_plus. simpl (bpow radix2 1). lra. }
      destruct (f64_mult_correct alpha f64_half 1023) as [V K]; auto; [exps|].
      fold (f64_mul alpha f64_half) in V, K. rewrite Vh in V.
      apply scale_big; auto. rewrite V. apply rnd64_ge; [apply fmt64_1|lra].
    + left. unfold bad_index. destruct half64 as [Fh Vh]. destruct one64 as [F1 V1].
      assert (L : B2R alpha <= u64).
      { apply Rnot_lt_le. intros K. apply H. split; [exact F|]. lra. }
      assert (U := u64_pos). assert (U' := u64_R).
      assert (B := abs_B2R_lt_emax 53 1024 alpha).
      assert (E : Rabs (B2R alpha * B2R f64_half) <= bpow radix2 1023).
      { rewrite Vh, Rabs_mult, (Rabs_right (/ 2)) by lra. replace (bpow radix2 1023) with (bpow radix2 1024 * / 2); [lra|].
        change 1024%Z with (1023 + 1)%Z. rewrite bpow_plus. simpl (bpow radix2 1). lra. }
      destruct (f64_mult_correct alpha f64_half 1023) as [V K]; auto; [exps|].
      fold (f64_mul alpha f64_half) in V, K. rewrite Vh in V.
      set (h := f64_mul alpha f64_half) in *.
      assert (Hh : B2R h <= u64 / 2).
      { rewrite V. apply rnd64_le_fmt64; [|lra].
        replace (u64 / 2) with (bpow radix2 (-54)) by (rewrite U'; simpl; lra). apply fmt64_bpow. vm_compute. discriminate. }
      (* 1 - h may overflow only if it is huge *)
      assert (C := Bminus_correct 53 1024 prec64 emax64 mode_NE (f64_of_Z 1) h F1 K). rewrite V1 in C.
      destruct (Rlt_bool _ _) in C.
      * destruct C as [C1 [C2 _]]. apply scale_big; auto. unfold f64_sub. rewrite C1. simpl round_mode.
        change (1 <= rnd64 (1 - B2R h)).
        replace 1 with (rnd64 (1 - u64 / 2)) at 1.
        -- apply rnd64_le. lra.
        -- assert (T : 1 - u64 / 2 = IZR (2 ^ 54 - 1) * bpow radix2 (-54)) by (rewrite U'; simpl; lra).
           assert (W : B2R (binary_normalize 53 1024 prec64 emax64 mode_NE (2 ^ 54 - 1) (-54) false) = 1).
           { transitivity (B2R (f64_of_Z 1)); [|exact V1]. vm_compute. lra. }
           assert (Q := binary_normalize_correct 53 1024 prec64 emax64 mode_NE (2 ^ 54 - 1) (-54) false).
           cbv zeta in Q. replace (F2R _) with (1 - u64 / 2) in Q by (rewrite T; reflexivity).
           rewrite Rlt_bool_true in Q.
           ++ destruct Q as [Q _]. rewrite W in Q. symmetry. exact Q.
           ++ simpl round_mode. change (Rabs (rnd64 (1 - u64 / 2)) < bpow radix2 1024).
              assert (R01 := rnd64_01 (1 - u64 / 2) ltac:(lra)). rewrite Rabs_right by lra.
              apply Rle_lt_trans with 1; [lra|]. change 1 with (bpow radix2 0). apply bpow_lt. reflexivity.
      * left. apply scale_inf. unfold f64_sub. destruct C as [C _].
        destruct (Bminus mode_NE (f64_of_Z 1) h); try reflexivity; simpl in C; unfold binary_overflow in C;
          simpl in C; destruct (Bsign (f64_of_Z 1)); discriminate.
  - right. left. apply scale_inf. unfold f64_mul. destruct alpha; try discriminate; reflexivity.
Qed.

(** ** The interval *)

Section CI.
  Context (A : Arith) {C St : Type}.
  Notation Num := (num A).
  Context (srt : sort_fn) (statistic : C -> outcome Num) (sampler : St -> C -> C * St) (start : St) (original : C).

  Lemma diffs_spec obs n : forall k diffs, diffs_loop A statistic sampler original obs n k = Ok diffs ->
    exists samples, length samples = n /\ drawn sampler original k samples /\
      Forall2 (fun s d => exists v, statistic s = Ok v /\ d = a_sub A v obs) samples diffs.
  Proof.
    induction n as [|n IH]; intros k diffs; simpl.
    - intros E. injection E as <-. exists []. repeat constructor.
    - destruct (sampler k original) as [s k'] eqn:Es. destruct (statistic s) as [v| |] eqn:Ev; try discriminate. simpl.
      destruct (diffs_loop A statistic sampler original obs n k') as [rest| |] eqn:E; try discriminate. simpl.
      intros K. injection K as <-. destruct (IH _ _ E) as [ss [L [D F]]].
      exists (s :: ss). split; [simpl; lia|]. split; [econstructor; eauto|]. constructor; eauto.
  Qed.

  Lemma diffs_total obs n : (forall c, exists v, statistic c = Ok v) -> forall k,
    exists diffs, diffs_loop A statistic sampler original obs n k = Ok diffs.
  Proof.
    intros T. induction n as [|n IH]; intros k; simpl; eauto.
    destruct (sampler k original) as [s k']. destruct (T s) as [v ->]. simpl.
    destruct (IH k') as [d ->]. simpl. eauto.
  Qed.

  Lemma diffs_length obs n k diffs : diffs_loop A statistic sampler original obs n k = Ok diffs -> length diffs = n.
  Proof.
    intros E. destruct (diffs_spec obs n k diffs E) as [ss [L [_ F]]]. rewrite <- L. symmetry. apply (Forall2_length _ _ _ F).
  Qed.

  Lemma sort_ok {X} (lt : X -> X -> bool) l s : sort_contract srt -> std_sort srt lt l = Ok s ->
    Permutation l s /\ sorted_by lt s.
  Proof.
    intros SC. unfold std_sort. destruct (swo_onb lt l) eqn:E; [|discriminate].
    intros K. injection K as <-. apply SC. apply swo_onb_spec, E.
  Qed.

  Lemma ci_definition reps alpha obs lo up : sort_contract srt ->
    bootstrap_ci A srt statistic sampler start original reps alpha = Ok (obs, lo, up) ->
    statistic original = Ok obs /\
    exists samples diffs sorted li ui dl du,
      length samples = reps /\ drawn sampler original start samples /\
      Forall2 (fun s d => exists v, statistic s = Ok v /\ d = a_sub A v obs) samples diffs /\
      Permutation diffs sorted /\ sorted_by (a_lt A) sorted /\
      ci_li alpha (Z.of_nat reps) = Ok li /\ ci_ui alpha (Z.of_nat reps) = Ok ui /\
      nth_error sorted (Z.to_nat li) = Some dl /\ nth_error sorted (Z.to_nat ui) = Some du /\
      lo = a_sub A obs dl /\ up = a_sub A obs du.
  Proof.
    intros SC. unfold bootstrap_ci. destruct (statistic original) as [o| |]; try discriminate. cbn [obind].
    destruct (diffs_loop A statistic sampler original o reps start) as [diffs| |] eqn:Ed; try discriminate. cbn [obind].
    destruct (std_sort srt (a_lt A) diffs) as [s| |] eqn:Es; try discriminate. cbn [obind].
    destruct (ci_li alpha (Z.of_nat reps)) as [li| |]; try discriminate. cbn [obind].
    destruct (ci_ui alpha (Z.of_nat reps)) as [ui| |]; try discriminate. cbn [obind].
    unfold at_. destruct (nth_error s (Z.to_nat li)) as [dl|] eqn:E1; try discriminate. cbn [obind].
    destruct (nth_error s (Z.to_nat ui)) as [du|] eqn:E2; try discriminate. cbn [obind].
    intros K. injection K as <- <- <-. split; [reflexivity|].
    destruct (diffs_spec o reps start diffs Ed) as [ss [L [D F]]].
    destruct (sort_ok _ _ _ SC Es) as [P S].
    exists ss, diffs, s, li, ui, dl, du. repeat (split; [assumption || reflexivity|]). reflexivity.
  Qed.
End CI.

Lemma half_indices alpha reps : usable_level alpha -> (1 <= Z.of_nat reps <= 2 ^ 53)%Z ->
  exists li ui, ci_li alpha (Z.of_nat reps) = Ok (Z.of_nat li) /\ ci_ui alpha (Z.of_nat reps) = Ok (Z.of_nat ui) /\
    percentile_index (rest_level alpha) reps li /\ percentile_index (half_level alpha) reps ui /\
    (li < reps)%nat /\ (ui < reps)%nat.
Proof.
  intros H N. destruct (level_bounds alpha H) as [B1 B2]. destruct H as [F H]. assert (U := u64_pos).
  destruct (mul_half alpha F) as [Fh Vh]; [rewrite Rabs_right; lra|].
  assert (B1' := B1). rewrite <- Vh in B1'. unfold below1 in B1'.
  destruct (sub01 _ Fh) as [Fs Vs]; [lra|]. rewrite Vh in Vs.
  destruct (scale_ok _ _ _ Fs Vs B2 N) as [z1 [E1 [D1 P1]]].
  destruct (scale_ok _ _ _ Fh Vh B1 N) as [z2 [E2 [D2 P2]]].
  exists (Z.to_nat z1), (Z.to_nat z2). rewrite !Z2Nat.id by lia.
  split; [exact E1|]. split; [exact E2|].
  unfold percentile_index. rewrite !Z2Nat.id by lia. repeat split; auto; lia.
Qed.

Lemma f64_lt_swo (l : list f64) : (forall x, In x l -> is_finite x = true) -> swo_on f64_lt l.
Proof.
  intros H.
  assert (L : forall x y, In x l -> In y l -> (f64_lt x y = true <-> B2R x < B2R y)) by (intros; apply D_lt_v; auto).
  assert (N : forall x y, In x l -> In y l -> (f64_lt x y = false <-> B2R y <= B2R x)).
  { intros x y Hx Hy. specialize (L x y Hx Hy). destruct (f64_lt x y); split; intros K; try discriminate; auto.
    - apply proj1 in L. specialize (L eq_refl). lra.
    - apply Rnot_lt_le. intros Q. apply L in Q. discriminate. }
  constructor.
  - intros x K. apply N; auto. lra.
  - intros x y z Kx Ky Kz A B. apply L in A; auto. apply L in B; auto. apply L; auto. lra.
  - intros x y z Kx Ky Kz A B C D. apply N in A; auto. apply N in B; auto. apply N in C; auto. apply N in D; auto.
    split; apply N; auto; lra.
Qed.

Lemma moderate_sub v o : moderate v -> moderate o ->
  is_finite (f64_sub v o) = true /\ B2R (f64_sub v o) = rnd64 (B2R v - B2R o) /\
  Rabs (B2R (f64_sub v o)) <= bpow radix2 1001.
Proof.
  intros [Fv Bv] [Fo Bo].
  assert (E : bpow radix2 1001 = 2 * bpow radix2 1000) by (change 1001%Z with (1 + 1000)%Z; rewrite bpow_plus; reflexivity).
  assert (B : Rabs (B2R v - B2R o) <= bpow radix2 1001).
  { rewrite E. unfold Rabs in *. repeat destruct Rcase_abs in *; lra. }
  destruct (f64_minus_correct v o 1001) as [V F]; auto; [exps|].
  fold (f64_sub v o) in V, F. split; [exact F|]. split; [exact V|]. rewrite V.
  apply Rabs_le. apply Rabs_le_inv in B.
  assert (G : fmt64 (bpow radix2 1001)) by (apply fmt64_bpow; vm_compute; discriminate).
  split; [|apply rnd64_le_fmt64; [exact G|lra]].
  apply rnd64_ge; [apply fmt64_opp, G|lra].
Qed.

Lemma bound_sub o d : moderate o -> is_finite d = true -> Rabs (B2R d) <= bpow radix2 1001 ->
  is_finite (f64_sub o d) = true /\ B2R (f64_sub o d) = rnd64 (B2R o - B2R d).
Proof.
  intros [Fo Bo] Fd Bd.
  assert (E : bpow radix2 1001 = 2 * bpow radix2 1000) by (change 1001%Z with (1 + 1000)%Z; rewrite bpow_plus; reflexivity).
  assert (E' : bpow radix2 1002 = 4 * bpow radix2 1000) by (change 1002%Z with (2 + 1000)%Z; rewrite bpow_plus; reflexivity).
  assert (P := bpow_gt_0 radix2 1000).
  destruct (f64_minus_correct o d 1002) as [V F]; auto; [exps|].
  rewrite E'. unfold Rabs in *. repeat destruct Rcase_abs in *; lra.
Qed.

Section CID.
  Context {C St : Type} (srt : sort_fn) (statistic : C -> outcome f64) (sampler : St -> C -> C * St) (start : St) (original : C).
  Hypothesis SC : sort_contract srt.
  Hypothesis total : forall c, exists v, statistic c = Ok v /\ moderate v.

  Lemma diffs_finite obs n k diffs : moderate obs ->
    diffs_loop DArith statistic sampler original obs n k = Ok diffs ->
    forall d, In d diffs -> is_finite d = true /\ Rabs (B2R d) <= bpow radix2 1001.
  Proof.
    intros O E d K. destruct (diffs_spec DArith statistic sampler original obs n k diffs E) as [ss [_ [_ F]]].
    clear E. induction F as [|s e ss ds [v [V ->]] F IH]; [destruct K|].
    destruct K as [<-|K]; [|auto]. destruct (total s) as [v' [V' Hv]]. rewrite V in V'. injection V' as <-.
    destruct (moderate_sub v obs Hv O) as [A [_ B]]. split; assumption.
  Qed.

  Lemma ci_safe reps alpha : usable_level alpha -> (1 <= Z.of_nat reps <= 2 ^ 53)%Z ->
    exists r, bootstrap_ci DArith srt statistic sampler start original reps alpha = Ok r.
  Proof.
    intros U N. unfold bootstrap_ci. destruct (total original) as [o [-> O]]. cbn [obind].
    destruct (diffs_total DArith statistic sampler original o reps) with (k := start) as [ds E].
    { intros c. destruct (total c) as [v [V _]]. eauto. }
    rewrite E. cbn [obind].
    assert (Ff := diffs_finite o reps start ds O E).
    rewrite (std_sort_ok srt (a_lt DArith) ds) by (apply f64_lt_swo; intros x K; apply Ff, K). cbn [obind].
    destruct (half_indices alpha reps U N) as [li [ui [E1 [E2 [_ [_ [L1 L2]]]]]]].
    rewrite E1, E2. cbn [obind].
    destruct (SC _ (a_lt DArith) ds) as [P _]; [apply f64_lt_swo; intros x K; apply Ff, K|].
    assert (Ln := diffs_length _ _ _ _ _ _ _ _ E). rewrite (Permutation_length P) in Ln.
    unfold at_. rewrite !Nat2Z.id.
    destruct (nth_error (srt _ (a_lt DArith) ds) li) as [dl|] eqn:Q1;
      [|exfalso; apply nth_error_None in Q1; lia]. cbn [obind].
    destruct (nth_error (srt _ (a_lt DArith) ds) ui) as [du|] eqn:Q2;
      [|exfalso; apply nth_error_None in Q2; lia]. cbn [obind]. eauto.
  Qed.

  Lemma ci_unsafe reps alpha : (Z.of_nat reps <= 2 ^ 53)%Z -> (reps = 0%nat \/ ~ usable_level alpha) ->
    bootstrap_ci DArith srt statistic sampler start original reps alpha = UB.
  Proof.
    intros N H. unfold bootstrap_ci. destruct (total original) as [o [-> O]]. cbn [obind].
    destruct (diffs_total DArith statistic sampler original o reps) with (k := start) as [ds E].
    { intros c. destruct (total c) as [v [V _]]. eauto. }
    rewrite E. cbn [obind].
    assert (Ff := diffs_finite o reps start ds O E).
    rewrite (std_sort_ok srt (a_lt DArith) ds) by (apply f64_lt_swo; intros x K; apply Ff, K). cbn [obind].
    destruct (SC _ (a_lt DArith) ds) as [P _]; [apply f64_lt_swo; intros x K; apply Ff, K|].
    assert (Ln := diffs_length _ _ _ _ _ _ _ _ E). rewrite (Permutation_length P) in Ln.
    assert (T1 : forall e, ci_li alpha (Z.of_nat reps) <> Throw e).
    { intros e. unfold ci_li. destruct (size_cases (f64_mul (f64_sub (f64_of_Z 1) (f64_mul alpha f64_half)) (f64_of_Z (Z.of_nat reps)))) as [->|[_ [-> _]]]; discriminate. }
    assert (T2 : forall e, ci_ui alpha (Z.of_nat reps) <> Throw e).
    { intros e. unfold ci_ui. destruct (size_cases (f64_mul (f64_mul alpha f64_half) (f64_of_Z (Z.of_nat reps)))) as [->|[_ [-> _]]]; discriminate. }
    assert (B : bad_index (ci_li alpha (Z.of_nat reps)) (Z.of_nat reps) \/ bad_index (ci_ui alpha (Z.of_nat reps)) (Z.of_nat reps)).
    { destruct H as [->|H]; [|apply level_bad; [lia|exact H]].
      left. unfold bad_index, ci_li.
      destruct (size_cases (f64_mul (f64_sub (f64_of_Z 1) (f64_mul alpha f64_half)) (f64_of_Z (Z.of_nat 0)))) as [->|[_ [-> K]]]; eauto. }
    unfold at_.
    destruct (ci_li alpha (Z.of_nat reps)) as [li| |e] eqn:E1; [|reflexivity|destruct (T1 e eq_refl)]. cbn [obind].
    destruct (ci_ui alpha (Z.of_nat reps)) as [ui| |e] eqn:E2; [|reflexivity|destruct (T2 e eq_refl)]. cbn [obind].
    destruct (nth_error (srt _ (a_lt DArith) ds) (Z.to_nat li)) eqn:Q1; [|reflexivity]. cbn [obind].
    destruct (nth_error (srt _ (a_lt DArith) ds) (Z.to_nat ui)) eqn:Q2; [|reflexivity]. exfalso.
    assert (L1 : (Z.to_nat li < reps)%nat) by (rewrite <- Ln; apply nth_error_Some; congruence).
    assert (L2 : (Z.to_nat ui < reps)%nat) by (rewrite <- Ln; apply nth_error_Some; congruence).
    destruct B as [[B|[z [B K]]]|[B|[z [B K]]]]; try discriminate; injection B as <-; lia.
  Qed.

  Lemma ci_order reps alpha obs lo up : (Z.of_nat reps <= 2 ^ 53)%Z -> B2R alpha <= 1 ->
    bootstrap_ci DArith srt statistic sampler start original reps alpha = Ok (obs, lo, up) ->
    is_finite lo = true /\ is_finite up = true /\ B2R lo <= B2R up.
  Proof.
    intros N A1 E.
    assert (U : usable_level alpha /\ (1 <= Z.of_nat reps)%Z).
    { assert (Q : ~ (reps = 0%nat \/ ~ usable_level alpha)).
      { intros K. rewrite (ci_unsafe reps alpha N K) in E. discriminate. }
      assert (D : usable_level alpha \/ ~ usable_level alpha).
      { unfold usable_level. destruct (is_finite alpha); [|right; intros [K _]; discriminate].
        destruct (Rlt_dec u64 (B2R alpha)); [|right; intros [_ K]; lra].
        destruct (Rlt_dec (B2R alpha) 2); [left; auto|right; intros [_ K]; lra]. }
      destruct D as [D|D]; [|tauto]. split; [exact D|]. destruct reps; [tauto|lia]. }
    destruct U as [U R1].
    destruct (ci_definition DArith srt statistic sampler start original reps alpha obs lo up SC E)
      as [Eo [ss [ds [st [li [ui [dl [du [L [D [F [P [S [E1 [E2 [Q1 [Q2 [-> ->]]]]]]]]]]]]]]]]]].
    destruct (total original) as [o [Eo' O]]. rewrite Eo in Eo'. injection Eo' as <-.
    assert (Ff : forall d, In d st -> is_finite d = true /\ Rabs (B2R d) <= bpow radix2 1001).
    { intros d K. apply (Permutation_in d (Permutation_sym P)) in K. clear - total F K O.
      induction F as [|s e ss ds [v [V ->]] F IH]; [destruct K|].
      destruct K as [<-|K]; [|auto]. destruct (total s) as [v' [V' Hv]]. rewrite V in V'. injection V' as <-.
      destruct (moderate_sub v obs Hv O) as [A [_ B]]. split; assumption. }
    destruct (Ff dl (nth_error_In _ _ Q1)) as [F1 B1]. destruct (Ff du (nth_error_In _ _ Q2)) as [F2 B2].
    destruct (bound_sub obs dl O F1 B1) as [G1 V1]. destruct (bound_sub obs du O F2 B2) as [G2 V2].
    split; [exact G1|]. split; [exact G2|]. ar. rewrite V1, V2. apply rnd64_le.
    enough (B2R du <= B2R dl) by lra.
    destruct (half_indices alpha reps U) as [li' [ui' [X1 [X2 [Y1 [Y2 _]]]]]]; [lia|].
    rewrite E1 in X1. injection X1 as ->. rewrite E2 in X2. injection X2 as ->.
    rewrite Nat2Z.id in Q1, Q2.
    assert (O2 : (ui' <= li')%nat).
    { apply Nat2Z.inj_le. rewrite Y1, Y2. apply Ztrunc_le, rnd64_le.
      apply Rmult_le_compat_r; [apply IZR_le; lia|].
      assert (Hh : half_level alpha <= 1 / 2).
      { unfold half_level. rewrite nearest_rnd. apply rnd64_le_fmt64; [|lra].
        replace (1 / 2) with (bpow radix2 (-1)) by (simpl; lra). apply fmt64_bpow. vm_compute. discriminate. }
      unfold rest_level. rewrite nearest_rnd. apply rnd64_ge; [|lra].
      unfold half_level. apply rnd64_fmt64. }
    destruct (Nat.eq_dec ui' li') as [->|Ne]; [rewrite Q1 in Q2; injection Q2 as ->; lra|].
    assert (Hs : f64_lt dl du = false).
    { clear - S Q1 Q2 O2 Ne. unfold sorted_by in S. assert (Lt : (ui' < li')%nat) by lia. clear O2 Ne.
      revert ui' li' Lt Q1 Q2. induction S as [|x l S IH A]; intros ui li Lt Q1 Q2; [destruct ui; discriminate|].
      destruct li as [|li]; [lia|]. destruct ui as [|ui]; simpl in Q1, Q2.
      - injection Q2 as ->. rewrite Forall_forall in A. apply A. eapply nth_error_In, Q1.
      - apply (IH ui li); auto. lia. }
    apply Rnot_lt_le. intros K. apply (D_lt_v dl du F1 F2) in K. change (a_lt DArith dl du) with (f64_lt dl du) in K. congruence.
  Qed.
End CID.

(** ** The point estimate *)

Lemma sublist_in {A} (a b : list A) x : sublist a b -> In x a -> In x b.
Proof. intros H. induction H; simpl; intuition. Qed.

Lemma sublist_sorted {A} (P : A -> A -> Prop) a b : sublist a b -> StronglySorted P b -> StronglySorted P a.
Proof.
  intros H. induction H as [|x a b H IH|x a b H IH]; intros S; [constructor| |]; inversion S; subst.
  - constructor; [auto|]. rewrite Forall_forall in *. intros y K. eauto using sublist_in.
  - auto.
Qed.

Section Point.
  Context {RE HE : Type} (score : HE -> f32) (srt : sort_fn) (A : Arith) (T : Trans A).
  Notation M := (match_t RE HE).
  Hypothesis SC : sort_contract srt.

  Lemma sorted_same (l : list M) : ranked score l -> descending score l -> (forall m, In m l -> zero_one (m_err m)) ->
    forall l', Permutation l l' -> exists s, maybe_sort score srt true l' = Ok s /\
      (forall i t, global_ap A score s true i t = global_ap A score l true i t) /\
      global_ndcg A T score s true = global_ndcg A T score l true.
  Proof.
    intros R D Z l' P.
    destruct (Curves.sort_matches_spec score srt l' SC) as [s [E [P' [D' _]]]].
    { intros m K. apply R. eapply Permutation_in; [apply Permutation_sym, P|exact K]. }
    exists s. split; [exact E|].
    destruct (Collapse.metrics_ties RE HE score A T l s R D D' Z (Permutation_trans P P')) as [G N].
    split; [intros i t; symmetry; apply G|symmetry; exact N].
  Qed.

  Lemma global_same (l : list M) groups : ranked score l -> descending score l ->
    (forall m, In m l -> zero_one (m_err m)) -> Permutation l (concat groups) ->
    (forall i t, global_ap_groups A score srt groups true i t true = global_ap A score l true i t) /\
    global_ndcg_groups A T score srt groups true true = Ok (global_ndcg A T score l true).
  Proof.
    intros R D Z P. destruct (sorted_same l R D Z _ P) as [s [E [G N]]].
    unfold global_ap_groups, global_ndcg_groups. rewrite E. cbn [obind]. split; [exact G|]. rewrite N. reflexivity.
  Qed.

  Lemma ofold_ext {X S} (f g : S -> X -> outcome S) l : (forall s x, In x l -> f s x = g s x) ->
    forall s, ofold f l s = ofold g l s.
  Proof.
    induction l as [|x l IH]; intros H s; [reflexivity|]. simpl. rewrite H by (simpl; auto).
    destruct (g s x) as [s'| |]; try reflexivity. simpl. apply IH. intros; apply H; simpl; auto.
  Qed.

  Lemma mean_same (groups : list (list M)) :
    (forall g, In g groups -> ranked score g /\ descending score g /\ forall m, In m g -> zero_one (m_err m)) ->
    (forall i t, mean_ap A score srt groups true i t true = mean_ap A score srt groups true i t false) /\
    mean_ndcg A T score srt groups true true = mean_ndcg A T score srt groups true false.
  Proof.
    intros H. split.
    - intros i t. unfold mean_ap. erewrite ofold_ext; [reflexivity|]. intros s g K. cbv beta.
      destruct (H g K) as [R [D Z]]. destruct (sorted_same g R D Z g (Permutation_refl _)) as [g' [E [G _]]].
      rewrite E. cbn [obind maybe_sort]. rewrite G. reflexivity.
    - unfold mean_ndcg. erewrite ofold_ext; [reflexivity|]. intros s g K. cbv beta.
      destruct (H g K) as [R [D Z]]. destruct (sorted_same g R D Z g (Permutation_refl _)) as [g' [E [_ N]]].
      rewrite E. cbn [obind maybe_sort]. rewrite N. reflexivity.
  Qed.

  Context {Q : Type} (cq : Cmp Q) (rq : RE -> Q) (hq : HE -> Q).

  Lemma point_same q2g (ms : list M) groups : total_order cq -> NoDup (map fst q2g) ->
    ranked score ms -> descending score ms -> (forall m, In m ms -> zero_one (m_err m)) ->
    group_matches cq rq hq ms q2g = Ok groups ->
    (forall i t, global_ap_groups A score srt groups true i t true = global_ap A score ms true i t) /\
    global_ndcg_groups A T score srt groups true true = Ok (global_ndcg A T score ms true) /\
    (forall i t, mean_ap A score srt groups true i t true = mean_ap A score srt groups true i t false) /\
    mean_ndcg A T score srt groups true true = mean_ndcg A T score srt groups true false.
  Proof.
    intros Tq Nd R D Z E.
    assert (H : forall m, In m ms -> exists q, has_query rq hq m q).
    { intros m K. destruct (m_ref m) as [r|] eqn:Er.
      - exists (rq r). unfold has_query. rewrite Er. reflexivity.
      - destruct (m_hyp m) as [h|] eqn:Eh.
        + exists (hq h). unfold has_query. rewrite Er, Eh. reflexivity.
        + exfalso. rewrite (Grouping.groups_ub cq rq hq q2g ms m K Er Eh) in E. discriminate. }
    destruct (Grouping.groups_partition cq Tq rq hq q2g Nd ms H) as [gs [E' [P [Sb _]]]].
    rewrite E in E'. injection E' as <-.
    destruct (global_same ms groups R D Z P) as [G1 G2]. split; [exact G1|]. split; [exact G2|].
    apply mean_same. intros g K. destruct (Sb g K) as [_ S]. split; [|split].
    - intros m Km. apply R. eapply sublist_in; eauto.
    - eapply sublist_sorted; eauto.
    - intros m Km. apply Z. eapply sublist_in; eauto.
  Qed.
End Point.

(** Scores 0 and 1; a match holds its query and whether its score is 1. *)
Definition bit_score (h : Z * bool) : f32 := if snd h then f32_1 else f32_0.
Definition hit_of (q : Z) (b : bool) : match_t Z (Z * bool) := match_pair q (q, b) me_default.
Definition fp_of (q : Z) (b : bool) : match_t Z (Z * bool) := make_fp (q, b).

Lemma bits_ranked l : ranked bit_score (l : list (match_t Z (Z * bool))).
Proof. intros m _. unfold rank. destruct (m_hyp m) as [[q []]|]; reflexivity. Qed.

Lemma hit_zero_one q b : zero_one (m_err (hit_of q b)).
Proof. split; left; reflexivity. Qed.

Lemma fp_zero_one q b : zero_one (m_err (fp_of q b)).
Proof. split; [right|left]; reflexivity. Qed.

(** With increasing scores the point estimate changes. *)
Definition rising : list (match_t Z (Z * bool)) := [fp_of 1 false; hit_of 1 true].

Lemma rising_sorted srt : sort_contract srt ->
  exists s, maybe_sort bit_score srt true rising = Ok s /\
    global_ap RArith bit_score s true true true = Ok 1 /\ concat [rising] = rising.
Proof.
  intros SC. set (l := [hit_of 1 true; fp_of 1 false]).
  destruct (sorted_same bit_score srt RArith RTrans SC l) with (l' := rising) as [s [E [G _]]].
  - apply bits_ranked.
  - repeat constructor.
  - intros m [<-|[<-|[]]]; [apply hit_zero_one|apply fp_zero_one].
  - apply perm_swap.
  - exists s. split; [exact E|]. split; [|reflexivity]. rewrite G, Rational.global_ap_Q.
    replace (global_ap QArith_ bit_score l true true true) with (Ok (QArith_base.Qmake 1 1)) by (vm_compute; reflexivity).
    simpl. f_equal. unfold Q2R. simpl. lra.
Qed.

Lemma rising_plain : global_ap RArith bit_score rising true true true = Ok (/ 2).
Proof.
  rewrite Rational.global_ap_Q.
  replace (global_ap QArith_ bit_score rising true true true) with (Ok (QArith_base.Qmake 1 2)) by (vm_compute; reflexivity).
  simpl. f_equal. unfold Q2R. simpl. lra.
Qed.

Lemma point_ascending_refuted : exists (score : Z * bool -> f32) (ms : list (match_t Z (Z * bool))) groups,
  ranked score ms /\ descending score (rev ms) /\ (forall m, In m ms -> zero_one (m_err m)) /\
  group_matches cmp_Z (fun r => r) fst ms [] = Ok groups /\
  global_ap RArith score ms true true true = Ok (/ 2) /\
  forall srt, sort_contract srt ->
    global_ap_groups RArith score srt groups true true true true = Ok 1 /\
    mean_ap RArith score srt groups true true true false = Ok (/ 2) /\
    mean_ap RArith score srt groups true true true true = Ok 1.
Proof.
  exists bit_score, rising, [rising]. split; [apply bits_ranked|]. split; [repeat constructor|]. split.
  { intros m [<-|[<-|[]]]; auto using hit_zero_one, fp_zero_one. }
  split; [reflexivity|]. split; [apply rising_plain|].
  intros srt SC. destruct (rising_sorted srt SC) as [s [E [G C]]]. split; [|split].
  - unfold global_ap_groups. rewrite C, E. exact G.
  - unfold mean_ap. cbn [ofold maybe_sort obind]. rewrite rising_plain. cbn [obind].
    unfold mean_of, a0. simpl. f_equal. field.
  - unfold mean_ap. cbn [ofold]. rewrite E. cbn [obind]. rewrite G. cbn [obind].
    unfold mean_of, a0. simpl. f_equal. field.
Qed.

(** Without collapsing, too. *)
Definition level : list (match_t Z (Z * bool)) := [hit_of 1 true; hit_of 2 true; fp_of 1 true].

Definition rsort : sort_fn := fun A lt l => isort A lt (rev l).

Lemma rsort_contract : sort_contract rsort.
Proof.
  intros A lt l H. assert (W : swo_on lt (rev l)).
  { destruct H as [H1 H2 H3]. constructor.
    - intros x K. apply H1, in_rev, K.
    - intros x y z Kx Ky Kz. apply H2; apply in_rev; assumption.
    - intros x y z Kx Ky Kz. apply H3; apply in_rev; assumption. }
  destruct (isort_contract A lt (rev l) W) as [P S]. split; [|exact S].
  eapply Permutation_trans; [apply Permutation_rev|exact P].
Qed.

Definition two_tied : list (match_t Z (Z * bool)) := [hit_of 1 true; fp_of 1 true].

Lemma point_no_collapse_refuted :
  (exists (score : Z * bool -> f32) (ms : list (match_t Z (Z * bool))) groups,
    ranked score ms /\ descending score ms /\ (forall m, In m ms -> zero_one (m_err m)) /\
    group_matches cmp_Z (fun r => r) fst ms [] = Ok groups /\
    global_ap RArith score ms false true true = Ok 1 /\
    global_ap_groups RArith score (@isort) groups false true true true = Ok (5 / 6)) /\
  (exists (score : Z * bool -> f32) (ms : list (match_t Z (Z * bool))) srt groups,
    sort_contract srt /\ ranked score ms /\ descending score ms /\ (forall m, In m ms -> zero_one (m_err m)) /\
    group_matches cmp_Z (fun r => r) fst ms [] = Ok groups /\
    mean_ap RArith score srt groups false true true false = Ok 1 /\
    mean_ap RArith score srt groups false true true true = Ok (/ 2)).
Proof.
  split.
  - exists bit_score, level, [[hit_of 1 true; fp_of 1 true]; [hit_of 2 true]].
    split; [apply bits_ranked|]. split; [repeat constructor|]. split.
    { intros m [<-|[<-|[<-|[]]]]; auto using hit_zero_one, fp_zero_one. }
    split; [reflexivity|]. split.
    + rewrite Rational.global_ap_Q.
      replace (global_ap QArith_ bit_score level false true true) with (Ok (QArith_base.Qmake 1 1)) by (vm_compute; reflexivity).
      simpl. f_equal. unfold Q2R. simpl. lra.
    + rewrite Rational.global_ap_groups_Q.
      match goal with |- Rational.lift ?x = _ => replace x with (Ok (QArith_base.Qmake 5 6)) by (vm_compute; reflexivity) end.
      unfold Rational.lift. f_equal.
  - exists bit_score, two_tied, rsort, [two_tied]. split; [apply rsort_contract|]. split; [apply bits_ranked|].
    split; [repeat constructor|]. split.
    { intros m [<-|[<-|[]]]; auto using hit_zero_one, fp_zero_one. }
    split; [reflexivity|].
    split; rewrite Rational.mean_ap_Q;
      [match goal with |- Rational.lift ?x = _ => replace x with (Ok (QArith_base.Qmake 1 1)) by (vm_compute; reflexivity) end
      |match goal with |- Rational.lift ?x = _ => replace x with (Ok (QArith_base.Qmake 1 2)) by (vm_compute; reflexivity) end];
      simpl; f_equal; unfold Q2R; simpl; lra.
Qed.
