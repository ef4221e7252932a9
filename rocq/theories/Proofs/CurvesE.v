(** The error of sampled curves in binary64. *)
From Coq Require Import List Bool ZArith Arith Reals Lra Lia Sorted.
From Flocq Require Import Core BinarySingleNaN.
From Verif.Model Require Import Cpp Floats Events EventSets Matches Matcher Scorers Assessment Tool.
From Verif.Spec Require Import Order Objects Matching Grouping Collapse Metrics Curves Double Results Tool Rounded.
From Verif.Proofs Require Import FloatFacts Collapse Metrics Double CurvesD.
From Verif.Proofs Require Curves MeanCurve Tool Finish Grouping Runs Printed.
Import ListNotations.
Local Open Scope R_scope.

(** ** Fractions *)

Definition frac (q : nat) (r : R) : Prop := exists k, r = IZR k / INR q.

Definition denom (TR : nat) : nat := Nat.max 1 TR.

Lemma recall_frac TR nr N : frac (denom TR) (recall_of RArith TR nr (IZR N)).
Proof.
  unfold recall_of, denom. destruct (Nat.ltb_spec 0 TR) as [K|K].
  - replace (Nat.max 1 TR) with TR by lia. exists (Z.of_nat nr - N)%Z. ar. rewrite minus_IZR, <- INR_IZR_INZ. reflexivity.
  - replace (Nat.max 1 TR) with 1%nat by lia. exists 1%Z. ar. simpl. lra.
Qed.

Lemma pr_loop_frac TR errors : (forall c, In c errors -> whole c) -> forall nr nh P N,
  Forall (fun p => frac (denom TR) (snd p)) (pr_loop RArith TR nr nh (IZR P) (IZR N) errors).
Proof.
  induction errors as [|c t IH]; intros W nr nh P N; simpl; [constructor|].
  destruct (W c (or_introl eq_refl)) as [p [n [_ [V1 [_ [V2 _]]]]]]. rewrite V1, V2, <- !plus_IZR.
  constructor; [apply recall_frac|]. apply IH. intros; apply W; simpl; auto.
Qed.

Lemma matches_frac RE HE (score : HE -> f32) (l : list (match_t RE HE)) c i pr rc :
  (forall m, In m l -> zero_one (m_err m)) -> precision_recall_matches RArith score l c i = (pr, rc) ->
  Forall (frac (denom (refs l))) rc.
Proof.
  intros H E. unfold precision_recall_matches, precision_recall in E. injection E as _ <-.
  rewrite total_refs, (proj2 (points_totals score c l)).
  assert (F := pr_loop_frac (refs l) (points score c l) (points_whole score c l H) 0 0 0 0).
  change (a0 RArith) with (IZR 0). induction F; simpl; constructor; auto.
Qed.

Lemma frac_gap q r s : (0 < q)%nat -> frac q r -> frac q s -> r < s -> / INR q <= s - r.
Proof.
  intros Q [a ->] [b ->] L. assert (P : 0 < INR q) by (apply lt_0_INR, Q). unfold Rdiv in *.
  assert (K : IZR a < IZR b) by (apply (Rmult_lt_reg_r (/ INR q)); [apply Rinv_0_lt_compat, P|exact L]).
  apply lt_IZR in K. assert (K' : IZR (a + 1) <= IZR b) by (apply IZR_le; lia). rewrite plus_IZR in K'.
  assert (I := Rinv_0_lt_compat _ P). nra.
Qed.

Lemma separate q m r x : (0 < q)%nat -> (0 < m)%nat -> (Z.of_nat q * Z.of_nat m <= 2 ^ 49)%Z ->
  frac q r -> frac m x -> 0 <= r <= 1 -> 0 <= x <= 1 -> (rnd64 r < rnd64 x <-> r < x).
Proof.
  intros Q M B [a Ea] [b Eb] Hr Hx. split.
  - intros L. destruct (Rlt_dec r x) as [K|K]; [exact K|]. assert (G := rnd64_le x r ltac:(lra)). lra.
  - intros L. assert (P : 0 < INR q) by (apply lt_0_INR, Q). assert (P' : 0 < INR m) by (apply lt_0_INR, M).
    assert (G : / INR (q * m) <= x - r).
    { apply frac_gap; [nia| | |exact L].
      - exists (a * Z.of_nat m)%Z. rewrite Ea, mult_IZR, mult_INR, <- INR_IZR_INZ. field. lra.
      - exists (b * Z.of_nat q)%Z. rewrite Eb, mult_IZR, mult_INR, <- INR_IZR_INZ. field. lra. }
    assert (D : / IZR (2 ^ 49) <= / INR (q * m)).
    { apply Rinv_le; [apply lt_0_INR; nia|]. rewrite INR_IZR_INZ. apply IZR_le. lia. }
    assert (E1 := rnd64_err1 r ltac:(rewrite Rabs_right; lra)). assert (E2 := rnd64_err1 x ltac:(rewrite Rabs_right; lra)).
    apply Rabs_le_inv in E1, E2. rewrite u64_val in *.
    assert (U : / IZR (2 ^ 49) = 16 * / IZR (2 ^ 53)) by (simpl; lra).
    assert (U0 : 0 < / IZR (2 ^ 53)) by (simpl; lra). lra.
Qed.

(** ** Linear interpolation *)

Lemma err_prod T t y p a b : 0 <= y <= 1 -> 0 <= t <= 1 -> Rabs (T - t) <= a -> Rabs (y - p) <= b ->
  Rabs (T * y - t * p) <= a + t * b.
Proof.
  intros Hy Ht A B. replace (T * y - t * p) with ((T - t) * y + t * (y - p)) by ring.
  eapply Rle_trans; [apply Rabs_triang|]. rewrite !Rabs_mult, (Rabs_right y), (Rabs_right t) by lra.
  assert (N := Rabs_pos (T - t)). assert (N' := Rabs_pos (y - p)). nra.
Qed.

Lemma mul01 a b : 0 <= a <= 1 -> 0 <= b <= 1 -> 0 <= a * b <= 1.
Proof. intros A B. split; [apply Rmult_le_pos; lra|nra]. Qed.

Lemma convex01 t a b : 0 <= t <= 1 -> 0 <= a <= 1 -> 0 <= b <= 1 -> 0 <= t * a + (1 - t) * b <= 1.
Proof. intros T A B. split; nra. Qed.

Lemma lerp_err q xj xp x yp yj rj rp x' pp pj : (0 < q)%nat -> 10 * INR q * u64 <= 1 ->
  rec_ok xj rj -> rec_ok xp rp -> rec_ok x x' -> rp < x' <= rj -> B2R xp < B2R x -> / INR q <= rj - rp ->
  prec_ok yp pp -> prec_ok yj pj ->
  let t := f64_div (f64_sub xj x) (f64_add (f64_sub xj x) (f64_sub x xp)) in
  let t' := (rj - x') / (rj - x' + (x' - rp)) in
  near01 (32 * INR q * u64) (f64_add (f64_mul t yp) (f64_mul (f64_sub (f64_of_Z 1) t) yj)) (t' * pp + (1 - t') * pj).
Proof.
  intros Q Bq Oj Op Ox L L1 Gap (Fyp & Hyp & Eyp & Hpp) (Fyj & Hyj & Eyj & Hpj).
  assert (U := u64_pos). assert (Pq : 1 <= INR q) by (change 1 with (INR 1); apply le_INR; lia).
  destruct Oj as [Fj [Vj Hj]]. destruct Op as [Fp [Vp Hp]]. destruct Ox as [Fx [Vx Hx]].
  assert (Uj : unit_f64 xj) by (split; [exact Fj|rewrite Vj; apply rnd64_01, Hj]).
  assert (Up : unit_f64 xp) by (split; [exact Fp|rewrite Vp; apply rnd64_01, Hp]).
  assert (Ux : unit_f64 x) by (split; [exact Fx|rewrite Vx; apply rnd64_01, Hx]).
  assert (L2 : B2R x <= B2R xj) by (rewrite Vx, Vj; apply rnd64_le; lra).
  intros t t'.
  assert (UR := unit_lerp xj xp x yp yj Uj Up Ux (conj L1 L2) (conj Fyp Hyp) (conj Fyj Hyj)). cbv zeta in UR. fold t in UR.
  assert (Ej := rnd64_err1 rj ltac:(rewrite Rabs_right; lra)). rewrite <- Vj in Ej. apply Rabs_le_inv in Ej.
  assert (Ep := rnd64_err1 rp ltac:(rewrite Rabs_right; lra)). rewrite <- Vp in Ep. apply Rabs_le_inv in Ep.
  assert (Ex := rnd64_err1 x' ltac:(rewrite Rabs_right; lra)). rewrite <- Vx in Ex. apply Rabs_le_inv in Ex.
  destruct Uj as [_ Bj]. destruct Up as [_ Bp]. destruct Ux as [_ Bx]. clear Vj Vp Vx.
  destruct (f64_minus_correct xj x 0) as [V0 F0]; auto; [exps|simpl; rewrite Rabs_right; lra|].
  fold (f64_sub xj x) in V0, F0.
  destruct (f64_minus_correct x xp 0) as [V1 F1]; auto; [exps|simpl; rewrite Rabs_right; lra|].
  fold (f64_sub x xp) in V1, F1.
  assert (W0 : 0 <= B2R (f64_sub xj x) <= 1) by (rewrite V0; apply rnd64_01; lra).
  assert (W1 : 0 <= B2R (f64_sub x xp) <= 1) by (rewrite V1; apply rnd64_01; lra).
  assert (E0 := rnd64_err1 (B2R xj - B2R x) ltac:(rewrite Rabs_right; lra)). rewrite <- V0 in E0. apply Rabs_le_inv in E0.
  assert (E1 := rnd64_err1 (B2R x - B2R xp) ltac:(rewrite Rabs_right; lra)). rewrite <- V1 in E1. apply Rabs_le_inv in E1.
  set (w0 := f64_sub xj x) in *. set (w1 := f64_sub x xp) in *. clearbody w0 w1.
  destruct (f64_plus_correct w0 w1 1) as [Vs Fs]; auto; [exps|simpl; rewrite Rabs_right; lra|].
  fold (f64_add w0 w1) in Vs, Fs.
  assert (Es := rnd64_err_le (B2R w0 + B2R w1) 2 ltac:(lra) ltac:(rewrite Rabs_right; lra)). rewrite <- Vs in Es. apply Rabs_le_inv in Es.
  assert (G0 : B2R w0 <= B2R (f64_add w0 w1)).
  { rewrite Vs, <- (rnd64_id _ (B2R_fmt64 w0)) at 1. apply rnd64_le. lra. }
  set (s := f64_add w0 w1) in *. clearbody s.
  assert (Hs : / (2 * INR q) <= B2R s).
  { assert (I : / (2 * INR q) = / INR q / 2) by (field; lra). rewrite I.
    assert (5 * u64 <= / INR q / 2); [|lra].
    apply (Rmult_le_reg_r (INR q)); [lra|]. replace (/ INR q / 2 * INR q) with (1 / 2) by (field; lra). lra. }
  assert (Ps : 0 < B2R s) by (eapply Rlt_le_trans; [|exact Hs]; apply Rinv_0_lt_compat; lra).
  destruct (div01 w0 s) as [Ft Vt]; auto; [lra|]. fold t in Ft, Vt. clearbody t.
  assert (Ht0 := ratio01 (B2R w0) (B2R s) ltac:(lra) Ps). unfold in01 in Ht0.
  assert (Ht : 0 <= B2R t <= 1) by (rewrite Vt; apply rnd64_01, Ht0).
  assert (Ht' : 0 <= t' <= 1) by (unfold t'; apply ratio01; lra).
  assert (Dt : t' * (rj - rp) = rj - x') by (unfold t'; field; lra). clearbody t'.
  assert (D : Rabs (B2R w0 / B2R s - t') <= 13 * INR q * u64).
  { assert (K : Rabs ((B2R w0 / B2R s - t') * B2R s) <= 13 / 2 * u64).
    { replace ((B2R w0 / B2R s - t') * B2R s) with (B2R w0 - (rj - x') + t' * (rj - rp - B2R s)) by (rewrite <- Dt; field; lra).
      eapply Rle_trans; [apply Rabs_triang|]. rewrite Rabs_mult, (Rabs_right t') by lra.
      assert (X1 : Rabs (B2R w0 - (rj - x')) <= 3 / 2 * u64) by (apply Rabs_le; lra).
      assert (X2 : Rabs (rj - rp - B2R s) <= 5 * u64) by (apply Rabs_le; lra).
      assert (X3 : t' * Rabs (rj - rp - B2R s) <= 1 * (5 * u64)) by (apply Rmult_le_compat; try lra; apply Rabs_pos).
      lra. }
    rewrite Rabs_mult, (Rabs_right (B2R s)) in K by lra. assert (N := Rabs_pos (B2R w0 / B2R s - t')).
    set (d := Rabs (B2R w0 / B2R s - t')) in *. clearbody d.
    assert (K2 : d * / (2 * INR q) <= 13 / 2 * u64) by (eapply Rle_trans; [apply Rmult_le_compat_l; [exact N|exact Hs]|exact K]).
    assert (K3 : d * / (2 * INR q) * (2 * INR q) <= 13 / 2 * u64 * (2 * INR q)) by (apply Rmult_le_compat_r; lra).
    rewrite Rmult_assoc, Rinv_l in K3 by lra. lra. }
  assert (Et := rnd64_err1 (B2R w0 / B2R s) ltac:(rewrite Rabs_right; lra)). rewrite <- Vt in Et.
  assert (Dt1 : Rabs (B2R t - t') <= 13 * INR q * u64 + u64 / 2).
  { apply Rabs_le_inv in D, Et. apply Rabs_le. lra. }
  destruct (sub01 t Ft Ht) as [Fu Vu].
  assert (Hu : 0 <= B2R (f64_sub (f64_of_Z 1) t) <= 1) by (rewrite Vu; apply rnd64_01; lra).
  assert (Eu := rnd64_err1 (1 - B2R t) ltac:(rewrite Rabs_right; lra)). rewrite <- Vu in Eu.
  set (w := f64_sub (f64_of_Z 1) t) in *. clearbody w.
  assert (Dw : Rabs (B2R w - (1 - t')) <= 13 * INR q * u64 + u64).
  { apply Rabs_le_inv in Dt1, Eu. apply Rabs_le. lra. }
  assert (A1 := err_prod _ _ _ _ _ _ Hyp Ht' Dt1 Eyp). assert (A2 := err_prod _ (1 - t') _ _ _ _ Hyj ltac:(lra) Dw Eyj).
  assert (M1 := mul01 _ _ Ht Hyp). assert (M2 := mul01 _ _ Hu Hyj).
  destruct (f64_mult_correct t yp 0) as [Va Fa]; auto; [exps|simpl; rewrite Rabs_right; lra|].
  fold (f64_mul t yp) in Va, Fa.
  destruct (f64_mult_correct w yj 0) as [Vb Fb]; auto; [exps|simpl; rewrite Rabs_right; lra|].
  fold (f64_mul w yj) in Vb, Fb.
  assert (Ea := rnd64_err1 (B2R t * B2R yp) ltac:(rewrite Rabs_right; lra)).
  assert (Eb := rnd64_err1 (B2R w * B2R yj) ltac:(rewrite Rabs_right; lra)).
  assert (Ha : 0 <= rnd64 (B2R t * B2R yp) <= 1) by (apply rnd64_01; lra).
  assert (Hb : 0 <= rnd64 (B2R w * B2R yj) <= 1) by (apply rnd64_01; lra).
  rewrite <- Va in Ea, Ha. rewrite <- Vb in Eb, Hb.
  destruct (f64_plus_correct (f64_mul t yp) (f64_mul w yj) 1) as [Vr Fr]; auto; [exps|simpl; rewrite Rabs_right; lra|].
  fold (f64_add (f64_mul t yp) (f64_mul w yj)) in Vr, Fr.
  assert (Er := rnd64_err_le (B2R (f64_mul t yp) + B2R (f64_mul w yj)) 2 ltac:(lra) ltac:(rewrite Rabs_right; lra)).
  rewrite <- Vr in Er. destruct UR as [_ UR].
  split; [exact Fr|]. split; [exact UR|]. split; [|exact (convex01 _ _ _ Ht' Hpp Hpj)].
  apply Rabs_le_inv in A1, A2, Ea, Eb, Er. apply Rabs_le.
  assert (QU : 1 * u64 <= INR q * u64) by (apply Rmult_le_compat_r; lra). assert (TU : t' * u64 + (1 - t') * u64 = u64) by ring. lra.
Qed.

(** ** Sampling *)

Definition recs (q : nat) (d : f64) (r : R) : Prop := rec_ok d r /\ frac q r.

Section Sampling.
  Variables (q m : nat).
  Hypothesis (Q : (0 < q)%nat) (M : (0 < m)%nat) (QM : (Z.of_nat q * Z.of_nat m <= 2 ^ 49)%Z).

  Lemma lt_same a a' x x' : recs q a a' -> recs m x x' -> (v a < v x <-> a' < x').
  Proof.
    intros [(_ & Va & Ha) Fa] [(_ & Vx & Hx) Fx]. unfold v. rewrite Va, Vx.
    exact (separate q m a' x' Q M QM Fa Fx Ha Hx).
  Qed.

  Lemma count_same x x' l l' : recs m x x' -> Forall2 (recs q) l l' -> count_lt DArith x l = count_lt RArith x' l'.
  Proof.
    intros Rx. induction 1 as [|a a' l l' Ra Rl IH]; [reflexivity|]. cbn [count_lt].
    assert (D := D_lt_v a x (proj1 (proj1 Ra)) (proj1 (proj1 Rx))). assert (S := lt_same a a' x x' Ra Rx).
    assert (L := Curves.lt_R a' x'). unfold v in S.
    destruct (a_lt DArith a x), (a_lt RArith a' x'); [now rewrite IH| | |reflexivity].
    - exfalso. assert (K : a' < x') by (apply S, D; reflexivity). apply L in K. discriminate.
    - exfalso. assert (K : false = true) by (apply D, S, L; reflexivity). discriminate.
  Qed.

  Lemma Forall2_skipn {X Y} (P : X -> Y -> Prop) j a b : Forall2 P a b -> Forall2 P (skipn j a) (skipn j b).
  Proof. intros H. revert j. induction H; intros [|j]; simpl; auto. Qed.

  Let e := 32 * INR q * u64.

  Lemma small_q : 10 * INR q * u64 <= 1.
  Proof.
    rewrite u64_val, INR_IZR_INZ. assert (K : IZR (Z.of_nat q) <= IZR (2 ^ 49)) by (apply IZR_le; nia).
    simpl in *. lra.
  Qed.

  Lemma sample_loop_E linear xs xs' ys ys' : Forall2 (recs q) xs xs' -> Forall2 prec_ok ys ys' ->
    (length xs <= length ys)%nat -> forall dst dst', Forall2 (recs m) dst dst' -> nondecreasing dst' ->
    forall j, (j <= length xs')%nat ->
    (forall x i a, In x dst' -> (i < j)%nat -> nth_error xs' i = Some a -> a < x) ->
    exists out out', sample_loop DArith xs ys linear j dst = Ok out /\ sample_loop RArith xs' ys' linear j dst' = Ok out' /\
      Forall2 (near01 e) out out'.
  Proof.
    intros Rx Ry Hl. assert (U := u64_pos). assert (Pq : 1 <= INR q) by (change 1 with (INR 1); apply le_INR; lia).
    assert (Ue : u64 <= e) by (unfold e; assert (1 * u64 <= INR q * u64) by (apply Rmult_le_compat_r; lra); lra).
    assert (Lx := Forall2_length _ _ _ Rx). assert (Ly := Forall2_length _ _ _ Ry).
    induction 1 as [|x x' dst dst' Rd Rds IH]; intros Hs j Hj Hb.
    { exists [], []. split; [reflexivity|]. split; [reflexivity|]. constructor. }
    inversion Hs as [|? ? Hs1 Hs2]; subst. rewrite Forall_forall in Hs2.
    destruct (Curves.advance xs' j x' Hj (fun i a => Hb x' i a (or_introl eq_refl))) as [K1 [K2 K3]].
    rewrite !Curves.sample_loop_cons. cbv zeta in K1, K2, K3.
    assert (Ec := count_same x x' _ _ Rd (Forall2_skipn _ j _ _ Rx)). change (num DArith) with f64 in *. change (num RArith) with R in *.
    rewrite Ec. clear Ec.
    set (k := (j + count_lt RArith x' (skipn j xs'))%nat) in *. clearbody k.
    destruct (IH Hs1 k K1) as (out & out' & E & E' & F).
    { intros z i a Kz Ki Ea. apply Rlt_le_trans with x'; [eauto|apply Hs2; exact Kz]. }
    rewrite E, E'. unfold Curves.sample_at. change (num DArith) with f64 in *. change (num RArith) with R in *. rewrite Lx.
    destruct (Nat.eqb_spec k (length xs')) as [Ek|Nk].
    - cbn [obind]. eexists _, _. split; [reflexivity|]. split; [reflexivity|]. constructor; [|exact F].
      split; [reflexivity|]. change (B2R (a0 DArith)) with 0. change (a0 RArith) with 0.
      rewrite Rminus_diag_eq, Rabs_R0 by reflexivity. lra.
    - assert (Kl : (k < length xs')%nat) by lia.
      destruct (Curves.at_ok xs' k Kl) as [b' [Eb' Nb']]. destruct (MeanCurve.Forall2_nth_r _ _ _ _ _ Rx Nb') as (b & Nb & Rb).
      destruct (Curves.at_ok ys' k ltac:(lia)) as [p' [Ep' Np']]. destruct (MeanCurve.Forall2_nth_r _ _ _ _ _ Ry Np') as (p & Np & Rp).
      assert (Ep : at_ ys k = Ok p) by (unfold at_; rewrite Np; reflexivity).
      assert (Eb : at_ xs k = Ok b) by (unfold at_; rewrite Nb; reflexivity).
      destruct (negb linear || Nat.eqb k 0) eqn:D.
      + rewrite Ep, Ep'. cbn [obind]. eexists _, _. split; [reflexivity|]. split; [reflexivity|]. constructor; [|exact F].
        exact (near01_le u64 e p p' Ue Rp).
      + apply orb_false_elim in D. destruct D as [_ D2]. apply Nat.eqb_neq in D2.
        destruct k as [|k']; [congruence|]. replace (S k' - 1)%nat with k' by lia.
        destruct (Curves.at_ok xs' k' ltac:(lia)) as [a' [Ea' Na']]. destruct (MeanCurve.Forall2_nth_r _ _ _ _ _ Rx Na') as (a & Na & Ra).
        destruct (Curves.at_ok ys' k' ltac:(lia)) as [o' [Eo' No']]. destruct (MeanCurve.Forall2_nth_r _ _ _ _ _ Ry No') as (o & No & Ro).
        assert (Eo : at_ ys k' = Ok o) by (unfold at_; rewrite No; reflexivity).
        assert (Ea : at_ xs k' = Ok a) by (unfold at_; rewrite Na; reflexivity).
        rewrite Eb, Eb', Ea, Ea'. cbn [obind]. rewrite Eo, Eo', Ep, Ep'. cbn [obind].
        eexists _, _. split; [reflexivity|]. split; [reflexivity|]. constructor; [|exact F].
        assert (L1 : a' < x') by (apply (K2 k'); auto). assert (L2 : x' <= b') by (apply K3; auto).
        exact (lerp_err q b a x o p b' a' x' o' p' Q small_q (proj1 Rb) (proj1 Ra) (proj1 Rd) (conj L1 L2)
          (proj2 (lt_same a a' x x' Ra Rd) L1) (frac_gap q a' b' Q (proj2 Ra) (proj2 Rb) ltac:(lra)) Ro Rp).
  Qed.
End Sampling.

(** ** The curve of a ranking *)

Lemma even_recs n : (Z.of_nat n <= 2 ^ 53)%Z -> Forall2 (recs (denom (n - 1))) (even_points DArith n) (even_points RArith n).
Proof.
  intros L. assert (G : forall i x x', nth_error (even_points DArith n) i = Some x -> nth_error (even_points RArith n) i = Some x' ->
    recs (denom (n - 1)) x x').
  { intros i x x' E E'. destruct (even_points_D n i x L E) as (N & Li & F & V).
    rewrite Curves.even_points_nth in E' by assumption. injection E' as <-. split.
    - split; [exact F|]. split; [exact V|]. apply even_01; assumption.
    - unfold denom. replace (Nat.max 1 (n - 1)) with (n - 1)%nat by lia. exists (Z.of_nat i). rewrite <- INR_IZR_INZ. reflexivity. }
  assert (Len : length (even_points DArith n) = length (even_points RArith n)) by (rewrite !Curves.even_points_length; reflexivity).
  revert G Len. generalize (even_points DArith n) (even_points RArith n). change (num DArith) with f64. change (num RArith) with R.
  intros l. induction l as [|a l IH]; intros [|b l'] G Len; try discriminate; constructor.
  - exact (G 0%nat a b eq_refl eq_refl).
  - apply IH; [intros i; apply (G (S i))|now injection Len].
Qed.

Lemma frac_recs q a b : Forall2 rec_ok a b -> Forall (frac q) b -> Forall2 (recs q) a b.
Proof. induction 1 as [|x y a b H F IH]; intros K; inversion K; subst; constructor; auto. split; assumption. Qed.

(** The values of both arithmetics for a bound [q] of the references. *)
Lemma curve_E {RE HE} (score : HE -> f32) (l : list (match_t RE HE)) n col int linear q :
  (forall x, In x l -> zero_one (m_err x)) -> (0 < q)%nat -> (length l <= q)%nat -> (Z.of_nat q * Z.of_nat n <= 2 ^ 49)%Z ->
  exists ys ys', (let (pr, rc) := precision_recall_matches DArith score l col int in
      sample_curve DArith rc pr (even_points DArith n) linear) = Ok ys /\
    (let (pr, rc) := precision_recall_matches RArith score l col int in
      sample_curve RArith rc pr (even_points RArith n) linear) = Ok ys' /\
    Forall2 (near01 (32 * INR q * u64)) ys ys'.
Proof.
  intros Z Q Lq B. assert (Ln : (Z.of_nat n <= 2 ^ 53)%Z) by nia.
  assert (Ll : (Z.of_nat n = 0 \/ Z.of_nat (length l) <= 2 ^ 53)%Z) by nia.
  destruct (Nat.eq_dec n 0) as [->|Nn].
  { exists [], []. destruct (precision_recall_matches DArith score l col int), (precision_recall_matches RArith score l col int).
    split; [reflexivity|]. split; [reflexivity|]. constructor. }
  destruct Ll as [Ll|Ll]; [lia|].
  assert (Len := MeanCurve.pr_rc_length DArith RE HE score l col int).
  destruct (precision_recall_matches DArith score l col int) as [pr rc] eqn:E. cbn [fst snd] in Len.
  destruct (precision_recall_matches RArith score l col int) as [pr' rc'] eqn:E'.
  destruct (matches_D RE HE score l col int pr rc pr' rc' Z Ll E E') as [Hp Hr].
  assert (Fr := matches_frac RE HE score l col int pr' rc' Z E').
  destruct (hyps_le l) as [_ Rl].
  assert (Q1 : (0 < denom (refs l))%nat) by (unfold denom; lia). assert (Q2 : (denom (refs l) <= q)%nat) by (unfold denom; lia).
  assert (B' : (Z.of_nat (denom (refs l)) * Z.of_nat (denom (n - 1)) <= 2 ^ 49)%Z).
  { assert ((denom (n - 1) <= n)%nat) by (unfold denom; lia). nia. }
  assert (Le : (length rc <= length pr)%nat) by (change (num DArith) with f64 in *; lia).
  destruct (sample_loop_E (denom (refs l)) (denom (n - 1)) Q1 ltac:(unfold denom; lia) B' linear rc rc' pr pr' (frac_recs _ _ _ Hr Fr) Hp Le
    _ _ (even_recs n Ln) (Curves.sorted_lt_le _ (Curves.even_points_sorted n)) 0 (Nat.le_0_l _) ltac:(intros; lia))
    as (out & out' & Eo & Eo' & F).
  exists out, out'. split; [exact Eo|]. split; [exact Eo'|]. revert F. apply Forall2_weaken. intros d r.
  apply near01_le. assert (U := u64_pos). apply Rmult_le_compat_r; [lra|]. apply Rmult_le_compat_l; [lra|]. apply le_INR, Q2.
Qed.

(** ** Means *)

Lemma omap_both {X Y Y'} (f : X -> outcome Y) (f' : X -> outcome Y') (P : Y -> Y' -> Prop) l :
  (forall x, In x l -> exists y y', f x = Ok y /\ f' x = Ok y' /\ P y y') ->
  exists ys ys', omap f l = Ok ys /\ omap f' l = Ok ys' /\ Forall2 P ys ys'.
Proof.
  induction l as [|x l IH]; intros H; [exists [], []; split; [reflexivity|]; split; [reflexivity|constructor]|].
  destruct (H x (or_introl eq_refl)) as (y & y' & E & E' & Py).
  destruct IH as (ys & ys' & F & F' & G); [intros; apply H; simpl; auto|].
  exists (y :: ys), (y' :: ys'). simpl. rewrite E, E'. simpl. rewrite F, F'. split; [reflexivity|]. split; [reflexivity|]. constructor; auto.
Qed.

Lemma omap_len {X Y} (f : X -> outcome Y) l : forall ys, omap f l = Ok ys -> length ys = length l.
Proof.
  induction l as [|x l IH]; intros ys E; cbn [omap] in E; [injection E as <-; reflexivity|].
  destruct (f x) as [y| |]; try discriminate. cbn [obind] in E. destruct (omap f l) as [z| |]; try discriminate.
  cbn [obind] in E. injection E as <-. cbn [length]. now rewrite (IH z eq_refl).
Qed.

Lemma sum_E e i K curves curves' : 0 <= e -> (Z.of_nat K <= 2 ^ 53)%Z ->
  Forall2 (fun ys ys' => exists y y', nth_error ys i = Some y /\ nth_error ys' i = Some y' /\ near01 e y y') curves curves' ->
  forall k s s', (k + length curves <= K)%nat -> sumok k s -> Rabs (v s - s') <= INR k * (e + INR K * u64) ->
  exists r r', ofold (fun s ys => obind (at_ ys i) (fun y => Ok (a_add DArith s y))) curves s = Ok r /\
    ofold (fun s ys => obind (at_ ys i) (fun y => Ok (a_add RArith s y))) curves' s' = Ok r' /\
    sumok (k + length curves) r /\ Rabs (v r - r') <= INR (k + length curves) * (e + INR K * u64).
Proof.
  intros He HK H. assert (U := u64_pos).
  induction H as [|ys ys' cs cs' (y & y' & E & E' & Ny) H IH]; intros k s s' L S D; cbn [length] in *.
  - exists s, s'. rewrite Nat.add_0_r. auto.
  - destruct Ny as (Fy & Hy & Ey & _). destruct (sumok_add k s y ltac:(lia) S (conj Fy Hy)) as [T V].
    destruct (IH (Datatypes.S k) (f64_add s y) (s' + y')) as (r & r' & R1 & R2 & R3 & R4); [lia|exact T| |].
    + rewrite V. destruct S as [_ Hs]. fold (v y) in Hy, Ey. assert (PK : INR (Datatypes.S k) <= INR K) by (apply le_INR; lia).
      assert (P0 := pos_INR k). rewrite S_INR in *.
      assert (Er := rnd64_err_le (v s + v y) (INR k + 1) ltac:(lra) ltac:(rewrite Rabs_right; lra)).
      assert (X : (INR k + 1) * u64 <= INR K * u64) by (apply Rmult_le_compat_r; lra).
      apply Rabs_le_inv in Er, D, Ey. apply Rabs_le. lra.
    + exists r, r'. rewrite <- plus_n_Sm. cbn [ofold]. unfold at_ at 1 3. change (num DArith) with f64 in *. change (num RArith) with R in *.
      rewrite E, E'. cbn [obind]. split; [exact R1|]. split; [exact R2|]. split; assumption.
Qed.

Lemma mean_E e K s s' : 0 <= e -> (0 < K)%nat -> (Z.of_nat K <= 2 ^ 53)%Z -> sumok K s -> Rabs (v s - s') <= INR K * (e + INR K * u64) ->
  within (e + (INR K + 1) * u64) (f64_div s (f64_of_Z (Z.of_nat K))) (s' / INR K).
Proof.
  intros He P L S D. destruct (mean_div K s P L S) as [[F _] V]. split; [exact F|]. fold (v (f64_div s (f64_of_Z (Z.of_nat K)))). rewrite V.
  assert (PK : 0 < INR K) by (apply lt_0_INR, P). assert (U := u64_pos).
  assert (H := ratio01 (v s) (INR K) (proj2 S) PK). unfold in01 in H.
  assert (Er := rnd64_err1 (v s / INR K) ltac:(rewrite Rabs_right; lra)).
  assert (X : Rabs (v s / INR K - s' / INR K) <= e + INR K * u64).
  { replace (v s / INR K - s' / INR K) with ((v s - s') * / INR K) by (field; lra).
    rewrite Rabs_mult, (Rabs_right (/ INR K)) by (left; apply Rinv_0_lt_compat, PK).
    apply (Rmult_le_reg_r (INR K)); [exact PK|]. rewrite Rmult_assoc, Rinv_l by lra. lra. }
  apply Rabs_le_inv in Er, X. apply Rabs_le. lra.
Qed.

(** ** The files *)

Lemma near_of e n ys ys' : (Z.of_nat n <= 2 ^ 53)%Z -> Forall2 (within e) ys ys' ->
  near_curve e (combine (even_points DArith n) ys) (combine (even_points RArith n) ys').
Proof.
  intros L F. assert (X := even_recs n L). revert X. generalize (even_points DArith n) (even_points RArith n).
  change (num DArith) with f64. change (num RArith) with R. intros xs xs' X. revert ys ys' F.
  induction X as [|x x' xs xs' [(Fx & Vx & _) _] X IH]; intros ys ys' F; [constructor|].
  destruct F as [|y y' ys ys' Hy F]; [constructor|]. constructor; [|apply IH, F].
  split; [split; [exact Fx|exact Vx]|exact Hy].
Qed.

Lemma near_within e d r : near01 e d r -> within e d r.
Proof. intros (F & _ & D & _). split; assumption. Qed.

Section Files.
  Context {RE E : Type}.
  Notation M := (match_t RE (scored E)).

  Lemma global_E c (ms : list M) n pts : Runs.fine c ms -> (0 < n)%nat -> (length ms <= n)%nat ->
    (Z.of_nat n * cf_curve c <= 2 ^ 49)%Z -> Finish.global_points (A := DArith) c ms pts ->
    exists exact, global_curve c ms exact /\ near_curve (32 * INR n * u64) pts exact.
  Proof.
    intros Fm P L B (ys & -> & Ly & H).
    assert (B' : (Z.of_nat n * Z.of_nat (Z.to_nat (cf_curve c)) <= 2 ^ 49)%Z) by nia.
    destruct (curve_E sc_score ms (Z.to_nat (cf_curve c)) (cf_collapse c) (cf_interp c) (cf_trapezoid c) n (proj1 Fm) P L B')
      as (zs & zs' & E1 & E2 & F).
    destruct (precision_recall_matches DArith sc_score ms (cf_collapse c) (cf_interp c)) as [pr rc].
    rewrite H in E1. injection E1 as <-.
    exists (combine (even_points RArith (Z.to_nat (cf_curve c))) zs'). split.
    - apply (Runs.global_points_spec c ms _ Fm). exists zs'. split; [reflexivity|]. split; [|exact E2].
      transitivity (length ys); [exact (eq_sym (Forall2_length _ _ _ F))|].
      transitivity (length (even_points DArith (Z.to_nat (cf_curve c)))); [exact Ly|].
      rewrite !Curves.even_points_length. reflexivity.
    - apply near_of; [nia|]. revert F. apply Forall2_weaken. intros d r. apply near_within.
  Qed.

  Lemma mean_curves_E w c (gs : list (list M)) n pts : gs <> [] -> cf_mrp c <> [] -> w_writable w (cf_mrp c) = true ->
    (forall g, In g gs -> Runs.fine c g /\ (length g <= n)%nat) -> (0 < n)%nat -> (length gs <= n)%nat ->
    (Z.of_nat n * cf_curve c <= 2 ^ 49)%Z -> (Z.of_nat n <= 2 ^ 53)%Z -> Finish.mean_points (A := DArith) w c gs pts ->
    exists exact, mean_curve c gs exact /\ near_curve (34 * INR n * u64) pts exact.
  Proof.
    intros Ng Nm W G P L B Ln (ys & Ep & Ly & H). specialize (H Nm). unfold write_mean_curve in H.
    set (m := Z.to_nat (cf_curve c)) in *. assert (B' : (Z.of_nat n * Z.of_nat m <= 2 ^ 49)%Z) by (unfold m; nia).
    assert (Lm : (Z.of_nat m <= 2 ^ 53)%Z) by nia.
    destruct (MeanCurve.mean_curve_spec sc_score w c gs Ng Nm W) as (exact & H' & _).
    exists exact. split.
    { apply (Runs.mean_points_spec w c gs exact Ng Nm W (fun g K => proj1 (G g K))).
      destruct (Finish.mean_curve_ok (A := RArith) sc_score w c gs Nm) as [(_ & p & Eq & zs & Ez & Lz)|(W' & _)]; [|congruence].
      exists zs. rewrite H' in Eq. injection Eq as <-. auto. }
    unfold write_mean_curve in H'. fold m in H'.
    set (e := 32 * INR n * u64).
    destruct (omap_both (fun g : list M =>
        let (pr, rc) := precision_recall_matches DArith sc_score g (cf_collapse c) (cf_interp c) in
        sample_curve DArith rc pr (even_points DArith m) (cf_trapezoid c))
      (fun g : list M =>
        let (pr, rc) := precision_recall_matches RArith sc_score g (cf_collapse c) (cf_interp c) in
        sample_curve RArith rc pr (even_points RArith m) (cf_trapezoid c))
      (fun ys ys' => length ys = length (even_points DArith m) /\ Forall2 (near01 e) ys ys') gs) as (cs & cs' & E1 & E1' & F1).
    { intros g K. destruct (G g K) as [Fg Lg].
      destruct (curve_E sc_score g m (cf_collapse c) (cf_interp c) (cf_trapezoid c) n (proj1 Fg) P Lg B') as (zs & zs' & A1 & A2 & A3).
      exists zs, zs'. split; [exact A1|]. split; [exact A2|]. split; [|exact A3].
      assert (Lr := MeanCurve.pr_rc_length DArith _ _ sc_score g (cf_collapse c) (cf_interp c)).
      destruct (precision_recall_matches DArith sc_score g (cf_collapse c) (cf_interp c)) as [pr rc]. cbn [fst snd] in Lr.
      destruct (Finish.sample_curve_ok (A := DArith) rc pr (even_points DArith m) (cf_trapezoid c)) as (o & Eo & Lo); [lia|].
      rewrite A1 in Eo. injection Eo as ->. exact Lo. }
    rewrite E1 in H. rewrite E1' in H'. cbn [run] in H, H'. rewrite Tool.pbind_nil in H. rewrite Tool.pbind_nil in H'.
    assert (Lc : length cs = length gs) by exact (omap_len _ _ _ E1).
    assert (U := u64_pos). assert (Pn := pos_INR n). assert (E0 : 0 <= e) by (unfold e; repeat apply Rmult_le_pos; lra).
    assert (P' : (0 < length gs)%nat) by (destruct gs; [easy|simpl; lia]).
    assert (Lx : length (even_points RArith m) = length (even_points DArith m)) by (rewrite !Curves.even_points_length; reflexivity).
    destruct (omap_both (fun i => obind (sum_at DArith i cs) (fun s => Ok (a_div DArith s (a_nat DArith (length gs)))))
      (fun i => obind (sum_at RArith i cs') (fun s => Ok (a_div RArith s (a_nat RArith (length gs)))))
      (within (34 * INR n * u64)) (seq 0 (length (even_points DArith m)))) as (zs & zs' & E2 & E2' & F2).
    { intros i K. apply in_seq in K.
      assert (Fi : Forall2 (fun ys ys' => exists y y', nth_error ys i = Some y /\ nth_error ys' i = Some y' /\ near01 e y y') cs cs').
      { revert F1. apply Forall2_weaken. intros z z' [Lz Fz].
        destruct (nth_error z i) as [y|] eqn:Ey; [|apply nth_error_None in Ey; change (num DArith) with f64 in *; lia].
        destruct (MeanCurve.Forall2_nth _ _ _ _ _ Fz Ey) as (y' & Ey' & Ny). exists y, y'. auto. }
      assert (S0 : sumok 0 (a0 DArith)) by (split; [reflexivity|]; change (v (a0 DArith)) with 0; simpl; lra).
      assert (D0 : Rabs (v (a0 DArith) - a0 RArith) <= INR 0 * (e + INR (length gs) * u64)).
      { change (v (a0 DArith)) with 0. change (a0 RArith) with 0. rewrite Rminus_diag_eq, Rabs_R0 by reflexivity. simpl. lra. }
      destruct (sum_E e i (length gs) cs cs' E0 ltac:(lia) Fi 0 (a0 DArith) (a0 RArith) ltac:(change (num DArith) with f64 in *; lia) S0 D0)
        as (r & r' & R1 & R2 & R3 & R4). cbn [plus] in R3, R4.
      change (num DArith) with f64 in *. rewrite Lc in R3, R4.
      assert (R1' : sum_at DArith i cs = Ok r) by exact R1. assert (R2' : sum_at RArith i cs' = Ok r') by exact R2.
      rewrite R1', R2'. cbn [obind]. eexists _, _. split; [reflexivity|]. split; [reflexivity|].
      destruct (mean_E e (length gs) r r' E0 P' ltac:(lia) R3 R4) as [Fd Dd]. split; [exact Fd|].
      eapply Rle_trans; [exact Dd|]. unfold e.
      assert (Pk : INR (length gs) <= INR n) by (apply le_INR, L). assert (P1 : 1 <= INR n) by (change 1 with (INR 1); apply le_INR; lia).
      assert (X : (INR (length gs) + 1) * u64 <= (2 * INR n) * u64) by (apply Rmult_le_compat_r; lra). lra. }
    rewrite E2 in H. change (num RArith) with R in *. rewrite Lx in H'. rewrite E2' in H'. cbn [run] in H, H'. rewrite Tool.pbind_nil in H. rewrite Tool.pbind_nil in H'.
    assert (Lz : length zs = length (even_points DArith m)) by (etransitivity; [exact (omap_len _ _ _ E2)|apply seq_length]).
    assert (Lz' : length zs' = length (even_points RArith m)) by (rewrite <- (Forall2_length _ _ _ F2); change (num DArith) with f64 in *; change (num RArith) with R in *; lia).
    assert (Pz : pts = combine (even_points DArith m) zs).
    { revert H. unfold write_curve. destruct (cf_mrp c) as [|b nm]; [easy|]. rewrite Lz, Nat.eqb_refl, W. cbn [run]. intros H.
      rewrite Tool.pbind_nil in H. unfold emit in H. now injection H. }
    assert (Pz' : exact = combine (even_points RArith m) zs').
    { revert H'. unfold write_curve. destruct (cf_mrp c) as [|b nm]; [easy|]. change (num RArith) with R in *.
      rewrite Lz', Nat.eqb_refl, W. cbn [run]. intros H'.
      rewrite Tool.pbind_nil in H'. unfold emit in H'. now injection H'. }
    rewrite Pz, Pz'. apply near_of; [exact Lm|exact F2].
  Qed.
End Files.
