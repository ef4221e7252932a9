(** The metrics over the rationals are those over the reals. *)
From Coq Require Import List Bool ZArith QArith Qreals Reals Lra Lia.
From Flocq Require Import Core BinarySingleNaN.
From Verif.Model Require Import Cpp Floats Matches Assessment.
Import ListNotations.
Local Open Scope R_scope.

Lemma Qred_R q : Q2R (Qred q) = Q2R q.
Proof. apply Qeq_eqR, Qred_correct. Qed.

Lemma Q2R_int z : Q2R (inject_Z z) = IZR z.
Proof. unfold Q2R, inject_Z. simpl. field. Qed.

Lemma Q2R_nat n : Q2R (inject_Z (Z.of_nat n)) = INR n.
Proof. rewrite Q2R_int, INR_IZR_INZ. reflexivity. Qed.

Lemma bpow_pow2 e : (0 <= e)%Z -> bpow radix2 e = IZR (2 ^ e).
Proof. intros H. rewrite <- IZR_Zpower by exact H. reflexivity. Qed.

Lemma Q_of_f32_R x : Q2R (Q_of_f32 x) = B2R x.
Proof.
  destruct x as [s|s| |s m e H]; try (unfold Q2R; simpl; lra).
  unfold Q_of_f32, B2R, F2R. cbn [Fnum Fexp]. destruct (Z.leb_spec 0 e) as [L|L].
  - rewrite Q2R_int, mult_IZR, bpow_pow2 by exact L. destruct s; reflexivity.
  - cbv iota. rewrite Qred_R. unfold Q2R. cbn [Qnum Qden].
    rewrite Z2Pos.id by (apply Z.pow_pos_nonneg; lia).
    rewrite <- bpow_pow2 by lia. rewrite bpow_opp, Rinv_inv. destruct s; reflexivity.
Qed.

Lemma Q_add a b : Q2R (a_add QArith_ a b) = Q2R a + Q2R b.
Proof. change (a_add QArith_ a b) with (Qred (a + b)%Q). rewrite Qred_R. apply Q2R_plus. Qed.
Lemma Q_sub a b : Q2R (a_sub QArith_ a b) = Q2R a - Q2R b.
Proof. change (a_sub QArith_ a b) with (Qred (a - b)%Q). rewrite Qred_R. apply Q2R_minus. Qed.
Lemma Q_mul a b : Q2R (a_mul QArith_ a b) = Q2R a * Q2R b.
Proof. change (a_mul QArith_ a b) with (Qred (a * b)%Q). rewrite Qred_R. apply Q2R_mult. Qed.
Lemma Q_div a n : (0 < n)%nat -> Q2R (a_div QArith_ a (a_nat QArith_ n)) = Q2R a / INR n.
Proof.
  intros H. change (a_div QArith_ a (a_nat QArith_ n)) with (Qred (a / inject_Z (Z.of_nat n))%Q).
  rewrite Qred_R, Q2R_div, Q2R_nat; [reflexivity|].
  intros K. unfold inject_Z, Qeq in K. simpl in K. lia.
Qed.
Lemma Q_lt a b : a_lt QArith_ a b = a_lt RArith (Q2R a) (Q2R b).
Proof.
  simpl. destruct (Qcompare a b) eqn:E; destruct Rlt_dec as [L|L]; try reflexivity; exfalso.
  - apply Qeq_alt, Qeq_eqR in E. lra.
  - apply Qlt_alt, Qlt_Rlt in E. lra.
  - apply Qgt_alt, Qlt_Rlt in E. lra.
Qed.
Lemma Q_half : Q2R (a_half QArith_) = / 2.
Proof. unfold Q2R. simpl. lra. Qed.
Lemma Q_nat n : Q2R (a_nat QArith_ n) = INR n.
Proof. apply Q2R_nat. Qed.
Lemma Q_f32 x : Q2R (a_f32 QArith_ x) = B2R x.
Proof. apply Q_of_f32_R. Qed.

Definition lift (o : outcome Q) : outcome R :=
  match o with Ok q => Ok (Q2R q) | UB => UB | Throw e => Throw e end.

Definition two {X Y} (f : X -> Y) (p : X * X) : Y * Y := (f (fst p), f (snd p)).

Lemma precision_Q n s : Q2R (precision_of QArith_ n s) = precision_of RArith n (Q2R s).
Proof.
  unfold precision_of. destruct (Nat.ltb_spec 0 n).
  - rewrite Q_sub, Q_div by assumption. unfold a1. rewrite Q_nat. reflexivity.
  - unfold a1. rewrite Q_nat. reflexivity.
Qed.

Lemma recall_Q t n s : Q2R (recall_of QArith_ t n s) = recall_of RArith t n (Q2R s).
Proof.
  unfold recall_of. destruct (Nat.ltb_spec 0 t).
  - rewrite Q_div, Q_sub, Q_nat by assumption. reflexivity.
  - unfold a1. rewrite Q_nat. reflexivity.
Qed.

Lemma pr_loop_Q t pts : forall nr nh fp fn,
  map (two Q2R) (pr_loop QArith_ t nr nh fp fn pts) = pr_loop RArith t nr nh (Q2R fp) (Q2R fn) pts.
Proof.
  induction pts as [|e pts IH]; intros nr nh fp fn; [reflexivity|].
  cbn [pr_loop]. cbv zeta. cbn [map]. rewrite IH. unfold two at 1. cbn [fst snd].
  rewrite precision_Q, recall_Q, !Q_add, !Q_f32. reflexivity.
Qed.

Lemma interp_Q l : map Q2R (interp QArith_ l) = interp RArith (map Q2R l).
Proof.
  induction l as [|p l IH]; [reflexivity|]. cbn [interp map]. rewrite <- IH.
  destruct (interp QArith_ l) as [|q r]; [reflexivity|]. cbn [map]. f_equal.
  unfold a_max. rewrite Q_lt. destruct (a_lt RArith (Q2R p) (Q2R q)); reflexivity.
Qed.

Lemma precision_recall_Q pts i :
  precision_recall RArith pts i = two (map Q2R) (precision_recall QArith_ pts i).
Proof.
  unfold precision_recall. cbv zeta.
  replace (pr_loop RArith (num_total_refs pts) 0 0 (a0 RArith) (a0 RArith) pts)
    with (map (two Q2R) (pr_loop QArith_ (num_total_refs pts) 0 0 (a0 QArith_) (a0 QArith_) pts))
    by (rewrite pr_loop_Q; unfold a0; rewrite Q_nat; reflexivity).
  set (l := pr_loop QArith_ (num_total_refs pts) 0 0 (a0 QArith_) (a0 QArith_) pts). clearbody l.
  assert (F : map fst (map (two Q2R) l) = map Q2R (map fst l)) by (rewrite !map_map; reflexivity).
  assert (S : map snd (map (two Q2R) l) = map Q2R (map snd l)) by (rewrite !map_map; reflexivity).
  change (num RArith) with R. change (num QArith_) with Q in *. rewrite F, S. unfold two. cbn [fst snd].
  f_equal. destruct i; [symmetry; apply interp_Q|reflexivity].
Qed.

Lemma height_Q t prev p : Q2R (height QArith_ t prev p) = height RArith t (option_map Q2R prev) (Q2R p).
Proof.
  destruct prev as [q|]; [|reflexivity]. cbn [height option_map]. destruct t; [|reflexivity].
  rewrite Q_mul, Q_half, Q_add. reflexivity.
Qed.

Lemma ap1_Q t pr : forall rc prev s, length pr = length rc ->
  Q2R (ap1_loop QArith_ t prev s pr rc) = ap1_loop RArith t (option_map Q2R prev) (Q2R s) (map Q2R pr) (map Q2R rc).
Proof.
  induction pr as [|p pr IH]; intros [|r rc] prev s L; try discriminate; [reflexivity|].
  cbn [ap1_loop map]. rewrite IH by (injection L; auto). rewrite Q_add, Q_mul, height_Q. reflexivity.
Qed.

Lemma ap2_Q t pr : forall rc q s x, length pr = length rc ->
  Q2R (ap2_loop QArith_ t q s x pr rc) = ap2_loop RArith t (Q2R q) (Q2R s) (Q2R x) (map Q2R pr) (map Q2R rc).
Proof.
  induction pr as [|p pr IH]; intros [|r rc] q s x L; try discriminate; [reflexivity|].
  cbn [ap2_loop map]. rewrite IH by (injection L; auto). rewrite Q_add, Q_mul, height_Q. reflexivity.
Qed.

Lemma ap_curves_Q t pr rc :
  ap_curves RArith (map Q2R pr) (map Q2R rc) t = lift (ap_curves QArith_ pr rc t).
Proof.
  unfold ap_curves. rewrite !map_length.
  change (num QArith_) with Q in *. destruct (Nat.eqb_spec (length pr) (length rc)) as [L|]; [|reflexivity].
  cbv zeta. unfold lift. rewrite Q_sub, ap1_Q by exact L. f_equal. unfold a0. rewrite Q_nat. cbn [option_map].
  change (a_sub RArith) with Rminus. change (a_nat RArith 0) with (INR 0).
  f_equal. destruct pr as [|p pr], rc as [|r rc]; try discriminate; cbn [map].
  - rewrite Q_nat. reflexivity.
  - rewrite ap2_Q by (injection L; auto). rewrite Q_nat. reflexivity.
Qed.

(** Global AP. *)
Lemma global_ap_Q {RE HE} (score : HE -> f32) (l : list (match_t RE HE)) c i t :
  global_ap RArith score l c i t = lift (global_ap QArith_ score l c i t).
Proof.
  unfold global_ap, precision_recall_matches. rewrite precision_recall_Q.
  destruct (precision_recall QArith_ (points score c l) i) as [pr rc]. apply ap_curves_Q.
Qed.

Lemma global_ap_groups_Q {RE HE} (score : HE -> f32) srt (g : list (list (match_t RE HE))) c i t s :
  global_ap_groups RArith score srt g c i t s = lift (global_ap_groups QArith_ score srt g c i t s).
Proof.
  unfold global_ap_groups. destruct (maybe_sort score srt s (concat g)) as [l| |]; try reflexivity. apply global_ap_Q.
Qed.

(** Mean AP. *)
Lemma mean_ap_Q {RE HE} (score : HE -> f32) srt (g : list (list (match_t RE HE))) c i t s :
  mean_ap RArith score srt g c i t s = lift (mean_ap QArith_ score srt g c i t s).
Proof.
  unfold mean_ap.
  assert (F : forall (l : list (list (match_t RE HE))) x,
    ofold (fun s0 g0 => obind (maybe_sort score srt s g0) (fun g' =>
      obind (global_ap RArith score g' c i t) (fun ap => Ok (a_add RArith s0 ap)))) l (Q2R x) =
    lift (ofold (fun s0 g0 => obind (maybe_sort score srt s g0) (fun g' =>
      obind (global_ap QArith_ score g' c i t) (fun ap => Ok (a_add QArith_ s0 ap)))) l x)).
  { induction l as [|m l IH]; intros x; [reflexivity|]. cbn [ofold].
    destruct (maybe_sort score srt s m) as [m'| |]; try reflexivity. cbn [obind].
    rewrite global_ap_Q. destruct (global_ap QArith_ score m' c i t) as [v| |]; try reflexivity. cbn [lift obind].
    rewrite <- IH, Q_add. reflexivity. }
  assert (Z : a0 RArith = Q2R (a0 QArith_)) by (unfold a0; rewrite Q_nat; reflexivity).
  rewrite Z, F. destruct (ofold _ g (a0 QArith_)) as [v| |]; try reflexivity. cbn [lift obind]. f_equal.
  unfold mean_of. destruct (Nat.ltb_spec 0 (length g)); [|exact Z].
  rewrite Q_div by assumption. reflexivity.
Qed.
