(** Sampled curves in binary64. *)
From Coq Require Import List Bool ZArith Arith Reals Lra Lia Sorted.
From Flocq Require Import Core Plus_error BinarySingleNaN.
From Verif.Model Require Import Cpp Floats Events EventSets Matches Matcher Scorers Assessment Tool.
From Verif.Spec Require Import Order Objects Matching Grouping Collapse Metrics Curves Double Results Tool Rounded.
From Verif.Proofs Require Import FloatFacts Metrics Double.
From Verif.Proofs Require Order Matching Curves MeanCurve Tool Finish Grouping Evaluation Instances Results Printed.
Import ListNotations.
Local Open Scope R_scope.

(** ** Linear interpolation *)

Lemma rnd64_half z : z <= 1 + u64 / 2 -> rnd64 z <= 1.
Proof.
  intros H. unfold rnd. apply round_N_le_midp; [typeclasses eauto|apply fmt64_1|].
  rewrite succ_eq_pos by lra. change 1 with (bpow radix2 0) at 3. rewrite ulp_bpow.
  replace (SpecFloat.fexp 53 1024 (0 + 1)) with (-52)%Z by reflexivity.
  assert (E : bpow radix2 (-52) = 2 * u64) by (vm_compute; lra). rewrite E.
  assert (U := u64_pos). lra.
Qed.

Lemma unit_mul t y : unit_f64 t -> unit_f64 y -> unit_f64 (f64_mul t y) /\ B2R (f64_mul t y) <= B2R t.
Proof.
  intros [Ft Ht] [Fy Hy]. assert (P : 0 <= B2R t * B2R y <= B2R t) by (split; [apply Rmult_le_pos; lra|nra]).
  destruct (f64_mult_correct t y 0) as [V F]; auto; [exps|simpl; rewrite Rabs_right; lra|].
  fold (f64_mul t y) in V, F.
  assert (L : B2R (f64_mul t y) <= B2R t) by (rewrite V; apply rnd64_le_fmt64; [apply B2R_fmt64|lra]).
  split; [|exact L]. split; [exact F|]. split; [rewrite V; apply rnd64_nonneg; lra|lra].
Qed.

Lemma unit_lerp xj xp x yp yj : unit_f64 xj -> unit_f64 xp -> unit_f64 x -> B2R xp < B2R x <= B2R xj ->
  unit_f64 yp -> unit_f64 yj ->
  let t := f64_div (f64_sub xj x) (f64_add (f64_sub xj x) (f64_sub x xp)) in
  unit_f64 (f64_add (f64_mul t yp) (f64_mul (f64_sub (f64_of_Z 1) t) yj)).
Proof.
  intros [Fj Hj] [Fp Hp] [Fx Hx] [L1 L2] Up Uj.
  destruct (f64_minus_correct xj x 0) as [V0 F0]; auto; [exps|simpl; rewrite Rabs_right; lra|].
  fold (f64_sub xj x) in V0, F0.
  destruct (f64_minus_correct x xp 0) as [V1 F1]; auto; [exps|simpl; rewrite Rabs_right; lra|].
  fold (f64_sub x xp) in V1, F1.
  assert (W0 : 0 <= B2R (f64_sub xj x) <= 1) by (rewrite V0; apply rnd64_01; lra).
  assert (W1 : 0 < B2R (f64_sub x xp) <= 1).
  { split; [|rewrite V1; apply rnd64_01; lra].
    assert (N : 0 <= B2R (f64_sub x xp)) by (rewrite V1; apply rnd64_nonneg; lra).
    assert (D : B2R (f64_sub x xp) <> 0); [|lra]. rewrite V1.
    change (rnd64 (B2R x - B2R xp)) with (round radix2 (FLT_exp (-1074) 53) ZnearestE (B2R x + - B2R xp)).
    assert (P64 : Prec_gt_0 53) by exact prec64.
    apply round_plus_neq_0; try typeclasses eauto; [apply (B2R_fmt64 x)|apply fmt64_opp, B2R_fmt64|lra]. }
  set (w0 := f64_sub xj x) in *. set (w1 := f64_sub x xp) in *. clearbody w0 w1.
  destruct (f64_plus_correct w0 w1 1) as [Vs Fs]; auto; [exps|simpl; rewrite Rabs_right; lra|].
  fold (f64_add w0 w1) in Vs, Fs.
  assert (G0 : B2R w0 <= B2R (f64_add w0 w1)).
  { rewrite Vs, <- (rnd64_id _ (B2R_fmt64 w0)) at 1. apply rnd64_le. lra. }
  assert (G1 : B2R w1 <= B2R (f64_add w0 w1)).
  { rewrite Vs, <- (rnd64_id _ (B2R_fmt64 w1)) at 1. apply rnd64_le. lra. }
  set (s := f64_add w0 w1) in *. clearbody s.
  destruct (div01 w0 s) as [Ft Vt]; auto; [lra|lra|].
  intros t. fold t in Ft, Vt. clearbody t.
  assert (Ht : 0 <= B2R t <= 1) by (rewrite Vt; apply rnd64_01, ratio01; lra).
  destruct (sub01 t Ft Ht) as [Fu Vu].
  assert (Hu : 0 <= B2R (f64_sub (f64_of_Z 1) t) <= 1) by (rewrite Vu; apply rnd64_01; lra).
  assert (Eu := rnd64_err1 (1 - B2R t) ltac:(rewrite Rabs_right; lra)). rewrite <- Vu in Eu. apply Rabs_le_inv in Eu.
  set (u := f64_sub (f64_of_Z 1) t) in *. clearbody u.
  destruct (unit_mul t yp (conj Ft Ht) Up) as [[Fa Ha] La].
  destruct (unit_mul u yj (conj Fu Hu) Uj) as [[Fb Hb] Lb].
  destruct (f64_plus_correct (f64_mul t yp) (f64_mul u yj) 1) as [Vr Fr]; auto; [exps|simpl; rewrite Rabs_right; lra|].
  fold (f64_add (f64_mul t yp) (f64_mul u yj)) in Vr, Fr. split; [exact Fr|]. rewrite Vr.
  split; [apply rnd64_nonneg; lra|apply rnd64_half; lra].
Qed.

(** ** Sampling *)

Definition v (d : f64) : R := B2R d.

Definition falling (ys : list f64) : Prop :=
  forall i i' y y', (i <= i')%nat -> nth_error ys i = Some y -> nth_error ys i' = Some y' -> v y' <= v y.

Lemma falling_of ys : nonincreasing (map v ys) -> falling ys.
Proof.
  intros H. induction ys as [|a ys IH]; intros i i' y y' L E E'; [destruct i; discriminate|].
  inversion H as [|? ? H1 H2]; subst. destruct i as [|i].
  - simpl in E. injection E as <-. destruct i' as [|i']; simpl in E'; [injection E' as <-; lra|].
    rewrite Forall_forall in H2. apply Rge_le, H2, in_map. now apply nth_error_In in E'.
  - destruct i' as [|i']; [lia|]. apply (IH H1 i i'); auto. lia.
Qed.

Lemma falling_to ys : falling ys -> nonincreasing (map v ys).
Proof.
  intros H. induction ys as [|a ys IH]; [constructor|]. simpl. constructor.
  - apply IH. intros i i' y y' L E E'. apply (H (S i) (S i')); auto. lia.
  - apply Forall_forall. intros r K. apply in_map_iff in K as (y & <- & K). apply In_nth_error in K as [i E].
    apply Rle_ge, (H 0%nat (S i) a y); auto. lia.
Qed.

Lemma unit_0 : unit_f64 (a0 DArith).
Proof. split; [reflexivity|]. change (B2R (a0 DArith)) with 0. lra. Qed.

Lemma count_lt_D x l : unit_f64 x -> Forall unit_f64 l ->
  (count_lt DArith x l <= length l)%nat /\
  (forall i a, (i < count_lt DArith x l)%nat -> nth_error l i = Some a -> v a < v x) /\
  (forall a, nth_error l (count_lt DArith x l) = Some a -> v x <= v a).
Proof.
  intros Ux. induction 1 as [|b l Ub Ul IH]; cbn [count_lt].
  - simpl. split; [lia|]. split; [intros; lia|]. intros a E. discriminate.
  - assert (D := D_lt_v b x (proj1 Ub) (proj1 Ux)). destruct (a_lt DArith b x).
    + destruct IH as [I1 [I2 I3]]. split; [apply le_n_S, I1|]. split; [|exact I3].
      intros [|i] a K E; simpl in E; [injection E as <-; now apply D|]. apply (I2 i); auto. lia.
    + split; [simpl; lia|]. split; [intros; lia|]. simpl. intros a [= <-].
      destruct (Rlt_dec (v b) (v x)) as [L|L]; [apply D in L; discriminate|lra].
Qed.

Lemma advance_D xs j x : Forall unit_f64 xs -> unit_f64 x -> (j <= length xs)%nat ->
  (forall i a, (i < j)%nat -> nth_error xs i = Some a -> v a < v x) ->
  let k := (j + count_lt DArith x (skipn j xs))%nat in
  (k <= length xs)%nat /\ (forall i a, (i < k)%nat -> nth_error xs i = Some a -> v a < v x) /\
  (forall a, nth_error xs k = Some a -> v x <= v a).
Proof.
  intros U Ux Hj Hb k. destruct (count_lt_D x (skipn j xs)) as [C1 [C2 C3]]; [exact Ux| |].
  { rewrite Forall_forall in *. intros a K. apply U. rewrite <- (firstn_skipn j xs). apply in_or_app. now right. }
  rewrite skipn_length in C1. unfold k. split; [lia|]. split.
  - intros i a K E. destruct (Nat.lt_ge_cases i j) as [L|L]; [eauto|].
    apply (C2 (i - j)%nat); [lia|]. rewrite Curves.nth_error_skipn'. replace (j + (i - j))%nat with i by lia. exact E.
  - intros a E. apply C3. rewrite Curves.nth_error_skipn'. exact E.
Qed.

Lemma unit_nth l i d : Forall unit_f64 l -> nth_error l i = Some d -> unit_f64 d.
Proof. intros H E. rewrite Forall_forall in H. apply H. now apply nth_error_In in E. Qed.

(** A value is 0 or, for steps, a value of the curve from the index on. *)
Lemma sample_loop_D linear xs ys dst : Forall unit_f64 xs -> Forall unit_f64 ys -> (length xs <= length ys)%nat ->
  Forall unit_f64 dst -> nondecreasing (map v dst) ->
  forall j, (j <= length xs)%nat ->
  (forall x i a, In x dst -> (i < j)%nat -> nth_error xs i = Some a -> v a < v x) ->
  exists out, sample_loop DArith xs ys linear j dst = Ok out /\ Forall unit_f64 out /\
    (linear = false -> (falling ys -> nonincreasing (map v out)) /\
       forall y, In y out -> v y = 0 \/ exists k, (j <= k < length xs)%nat /\ nth_error ys k = Some y).
Proof.
  intros Ux Uy Hl. induction dst as [|x dst IH]; intros Ud Hs j Hj Hb.
  { exists []. split; [reflexivity|]. split; [constructor|]. intros _. split; [constructor|]. intros y []. }
  inversion Ud as [|? ? Ud1 Ud2]; subst. inversion Hs as [|? ? Hs1 Hs2]; subst. rewrite Forall_forall in Hs2.
  destruct (advance_D xs j x Ux Ud1 Hj (fun i a => Hb x i a (or_introl eq_refl))) as [K1 [K2 K3]].
  rewrite Curves.sample_loop_cons. cbv zeta in K1, K2, K3. unfold Curves.sample_at. change (num DArith) with f64 in *.
  assert (Jk : (j <= j + count_lt DArith x (skipn j xs))%nat) by lia.
  set (k := (j + count_lt DArith x (skipn j xs))%nat) in *. clearbody k.
  destruct (IH Ud2 Hs1 k K1) as (out & E & F & S).
  { intros z i a Kz Ki Ea. apply Rlt_le_trans with (v x); [eauto|]. apply Hs2, in_map, Kz. }
  rewrite E. cbn [obind].
  destruct (Nat.eqb_spec k (length xs)) as [Ek|Nk].
  - exists (a0 DArith :: out). split; [reflexivity|]. split; [constructor; [exact unit_0|exact F]|].
    intros El. destruct (S El) as [S1 S2].
    assert (Z0 : forall y, In y out -> v y = 0).
    { intros y Iy. destruct (S2 y Iy) as [Y|(k' & Y & _)]; [exact Y|lia]. }
    split.
    + intros Hf. simpl. constructor; [exact (S1 Hf)|]. apply Forall_forall. intros r Ir. apply in_map_iff in Ir as (y & <- & Iy).
      rewrite (Z0 y Iy). apply Rle_ge. apply unit_0.
    + intros y [<-|Iy]; left; [reflexivity|auto].
  - assert (Kl : (k < length xs)%nat) by lia.
    destruct (Curves.at_ok xs k Kl) as [b [Eb Nb]]. destruct (Curves.at_ok ys k ltac:(lia)) as [q [Ev Nv]].
    destruct (negb linear || Nat.eqb k 0) eqn:D.
    + rewrite Ev. cbn [obind]. exists (q :: out). split; [reflexivity|]. split; [constructor; [exact (unit_nth _ _ _ Uy Nv)|exact F]|].
      intros El. destruct (S El) as [S1 S2]. split.
      * intros Hf. simpl. constructor; [exact (S1 Hf)|]. apply Forall_forall. intros r Ir. apply in_map_iff in Ir as (y & <- & Iy).
        apply Rle_ge. destruct (S2 y Iy) as [->|(k' & Lk & Ny)]; [apply (unit_nth _ _ _ Uy Nv)|].
        apply (Hf k k'); auto. lia.
      * intros y [<-|Iy]; [right; exists k; split; [lia|exact Nv]|].
        destruct (S2 y Iy) as [Y|(k' & Lk & Ny)]; [now left|]. right. exists k'. split; [lia|exact Ny].
    + apply orb_false_elim in D. destruct D as [D1 D2]. apply Nat.eqb_neq in D2. destruct linear; [|discriminate].
      destruct k as [|k']; [congruence|]. replace (Datatypes.S k' - 1)%nat with k' by lia.
      destruct (Curves.at_ok xs k' ltac:(lia)) as [a [Ea Na]]. destruct (Curves.at_ok ys k' ltac:(lia)) as [p [Eu Nu]].
      rewrite Eb, Ea. cbn [obind]. rewrite Eu, Ev. cbn [obind]. eexists. split; [reflexivity|].
      split; [|discriminate]. constructor; [|exact F].
      exact (unit_lerp b a x p q (unit_nth _ _ _ Ux Nb) (unit_nth _ _ _ Ux Na) Ud1
        (conj (K2 k' a (le_n _) Na) (K3 b Nb)) (unit_nth _ _ _ Uy Nu) (unit_nth _ _ _ Uy Nv)).
Qed.

(** ** The points *)

Lemma even_points_D n i x : (Z.of_nat n <= 2 ^ 53)%Z -> nth_error (even_points DArith n) i = Some x ->
  (1 < n)%nat /\ (i < n)%nat /\ is_double x (nearest64 (INR i / INR (n - 1))).
Proof.
  intros L E. unfold even_points in E. destruct (Nat.ltb_spec 1 n) as [N|N]; [|destruct i; discriminate].
  apply Metrics.nth_error_map_seq_inv in E as [Li ->]. split; [exact N|]. split; [exact Li|].
  cbn [a_div a_nat DArith].
  destruct (wholef_nat i) as [F1 V1]; [lia|]. destruct (wholef_nat (n - 1)) as [F2 V2]; [lia|].
  destruct (div01 (f64_of_Z (Z.of_nat i)) (f64_of_Z (Z.of_nat (n - 1)))) as [F V]; auto.
  - rewrite V1, V2. split; apply IZR_le; lia.
  - rewrite V2. apply IZR_lt. lia.
  - split; [exact F|]. rewrite V, V1, V2, <- !INR_IZR_INZ. reflexivity.
Qed.

Lemma even_01 n i : (1 < n)%nat -> (i < n)%nat -> 0 <= INR i / INR (n - 1) <= 1.
Proof.
  intros N L. apply ratio01; [split; [apply pos_INR|apply le_INR; lia]|]. apply lt_0_INR. lia.
Qed.

Lemma even_points_unit n : (Z.of_nat n <= 2 ^ 53)%Z -> Forall unit_f64 (even_points DArith n).
Proof.
  intros L. apply Forall_forall. intros x K. apply In_nth_error in K as [i E].
  destruct (even_points_D n i x L E) as (N & Li & F & V). split; [exact F|]. rewrite V, nearest_rnd.
  apply rnd64_01, even_01; assumption.
Qed.

Lemma even_points_rise n : (Z.of_nat n <= 2 ^ 53)%Z -> nondecreasing (map v (even_points DArith n)).
Proof.
  intros L. assert (G : forall i i' x x', (i <= i')%nat -> nth_error (even_points DArith n) i = Some x ->
    nth_error (even_points DArith n) i' = Some x' -> v x <= v x').
  { intros i i' x x' Li E E'. destruct (even_points_D n i x L E) as (N & _ & _ & V).
    destruct (even_points_D n i' x' L E') as (_ & _ & _ & V'). unfold v. rewrite V, V', !nearest_rnd.
    apply rnd64_le. unfold Rdiv. apply Rmult_le_compat_r; [|apply le_INR, Li].
    left. apply Rinv_0_lt_compat, lt_0_INR. lia. }
  clear L. revert G. generalize (even_points DArith n). change (num DArith) with f64. intros l G.
  induction l as [|a l IH]; [constructor|]. simpl. constructor.
  - apply IH. intros i i' x x' Li E E'. apply (G (S i) (S i')); auto. lia.
  - apply Forall_forall. intros r K. apply in_map_iff in K as (y & <- & K). apply In_nth_error in K as [i E].
    apply (G 0%nat (S i) a y); auto. lia.
Qed.

(** ** The curve of a ranking *)

Lemma curve_D {RE HE} (score : HE -> f32) (l : list (match_t RE HE)) n col int linear :
  (forall m, In m l -> zero_one (m_err m)) -> (Z.of_nat (length l) <= 2 ^ 53)%Z -> (Z.of_nat n <= 2 ^ 53)%Z ->
  exists ys, (let (pr, rc) := precision_recall_matches DArith score l col int in
      sample_curve DArith rc pr (even_points DArith n) linear) = Ok ys /\
    length ys = length (even_points DArith n) /\ Forall unit_f64 ys /\
    (int = true -> linear = false -> falling ys).
Proof.
  intros Z L N. assert (Len := MeanCurve.pr_rc_length DArith RE HE score l col int).
  destruct (precision_recall_matches DArith score l col int) as [pr rc] eqn:E. cbn [fst snd] in Len.
  destruct (matches_D_bounds RE HE score l col int pr rc Z L E) as (U1 & U2 & _ & Fa).
  assert (Le : (length rc <= length pr)%nat) by (change (num DArith) with f64 in *; lia).
  destruct (Finish.sample_curve_ok (A := DArith) rc pr (even_points DArith n) linear Le) as (ys & Ey & Ly).
  exists ys. split; [exact Ey|]. split; [exact Ly|]. unfold sample_curve in Ey.
  assert (Gn := even_points_unit n N). assert (Gr := even_points_rise n N).
  assert (J : forall x i a, In x (even_points DArith n) -> (i < 0)%nat -> nth_error rc i = Some a -> v a < v x) by (intros; lia).
  assert (Same : forall out, sample_loop DArith rc pr linear 0 (even_points DArith n) = Ok out -> out = ys).
  { intros out Eo. rewrite Eo in Ey. now injection Ey. }
  destruct (sample_loop_D linear rc pr _ U2 U1 Le Gn Gr 0 (Nat.le_0_l _) J) as (out & Eo & Uo & So).
  rewrite <- (Same out Eo). split; [exact Uo|]. intros Hi Hl. apply falling_of. now apply (So Hl), falling_of, Fa.
Qed.

(** ** Means *)

Definition sumok (k : nat) (s : f64) : Prop := is_finite s = true /\ 0 <= v s <= INR k.

Lemma sumok_add k s y : (Z.of_nat (S k) <= 2 ^ 53)%Z -> sumok k s -> unit_f64 y ->
  sumok (S k) (f64_add s y) /\ v (f64_add s y) = rnd64 (v s + v y).
Proof.
  intros L [Fs Hs] [Fy Hy]. fold (v y) in Hy. assert (B : 0 <= v s + v y <= INR (S k)) by (rewrite S_INR; lra).
  assert (K : INR (S k) <= bpow radix2 53).
  { rewrite INR_IZR_INZ. change (bpow radix2 53) with (IZR (2 ^ 53)). apply IZR_le, L. }
  destruct (f64_plus_correct s y 53) as [V F]; auto; [exps|fold (v s) (v y); rewrite Rabs_right; lra|].
  fold (f64_add s y) in V, F. split; [|exact V]. split; [exact F|]. unfold v at 1 2. rewrite V.
  split; [apply rnd64_nonneg, B|]. apply rnd64_le_fmt64; [|apply B]. rewrite INR_IZR_INZ. apply fmt64_Z. lia.
Qed.

Lemma sum_D i i' (curves : list (list f64)) : forall k s s', (Z.of_nat (k + length curves) <= 2 ^ 53)%Z ->
  sumok k s -> sumok k s' -> v s' <= v s ->
  (forall ys, In ys curves -> exists y y', nth_error ys i = Some y /\ nth_error ys i' = Some y' /\
     unit_f64 y /\ unit_f64 y' /\ v y' <= v y) ->
  exists r r', ofold (fun s ys => obind (at_ ys i) (fun y => Ok (a_add DArith s y))) curves s = Ok r /\
    ofold (fun s ys => obind (at_ ys i') (fun y => Ok (a_add DArith s y))) curves s' = Ok r' /\
    sumok (k + length curves) r /\ sumok (k + length curves) r' /\ v r' <= v r.
Proof.
  induction curves as [|ys curves IH]; intros k s s' L S1 S2 Le H.
  - exists s, s'. rewrite Nat.add_0_r. auto.
  - destruct (H ys (or_introl eq_refl)) as (y & y' & E & E' & U & U' & Ly). cbn [length] in L.
    destruct (sumok_add k s y ltac:(lia) S1 U) as [T1 V1]. destruct (sumok_add k s' y' ltac:(lia) S2 U') as [T2 V2].
    destruct (IH (S k) (f64_add s y) (f64_add s' y')) as (r & r' & R1 & R2 & R3 & R4 & R5); auto; [lia| | |].
    + rewrite V1, V2. apply rnd64_le. lra.
    + intros z K. apply H. now right.
    + exists r, r'. cbn [ofold length]. rewrite <- plus_n_Sm. unfold at_ at 1 3. change (num DArith) with f64 in *.
      rewrite E, E'. cbn [obind]. split; [exact R1|]. split; [exact R2|]. auto.
Qed.

Lemma mean_div k s : (0 < k)%nat -> (Z.of_nat k <= 2 ^ 53)%Z -> sumok k s ->
  unit_f64 (f64_div s (f64_of_Z (Z.of_nat k))) /\ v (f64_div s (f64_of_Z (Z.of_nat k))) = rnd64 (v s / INR k).
Proof.
  intros P L [F H]. destruct (wholef_nat k L) as [Fk Vk]. rewrite <- INR_IZR_INZ in Vk.
  assert (P' : 0 < INR k) by (apply lt_0_INR, P).
  destruct (div01 s (f64_of_Z (Z.of_nat k))) as [Fd Vd]; auto; [rewrite Vk; exact H|rewrite Vk; exact P'|].
  rewrite Vk in Vd. split; [|exact Vd]. split; [exact Fd|]. rewrite Vd. apply rnd64_01, ratio01; [exact H|exact P'].
Qed.

(** ** The files *)

Lemma snd_combine {X Y} (xs : list X) (ys : list Y) : length xs = length ys -> map snd (combine xs ys) = ys.
Proof. revert ys. induction xs as [|x xs IH]; intros [|y ys] L; simpl in *; try discriminate; auto. f_equal. apply IH. lia. Qed.

Section Files.
  Context {RE E : Type}.
  Notation M := (match_t RE (scored E)).

  Lemma rounded_of c ys : (cf_curve c <= 2 ^ 53)%Z ->
    length ys = length (even_points DArith (Z.to_nat (cf_curve c))) -> Forall unit_f64 ys ->
    (cf_interp c = true -> cf_trapezoid c = false -> falling ys) ->
    rounded_curve c (combine (even_points DArith (Z.to_nat (cf_curve c))) ys).
  Proof.
    intros N L U Fa. assert (N' : (Z.of_nat (Z.to_nat (cf_curve c)) <= 2 ^ 53)%Z) by lia.
    set (xs := even_points DArith (Z.to_nat (cf_curve c))) in *.
    assert (At : forall i x y, nth_error (combine xs ys) i = Some (x, y) -> nth_error xs i = Some x /\ nth_error ys i = Some y).
    { clear. change (num DArith) with f64 in *. generalize xs. clear xs. intros xs. revert ys.
      induction xs as [|a xs IH]; intros [|b ys] [|i] x y K; simpl in *; try discriminate; [injection K as <- <-; auto|auto]. }
    split; [exact (Printed.sampled_points (A := DArith) c ys L)|]. split.
    - intros i x y K. apply At in K as [K K']. destruct (even_points_D _ i x N' K) as (_ & _ & D).
      split; [exact D|exact (unit_nth _ _ _ U K')].
    - intros Hi Ht. assert (Q : map (fun p => v (snd p)) (combine xs ys) = map v ys).
      { rewrite <- (map_map snd v). f_equal. apply snd_combine. symmetry. exact L. }
      refine (eq_ind_r nonincreasing _ Q). apply falling_to, Fa; assumption.
  Qed.

  Lemma global_D c (ms : list M) pts : (cf_curve c <= 2 ^ 53)%Z -> (forall m, In m ms -> zero_one (m_err m)) ->
    (Z.of_nat (length ms) <= 2 ^ 53)%Z -> Finish.global_points (A := DArith) c ms pts -> rounded_curve c pts.
  Proof.
    intros N Z L (ys & -> & Ly & H).
    destruct (curve_D sc_score ms (Z.to_nat (cf_curve c)) (cf_collapse c) (cf_interp c) (cf_trapezoid c) Z L ltac:(lia))
      as (ys' & E' & _ & U & Fa).
    destruct (precision_recall_matches DArith sc_score ms (cf_collapse c) (cf_interp c)) as [pr rc].
    rewrite H in E'. injection E' as <-. apply rounded_of; auto.
  Qed.

  Lemma mean_D w c (gs : list (list M)) pts : (cf_curve c <= 2 ^ 53)%Z -> cf_mrp c <> [] -> gs <> [] ->
    (forall g, In g gs -> (forall m, In m g -> zero_one (m_err m)) /\ (Z.of_nat (length g) <= 2 ^ 53)%Z) ->
    (Z.of_nat (length gs) <= 2 ^ 53)%Z -> Finish.mean_points (A := DArith) w c gs pts -> rounded_curve c pts.
  Proof.
    intros N Nm Ng G L (ys & Ep & Ly & H). specialize (H Nm). unfold write_mean_curve in H.
    assert (N' : (Z.of_nat (Z.to_nat (cf_curve c)) <= 2 ^ 53)%Z) by lia.
    set (xs := even_points DArith (Z.to_nat (cf_curve c))) in *.
    destruct (MeanCurve.omap_ok (fun g : list M =>
        let (pr, rc) := precision_recall_matches DArith sc_score g (cf_collapse c) (cf_interp c) in
        sample_curve DArith rc pr xs (cf_trapezoid c))
      (fun _ ys => length ys = length xs /\ Forall unit_f64 ys /\
         (cf_interp c = true -> cf_trapezoid c = false -> falling ys)) gs) as [curves [E1 F1]].
    { intros g K. destruct (G g K) as [Z Lg]. exact (curve_D sc_score g _ (cf_collapse c) (cf_interp c) (cf_trapezoid c) Z Lg N'). }
    rewrite E1 in H. cbn [run] in H. rewrite Tool.pbind_nil in H.
    assert (Lc : length curves = length gs) by (symmetry; exact (Grouping.Forall2_len _ _ _ F1)).
    assert (Fc : forall ys, In ys curves -> length ys = length xs /\ Forall unit_f64 ys /\
         (cf_interp c = true -> cf_trapezoid c = false -> falling ys)).
    { clear - F1. intros ys K. induction F1 as [|g z gs cs Hz F IH]; [destruct K|]. destruct K as [<-|K]; auto. }
    assert (P : (0 < length gs)%nat) by (destruct gs; [easy|simpl; lia]).
    assert (S0 : sumok 0 (a0 DArith)) by (split; [reflexivity|]; change (v (a0 DArith)) with 0; simpl; lra).
    assert (Two : forall i i', (i < length xs)%nat -> (i' < length xs)%nat ->
      (forall z y y', In z curves -> nth_error z i = Some y -> nth_error z i' = Some y' -> v y' <= v y) ->
      exists r r', sum_at DArith i curves = Ok r /\ sum_at DArith i' curves = Ok r' /\
        sumok (length gs) r /\ sumok (length gs) r' /\ v r' <= v r).
    { intros i i' Li Li' Le. assert (L' : (Z.of_nat (0 + length curves) <= 2 ^ 53)%Z) by (cbn [plus]; rewrite Lc; exact L).
      assert (Q := fun K => sum_D i i' curves 0 (a0 DArith) (a0 DArith) L' S0 S0 (Rle_refl _) K).
      cbn [plus] in Q. assert (Lc' : @length (list f64) curves = length gs) by exact Lc. rewrite Lc' in Q. apply Q. clear Q.
      intros z K. destruct (Fc z K) as (Lz & Uz & _).
      destruct (nth_error z i) as [y|] eqn:Ey; [|apply nth_error_None in Ey; change (num DArith) with f64 in *; lia].
      destruct (nth_error z i') as [y'|] eqn:Ey'; [|apply nth_error_None in Ey'; change (num DArith) with f64 in *; lia].
      exists y, y'. split; [reflexivity|]. split; [reflexivity|]. split; [exact (unit_nth _ _ _ Uz Ey)|].
      split; [exact (unit_nth _ _ _ Uz Ey')|]. exact (Le z y y' K Ey Ey'). }
    destruct (MeanCurve.omap_ok (fun i => obind (sum_at DArith i curves)
        (fun s => Ok (a_div DArith s (a_nat DArith (length gs)))))
      (fun i y => exists s, sum_at DArith i curves = Ok s /\ sumok (length gs) s /\
         y = f64_div s (f64_of_Z (Z.of_nat (length gs)))) (seq 0 (length xs))) as [zs [E2 F2]].
    { intros i K. apply in_seq in K. destruct (Two i i ltac:(lia) ltac:(lia)) as (r & _ & Er & _ & Sr & _).
      - intros z y y' _ Ea Eb. rewrite Ea in Eb. injection Eb as ->. lra.
      - exists (f64_div r (f64_of_Z (Z.of_nat (length gs)))). rewrite Er. split; [reflexivity|]. exists r. auto. }
    rewrite E2 in H. cbn [run] in H. rewrite Tool.pbind_nil in H.
    assert (Lz : length zs = length xs) by (rewrite <- (Grouping.Forall2_len _ _ _ F2), seq_length; reflexivity).
    assert (Pz : pts = combine xs zs).
    { revert H. unfold write_curve. destruct (cf_mrp c) as [|b nm]; [easy|]. rewrite Lz, Nat.eqb_refl.
      destruct (w_writable w (b :: nm)); cbn [run]; intros H; [|discriminate H].
      rewrite Tool.pbind_nil in H. unfold emit in H. now injection H. }
    assert (At : forall i y, nth_error zs i = Some y -> (i < length xs)%nat /\ exists s, sum_at DArith i curves = Ok s /\
       sumok (length gs) s /\ y = f64_div s (f64_of_Z (Z.of_nat (length gs)))).
    { intros i y K. split; [rewrite <- Lz; apply nth_error_Some; congruence|].
      destruct (MeanCurve.Forall2_nth_r _ _ _ _ _ F2 K) as (j & Ej & Hj). apply MeanCurve.nth_error_seq in Ej. subst j. exact Hj. }
    rewrite Pz. apply rounded_of; [exact N|exact Lz| |].
    - apply Forall_forall. intros y K. apply In_nth_error in K as [i K]. destruct (At i y K) as (_ & s & _ & Ss & ->).
      apply mean_div; assumption.
    - intros Hi Ht i i' y y' Li K K'. destruct (At i y K) as (B & s & Es & Ss & ->). destruct (At i' y' K') as (B' & s' & Es' & Ss' & ->).
      destruct (Two i i' B B') as (r & r' & Er & Er' & _ & _ & Le).
      { intros z a a' Iz. destruct (Fc z Iz) as (_ & _ & Fz). apply (Fz Hi Ht); exact Li. }
      rewrite Es in Er. injection Er as <-. rewrite Es' in Er'. injection Er' as <-.
      destruct (mean_div _ s P L Ss) as [_ ->]. destruct (mean_div _ s' P L Ss') as [_ ->].
      apply rnd64_le. unfold Rdiv. apply Rmult_le_compat_r; [|exact Le]. left. apply Rinv_0_lt_compat, lt_0_INR, P.
  Qed.
End Files.

(** ** The programs *)

Section Counts.
  Context {Q RE E : Type}.
  Variables (lte : E -> E -> bool) (cr : Cmp RE) (Hr : total_order cr) (rq : RE -> Q) (hq : E -> Q).
  Variables (S : EvSet RE (scored E)) (R : list RE -> scored E -> list RE -> Prop) (HS : finds S R).
  Variable scorer : RE -> scored E -> match_error.
  Hypothesis Z01 : forall r h, zero_one (scorer r h).

  Lemma eval_counts crit f refs hyps ms log groups :
    evaluation lte (c_lt cr) rq hq R scorer crit f refs hyps ms log groups ->
    (forall m, In m ms -> zero_one (m_err m)) /\ (length ms <= length refs + length hyps)%nat /\
    (forall g, In g groups -> (forall m, In m g -> zero_one (m_err m)) /\ (length g <= length ms)%nat).
  Proof.
    intros Ev. assert (Z := Evaluation.eval_zero_one lte cr rq hq R scorer crit f refs hyps ms log groups Ev Z01).
    split; [exact Z|]. split; [exact (Evaluation.eval_length lte cr Hr rq hq S R HS scorer crit f refs hyps ms log groups Ev)|].
    intros g K. destruct (Evaluation.eval_group_in lte cr rq hq R scorer crit f refs hyps ms log groups Ev g K) as [_ Sg].
    split; [|exact (Printed.sublist_length _ _ Sg)]. intros m I. apply Z. exact (Evaluation.sublist_in _ _ Sg m I).
  Qed.
End Counts.

Lemma icdar_counts srt crit f refs hyps ms log groups : sort_contract srt ->
  icdar17_evaluation crit f refs hyps ms log groups ->
  (forall m, In m ms -> zero_one (m_err m)) /\ (length ms <= length refs + length hyps)%nat /\
  (forall g, In g groups -> (forall m, In m g -> zero_one (m_err m)) /\ (length g <= length ms)%nat) /\
  (length groups <= length ms)%nat.
Proof.
  intros Hs Ev.
  destruct (eval_counts (c_lt cmp_shaped) cmp_shaped Order.total_order_shaped ev_query ev_query (evset_docbox srt cmp_str) (box_search cmp_str)
      (Matching.finds_docbox srt cmp_str Hs Order.total_order_str) (fun r h => ioh_scorer cmp_str f32_half r (sc_base h))
      (fun r h => Instances.zero_one_ioh _ _) crit f refs hyps ms log groups Ev) as (A & B & C).
  split; [exact A|]. split; [exact B|]. split; [exact C|].
  exact (Printed.groups_length _ _ _ _ _ (Printed.icdar_grouping _ _ _ _ _ _ _ Ev)).
Qed.

Lemma simple_counts id crit f refs hyps ms log groups : (forall s s', id s = id s' -> s = s') ->
  simple_evaluation id crit f refs hyps ms log groups ->
  (forall m, In m ms -> zero_one (m_err m)) /\ (length ms <= length refs + length hyps)%nat /\
  (forall g, In g groups -> (forall m, In m g -> zero_one (m_err m)) /\ (length g <= length ms)%nat) /\
  (length groups <= length ms)%nat.
Proof.
  intros Inj Ev.
  destruct (eval_counts (c_lt (Results.by_id id)) (Results.by_id id) (Results.by_id_total id Inj) ev_query ev_query
      (evset_generic (Results.by_id id)) exact_search
      (Matching.finds_generic (Results.by_id id) (Results.by_id_total id Inj)) (fun r h => trivial_scorer cmp_str cmp_str r (sc_base h))
      (fun r h => Instances.zero_one_trivial _ _ r (sc_base h)) crit f refs hyps ms log groups Ev) as (A & B & C).
  split; [exact A|]. split; [exact B|]. split; [exact C|].
  exact (Printed.groups_length _ _ _ _ _ (Printed.simple_grouping _ _ _ _ _ _ _ _ Ev)).
Qed.
