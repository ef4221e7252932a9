(** The mean recall-precision curve. *)
From Coq Require Import List Bool ZArith Arith Reals Lra Lia Sorted.
From Flocq Require Import Core BinarySingleNaN.
From Verif.Model Require Import Cpp Floats Matches Assessment Tool.
From Verif.Spec Require Import Order Objects Collapse Metrics Curves.
From Verif.Proofs Require Import Metrics Curves.
Import ListNotations.
Local Open Scope R_scope.

Lemma even_points_length_R n : @length R (even_points RArith n) = if Nat.ltb 1 n then n else 0%nat.
Proof. exact (even_points_length RArith n). Qed.

Lemma even_points_even n : evenly_spaced n (even_points RArith n).
Proof.
  destruct (Nat.le_gt_cases n 1) as [L|L].
  - left. split; [exact L|]. exact (even_points_small n L RArith).
  - right. split; [exact L|]. split.
    + rewrite even_points_length_R. destruct (Nat.ltb_spec 1 n); [reflexivity|lia].
    + intros i x E. assert (K : (i < @length R (even_points RArith n))%nat) by (apply nth_error_Some; congruence).
      rewrite even_points_length_R in K. destruct (Nat.ltb_spec 1 n); [|lia].
      rewrite even_points_nth in E by lia. congruence.
Qed.

Lemma omap_ok {A B} (f : A -> outcome B) (P : A -> B -> Prop) l :
  (forall x, In x l -> exists y, f x = Ok y /\ P x y) -> exists ys, omap f l = Ok ys /\ Forall2 P l ys.
Proof.
  induction l as [|x l IH]; intros H; [exists []; split; [reflexivity|constructor]|].
  destruct (H x (or_introl eq_refl)) as [y [E Py]].
  destruct IH as [ys [F Q]]; [intros; apply H; simpl; auto|].
  exists (y :: ys). simpl. rewrite E. simpl. rewrite F. split; [reflexivity|]. constructor; auto.
Qed.

Lemma Forall2_nth {A B} (P : A -> B -> Prop) a b i x : Forall2 P a b -> nth_error a i = Some x ->
  exists y, nth_error b i = Some y /\ P x y.
Proof.
  intros H. revert i. induction H as [|u v a b Huv HF IH]; intros [|i] E; simpl in *; try discriminate.
  - injection E as <-. eauto.
  - auto.
Qed.

Lemma Forall2_nth_r {A B} (P : A -> B -> Prop) a b i y : Forall2 P a b -> nth_error b i = Some y ->
  exists x, nth_error a i = Some x /\ P x y.
Proof.
  intros H. revert i. induction H as [|u v a b Huv HF IH]; intros [|i] E; simpl in *; try discriminate.
  - injection E as <-. eauto.
  - auto.
Qed.

Lemma nth_error_seq k n i j : nth_error (seq k n) i = Some j -> j = (k + i)%nat.
Proof.
  revert k i. induction n as [|n IH]; intros k [|i] E; simpl in E; try discriminate.
  - injection E as <-. lia.
  - apply IH in E. lia.
Qed.

Lemma pr_rc_length A RE HE (score : HE -> f32) (g : list (match_t RE HE)) c i :
  length (fst (precision_recall_matches A score g c i)) = length (snd (precision_recall_matches A score g c i)).
Proof.
  unfold precision_recall_matches, precision_recall. simpl.
  destruct i; rewrite ?Metrics.interp_length, !map_length; reflexivity.
Qed.

Section MeanCurve.
  Context {RE HE : Type} (score : HE -> f32).
  Notation M := (match_t RE HE).

  Definition group_value (col int trap : bool) (x : R) (g : list M) (v : R) : Prop :=
    let (pr, rc) := precision_recall_matches RArith score g col int in curve_value trap rc pr x v.

  Lemma sum_at_spec i curves vs s : Forall2 (fun ys v => nth_error ys i = Some v) curves vs ->
    ofold (fun s ys => obind (at_ ys i) (fun y => Ok (a_add RArith s y))) curves s =
      Ok (s + sum_of (fun v => v) vs).
  Proof.
    intros H. revert s. induction H as [|ys v curves vs E HF IH]; intros s; simpl.
    - f_equal. lra.
    - change (num RArith) with R in *. unfold at_ at 1. rewrite E. cbn [obind]. rewrite IH. f_equal. simpl. lra.
  Qed.

  Lemma columns n (gs : list (list M)) curves (P : R -> list M -> R -> Prop) xs :
    length xs = n ->
    Forall2 (fun g ys => Forall2 (fun x v => P x g v) xs ys) gs curves ->
    forall i x, nth_error xs i = Some x ->
    exists vs, Forall2 (fun ys v => nth_error ys i = Some v) curves vs /\ Forall2 (P x) gs vs.
  Proof.
    intros L H i x E. induction H as [|g ys gs curves Hg HF IH]; [exists []; auto|].
    destruct IH as [vs [V1 V2]]. destruct (Forall2_nth _ _ _ _ _ Hg E) as [v [Ev Pv]].
    exists (v :: vs). auto.
  Qed.

  Lemma mean_curve_spec (w : world) c (groups : list (list M)) : groups <> [] ->
    cf_mrp c <> [] -> w_writable w (cf_mrp c) = true ->
    exists pts, write_mean_curve RArith score w c groups = ([EWrite (cf_mrp c) (FCurve pts)], inl tt) /\
      evenly_spaced (Z.to_nat (cf_curve c)) (map fst pts) /\
      forall x y, In (x, y) pts ->
        exists vs, Forall2 (group_value (cf_collapse c) (cf_interp c) (cf_trapezoid c) x) groups vs /\ is_mean vs y.
  Proof.
    intros Hn Hf Hw. unfold write_mean_curve.
    set (n := Z.to_nat (cf_curve c)). set (xs := even_points RArith n).
    assert (Sx : nondecreasing xs) by (apply sorted_lt_le, even_points_sorted).
    destruct (omap_ok (fun g : list M =>
        let (pr, rc) := precision_recall_matches RArith score g (cf_collapse c) (cf_interp c) in
        sample_curve RArith rc pr xs (cf_trapezoid c))
      (fun g ys => Forall2 (fun x v => group_value (cf_collapse c) (cf_interp c) (cf_trapezoid c) x g v) xs ys) groups)
      as [curves [E1 F1]].
    { intros g K. unfold group_value.
      assert (L := pr_rc_length RArith RE HE score g (cf_collapse c) (cf_interp c)).
      destruct (precision_recall_matches RArith score g (cf_collapse c) (cf_interp c)) as [pr rc]. simpl in L.
      apply sample_curve_spec; [change (num RArith) with R in *; rewrite L; apply le_n|exact Sx]. }
    change (num RArith) with R in *. rewrite E1. cbn [run pbind].
    destruct (omap_ok (fun i => obind (sum_at RArith i curves)
        (fun s => Ok (a_div RArith s (a_nat RArith (length groups)))))
      (fun i y => forall x, nth_error xs i = Some x ->
         exists vs, Forall2 (group_value (cf_collapse c) (cf_interp c) (cf_trapezoid c) x) groups vs /\ is_mean vs y)
      (seq 0 (length xs))) as [ys [E2 F2]].
    { intros i K. apply in_seq in K. destruct (nth_error xs i) as [x|] eqn:Ex.
      2: { apply nth_error_None in Ex. lia. }
      destruct (columns (length xs) groups curves
        (group_value (cf_collapse c) (cf_interp c) (cf_trapezoid c)) xs eq_refl F1 i x Ex) as [vs [V1 V2]].
      unfold sum_at. rewrite (sum_at_spec i curves vs _ V1). cbn [obind]. eexists. split; [reflexivity|].
      intros x' [= <-]. exists vs. split; [exact V2|]. right.
      assert (Lv : length groups = length vs) by (eapply Forall2_len; exact V2).
      split; [intros ->; destruct groups; [congruence|discriminate]|].
      assert (0 < INR (length vs)) by (apply lt_0_INR; rewrite <- Lv; destruct groups; [congruence|simpl; lia]).
      rewrite Lv. change (a0 RArith) with 0. cbn [a_div a_nat RArith]. field. lra. }
    change (num RArith) with R in *. rewrite E2. cbn [run pbind app].
    unfold write_curve. destruct (cf_mrp c) as [|ch nm] eqn:En; [congruence|].
    assert (Ly : length xs = length ys) by (rewrite <- (Forall2_len _ _ _ F2), seq_length; reflexivity).
    change (num RArith) with R. rewrite <- Ly, Nat.eqb_refl, Hw. cbn [run pbind app].
    exists (combine xs ys). split; [reflexivity|]. split.
    - assert (Ef : map fst (combine xs ys) = xs).
      { clear - Ly. revert ys Ly. induction xs as [|x xs IH]; intros [|y ys] L; simpl in *; try discriminate; auto.
        f_equal. apply IH. lia. }
      change (num RArith) with R in Ef. rewrite Ef. apply even_points_even.
    - intros x y K. apply In_nth_error in K. destruct K as [i K].
      assert (Ki : nth_error xs i = Some x /\ nth_error ys i = Some y).
      { clear - K. clearbody xs. revert xs ys K. induction i as [|i IH]; intros [|a xs] [|b ys] K; simpl in *; try discriminate.
        - injection K as -> ->. auto.
        - apply IH in K. exact K. }
      destruct Ki as [Kx Ky]. destruct (Forall2_nth_r _ _ _ _ _ F2 Ky) as [j [Kj H]].
      apply nth_error_seq in Kj. simpl in Kj. subst j. apply H. exact Kx.
  Qed.

  Lemma mean_curve_01 (w : world) c (groups : list (list M)) : groups <> [] ->
    cf_mrp c <> [] -> w_writable w (cf_mrp c) = true ->
    (forall g m, In g groups -> In m g -> fractions (m_err m)) ->
    (cf_collapse c = true -> forall g, In g groups -> ranked score g) ->
    exists pts, write_mean_curve RArith score w c groups = ([EWrite (cf_mrp c) (FCurve pts)], inl tt) /\
      forall x y, In (x, y) pts -> in01 y.
  Proof.
    intros Hn Hf Hw Hfr Hr. destruct (mean_curve_spec w c groups Hn Hf Hw) as [pts [E [_ H]]].
    exists pts. split; [exact E|]. intros x y K. destruct (H x y K) as [vs [V Mn]].
    apply (is_mean_between vs y 0 1 Mn).
    - intros ->. inversion V. congruence.
    - intros v Kv. apply In_nth_error in Kv. destruct Kv as [i Kv].
      destruct (Forall2_nth_r _ _ _ _ _ V Kv) as [g [Kg G]]. apply nth_error_In in Kg.
      unfold group_value in G.
      destruct (precision_recall_matches RArith score g (cf_collapse c) (cf_interp c)) as [pr rc] eqn:Ep.
      apply (curve_value_range _ _ _ _ _ 0 1 G); [lra|]. intros p Kp.
      destruct (cf_interp c).
      + unfold precision_recall_matches, precision_recall in Ep. injection Ep as <- <-.
        apply (interp_in RArith) in Kp.
        destruct (precision_recall_matches RArith score g (cf_collapse c) false) as [pr0 rc0] eqn:E0.
        destruct (matches_bounds RE HE score g (cf_collapse c) pr0 rc0 (fun m => Hfr g m Kg) (fun C => Hr C g Kg) E0)
          as [B _].
        apply B. unfold precision_recall_matches, precision_recall in E0. injection E0 as <- _. exact Kp.
      + destruct (matches_bounds RE HE score g (cf_collapse c) pr rc (fun m => Hfr g m Kg) (fun C => Hr C g Kg) Ep)
          as [B _]. apply B, Kp.
  Qed.

  Lemma mean_curve_no_groups (w : world) c : cf_mrp c <> [] -> w_writable w (cf_mrp c) = true ->
    exists pts, write_mean_curve (RE := RE) DArith score w c [] = ([EWrite (cf_mrp c) (FCurve pts)], inl tt) /\
      ((1 < cf_curve c)%Z -> Z.of_nat (length pts) = cf_curve c) /\
      forall x y, In (x, y) pts -> is_nan (y : f64) = true.
  Proof.
    intros Hf Hw. unfold write_mean_curve.
    set (n := Z.to_nat (cf_curve c)). set (xs := even_points DArith n). cbn [omap run pbind].
    assert (E : forall l, omap (fun i => obind (sum_at DArith i [])
        (fun s => Ok (a_div DArith s (a_nat DArith (@length (list M) []))))) l =
      Ok (map (fun _ => (B754_nan : f64)) l)).
    { induction l as [|i l IH]; [reflexivity|]. cbn [omap]. rewrite IH. reflexivity. }
    rewrite E. cbn [run pbind app]. unfold write_curve. destruct (cf_mrp c) as [|ch nm]; [congruence|].
    rewrite map_length, seq_length, Nat.eqb_refl, Hw. cbn [run pbind app].
    eexists. split; [reflexivity|]. split.
    - intros L. rewrite combine_length, map_length, seq_length, Nat.min_id. unfold xs.
      rewrite even_points_length. destruct (Nat.ltb_spec 1 n); unfold n in *; lia.
    - intros x y K. apply in_combine_r in K. apply in_map_iff in K. destruct K as [i [<- _]]. reflexivity.
  Qed.
End MeanCurve.
