(** Proofs about the scorers. *)
From Coq Require Import List ZArith Bool Reals Lra Lia Psatz Permutation.
Import ListNotations.
From Flocq Require Import Core BinarySingleNaN.
From Verif.Model Require Import Cpp Floats Box Events Matches Scorers.
From Verif.Spec Require Import Geometry Order Objects Scorers.
From Verif.Proofs Require Import Geometry Order FloatFacts.
From Verif.Proofs Require Objects.
Local Open Scope R_scope.

(** ** Areas *)

Lemma fits_area d n : fits d -> covers d n -> docbox_area d = n.
Proof.
  intros [H1 [H2 H3]] Hc. eapply cell_count_unique; [|exact Hc].
  apply area_counts_iff; auto.
Qed.

Lemma fits_shared a b n : fits a -> fits b -> shares a b n -> docbox_inter a b = n.
Proof.
  intros [A1 [A2 A3]] [B1 [B2 B3]] Hc. unfold docbox_inter.
  destruct (str_eq (db_doc a) (db_doc b)) eqn:E.
  - apply str_eq_spec in E. eapply cell_count_unique; [apply inter_counts; auto|].
    destruct Hc as [l [L1 [L2 L3]]]. exists l. split; auto. split; auto.
    intros c. rewrite L2. tauto.
  - assert (N : db_doc a <> db_doc b) by (intros K; apply str_eq_spec in K; congruence).
    eapply cell_count_unique; [|exact Hc]. exists nil. split; [constructor|]. split; [|reflexivity].
    intros c. simpl. tauto.
Qed.

Lemma covers_bounds d n : fits d -> covers d n -> (0 <= n < two32)%Z.
Proof.
  intros Hf Hc. assert (E := fits_area d n Hf Hc). destruct Hf as [H1 [H2 H3]].
  rewrite <- E. apply box_area_range.
Qed.

Lemma shares_bounds a b i n : fits a -> fits b -> shares a b i -> covers b n -> (0 <= i <= n)%Z.
Proof.
  intros Ha Hb Hs Hc. assert (E1 := fits_shared a b i Ha Hb Hs). assert (E2 := fits_area b n Hb Hc).
  destruct Ha as [A1 [A2 A3]], Hb as [B1 [B2 B3]].
  destruct (docbox_facts a b A1 B1 A2 B2 A3 B3) as [F1 [F2 F3]]. lia.
Qed.

Lemma shares_bounds_l a b i n : fits a -> fits b -> shares a b i -> covers a n -> (0 <= i <= n)%Z.
Proof.
  intros Ha Hb Hs Hc. assert (E1 := fits_shared a b i Ha Hb Hs). assert (E2 := fits_area a n Ha Hc).
  destruct Ha as [A1 [A2 A3]], Hb as [B1 [B2 B3]].
  destruct (docbox_facts a b A1 B1 A2 B2 A3 B3) as [F1 [F2 F3]]. lia.
Qed.

Lemma filter_length {A} (f : A -> bool) l :
  length l = (length (filter f l) + length (filter (fun x => negb (f x)) l))%nat.
Proof. induction l as [|x l IH]; simpl; auto. destruct (f x); simpl; lia. Qed.

Lemma unites_count a b na nb i u :
  covers a na -> covers b nb -> shares a b i -> unites a b u -> u = (na + nb - i)%Z.
Proof.
  intros [la [A1 [A2 A3]]] [lb [B1 [B2 B3]]] Hs [l [L1 [L2 L3]]].
  set (f := fun c : Z * Z => if in_box_dec (db_box a) c then
                               if str_eq (db_doc a) (db_doc b) then true else false else false).
  assert (Ff : forall c, f c = true <-> db_doc a = db_doc b /\ in_box (db_box a) c).
  { intros c. unfold f. destruct (in_box_dec (db_box a) c) as [K|K].
    - rewrite <- str_eq_spec. destruct (str_eq _ _); intuition discriminate.
    - intuition discriminate. }
  assert (Hi : Z.of_nat (length (filter f lb)) = i).
  { eapply cell_count_unique; [|exact Hs]. exists (filter f lb). split; [apply NoDup_filter; auto|].
    split; auto. intros c. rewrite filter_In, Ff, B2. tauto. }
  set (l' := map (pair (db_doc a)) la ++ map (pair (db_doc b)) (filter (fun c => negb (f c)) lb)).
  assert (Inj : forall (d : bytes) (x y : Z * Z), (d, x) = (d, y) -> x = y) by congruence.
  assert (N' : NoDup l').
  { apply nodup_app.
    - apply nodup_map_inj; [apply Inj|auto].
    - apply nodup_map_inj; [apply Inj|apply NoDup_filter; auto].
    - intros p P1 P2. apply in_map_iff in P1. apply in_map_iff in P2.
      destruct P1 as [c [<- C]]. destruct P2 as [c' [E C']]. injection E as E1 E2. subst c'.
      apply filter_In in C'. destruct C' as [_ C']. apply negb_true_iff in C'.
      assert (f c = true) by (apply Ff; split; [congruence|apply A2; auto]). congruence. }
  assert (M : forall p, In p l <-> In p l').
  { intros [d c]. rewrite L2. unfold l'. rewrite in_app_iff, !in_map_iff. simpl. split.
    - intros [[-> K]|[-> K]].
      + left. exists c. split; auto. apply A2, K.
      + destruct (f c) eqn:E.
        * apply Ff in E. destruct E as [E1 E2]. left. exists c. rewrite E1. split; auto. apply A2, E2.
        * right. exists c. split; auto. apply filter_In. rewrite E. split; auto. apply B2, K.
    - intros [[c' [[= <- <-] K]]|[c' [[= <- <-] K]]].
      + left. split; auto. apply A2, K.
      + right. apply filter_In in K. split; auto. apply B2, K. }
  assert (Len : length l = length l').
  { apply Permutation_length, NoDup_Permutation; auto. }
  unfold l' in Len. rewrite app_length, !map_length in Len.
  assert (K := filter_length f lb). lia.
Qed.

(** ** Ratios *)

(** The value the threshold scorers compute from two areas. *)
Definition ratio (i a : Z) : f32 := f32_div (f32_of_Z i) (f32_mul f32_1 (f32_of_Z a)).

Lemma u32_abs z : (0 <= z < two32)%Z -> (Z.abs z <= 2 ^ 127)%Z.
Proof. unfold two32. intros H. rewrite Z.abs_eq by lia. apply Z.le_trans with (2 ^ 32)%Z; [lia|easy]. Qed.

Lemma rnd32_pos a : (0 < a < two32)%Z -> 1 <= rnd32 (IZR a) <= bpow radix2 32.
Proof.
  intros H. split.
  - apply rnd32_ge; [apply fmt32_1|]. apply (IZR_le 1). lia.
  - apply rnd32_le_fmt32; [apply fmt32_bpow; easy|].
    change (bpow radix2 32) with (IZR two32). apply IZR_le. lia.
Qed.

Lemma mul1 x e : is_finite x = true -> (-149 <= e < 128)%Z -> Rabs (B2R x) <= bpow radix2 e ->
  B2R (f32_mul f32_1 x) = B2R x /\ is_finite (f32_mul f32_1 x) = true.
Proof.
  intros Hx He H. destruct f32_1_R as [O1 O2].
  destruct (f32_mult_correct f32_1 x e O2 Hx He) as [K1 K2].
  - rewrite O1, Rmult_1_l. exact H.
  - unfold f32_mul. split; auto. rewrite K1, O1, Rmult_1_l. apply rnd32_id, B2R_fmt32.
Qed.

Lemma ratio_correct i a : (0 <= i <= a)%Z -> (0 < a < two32)%Z ->
  B2R (ratio i a) = rnd32 (rnd32 (IZR i) / rnd32 (IZR a)) /\ is_finite (ratio i a) = true /\
  0 <= rnd32 (IZR i) / rnd32 (IZR a) <= 1.
Proof.
  intros Hi Ha.
  destruct (f32_of_Z_correct i) as [I1 I2]; [apply u32_abs; lia|].
  destruct (f32_of_Z_correct a) as [A1 A2]; [apply u32_abs; lia|].
  destruct (rnd32_pos a Ha) as [P1 P2].
  destruct (mul1 (f32_of_Z a) 32 A2) as [M1 M2]; [easy| |].
  { rewrite A1, Rabs_pos_eq; lra. }
  assert (R1 : 0 <= rnd32 (IZR i)) by (apply rnd32_nonneg; apply (IZR_le 0); lia).
  assert (R2 : rnd32 (IZR i) <= rnd32 (IZR a)) by (apply rnd32_le; apply IZR_le; lia).
  assert (Q : 0 <= rnd32 (IZR i) / rnd32 (IZR a) <= 1).
  { split.
    - apply Rmult_le_pos; auto. apply Rlt_le, Rinv_0_lt_compat. lra.
    - apply Rmult_le_reg_r with (rnd32 (IZR a)); [lra|]. unfold Rdiv.
      rewrite Rmult_assoc, Rinv_l by lra. lra. }
  destruct (f32_div_correct (f32_of_Z i) (f32_mul f32_1 (f32_of_Z a)) 0 I2 M2) as [D1 D2].
  - rewrite M1, A1. lra.
  - easy.
  - rewrite M1, A1, I1. simpl bpow. rewrite Rabs_pos_eq; lra.
  - unfold ratio, f32_div. split; [|split]; auto. rewrite D1, I1, M1, A1. reflexivity.
Qed.

Lemma div_le_r x y z : 0 < y -> (x / y <= z <-> x <= z * y).
Proof.
  intros Hy. split; intros H.
  - apply Rmult_le_compat_r with (r := y) in H; [|lra]. unfold Rdiv in H.
    rewrite Rmult_assoc, Rinv_l in H by lra. lra.
  - apply Rmult_le_reg_r with y; auto. unfold Rdiv. rewrite Rmult_assoc, Rinv_l by lra. lra.
Qed.

Lemma div_ge_r x y z : 0 < y -> (z <= x / y <-> z * y <= x).
Proof.
  intros Hy. split; intros H.
  - apply Rmult_le_compat_r with (r := y) in H; [|lra]. unfold Rdiv in H.
    rewrite Rmult_assoc, Rinv_l in H by lra. lra.
  - apply Rmult_le_reg_r with y; auto. unfold Rdiv. rewrite Rmult_assoc, Rinv_l by lra. lra.
Qed.

(** Half or more is never lost in rounding. *)
Lemma ratio_half_ge i a : (0 <= i <= a)%Z -> (0 < a < two32)%Z -> (a <= 2 * i)%Z ->
  / 2 <= B2R (ratio i a).
Proof.
  intros Hi Ha H. destruct (ratio_correct i a Hi Ha) as [E [_ _]]. rewrite E.
  destruct (rnd32_pos a Ha) as [P1 P2].
  assert (F : fmt32 (/ 2)).
  { replace (/ 2) with (bpow radix2 (-1)) by (simpl; lra). apply fmt32_bpow. easy. }
  apply rnd32_ge; auto. apply div_ge_r; [lra|].
  assert (K : rnd32 (IZR a) <= rnd32 (2 * IZR i)).
  { apply rnd32_le. rewrite <- mult_IZR. apply IZR_le. lia. }
  rewrite rnd32_double in K by
    (rewrite Rabs_pos_eq by (apply (IZR_le 0); lia);
     apply Rle_trans with (bpow radix2 0); [apply bpow_le; easy|simpl; apply (IZR_le 1); lia]).
  lra.
Qed.

(** Exact areas. *)
Lemma ratio_exact i a : (0 <= i <= a)%Z -> (0 < a <= 2 ^ 24)%Z ->
  B2R (ratio i a) = rnd32 (IZR i / IZR a) /\ is_finite (ratio i a) = true.
Proof.
  intros Hi Ha. assert (Ha' : (0 < a < two32)%Z) by (unfold two32; lia).
  destruct (ratio_correct i a Hi Ha') as [E [F _]]. split; auto.
  rewrite E, !(rnd32_id (IZR _)); auto; apply fmt32_Z; try lia.
Qed.

Lemma fmt_half_pred : fmt32 (/ 2 - bpow radix2 (-25)).
Proof.
  replace (/ 2 - bpow radix2 (-25)) with (IZR 16777215 * bpow radix2 (-25)).
  - apply fmt32_F2R; easy.
  - simpl. lra.
Qed.

(** Below one half, exact areas are rejected. *)
Lemma below_half i a : (0 <= i)%Z -> (0 < a <= 2 ^ 24)%Z -> (2 * i < a)%Z ->
  rnd32 (IZR i / IZR a) < / 2.
Proof.
  intros Hi Ha H. apply Rle_lt_trans with (/ 2 - bpow radix2 (-25)).
  - apply rnd32_le_fmt32; [apply fmt_half_pred|].
    assert (A0 : 0 < IZR a) by (apply (IZR_lt 0); lia).
    apply div_le_r; auto.
    assert (A1 : IZR a <= 16777216) by (apply (IZR_le a 16777216); lia).
    assert (I1 : 2 * IZR i <= IZR a - 1).
    { rewrite <- mult_IZR, <- minus_IZR. apply IZR_le. lia. }
    simpl. nra.
  - assert (K := bpow_gt_0 radix2 (-25)). lra.
Qed.

Lemma nearest_is_rnd x : nearest_f32 x = rnd32 x.
Proof. reflexivity. Qed.

(** Any threshold, as a comparison of values. *)
Lemma ratio_ge i a t : (0 <= i <= a)%Z -> (0 < a <= 2 ^ 24)%Z -> is_finite t = true ->
  (f32_ge (ratio i a) t = true <-> B2R t <= nearest_f32 (IZR i / IZR a)).
Proof.
  intros Hi Ha Ht. destruct (ratio_exact i a Hi Ha) as [E F].
  rewrite f32_ge_R by auto. rewrite E. reflexivity.
Qed.

Lemma ratio_half_exact i a : (0 <= i <= a)%Z -> (0 < a <= 2 ^ 24)%Z ->
  (f32_ge (ratio i a) f32_half = true <-> (a <= 2 * i)%Z).
Proof.
  intros Hi Ha. destruct f32_half_R as [H1 H2]. rewrite ratio_ge by auto.
  rewrite H1, nearest_is_rnd. split.
  - intros K. destruct (Z_le_gt_dec a (2 * i)); auto.
    assert (rnd32 (IZR i / IZR a) < / 2) by (apply below_half; lia). lra.
  - intros K. assert (Ha' : (0 < a < two32)%Z) by (unfold two32; lia).
    assert (J := ratio_half_ge i a Hi Ha' K). destruct (ratio_exact i a Hi Ha) as [E F]. lra.
Qed.

(** How far below one half an accepted pair can be. *)
Lemma ratio_half_bound i a : (0 <= i <= a)%Z -> (0 < a < two32)%Z ->
  f32_ge (ratio i a) f32_half = true -> (4194303 * a <= 8388608 * i)%Z.
Proof.
  intros Hi Ha. destruct f32_half_R as [H1 H2]. destruct (ratio_correct i a Hi Ha) as [E [F Q]].
  rewrite f32_ge_R by auto. rewrite H1, E. intros K.
  destruct (rnd32_pos a Ha) as [P1 P2].
  assert (K1 : / 2 - bpow radix2 (-25) < rnd32 (IZR i) / rnd32 (IZR a)).
  { apply Rnot_le_lt. intros C. apply (rnd32_le_fmt32) in C; [|apply fmt_half_pred].
    assert (0 < bpow radix2 (-25)) by apply bpow_gt_0. lra. }
  assert (Ipos : (0 < i)%Z).
  { destruct (Z.eq_dec i 0) as [->|]; [|lia]. exfalso. rewrite rnd32_0 in K1.
    unfold Rdiv in K1. rewrite Rmult_0_l in K1. simpl in K1. lra. }
  assert (RI : Rabs (rnd32 (IZR i) - IZR i) <= / 2 * bpow radix2 (-24 + 1) * Rabs (IZR i)).
  { apply (rnd32_rel). rewrite Rabs_pos_eq by (apply (IZR_le 0); lia).
    apply Rle_trans with (bpow radix2 0); [apply bpow_le; easy|simpl; apply (IZR_le 1); lia]. }
  assert (RA : Rabs (rnd32 (IZR a) - IZR a) <= / 2 * bpow radix2 (-24 + 1) * Rabs (IZR a)).
  { apply (rnd32_rel). rewrite Rabs_pos_eq by (apply (IZR_le 0); lia).
    apply Rle_trans with (bpow radix2 0); [apply bpow_le; easy|simpl; apply (IZR_le 1); lia]. }
  assert (I1 : 1 <= IZR i) by (apply (IZR_le 1); lia).
  assert (A1 : 1 <= IZR a) by (apply (IZR_le 1); lia).
  rewrite (Rabs_pos_eq (IZR i)) in RI by lra. rewrite (Rabs_pos_eq (IZR a)) in RA by lra.
  apply Rabs_le_inv in RI. apply Rabs_le_inv in RA. simpl in RI, RA, K1.
  assert (K2 : (/ 2 - / 33554432) * rnd32 (IZR a) <= rnd32 (IZR i)).
  { apply div_ge_r; lra. }
  apply le_IZR. rewrite !mult_IZR. nra.
Qed.

(** ** Intersection over hypothesis *)

Section Scorers.
  Context {Q : Type} (cq : Cmp Q) (Hq : total_order cq).
  Notation sev := (event Q docbox).

  Lemma ioh_unfold t (r h : sev) :
    ioh_scorer cq t r h =
    if c_eq cq (ev_query r) (ev_query h) && (0 <? docbox_area (ev_loc h))%Z then
      if f32_ge (ratio (docbox_inter (ev_loc r) (ev_loc h)) (docbox_area (ev_loc h))) t
      then err_hit else err_miss
    else err_miss.
  Proof. reflexivity. Qed.

  Lemma iou_unfold t (r h : sev) :
    iou_scorer cq t r h =
    if c_eq cq (ev_query r) (ev_query h) && (0 <? docbox_area (ev_loc h))%Z then
      if f32_ge (ratio (docbox_inter (ev_loc r) (ev_loc h)) (docbox_union (ev_loc r) (ev_loc h))) t
      then err_hit else err_miss
    else err_miss.
  Proof. reflexivity. Qed.

  Lemma hit_not_miss : err_hit <> err_miss.
  Proof. intros H. assert (K : me_eq err_hit err_miss = true) by (rewrite H; reflexivity). discriminate. Qed.

  Section Pair.
    Variables (r h : sev) (i a : Z).
    Hypothesis Fr : fits (ev_loc r).
    Hypothesis Fh : fits (ev_loc h).
    Hypothesis Hi : shares (ev_loc r) (ev_loc h) i.
    Hypothesis Ha : covers (ev_loc h) a.

    Lemma ioh_rule t :
      ioh_scorer cq t r h =
      if c_eq cq (ev_query r) (ev_query h) && (0 <? a)%Z then
        if f32_ge (ratio i a) t then err_hit else err_miss
      else err_miss.
    Proof.
      rewrite ioh_unfold, (fits_area _ _ Fh Ha), (fits_shared _ _ _ Fr Fh Hi). reflexivity.
    Qed.

    Lemma ioh_accepts : ev_query r = ev_query h -> (0 < a)%Z -> (a <= 2 * i)%Z ->
      accepted (ioh_scorer cq f32_half r h).
    Proof.
      intros Eq A H. rewrite ioh_rule. apply (to_eq _ Hq) in Eq. rewrite Eq.
      destruct (Z.ltb_spec 0 a); [|lia]. simpl.
      assert (B := covers_bounds _ _ Fh Ha). assert (C := shares_bounds _ _ _ _ Fr Fh Hi Ha).
      destruct f32_half_R as [H1 H2]. destruct (ratio_correct i a) as [E [F _]]; try lia.
      assert (K : f32_ge (ratio i a) f32_half = true).
      { rewrite f32_ge_R by auto. rewrite H1. apply ratio_half_ge; lia. }
      rewrite K. reflexivity.
    Qed.

    Lemma ioh_rejects_query t : ev_query r <> ev_query h -> rejected (ioh_scorer cq t r h).
    Proof.
      intros N. rewrite ioh_unfold. destruct (c_eq cq (ev_query r) (ev_query h)) eqn:E; [|reflexivity].
      apply (to_eq _ Hq) in E. contradiction.
    Qed.

    Lemma ioh_rejects_empty t : a = 0%Z -> rejected (ioh_scorer cq t r h).
    Proof. intros A. rewrite ioh_rule, A, andb_false_r. reflexivity. Qed.

    Lemma ioh_exact : (a <= 2 ^ 24)%Z ->
      (ev_query r = ev_query h /\ (0 < a)%Z /\ (a <= 2 * i)%Z /\ accepted (ioh_scorer cq f32_half r h)) \/
      (~ (ev_query r = ev_query h /\ (0 < a)%Z /\ (a <= 2 * i)%Z) /\ rejected (ioh_scorer cq f32_half r h)).
    Proof.
      intros A. assert (C := shares_bounds _ _ _ _ Fr Fh Hi Ha). rewrite ioh_rule.
      destruct (c_eq cq (ev_query r) (ev_query h)) eqn:E.
      - apply (to_eq _ Hq) in E. destruct (Z.ltb_spec 0 a); simpl.
        + destruct (f32_ge (ratio i a) f32_half) eqn:G.
          * left. apply ratio_half_exact in G; auto; try lia. repeat split; auto.
          * right. split; [|reflexivity]. intros [_ [_ K]]. apply ratio_half_exact in K; auto; try lia.
            congruence.
        + right. split; [|reflexivity]. intros [_ [K _]]. lia.
      - right. split; [|reflexivity]. intros [K _]. apply (to_eq _ Hq) in K. congruence.
    Qed.

    Lemma ioh_threshold t : (a <= 2 ^ 24)%Z -> is_finite t = true ->
      let pass := ev_query r = ev_query h /\ (0 < a)%Z /\ B2R t <= nearest_f32 (IZR i / IZR a) in
      (pass /\ accepted (ioh_scorer cq t r h)) \/ (~ pass /\ rejected (ioh_scorer cq t r h)).
    Proof.
      intros A Ht pass. assert (C := shares_bounds _ _ _ _ Fr Fh Hi Ha). rewrite ioh_rule.
      destruct (c_eq cq (ev_query r) (ev_query h)) eqn:E.
      - apply (to_eq _ Hq) in E. destruct (Z.ltb_spec 0 a); simpl.
        + destruct (f32_ge (ratio i a) t) eqn:G.
          * left. apply ratio_ge in G; auto; try lia. repeat split; auto.
          * right. split; [|reflexivity]. intros [_ [_ K]]. apply ratio_ge in K; auto; try lia.
            congruence.
        + right. split; [|reflexivity]. intros [_ [K _]]. lia.
      - right. split; [|reflexivity]. intros [K _]. apply (to_eq _ Hq) in K. congruence.
    Qed.

    Lemma ioh_bound : accepted (ioh_scorer cq f32_half r h) -> (4194303 * a <= 8388608 * i)%Z.
    Proof.
      rewrite ioh_rule. assert (B := covers_bounds _ _ Fh Ha).
      assert (C := shares_bounds _ _ _ _ Fr Fh Hi Ha).
      destruct (c_eq cq (ev_query r) (ev_query h)); [|intros K; destruct (hit_not_miss (eq_sym K))].
      destruct (Z.ltb_spec 0 a); simpl; [|intros K; destruct (hit_not_miss (eq_sym K))].
      destruct (f32_ge (ratio i a) f32_half) eqn:G; [|intros K; destruct (hit_not_miss (eq_sym K))].
      intros _. apply ratio_half_bound; auto; lia.
    Qed.

    (** ** Intersection over union *)

    Variable u : Z.
    Variable ar : Z.
    Hypothesis Har : covers (ev_loc r) ar.
    Hypothesis Hun : unites (ev_loc r) (ev_loc h) u.
    Let Hu : u = (ar + a - i)%Z := unites_count _ _ _ _ _ _ Har Ha Hi Hun.
    Hypothesis Fu : union_fits (ev_loc r) (ev_loc h).

    Lemma union_val : docbox_union (ev_loc r) (ev_loc h) = u.
    Proof.
      assert (E1 := fits_area _ _ Fh Ha). assert (E2 := fits_area _ _ Fr Har).
      assert (E3 := fits_shared _ _ _ Fr Fh Hi).
      assert (B1 := covers_bounds _ _ Fh Ha). assert (B2 := covers_bounds _ _ Fr Har).
      assert (C := shares_bounds _ _ _ _ Fr Fh Hi Ha).
      assert (C' := shares_bounds_l _ _ _ _ Fr Fh Hi Har).
      assert (S : (ar + a < two32)%Z).
      { rewrite <- E1, <- E2. unfold docbox_area, box_area, u32_mul.
        destruct Fr as [[_ [_ [R1 R2]]] [_ R3]]. destruct Fh as [[_ [_ [H1 H2]]] [_ H3]].
        unfold is_u32, area_fits in *. rewrite !u32_wrap_id by (split; nia). exact Fu. }
      unfold docbox_union, u32_sub, u32_add. rewrite E1, E2, E3.
      rewrite (u32_wrap_id (ar + a)) by lia. rewrite u32_wrap_id; lia.
    Qed.

    Lemma iou_rule t :
      iou_scorer cq t r h =
      if c_eq cq (ev_query r) (ev_query h) && (0 <? a)%Z then
        if f32_ge (ratio i u) t then err_hit else err_miss
      else err_miss.
    Proof.
      rewrite iou_unfold, union_val, (fits_area _ _ Fh Ha), (fits_shared _ _ _ Fr Fh Hi). reflexivity.
    Qed.

    Lemma iou_bounds : (0 <= i <= u)%Z /\ (a <= u)%Z.
    Proof.
      assert (C := shares_bounds _ _ _ _ Fr Fh Hi Ha).
      assert (C' := shares_bounds_l _ _ _ _ Fr Fh Hi Har). lia.
    Qed.

    Lemma iou_threshold t : (u <= 2 ^ 24)%Z -> is_finite t = true ->
      let pass := ev_query r = ev_query h /\ (0 < a)%Z /\ B2R t <= nearest_f32 (IZR i / IZR u) in
      (pass /\ accepted (iou_scorer cq t r h)) \/ (~ pass /\ rejected (iou_scorer cq t r h)).
    Proof.
      intros A Ht pass. destruct iou_bounds as [C1 C2]. rewrite iou_rule.
      destruct (c_eq cq (ev_query r) (ev_query h)) eqn:E.
      - apply (to_eq _ Hq) in E. destruct (Z.ltb_spec 0 a); simpl.
        + destruct (f32_ge (ratio i u) t) eqn:G.
          * left. apply ratio_ge in G; auto; try lia. repeat split; auto.
          * right. split; [|reflexivity]. intros [_ [_ K]]. apply ratio_ge in K; auto; try lia.
            congruence.
        + right. split; [|reflexivity]. intros [_ [K _]]. lia.
      - right. split; [|reflexivity]. intros [K _]. apply (to_eq _ Hq) in K. congruence.
    Qed.

    Lemma iou_half : (u <= 2 ^ 24)%Z ->
      let pass := ev_query r = ev_query h /\ (0 < a)%Z /\ (u <= 2 * i)%Z in
      (pass /\ accepted (iou_scorer cq f32_half r h)) \/ (~ pass /\ rejected (iou_scorer cq f32_half r h)).
    Proof.
      intros A pass. destruct iou_bounds as [C1 C2]. rewrite iou_rule.
      destruct (c_eq cq (ev_query r) (ev_query h)) eqn:E.
      - apply (to_eq _ Hq) in E. destruct (Z.ltb_spec 0 a); simpl.
        + destruct (f32_ge (ratio i u) f32_half) eqn:G.
          * left. apply ratio_half_exact in G; auto; try lia. repeat split; auto.
          * right. split; [|reflexivity]. intros [_ [_ K]]. apply ratio_half_exact in K; auto; try lia.
            congruence.
        + right. split; [|reflexivity]. intros [_ [K _]]. lia.
      - right. split; [|reflexivity]. intros [K _]. apply (to_eq _ Hq) in K. congruence.
    Qed.
  End Pair.

  (** Symmetry needs no bound at all. *)
  Lemma iou_symmetric t (x y : sev) :
    (0 < docbox_area (ev_loc x))%Z -> (0 < docbox_area (ev_loc y))%Z ->
    iou_scorer cq t x y = iou_scorer cq t y x.
  Proof.
    intros Hx Hy. rewrite !iou_unfold.
    assert (c_eq cq (ev_query x) (ev_query y) = c_eq cq (ev_query y) (ev_query x)) as ->.
    { apply eq_true_iff_eq. rewrite !(to_eq _ Hq). split; auto. }
    apply Z.ltb_lt in Hx, Hy. rewrite Hx, Hy.
    unfold docbox_union, u32_add. rewrite !(docbox_inter_sym (ev_loc x)), Z.add_comm. reflexivity.
  Qed.
End Scorers.

(** ** The soft scorer *)

(** One minus the fraction of [a] covered. *)
Definition soft_part (i a : Z) : f32 :=
  f32_sub f32_1 (if f32_lt f32_0 (f32_of_Z a) then f32_div (f32_of_Z i) (f32_of_Z a) else f32_0).

Lemma soft_unfold {Q} (cq : Cmp Q) (r h : event Q docbox) :
  soft_scorer cq r h =
  if c_ne cq (ev_query r) (ev_query h) then err_miss
  else MatchError (soft_part (docbox_inter (ev_loc r) (ev_loc h)) (docbox_area (ev_loc h)))
                  (soft_part (docbox_inter (ev_loc r) (ev_loc h)) (docbox_area (ev_loc r))).
Proof. reflexivity. Qed.

Definition covered (i a : Z) : R := if Z.eq_dec a 0 then 0 else rnd32 (rnd32 (IZR i) / rnd32 (IZR a)).

Lemma covered_unit i a : (0 <= i <= a)%Z -> (0 <= a < two32)%Z -> 0 <= covered i a <= 1.
Proof.
  intros Hi Ha. unfold covered. destruct (Z.eq_dec a 0); [lra|].
  destruct (ratio_correct i a) as [_ [_ [Q1 Q2]]]; try lia. split.
  - apply rnd32_nonneg, Q1.
  - apply rnd32_le_fmt32; [apply fmt32_1|exact Q2].
Qed.

Lemma soft_part_correct i a : (0 <= i <= a)%Z -> (0 <= a < two32)%Z ->
  B2R (soft_part i a) = rnd32 (1 - covered i a) /\ is_finite (soft_part i a) = true.
Proof.
  intros Hi Ha. assert (U := covered_unit i a Hi Ha). unfold soft_part.
  destruct (f32_of_Z_correct i) as [I1 I2]; [apply u32_abs; lia|].
  destruct (f32_of_Z_correct a) as [A1 A2]; [apply u32_abs; lia|].
  destruct f32_1_R as [O1 O2].
  set (x := if f32_lt f32_0 (f32_of_Z a) then f32_div (f32_of_Z i) (f32_of_Z a) else f32_0).
  assert (X : B2R x = covered i a /\ is_finite x = true).
  { unfold x, covered. destruct (Z.eq_dec a 0) as [->|Na].
    - split; reflexivity.
    - assert (P : 1 <= rnd32 (IZR a) <= bpow radix2 32) by (apply rnd32_pos; lia).
      assert (L : f32_lt f32_0 (f32_of_Z a) = true).
      { rewrite f32_lt_R; auto. rewrite A1. simpl. lra. }
      rewrite L. destruct (ratio_correct i a) as [_ [_ [Q1 Q2]]]; try lia.
      destruct (f32_div_correct (f32_of_Z i) (f32_of_Z a) 0 I2 A2) as [D1 D2].
      + rewrite A1. lra.
      + easy.
      + rewrite I1, A1. simpl bpow. rewrite Rabs_pos_eq; lra.
      + unfold f32_div. rewrite D1, I1, A1. auto. }
  destruct X as [X1 X2].
  destruct (f32_minus_correct f32_1 x 0 O2 X2) as [M1 M2]; [easy| |].
  - rewrite O1, X1. simpl bpow. rewrite Rabs_pos_eq; lra.
  - unfold f32_sub. rewrite M1, O1, X1. auto.
Qed.

Lemma soft_part_unit i a : (0 <= i <= a)%Z -> (0 <= a < two32)%Z -> unit_f32 (soft_part i a).
Proof.
  intros Hi Ha. destruct (soft_part_correct i a Hi Ha) as [E F]. assert (U := covered_unit i a Hi Ha).
  split; auto. rewrite E. split.
  - apply rnd32_nonneg. lra.
  - apply rnd32_le_fmt32; [apply fmt32_1|lra].
Qed.

Lemma soft_part_none a : (0 <= a < two32)%Z -> B2R (soft_part 0 a) = 1.
Proof.
  intros Ha. destruct (soft_part_correct 0 a) as [E _]; try lia. rewrite E.
  assert (C : covered 0 a = 0).
  { unfold covered. destruct (Z.eq_dec a 0); auto. rewrite rnd32_0. unfold Rdiv.
    rewrite Rmult_0_l. apply rnd32_0. }
  rewrite C, Rminus_0_r. apply rnd32_id, fmt32_1.
Qed.

Lemma soft_part_all a : (0 < a < two32)%Z -> B2R (soft_part a a) = 0.
Proof.
  intros Ha. destruct (soft_part_correct a a) as [E _]; try lia. rewrite E.
  assert (C : covered a a = 1).
  { unfold covered. destruct (Z.eq_dec a 0); [lia|]. assert (P := rnd32_pos a Ha).
    unfold Rdiv. rewrite Rinv_r by lra. apply rnd32_id, fmt32_1. }
  rewrite C, Rminus_diag_eq by reflexivity. apply rnd32_0.
Qed.

Lemma covered_exact i a : (0 <= i <= a)%Z -> (0 < a <= 2 ^ 24)%Z -> covered i a = rnd32 (IZR i / IZR a).
Proof.
  intros Hi Ha. unfold covered. destruct (Z.eq_dec a 0); [lia|].
  rewrite !(rnd32_id (IZR _)); auto; apply fmt32_Z; lia.
Qed.

Lemma soft_part_zero i a : (0 <= i <= a)%Z -> (0 < a <= 2 ^ 24)%Z ->
  (B2R (soft_part i a) = 0 <-> i = a).
Proof.
  intros Hi Ha. assert (Ha' : (0 < a < two32)%Z) by (unfold two32; lia). split.
  - destruct (soft_part_correct i a) as [E _]; try lia. rewrite E, covered_exact by lia.
    intros K. destruct (Z.eq_dec i a) as [|N]; auto. exfalso.
    assert (B : rnd32 (IZR i / IZR a) <= 1 - bpow radix2 (-24)).
    { apply rnd32_le_fmt32.
      - replace (1 - bpow radix2 (-24)) with (IZR 16777215 * bpow radix2 (-24)) by (simpl; lra).
        apply fmt32_F2R; easy.
      - assert (A0 : 0 < IZR a) by (apply (IZR_lt 0); lia).
        assert (A1 : IZR a <= 16777216) by (apply (IZR_le a 16777216); lia).
        apply div_le_r; auto. assert (IZR i <= IZR a - 1) by (rewrite <- minus_IZR; apply IZR_le; lia).
        simpl. nra. }
    assert (bpow radix2 (-24) <= rnd32 (1 - rnd32 (IZR i / IZR a))).
    { apply rnd32_ge; [apply fmt32_bpow; easy|]. lra. }
    assert (0 < bpow radix2 (-24)) by apply bpow_gt_0. lra.
  - intros ->. apply soft_part_all, Ha'.
Qed.

Lemma soft_part_one i a : (0 <= i <= a)%Z -> (0 < a <= 2 ^ 24)%Z ->
  (B2R (soft_part i a) = 1 <-> i = 0%Z).
Proof.
  intros Hi Ha. assert (Ha' : (0 < a < two32)%Z) by (unfold two32; lia). split.
  - destruct (soft_part_correct i a) as [E _]; try lia. rewrite E, covered_exact by lia.
    intros K. destruct (Z.eq_dec i 0) as [|N]; auto. exfalso.
    assert (B : bpow radix2 (-24) <= rnd32 (IZR i / IZR a)).
    { apply rnd32_ge; [apply fmt32_bpow; easy|].
      assert (A0 : 0 < IZR a) by (apply (IZR_lt 0); lia).
      assert (A1 : IZR a <= 16777216) by (apply (IZR_le a 16777216); lia).
      apply div_ge_r; auto. assert (1 <= IZR i) by (apply (IZR_le 1); lia). simpl. nra. }
    assert (rnd32 (1 - rnd32 (IZR i / IZR a)) <= 1 - bpow radix2 (-24)).
    { apply rnd32_le_fmt32.
      - replace (1 - bpow radix2 (-24)) with (IZR 16777215 * bpow radix2 (-24)) by (simpl; lra).
        apply fmt32_F2R; easy.
      - lra. }
    assert (0 < bpow radix2 (-24)) by apply bpow_gt_0. lra.
  - intros ->. apply soft_part_none. lia.
Qed.

Section Soft.
  Context {Q : Type} (cq : Cmp Q) (Hq : total_order cq).
  Variables (r h : event Q docbox) (i ar ah : Z).
  Hypothesis Fr : fits (ev_loc r).
  Hypothesis Fh : fits (ev_loc h).
  Hypothesis Hi : shares (ev_loc r) (ev_loc h) i.
  Hypothesis Har : covers (ev_loc r) ar.
  Hypothesis Hah : covers (ev_loc h) ah.

  Lemma soft_rule : soft_scorer cq r h =
    if c_ne cq (ev_query r) (ev_query h) then err_miss else MatchError (soft_part i ah) (soft_part i ar).
  Proof.
    rewrite soft_unfold, (fits_area _ _ Fh Hah), (fits_area _ _ Fr Har), (fits_shared _ _ _ Fr Fh Hi).
    reflexivity.
  Qed.

  Let Bh := covers_bounds _ _ Fh Hah.
  Let Br := covers_bounds _ _ Fr Har.
  Let Ih := shares_bounds _ _ _ _ Fr Fh Hi Hah.
  Let Ir := shares_bounds_l _ _ _ _ Fr Fh Hi Har.

  Lemma one_unit : unit_f32 f32_1.
  Proof. destruct f32_1_R as [A B]. split; auto. rewrite A. lra. Qed.

  Lemma soft_unit : unit_f32 (me_fp (soft_scorer cq r h)) /\ unit_f32 (me_fn (soft_scorer cq r h)).
  Proof.
    rewrite soft_rule. destruct (c_ne cq _ _); simpl; [split; apply one_unit|].
    split; apply soft_part_unit; assumption.
  Qed.

  Lemma soft_other_query : ev_query r <> ev_query h -> errors_are (soft_scorer cq r h) 1 1.
  Proof.
    intros N. rewrite soft_rule. apply (to_ne _ Hq) in N. rewrite N.
    destruct f32_1_R as [A B]. repeat split; auto.
  Qed.

  Lemma soft_disjoint : i = 0%Z -> errors_are (soft_scorer cq r h) 1 1.
  Proof.
    intros E. rewrite soft_rule. destruct f32_1_R as [A B].
    destruct (c_ne cq _ _); [repeat split; auto|].
    destruct (soft_part_correct i ah) as [_ F1]; try assumption.
    destruct (soft_part_correct i ar) as [_ F2]; try assumption.
    repeat split; auto; simpl; rewrite E; apply soft_part_none; assumption.
  Qed.

  Lemma soft_identical : ev_query r = ev_query h -> ev_loc r = ev_loc h -> (0 < ah)%Z ->
    errors_are (soft_scorer cq r h) 0 0.
  Proof.
    intros E1 E2 P. rewrite soft_rule.
    destruct (c_ne cq (ev_query r) (ev_query h)) eqn:N; [apply (to_ne _ Hq) in N; contradiction|].
    assert (E3 : docbox_inter (ev_loc r) (ev_loc h) = docbox_area (ev_loc h)).
    { rewrite E2. destruct Fh as [H1 [H2 H3]]. eapply (docbox_facts (ev_loc h) (ev_loc h)); auto. }
    rewrite (fits_shared _ _ _ Fr Fh Hi), (fits_area _ _ Fh Hah) in E3.
    assert (E4 : ar = ah).
    { rewrite <- (fits_area _ _ Fr Har), <- (fits_area _ _ Fh Hah), E2. reflexivity. }
    destruct (soft_part_correct i ah) as [_ F1]; try assumption.
    destruct (soft_part_correct i ar) as [_ F2]; try assumption.
    repeat split; auto; simpl; rewrite ?E4, E3; apply soft_part_all; lia.
  Qed.

  (** Below 2^24 cells the extremes are exact. *)
  Lemma soft_exact : ev_query r = ev_query h -> (0 < ah <= 2 ^ 24)%Z -> (0 < ar <= 2 ^ 24)%Z ->
    let e := soft_scorer cq r h in
    (B2R (me_fp e) = 0 <-> i = ah) /\ (B2R (me_fp e) = 1 <-> i = 0%Z) /\
    (B2R (me_fn e) = 0 <-> i = ar) /\ (B2R (me_fn e) = 1 <-> i = 0%Z).
  Proof.
    intros E1 P1 P2 e. unfold e. rewrite soft_rule.
    destruct (c_ne cq (ev_query r) (ev_query h)) eqn:N; [apply (to_ne _ Hq) in N; contradiction|].
    simpl. split; [|split; [|split]].
    - apply soft_part_zero; assumption.
    - apply soft_part_one; assumption.
    - apply soft_part_zero; assumption.
    - apply soft_part_one; assumption.
  Qed.
End Soft.

(** ** The trivial scorer *)

Lemma trivial_spec {Q L} (cq : Cmp Q) (cl : Cmp L) : total_order cq -> total_order cl ->
  forall r h : event Q L,
  (r = h /\ errors_are (trivial_scorer cq cl r h) 0 0) \/
  (r <> h /\ errors_are (trivial_scorer cq cl r h) 1 1).
Proof.
  intros Hq Hl [q l] [q' l']. unfold trivial_scorer. simpl.
  destruct (f32_of_Z_exact 0) as [Z1 Z2]; [easy|]. destruct (f32_of_Z_exact 1) as [O1 O2]; [easy|].
  destruct (c_eq cl l l' && c_eq cq q q') eqn:E.
  - apply andb_true_iff in E. destruct E as [E1 E2].
    apply (to_eq _ Hl) in E1. apply (to_eq _ Hq) in E2. subst. left.
    split; [reflexivity|]. repeat split; auto.
  - right. split; [|repeat split; auto]. intros [= -> ->].
    rewrite (to_eq_refl _ Hl), (to_eq_refl _ Hq) in E. discriminate.
Qed.

(** ** Witnesses *)

Lemma fits_intro d x y w k : is_u32 x -> is_u32 y -> is_u32 w -> is_u32 k ->
  (x + w < two32)%Z -> (y + k < two32)%Z -> (w * k < two32)%Z -> fits (DocBox d (Box x y w k)).
Proof. intros. unfold fits, u32_box, edges_fit, area_fits. simpl. auto 10. Qed.

Lemma covers_intro d n : fits d -> docbox_area d = n -> covers d n.
Proof. intros [H1 [H2 H3]] <-. apply area_counts_iff; auto. Qed.

Lemma shares_intro a b n : fits a -> fits b -> docbox_inter a b = n -> shares a b n.
Proof.
  intros [A1 [A2 A3]] [B1 [B2 B3]] <-. unfold shares, docbox_inter.
  destruct (str_eq (db_doc a) (db_doc b)) eqn:E.
  - apply str_eq_spec in E. destruct (inter_counts _ _ A1 B1 A2 B2 A3) as [l [L1 [L2 L3]]].
    exists l. split; auto. split; auto. intros c. rewrite L2. tauto.
  - exists nil. split; [constructor|]. split; [|reflexivity]. intros c. simpl.
    split; [tauto|]. intros [K _]. apply str_eq_spec in K. congruence.
Qed.

(** A hypothesis of 2^25+2 cells sharing 2^24 of them. *)
Definition wide_hyp : event Z docbox := Event 1%Z (DocBox nil (Box 0 0 2 16777217)).
Definition wide_ref : event Z docbox := Event 1%Z (DocBox nil (Box 0 0 1 16777216)).

Lemma ioh_above_refuted :
  exists (r h : event Z docbox) i a,
    fits (ev_loc r) /\ fits (ev_loc h) /\ shares (ev_loc r) (ev_loc h) i /\ covers (ev_loc h) a /\
    (2 * i < a)%Z /\ accepted (ioh_scorer cmp_Z f32_half r h).
Proof.
  exists wide_ref, wide_hyp, 16777216%Z, 33554434%Z.
  assert (F1 : fits (ev_loc wide_ref)) by (apply fits_intro; easy).
  assert (F2 : fits (ev_loc wide_hyp)) by (apply fits_intro; easy).
  split; auto. split; auto. split; [apply shares_intro; auto|]. split; [apply covers_intro; auto|].
  split; [easy|]. unfold accepted. rewrite ioh_unfold.
  replace (f32_ge _ f32_half) with true by (vm_compute; reflexivity). reflexivity.
Qed.

(** One cell of a page of 2^32 - 2^17 + 1 cells. *)
Definition page_ref : event Z docbox := Event 1%Z (DocBox nil (Box 0 0 65535 65535)).
Definition dot_hyp : event Z docbox := Event 1%Z (DocBox nil (Box 0 0 1 1)).

Lemma soft_lost_hyp :
  exists (r h : event Z docbox),
    fits (ev_loc r) /\ fits (ev_loc h) /\ shares (ev_loc r) (ev_loc h) 1 /\
    errors_are (soft_scorer cmp_Z r h) 0 1 /\ me_nh (soft_scorer cmp_Z r h) = 0%nat.
Proof.
  exists page_ref, dot_hyp.
  assert (F1 : fits (ev_loc page_ref)) by (apply fits_intro; easy).
  assert (F2 : fits (ev_loc dot_hyp)) by (apply fits_intro; easy).
  assert (S : shares (ev_loc page_ref) (ev_loc dot_hyp) 1) by (apply shares_intro; auto).
  split; auto. split; auto. split; auto.
  assert (C1 : covers (ev_loc page_ref) 4294836225) by (apply covers_intro; auto).
  assert (C2 : covers (ev_loc dot_hyp) 1) by (apply covers_intro; auto).
  destruct (soft_unit cmp_Z page_ref dot_hyp 1 _ _ F1 F2 S C1 C2) as [U1 U2].
  assert (N : me_nh (soft_scorer cmp_Z page_ref dot_hyp) = 0%nat) by (vm_compute; reflexivity).
  split; auto. apply (Objects.nh_zero _ U1 U2) in N. destruct N as [N1 N2].
  destruct U1 as [U1 _], U2 as [U2 _]. repeat split; auto.
Qed.

(** ** Forms used by the property file *)

Lemma ioh_exact_rule {Q} (cq : Cmp Q) : total_order cq ->
  forall (r h : event Q docbox) i a,
  fits (ev_loc r) -> fits (ev_loc h) -> shares (ev_loc r) (ev_loc h) i -> covers (ev_loc h) a ->
  (a <= 2 ^ 24)%Z ->
  let pass := ev_query r = ev_query h /\ (0 < a)%Z /\ (a <= 2 * i)%Z in
  (pass /\ accepted (ioh_scorer cq f32_half r h)) \/ (~ pass /\ rejected (ioh_scorer cq f32_half r h)).
Proof.
  intros Hq r h i a F1 F2 S C B pass.
  destruct (ioh_exact cq Hq r h i a F1 F2 S C B) as [[E [P [K L]]]|[N K]].
  - left. repeat split; auto.
  - right. split; auto.
Qed.

Lemma soft_differ {Q} (cq : Cmp Q) : total_order cq ->
  forall (r h : event Q docbox), ev_query r <> ev_query h -> errors_are (soft_scorer cq r h) 1 1.
Proof.
  intros Hq r h N. rewrite soft_unfold. apply (to_ne _ Hq) in N. rewrite N.
  destruct f32_1_R as [A B]. repeat split; auto.
Qed.

Lemma soft_counts {Q} (cq : Cmp Q) : total_order cq ->
  forall (r h : event Q docbox) i ar ah,
  fits (ev_loc r) -> fits (ev_loc h) -> shares (ev_loc r) (ev_loc h) i ->
  covers (ev_loc r) ar -> covers (ev_loc h) ah ->
  ev_query r = ev_query h -> (0 < ah <= 2 ^ 24)%Z -> (0 < ar <= 2 ^ 24)%Z -> (0 < i)%Z ->
  me_nh (soft_scorer cq r h) = 1%nat /\ me_nr (soft_scorer cq r h) = 1%nat.
Proof.
  intros Hq r h i ar ah F1 F2 S C1 C2 E P1 P2 Pi.
  destruct (soft_unit cq r h i ar ah F1 F2 S C1 C2) as [U1 U2].
  destruct (soft_exact cq Hq r h i ar ah F1 F2 S C1 C2 E P1 P2) as [X1 [X2 [X3 X4]]].
  destruct (Objects.nh_nr_le_1 (soft_scorer cq r h)) as [L1 L2].
  assert (N1 := Objects.nh_zero _ U1 U2). assert (N2 := Objects.nr_zero _ U1 U2).
  assert (me_nh (soft_scorer cq r h) <> 0%nat).
  { intros K. apply N1 in K. destruct K as [_ K]. apply X4 in K. lia. }
  assert (me_nr (soft_scorer cq r h) <> 0%nat).
  { intros K. apply N2 in K. destruct K as [K _]. apply X2 in K. lia. }
  lia.
Qed.

Lemma unites_intro a b n : fits a -> fits b ->
  (docbox_area a + docbox_area b - docbox_inter a b)%Z = n -> unites a b n.
Proof.
  intros Fa Fb <-.
  destruct (covers_intro a _ Fa eq_refl) as [la [A1 [A2 A3]]].
  destruct (covers_intro b _ Fb eq_refl) as [lb [B1 [B2 B3]]].
  set (U := nodup (fun x y : bytes * (Z * Z) => ltac:(decide equality; [decide equality; apply Z.eq_dec|apply list_eq_dec, Ascii.ascii_dec]) : {x = y} + {x <> y})
              (map (pair (db_doc a)) la ++ map (pair (db_doc b)) lb)).
  assert (UU : unites a b (Z.of_nat (length U))).
  { exists U. split; [apply NoDup_nodup|]. split; [|reflexivity]. intros [d c]. unfold U.
    rewrite nodup_In, in_app_iff, !in_map_iff. simpl. split.
    - intros [[c' [[= <- <-] K]]|[c' [[= <- <-] K]]]; [left|right]; split; auto; [apply A2|apply B2]; auto.
    - intros [[-> K]|[-> K]]; [left|right]; exists c; split; auto; [apply A2|apply B2]; auto. }
  replace (docbox_area a + docbox_area b - docbox_inter a b)%Z with (Z.of_nat (length U)); auto.
  apply (unites_count a b); auto; try (apply covers_intro; auto). apply shares_intro; auto.
Qed.
