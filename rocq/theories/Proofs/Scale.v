(** Proofs about other resolutions of the documents. *)
From Coq Require Import Ascii String List Bool ZArith Reals Sorted Lia Lra Permutation.
From Flocq Require Import Core BinarySingleNaN.
From Verif.Model Require Import Cpp Floats Box Events EventSets Matches Matcher Scorers Assessment Bootstrap Mapper Stream Reader Options Tool.
From Verif.Spec Require Import Order Geometry Objects Sets Matching Scorers Grouping Collapse Metrics Reader Options Tool Parts Added Names Scale.
From Verif.Proofs Require Import Queries Tool Finish Programs Names.
From Verif.Proofs Require Import FloatFacts.
From Verif.Proofs Require Matching Evaluation Runs Parts Order Instances Geometry Scorers Added.
Import ListNotations.
Local Open Scope string_scope.
Local Open Scope list_scope.

Lemma u32_add_small x y : (0 <= x -> 0 <= y -> x + y < two32 -> u32_add x y = x + y)%Z.
Proof. intros. unfold u32_add, u32_wrap. apply Z.mod_small. lia. Qed.
Lemma u32_sub_small x y : (y <= x -> 0 <= y -> x < two32 -> u32_sub x y = x - y)%Z.
Proof. intros. unfold u32_sub, u32_wrap. apply Z.mod_small. lia. Qed.
Lemma u32_mul_small x y : (0 <= x -> 0 <= y -> x * y < two32 -> u32_mul x y = x * y)%Z.
Proof. intros. unfold u32_mul, u32_wrap. apply Z.mod_small. nia. Qed.

(** ** Powers of two *)

Section Powers.
  Local Open Scope R_scope.

  Lemma rnd32_scale x j : 1 <= Rabs x -> (0 <= j)%Z -> rnd32 (x * bpow radix2 j) = rnd32 x * bpow radix2 j.
  Proof.
    intros X J.
    assert (B1 : 1 <= bpow radix2 j) by (change 1 with (bpow radix2 0); now apply bpow_le).
    assert (Le : bpow radix2 (-149 + 24 - 1) <= 1) by (change 1 with (bpow radix2 0); now apply bpow_le).
    assert (Le2 : bpow radix2 (-149 + 24 - 1) <= Rabs (x * bpow radix2 j)).
    { rewrite Rabs_mult, (Rabs_pos_eq (bpow radix2 j)) by lra. nra. }
    assert (N : x <> 0) by (intros ->; rewrite Rabs_R0 in X; lra).
    change (round radix2 (FLT_exp (-149) 24) ZnearestE (x * bpow radix2 j) = round radix2 (FLT_exp (-149) 24) ZnearestE x * bpow radix2 j).
    rewrite !round_FLT_FLX by (exact Le2 || exact (Rle_trans _ _ _ Le X)).
    unfold round, F2R, scaled_mantissa, cexp, FLX_exp. cbn [Fnum Fexp].
    rewrite (mag_mult_bpow radix2 x j N).
    replace (x * bpow radix2 j * bpow radix2 (- (mag radix2 x + j - 24))) with (x * bpow radix2 (- (mag radix2 x - 24))).
    - rewrite Rmult_assoc, <- bpow_plus. do 2 f_equal. lia.
    - rewrite Rmult_assoc, <- bpow_plus. do 2 f_equal. lia.
  Qed.

  Lemma rnd32_int n j : (0 <= n)%Z -> (0 <= j)%Z -> rnd32 (IZR (n * 2 ^ j)) = rnd32 (IZR n) * bpow radix2 j.
  Proof.
    intros N J. rewrite mult_IZR, (IZR_Zpower radix2 j J : IZR (2 ^ j) = bpow radix2 j).
    destruct (Z.eq_dec n 0) as [->|Nz].
    - rewrite !Rmult_0_l. assert (Z0 : rnd32 0 = 0) by (unfold rnd; apply round_0; apply valid_rnd_N). rewrite Z0. ring.
    - apply rnd32_scale; [|exact J]. rewrite <- abs_IZR. apply (IZR_le 1). lia.
  Qed.

  Lemma ratio_scale j i a t : (0 <= j)%Z -> (0 <= i <= a)%Z -> (0 < a)%Z -> (2 ^ j * 2 ^ j * a < two32)%Z -> is_finite t = true ->
    f32_ge (Scorers.ratio (2 ^ j * 2 ^ j * i) (2 ^ j * 2 ^ j * a)) t = f32_ge (Scorers.ratio i a) t.
  Proof.
    intros J Hi Ha L Ft. assert (P : (1 <= 2 ^ j * 2 ^ j)%Z) by (assert (0 < 2 ^ j)%Z by (apply Z.pow_pos_nonneg; lia); nia).
    assert (La : (a < two32)%Z) by nia.
    destruct (Scorers.ratio_correct i a Hi (conj Ha La)) as (R1 & F1 & _).
    destruct (Scorers.ratio_correct (2 ^ j * 2 ^ j * i) (2 ^ j * 2 ^ j * a)) as (R2 & F2 & _); [nia|nia|].
    apply eq_true_iff_eq. rewrite !f32_ge_R by assumption. rewrite R1, R2.
    rewrite <- Z.pow_add_r, !(Z.mul_comm (2 ^ _)) by lia. rewrite !rnd32_int by lia.
    destruct (Scorers.rnd32_pos a (conj Ha La)) as [Pa _]. assert (B := bpow_gt_0 radix2 (j + j)).
    replace (rnd32 (IZR i) * bpow radix2 (j + j) / (rnd32 (IZR a) * bpow radix2 (j + j))) with (rnd32 (IZR i) / rnd32 (IZR a)) by (field; lra). reflexivity.
  Qed.
End Powers.

Section Resized.
  Variable s : bytes -> Z.
  Notation k := (map_event (fun u : bytes => u) (resized s)).

  Lemma box_lt_scale f a b : (1 <= f)%Z -> box_lt (Box (f * bx a) (f * by_ a) (f * bw a) (f * bh a)) (Box (f * bx b) (f * by_ b) (f * bw b) (f * bh b)) = box_lt a b.
  Proof.
    intros F. unfold box_lt. cbn [bx by_ bw bh].
    assert (E : forall x y, ((f * x =? f * y) = (x =? y))%Z) by (intros; apply eq_true_iff_eq; rewrite !Z.eqb_eq; nia).
    assert (L : forall x y, ((f * x <? f * y) = (x <? y))%Z) by (intros; apply eq_true_iff_eq; rewrite !Z.ltb_lt; nia).
    rewrite !E, !L. reflexivity.
  Qed.

  Lemma docbox_lt_resized a b : (1 <= s (db_doc a))%Z -> docbox_lt (resized s a) (resized s b) = docbox_lt a b.
  Proof.
    intros F. unfold docbox_lt, resized. cbv zeta. cbn [db_doc db_box].
    destruct (str_eq (db_doc a) (db_doc b)) eqn:E; cbn [negb]; [|reflexivity].
    apply Geometry.str_eq_spec in E. rewrite <- E. now apply box_lt_scale.
  Qed.

  Lemma scaled_le f x y : (1 <= f -> (f * x <= f * y <-> x <= y))%Z.
  Proof. intros. nia. Qed.

  Lemma square_le f a : (1 <= f -> 0 <= a -> a <= f * f * a)%Z.
  Proof. intros. assert (1 <= f * f)%Z by nia. nia. Qed.

  Lemma square_mono f x y : (1 <= f -> (f * f * x <= f * f * y <-> x <= y))%Z.
  Proof. intros. assert (1 <= f * f)%Z by nia. generalize dependent (f * f)%Z. intros. nia. Qed.

  Lemma square_lt f x y : (1 <= f -> (f * f * x < f * f * y <-> x < y))%Z.
  Proof. intros. assert (1 <= f * f)%Z by nia. generalize dependent (f * f)%Z. intros. nia. Qed.

  Lemma scaled_lt f x y : (1 <= f -> (f * x <? f * y) = (x <? y))%Z.
  Proof. intros F. apply eq_true_iff_eq. rewrite !Z.ltb_lt. nia. Qed.

  (** The intersection of boxes that do not wrap around. *)
  Lemma inter_plain a b : u32_box a -> edges_fit a -> area_fits a -> u32_box b -> edges_fit b ->
    let x1 := Z.max (bx a) (bx b) in let x2 := Z.min (bx a + bw a) (bx b + bw b) in
    let y1 := Z.max (by_ a) (by_ b) in let y2 := Z.min (by_ a + bh a) (by_ b + bh b) in
    box_inter a b = if ((x2 <? x1) || (y2 <? y1))%Z then 0%Z else ((x2 - x1) * (y2 - y1))%Z.
  Proof.
    intros (A1 & A2 & A3 & A4) (A5 & A6) A7 (B1 & B2 & B3 & B4) (B5 & B6). unfold is_u32, area_fits in *. unfold box_inter.
    rewrite !u32_add_small by (clear A7; lia). cbv zeta. destruct orb eqn:O; [reflexivity|].
    apply orb_false_elim in O as [O1 O2]. apply Z.ltb_ge in O1, O2.
    rewrite !u32_sub_small by (clear A7; lia). apply u32_mul_small; [clear A7; lia|clear A7; lia|].
    eapply Z.le_lt_trans; [|exact A7]. apply Z.mul_le_mono_nonneg; clear A7; lia.
  Qed.

  Lemma inter_scale f a b : (1 <= f)%Z -> u32_box a -> edges_fit a -> area_fits a -> u32_box b -> edges_fit b ->
    let a' := Box (f * bx a) (f * by_ a) (f * bw a) (f * bh a) in let b' := Box (f * bx b) (f * by_ b) (f * bw b) (f * bh b) in
    u32_box a' -> edges_fit a' -> area_fits a' -> u32_box b' -> edges_fit b' -> (box_inter a' b' = f * f * box_inter a b)%Z.
  Proof.
    intros F A1 A2 A0 B1 B2 a' b' A3 A4 A5 B3 B4. rewrite (inter_plain a' b' A3 A4 A5 B3 B4), (inter_plain a b A1 A2 A0 B1 B2).
    unfold a', b'. cbn [bx by_ bw bh]. cbv zeta. rewrite <- !Z.mul_add_distr_l, !Z.mul_max_distr_nonneg_l, !Z.mul_min_distr_nonneg_l by lia.
    rewrite !(scaled_lt f _ _ F). destruct orb; ring.
  Qed.

  Lemma inter_resized a b : (1 <= s (db_doc a))%Z -> fits a -> fits (resized s a) -> fits b -> fits (resized s b) ->
    docbox_inter (resized s a) (resized s b) = (s (db_doc a) * s (db_doc a) * docbox_inter a b)%Z.
  Proof.
    intros F (A1 & A2 & A3) (A4 & A5 & A6) (B1 & B2 & B3) (B4 & B5 & B6). unfold docbox_inter, resized in *. cbv zeta in *. cbn [db_doc db_box] in *.
    destruct (str_eq (db_doc a) (db_doc b)) eqn:E; [|ring]. apply Geometry.str_eq_spec in E. rewrite <- E in *. now apply inter_scale.
  Qed.

  Lemma area_resized a : (1 <= s (db_doc a))%Z -> fits a -> fits (resized s a) ->
    docbox_area (resized s a) = (s (db_doc a) * s (db_doc a) * docbox_area a)%Z.
  Proof.
    intros F ((_ & _ & (A1 & _) & (A2 & _)) & _ & A3) ((_ & _ & (A4 & _) & (A5 & _)) & _ & A6). unfold docbox_area, box_area, resized, area_fits in *. cbv zeta in *. cbn [db_doc db_box bw bh bx by_] in *.
    rewrite !u32_mul_small by assumption. ring.
  Qed.

  Section Events.
    Variables (DD : bytes -> Prop) (P : shaped -> Prop).
    Hypothesis HP : forall e, P e -> (1 <= s (db_doc (ev_loc e)))%Z /\ fits (ev_loc e) /\ fits (resized s (ev_loc e)).

    Lemma event_lt_resized x y : P x -> event_lt cmp_str cmp_docbox (k x) (k y) = event_lt cmp_str cmp_docbox x y.
    Proof.
      intros Px. destruct (HP x Px) as (F & _). unfold event_lt. cbn [map_event ev_query ev_loc].
      destruct (c_ne cmp_str (ev_query x) (ev_query y)); [reflexivity|]. exact (docbox_lt_resized _ _ F).
    Qed.

    Lemma overlap_resized x y : P x -> P y -> overlap (k x) (k y) = (s (db_doc (ev_loc y)) * s (db_doc (ev_loc y)) * overlap x y)%Z.
    Proof.
      intros Px Py. destruct (HP x Px) as (_ & Fx & Gx), (HP y Py) as (F & Fy & Gy). unfold overlap. cbn [map_event ev_loc]. now apply inter_resized.
    Qed.

    Lemma scorer_resized r h : P r -> P h -> (docbox_area (resized s (ev_loc h)) <= 2 ^ 24)%Z ->
      ioh_scorer cmp_str f32_half (k r) (k h) = ioh_scorer cmp_str f32_half r h.
    Proof.
      intros Pr Ph L. destruct (HP r Pr) as (Fr & Fr1 & Fr2), (HP h Ph) as (Fh & Fh1 & Fh2).
      assert (Ar := area_resized _ Fh Fh1 Fh2). assert (Ir := inter_resized _ _ Fr Fr1 Fr2 Fh1 Fh2).
      assert (A0 : (0 <= docbox_area (ev_loc h))%Z).
      { unfold docbox_area, box_area, u32_mul, u32_wrap. apply Z.mod_pos_bound. reflexivity. }
      assert (L1 : (docbox_area (ev_loc h) <= 2 ^ 24)%Z).
      { eapply Z.le_trans; [|exact L]. rewrite Ar. now apply square_le. }
      assert (R1 := Scorers.ioh_exact_rule cmp_str Order.total_order_str r h _ _ Fr1 Fh1 (Scorers.shares_intro _ _ _ Fr1 Fh1 eq_refl) (Scorers.covers_intro _ _ Fh1 eq_refl) L1).
      assert (R2 := Scorers.ioh_exact_rule cmp_str Order.total_order_str (k r) (k h) _ _ Fr2 Fh2 (Scorers.shares_intro _ _ _ Fr2 Fh2 eq_refl) (Scorers.covers_intro _ _ Fh2 eq_refl) L).
      change (ev_loc (k r)) with (resized s (ev_loc r)) in R2. change (ev_loc (k h)) with (resized s (ev_loc h)) in R2.
      change (ev_query (k r)) with (ev_query r) in R2. change (ev_query (k h)) with (ev_query h) in R2.
      assert (Sd : docbox_inter (ev_loc r) (ev_loc h) <> 0%Z -> s (db_doc (ev_loc r)) = s (db_doc (ev_loc h))).
      { unfold docbox_inter. destruct str_eq eqn:E; [|congruence]. apply Geometry.str_eq_spec in E. now rewrite E. }
      assert (Same : (ev_query r = ev_query h /\ 0 < docbox_area (resized s (ev_loc h)) /\ docbox_area (resized s (ev_loc h)) <= 2 * docbox_inter (resized s (ev_loc r)) (resized s (ev_loc h)))%Z
        <-> (ev_query r = ev_query h /\ 0 < docbox_area (ev_loc h) /\ docbox_area (ev_loc h) <= 2 * docbox_inter (ev_loc r) (ev_loc h))%Z).
      { rewrite Ar, Ir. assert (E1 : forall a, (0 < s (db_doc (ev_loc h)) * s (db_doc (ev_loc h)) * a <-> 0 < a)%Z).
        { intros a. rewrite <- (square_lt _ 0 a Fh), Z.mul_0_r. reflexivity. }
        rewrite E1. destruct (Z.eq_dec (docbox_inter (ev_loc r) (ev_loc h)) 0) as [->|N].
        - rewrite !Z.mul_0_r. assert (E2 := square_le _ _ Fh A0). split; intros (Q & B & C); exfalso; [apply E1 in B|]; lia.
        - rewrite (Sd N). rewrite Z.mul_shuffle3, (square_mono _ _ _ Fh). reflexivity. }
      destruct R1 as [[H1 K1]|[H1 K1]], R2 as [[H2 K2]|[H2 K2]].
      - rewrite K1. exact K2.
      - exfalso. apply H2, Same, H1.
      - exfalso. apply H1, Same, H2.
      - rewrite K1. exact K2.
    Qed.

    Lemma scorer_doubled r h j : P r -> P h -> (0 <= j)%Z -> s (db_doc (ev_loc h)) = (2 ^ j)%Z ->
      ioh_scorer cmp_str f32_half (k r) (k h) = ioh_scorer cmp_str f32_half r h.
    Proof.
      intros Pr Ph J Sj. destruct (HP r Pr) as (Fr & Fr1 & Fr2), (HP h Ph) as (Fh & Fh1 & Fh2).
      assert (Ar := area_resized _ Fh Fh1 Fh2). assert (Ir := inter_resized _ _ Fr Fr1 Fr2 Fh1 Fh2).
      assert (C2 := Scorers.covers_bounds _ _ Fh2 (Scorers.covers_intro _ _ Fh2 eq_refl)).
      assert (S1 := Scorers.shares_bounds _ _ _ _ Fr1 Fh1 (Scorers.shares_intro _ _ _ Fr1 Fh1 eq_refl) (Scorers.covers_intro _ _ Fh1 eq_refl)).
      unfold ioh_scorer. change (ev_query (k r)) with (ev_query r). change (ev_query (k h)) with (ev_query h).
      change (shaped_area (k h)) with (docbox_area (resized s (ev_loc h))). change (shaped_area h) with (docbox_area (ev_loc h)).
      change (shaped_inter (k r) (k h)) with (docbox_inter (resized s (ev_loc r)) (resized s (ev_loc h))). change (shaped_inter r h) with (docbox_inter (ev_loc r) (ev_loc h)).
      assert (Sd : (s (db_doc (ev_loc r)) * s (db_doc (ev_loc r)) * docbox_inter (ev_loc r) (ev_loc h) = 2 ^ j * 2 ^ j * docbox_inter (ev_loc r) (ev_loc h))%Z).
      { unfold docbox_inter. destruct str_eq eqn:E; [|now rewrite !Z.mul_0_r]. apply Geometry.str_eq_spec in E. now rewrite E, Sj. }
      rewrite Ar, Ir, Sd, Sj in *. assert (P2 : (1 <= 2 ^ j)%Z) by lia.
      assert (E0 : ((0 <? 2 ^ j * 2 ^ j * docbox_area (ev_loc h)) = (0 <? docbox_area (ev_loc h)))%Z).
      { apply eq_true_iff_eq. rewrite !Z.ltb_lt. assert (Q := square_lt (2 ^ j) 0 (docbox_area (ev_loc h)) P2). rewrite Z.mul_0_r in Q. exact Q. }
      rewrite E0. destruct (c_eq cmp_str (ev_query r) (ev_query h) && (0 <? docbox_area (ev_loc h))%Z) eqn:B; [|reflexivity].
      apply andb_prop in B as [_ B]. apply Z.ltb_lt in B.
      assert (K := ratio_scale j _ _ f32_half J S1 B (proj2 C2) eq_refl). unfold Scorers.ratio in K. cbv zeta. now rewrite K.
    Qed.

    Lemma search_resized rs h l : (forall r, In r rs -> P r) -> P (sc_base h) -> box_search cmp_str rs h l ->
      box_search cmp_str (map k rs) (map_scored k h) (map k l).
    Proof.
      intros Pr Ph (N & I & So). assert (Pl : forall r, In r l -> P r) by (intros r J; apply I in J as [J _]; auto).
      assert (KI : forall x y, P x -> P y -> k x = k y -> x = y).
      { intros x y Px Py E. destruct (to_total _ Order.total_order_shaped x y) as [L|[L|L]]; [|exact L|]; exfalso.
        - assert (L' := event_lt_resized x y Px). rewrite E in L'. assert (Z1 := to_irrefl _ Order.total_order_shaped (k y)). cbn in L, L', Z1. congruence.
        - assert (L' := event_lt_resized y x Py). rewrite E in L'. assert (Z1 := to_irrefl _ Order.total_order_shaped (k y)). cbn in L, L', Z1. congruence. }
      assert (Pos : forall x, P x -> (0 < overlap (k (sc_base h)) (k x) <-> 0 < overlap (sc_base h) x)%Z).
      { intros x Px. rewrite (overlap_resized _ _ Ph Px). destruct (HP x Px) as (F & _). rewrite <- (square_lt _ 0 (overlap (sc_base h) x) F), Z.mul_0_r. reflexivity. }
      split; [|split].
      - clear I So. induction l as [|x l IH]; cbn [map]; [constructor|]. inversion N as [|? ? N1 N2]; subst. constructor.
        + intros J. apply in_map_iff in J as (y & E & J). apply N1. assert (y = x) as <-; [|exact J]. apply KI; [apply Pl; now right|apply Pl; now left|exact E].
        + apply IH; [exact N2|]. intros r J. apply Pl. now right.
      - intros r. split.
        + intros J. apply in_map_iff in J as (x & <- & J). assert (Px := Pl x J). apply I in J as (J1 & J2 & J3 & J4). split; [now apply in_map|].
          split; [exact J2|]. split; [exact J3|]. exact (proj2 (Pos x Px) J4).
        + intros (J1 & J2 & J3 & J4). apply in_map_iff in J1 as (x & <- & J1). assert (Px := Pr x J1). apply in_map, I. split; [exact J1|].
          split; [exact J2|]. split; [exact J3|exact (proj1 (Pos x Px) J4)].
      - revert So. apply sorted_forth. intros x y J1 J2. assert (Px := Pl x J1). assert (Py := Pl y J2). intros O.
        assert (O1 := overlap_resized _ _ Ph Px). assert (O2 := overlap_resized _ _ Ph Py). assert (O3 := event_lt_resized y x Py).
        apply I in J1 as (_ & _ & D1 & _). apply I in J2 as (_ & _ & D2 & _). destruct (HP x Px) as (F & _).
        change (overlap_order cmp_str (k (sc_base h)) (k x) (k y)). unfold overlap_order in *. rewrite O1, O2, O3.
        assert (Ds : s (db_doc (ev_loc y)) = s (db_doc (ev_loc x))) by (f_equal; exact (eq_trans D2 (eq_sym D1))). rewrite Ds.
        destruct O as [O|[O4 O5]]; [left|right; split; [f_equal; exact O4|exact O5]].
        now apply square_lt.
    Qed.
  End Events.
End Resized.

Section Icdar.
  Context {A : Arith} (T : Trans A).
  Variables (srt : sort_fn) (Hs : sort_contract srt).
  Variables (rngs : Z -> rng) (show_int : Z -> bytes) (show_f64 : f64 -> bytes).
  Notation icdar := (icdar17 A T srt rngs show_int show_f64).

  Lemma map_queries_id (f : query_file bytes) : map_queries (fun q => q) f = f.
  Proof.
    destruct f as [|qs|ls]; cbn [map_queries]; [reflexivity|now rewrite map_id|]. f_equal. induction ls as [|l ls IH]; [reflexivity|]. cbn [map]. rewrite map_id. now f_equal.
  Qed.

  Lemma icdar_resized w w' pn args c refs hyps f s l r l' r' : command args c -> no_bootstrap c ->
    let k := map_event (fun q => q) (resized s) in
    inputs shaped_text scored_shaped_text w c refs hyps f ->
    inputs shaped_text scored_shaped_text w' c (map k refs) (map (map_scored k) hyps) f ->
    w_writable w = w_writable w' -> (forall d, documents_of refs hyps d -> 1 <= s d)%Z ->
    (forall r, In r refs -> fits (ev_loc r) /\ fits (resized s (ev_loc r))) ->
    (forall h, In h hyps -> fits (ev_loc (sc_base h)) /\ fits (resized s (ev_loc (sc_base h))) /\ ((exists n, covers (resized s (ev_loc (sc_base h))) n /\ (n <= 2 ^ 24)%Z) \/ (exists j, (0 <= j)%Z /\ s (db_doc (ev_loc (sc_base h))) = (2 ^ j)%Z))) ->
    icdar w pn args = (l, r) -> icdar w' pn args = (l', r') ->
    r = r' /\ exists ms log ms' log' rest, Forall2 equal_matches (map (map_match k (map_scored k)) ms) ms' /\
      outputs l = dumped c ms log ++ rest /\ outputs l' = dumped c ms' log' ++ rest.
  Proof.
    intros Cm NB k I I' Hw Sp Sr Sh Et Et'.
    destruct (Instances.icdar_run T srt Hs rngs show_int show_f64 w pn args c refs _ f l r Cm NB I Et) as (ms & log & gs & Fi & Ev & Rp).
    destruct (Instances.icdar_run T srt Hs rngs show_int show_f64 w' pn args c _ _ _ l' r' Cm NB I' Et') as (ms' & log' & gs' & Fi' & Ev' & Rp').
    set (P := fun e : shaped => In e refs \/ exists h, In h hyps /\ e = sc_base h).
    assert (HP : forall e, P e -> (1 <= s (db_doc (ev_loc e)))%Z /\ fits (ev_loc e) /\ fits (resized s (ev_loc e))).
    { intros e [J|(h & J & ->)]; (split; [apply Sp; unfold documents_of; eauto|]); [now apply Sr|]. destruct (Sh h J) as (S1 & S2 & _). now split. }
    assert (Ph : forall h, In h hyps -> P (sc_base h)) by (intros h J; right; eauto). assert (Pr : forall x, In x refs -> P x) by (intros x J; now left).
    assert (Ev2 : icdar17_evaluation (cf_sort c) (map_queries (fun q => q) f) (map k refs) (map (map_scored k) hyps) (map (map_match k (map_scored k)) ms) (map (map_match k (map_scored k)) log) (map (map (map_match k (map_scored k))) gs)).
    { apply (evaluation_forth cmp_shaped Order.total_order_shaped ev_query (evset_docbox srt cmp_str) (box_search cmp_str) (Matching.finds_docbox srt cmp_str Hs Order.total_order_str)
        (fun r h => ioh_scorer cmp_str f32_half r (sc_base h)) (fun _ => True) (fun q => q) (fun s t _ _ E => E) k (fun x => eq_refl) f refs hyps); auto.
      - intros x y Jx Jy. assert (E := event_lt_resized s P HP x y (Pr x Jx)).
        exact (conj (fun L => eq_trans (eq_sym E) L) (fun L => eq_trans E L)).
      - intros x y Jx Jy. assert (E := event_lt_resized s P HP _ (sc_base y) (Ph x Jx)).
        exact (conj (fun L => eq_trans (eq_sym E) L) (fun L => eq_trans E L)).
      - intros rs h l0 Inc J. apply (search_resized s P HP); auto.
      - intros x h Jx Jh. destruct (Sh h Jh) as (_ & S2 & [(n & Cv & Ln)|(j & J0 & Ej)]); [|exact (scorer_doubled s P HP x (sc_base h) j (Pr x Jx) (Ph h Jh) J0 Ej)].
        apply (scorer_resized s P HP x (sc_base h) (Pr x Jx) (Ph h Jh)). rewrite (Scorers.fits_area _ n S2 Cv). exact Ln. }
    rewrite map_queries_id in Ev2.
    assert (F1 := Added.evaluation_same cmp_shaped Order.total_order_shaped cmp_shaped Order.total_order_shaped ev_query ev_query
      (evset_docbox srt cmp_str) (box_search cmp_str) (Matching.finds_docbox srt cmp_str Hs Order.total_order_str)
      (fun r h => ioh_scorer cmp_str f32_half r (sc_base h)) Runs.box_search_base
      (fun r h h' B => f_equal (fun x => ioh_scorer cmp_str f32_half r x) B) _ _ _ _ _ _ _ _ _ _ Fi' Ev2 Ev').
    assert (F2 := Runs.groups_equal ev_query ev_query _ _ _ _ _ F1 (Parts.evaluation_grouping _ _ _ _ _ _ _ _ _ _ _ _ _ Ev2) (Parts.evaluation_grouping _ _ _ _ _ _ _ _ _ _ _ _ _ Ev')).
    destruct (reported_mapped T k k srt w c ms log gs l r Rp) as (rest & l2 & O & O2 & Rp2).
    destruct (Runs.reported_equal T srt w w' c _ _ _ _ _ _ l2 r l' r' Hw F1 F2 Rp2 Rp') as (-> & rest' & O3 & O').
    rewrite O2 in O3. apply app_inv_head in O3. subst rest'.
    split; [reflexivity|]. exists ms, log, ms', log', rest. auto.
  Qed.
End Icdar.
