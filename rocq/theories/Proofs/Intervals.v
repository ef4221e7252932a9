(** Proofs about confidence intervals. *)
From Coq Require Import Ascii String List Bool ZArith Reals Lra Lia Permutation Sorted.
From Flocq Require Import Core BinarySingleNaN.
From Verif.Model Require Import Cpp Floats Box Events EventSets Matches Matcher Scorers Assessment Bootstrap Mapper Stream
  Reader Options Tool.
From Verif.Spec Require Import Order Objects Sets Matching Scorers Grouping Collapse Metrics Curves Double Bootstrap Reader Options Gain Tool Libm
  Samples Where Selected Found Again Perfect Intervals.
From Verif.Proofs Require Import FloatFacts Queries Tool Finish Where.
From Verif.Proofs Require Order Double Bootstrap Instances Samples Selected Grouping Curves Metrics Ndcg Printed Settings Unfound Perfect AveragePrecision Evaluation Results Matching.
Import ListNotations.
Local Open Scope list_scope.
Local Open Scope R_scope.

(** ** Levels *)

Lemma sub_finite (a b : f64) : is_finite (f64_sub a b) = true -> B2R (f64_sub a b) = rnd64 (B2R a - B2R b).
Proof.
  intros F. unfold f64_sub in *.
  assert (Fa : is_finite a = true /\ is_finite b = true).
  { destruct a as [s|s| |s m e H], b as [s'|s'| |s' m' e' H']; cbn in F |- *; auto; try discriminate F; try (destruct s, s'; discriminate F). }
  destruct Fa as [Fa Fb]. assert (K := Bminus_correct 53 1024 prec64 emax64 mode_NE a b Fa Fb). destruct Rlt_bool in K; [apply K|].
  destruct K as [K _]. exfalso. destruct (Bminus mode_NE a b); cbn in F; try discriminate F; cbn in K; discriminate K.
Qed.

Lemma level_order a a' reps i i' j j' : B2R a <= B2R a' ->
  percentile_index (rest_level a) reps i -> percentile_index (rest_level a') reps i' ->
  percentile_index (half_level a) reps j -> percentile_index (half_level a') reps j' -> (i' <= i)%nat /\ (j <= j')%nat.
Proof.
  intros L P1 P2 P3 P4. assert (N : 0 <= IZR (Z.of_nat reps)) by (apply IZR_le; lia).
  assert (Hh : half_level a <= half_level a') by (unfold half_level; rewrite !Double.nearest_rnd; apply rnd64_le; lra).
  unfold percentile_index in *. split; apply Nat2Z.inj_le; rewrite ?P1, ?P2, ?P3, ?P4; rewrite !Double.nearest_rnd; apply Ztrunc_le, rnd64_le, Rmult_le_compat_r; auto.
  unfold rest_level. rewrite !Double.nearest_rnd. apply rnd64_le. lra.
Qed.

(** ** Sorted lists *)

Lemma sorted_same (a b : list R) : Permutation a b -> StronglySorted Rle a -> StronglySorted Rle b -> a = b.
Proof.
  revert b. induction a as [|x a IH]; intros b P Sa Sb; [now apply Permutation_nil in P|].
  destruct b as [|y b]; [apply Permutation_sym, Permutation_nil in P; discriminate|].
  inversion Sa as [|? ? Sa' Fa]; inversion Sb as [|? ? Sb' Fb]; subst. rewrite Forall_forall in Fa, Fb.
  assert (E : x = y).
  { apply Rle_antisym.
    - destruct (Permutation_in y (Permutation_sym P) (or_introl eq_refl)) as [->|J]; [lra|auto].
    - destruct (Permutation_in x P (or_introl eq_refl)) as [->|J]; [lra|auto]. }
  subst y. f_equal. apply IH; auto. exact (Permutation_cons_inv P).
Qed.

Lemma sorted_nth (l : list R) : StronglySorted Rle l -> forall i j x y, (i <= j)%nat -> nth_error l i = Some x -> nth_error l j = Some y -> x <= y.
Proof.
  induction 1 as [|z l S IH F]; intros i j x y L E1 E2; [destruct i; discriminate|]. rewrite Forall_forall in F.
  destruct i as [|i], j as [|j]; cbn in E1, E2; try lia.
  - injection E1 as <-. injection E2 as <-. lra.
  - injection E1 as <-. apply F. eapply nth_error_In, E2.
  - apply (IH i j); auto. lia.
Qed.

Lemma sorted_B2R (l : list f64) : StronglySorted (fun a b : f64 => B2R a <= B2R b) l -> StronglySorted Rle (map B2R l).
Proof.
  induction 1 as [|x l S IH F]; cbn [map]; constructor; [exact IH|]. rewrite Forall_forall in *. intros y I. apply in_map_iff in I as (z & <- & I). auto.
Qed.

(** ** Nested intervals *)

Lemma interval_wider {M} (stat : list (list M) -> outcome f64) groups samples a a' v v' lo up lo' up' : B2R a <= B2R a' ->
  interval stat groups samples a v lo up -> interval stat groups samples a' v' lo' up' ->
  v = v' /\ B2R lo <= B2R lo' /\ B2R up' <= B2R up.
Proof.
  intros L [E1 (vs & ds & li & ui & dl & du & F & P & S & Pl & Pu & Nl & Nu & El & Eu) [_ [Fl Fu]] _] [E2 (vs' & ds' & li' & ui' & dl' & du' & F' & P' & S' & Pl' & Pu' & Nl' & Nu' & El' & Eu') [_ [Fl' Fu']] _].
  rewrite E1 in E2. injection E2 as <-. split; [reflexivity|].
  assert (Ev : vs = vs').
  { clear - F F'. revert vs' F'. induction F as [|s x ss vs Ex F IH]; intros vs' F'; inversion F'; subst; [reflexivity|]. rewrite Ex in *. f_equal; [congruence|auto]. }
  subst vs'. destruct (level_order a a' _ li li' ui ui' L Pl Pl' Pu Pu') as [Ll Lu].
  assert (Ed : map B2R ds = map B2R ds').
  { apply sorted_same; [apply Permutation_map; exact (Permutation_trans (Permutation_sym P) P')|now apply sorted_B2R|now apply sorted_B2R]. }
  assert (Sd := sorted_B2R _ S).
  assert (Q : forall k x, nth_error ds k = Some x -> nth_error (map B2R ds) k = Some (B2R x)) by (intros k x K; now apply map_nth_error).
  assert (Q' : forall k x, nth_error ds' k = Some x -> nth_error (map B2R ds) k = Some (B2R x)) by (intros k x K; rewrite Ed; now apply map_nth_error).
  assert (A1 := sorted_nth _ Sd _ _ _ _ Ll (Q' _ _ Nl') (Q _ _ Nl)). assert (A2 := sorted_nth _ Sd _ _ _ _ Lu (Q _ _ Nu) (Q' _ _ Nu')).
  subst lo up lo' up'. rewrite !sub_finite by assumption. split; apply rnd64_le; lra.
Qed.

Lemma measured_wider {M} c c' ci (groups : list (list M)) samples plain stat v v' i i' : B2R (cf_alpha c) <= B2R (cf_alpha c') ->
  measured c ci groups samples plain stat v i -> measured c' ci groups samples plain stat v' i' -> v = v' /\ encloses ci i i'.
Proof.
  intros L. unfold measured. destruct ci.
  - intros (lo & up & -> & I) (lo' & up' & -> & I'). destruct (interval_wider _ _ _ _ _ _ _ _ _ _ _ L I I') as (E & A & B).
    split; [exact E|]. cbn. assert (F := iv_finite _ _ _ _ _ _ _ I). assert (F' := iv_finite _ _ _ _ _ _ _ I'). tauto.
  - intros [-> E] [-> E']. rewrite E in E'. injection E' as <-. split; [reflexivity|]. reflexivity.
Qed.

(** ** The end of a run *)

Section End_.
  Context {A : Arith} (T : Trans A) {Q RE E : Type}.
  Notation HE := (scored E).
  Notation M := (match_t RE HE).
  Notation Prog := (prog A (RE := RE) (HE := HE)).
  Context (srt : sort_fn) (rngs : Z -> rng).
  Context (cq : Cmp Q) (rq : RE -> Q) (hq : E -> Q).
  Notation hqs := (fun h : HE => hq (sc_base h)).

  (** What follows the statistics. *)
  Definition curves_of (w : world) (c : config) (ms : list M) (groups : list (list M)) : Prog unit :=
    pbind A (curve_part (cf_grp c) (write_global_curve A sc_score w c ms))
      (fun _ => pbind A (curve_part (cf_mrp c) (write_mean_curve A sc_score w c groups)) (fun _ => stop A 0)).

  Definition four (v1 v2 v3 v4 : num A) (i1 i2 i3 i4 : option (num A * num A)) : list (effect A (RE := RE) (HE := HE)) :=
    [EStat (A := A) (lit "gAP") v1 i1; EStat (A := A) (lit "mAP") v2 i2; EStat (A := A) (lit "gNDCG") v3 i3; EStat (A := A) (lit "mNDCG") v4 i4].

  Lemma finish_lines w c m n (ms log : list M) (groups : list (list M)) v1 v2 v3 v4 i1 i2 i3 i4 :
    group_matches cq rq hqs ms m = Ok groups -> (total (fun x => me_nh (m_err x)) ms <= n)%nat ->
    (cf_dump c <> [] -> w_writable w (cf_dump c) = true) ->
    compute_statistic A srt rngs (lit "gAP") c (cf_ci_gap c) groups (global_ap A sc_score ms (cf_collapse c) (cf_interp c) (cf_trapezoid c))
      (fun g => global_ap_groups A sc_score srt g (cf_collapse c) (cf_interp c) (cf_trapezoid c) true) = ([EStat (lit "gAP") v1 i1], inl tt) ->
    compute_statistic A srt rngs (lit "mAP") c (cf_ci_map c) groups (mean_ap A sc_score srt groups (cf_collapse c) (cf_interp c) (cf_trapezoid c) false)
      (fun g => mean_ap A sc_score srt g (cf_collapse c) (cf_interp c) (cf_trapezoid c) true) = ([EStat (lit "mAP") v2 i2], inl tt) ->
    compute_statistic A srt rngs (lit "gNDCG") c (cf_ci_gndcg c) groups (Ok (global_ndcg A T sc_score ms (cf_collapse c)))
      (fun g => global_ndcg_groups A T sc_score srt g (cf_collapse c) true) = ([EStat (lit "gNDCG") v3 i3], inl tt) ->
    compute_statistic A srt rngs (lit "mNDCG") c (cf_ci_mndcg c) groups (mean_ndcg A T sc_score srt groups (cf_collapse c) false)
      (fun g => mean_ndcg A T sc_score srt g (cf_collapse c) true) = ([EStat (lit "mNDCG") v4 i4], inl tt) ->
    outputs (fst (finish T srt rngs cq rq hq w c m n ms log)) = dumped c ms log ++ four v1 v2 v3 v4 i1 i2 i3 i4 ++ outputs (fst (curves_of w c ms groups)) /\
    snd (finish T srt rngs cq rq hq w c m n ms log) = snd (curves_of w c ms groups).
  Proof.
    intros G L Dm S1 S2 S3 S4. destruct (check_ok (A := A) n ms L) as (D & Ec & OD).
    assert (EF : finish T srt rngs cq rq hq w c m n ms log = pbind A (dumped c ms log ++ D ++ four v1 v2 v3 v4 i1 i2 i3 i4, inl tt) (fun _ => curves_of w c ms groups)).
    { unfold finish. destruct (dump_cases (A := A) w c ms log) as [(N & W & _)|(_ & Ed)]; [rewrite (Dm N) in W; discriminate|].
      assert (R : report A T srt rngs cq rq hqs sc_score w c m ms =
        pbind A (four v1 v2 v3 v4 i1 i2 i3 i4, inl tt)
          (fun _ => pbind A (curve_part (cf_grp c) (write_global_curve A sc_score w c ms))
          (fun _ => curve_part (cf_mrp c) (write_mean_curve A sc_score w c groups)))).
      { unfold report. rewrite G. cbn [run]. unfold pret at 1. rewrite pbind_nil, S1, S2, S3, S4. unfold four.
        repeat (progress (rewrite ?pbind_assoc, ?pbind_inl; cbn [fst snd app])). reflexivity. }
      rewrite Ed, Ec, R. unfold curves_of. repeat (progress (rewrite ?pbind_assoc, ?pbind_inl; cbn [fst snd])).
      rewrite <- !app_assoc. reflexivity. }
    rewrite EF, pbind_inl. cbn [fst snd]. split; [|reflexivity].
    assert (OS : outputs (A := A) (dumped c ms log) = dumped c ms log) by (unfold dumped; destruct (cf_dump c); reflexivity).
    rewrite !outputs_app, OS, OD, <- !app_assoc. reflexivity.
  Qed.

  Lemma curves_stats w c ms groups : stats (outputs (fst (curves_of w c ms groups))) = [].
  Proof.
    unfold curves_of.
    destruct (curve_part_ok w (cf_grp c) (write_global_curve A sc_score w c ms) (fun _ => True)) as (g & b & Eg & Og & Cg).
    { intros N. destruct (global_curve_ok (A := A) sc_score w c ms N) as [(W1 & pts & E1 & _)|(W1 & E1)]; [left|right]; [split; [exact W1|]; exists pts|]; auto. }
    destruct (curve_part_ok w (cf_mrp c) (write_mean_curve A sc_score w c groups) (fun _ => True)) as (j & b' & Ek & Oj & Ck).
    { intros N. destruct (mean_curve_ok (A := A) sc_score w c groups N) as [(W1 & pts & E1 & _)|(W1 & E1)]; [left|right]; [split; [exact W1|]; exists pts|]; auto. }
    assert (N : forall name (x : list (effect A (RE := RE) (HE := HE))) d, curve_file w name (fun _ => True) x d -> stats x = []) by (intros name x d K; destruct K; reflexivity).
    assert (Ng := N _ _ _ Cg). assert (Nj := N _ _ _ Ck).
    rewrite Eg. destruct b; [|cbn [pbind fst]; now rewrite Og]. rewrite pbind_inl, Ek.
    destruct b'; [rewrite pbind_inl; cbn [fst snd stop]; rewrite app_nil_r|cbn [pbind fst snd]]; rewrite outputs_app, Og, Oj; unfold stats in *; rewrite flat_map_app, Ng, Nj; reflexivity.
  Qed.
End End_.

(** ** Runs that differ in the level *)

Section Level.
  Context {Q RE E : Type}.
  Notation HE := (scored E).
  Notation M := (match_t RE HE).
  Context (T : Trans DArith) (HT : accurate T) (srt : sort_fn) (Hs : sort_contract srt) (rngs : Z -> rng).
  Context (cq : Cmp Q) (rq : RE -> Q) (hq : E -> Q).
  Notation hqs := (fun h : HE => hq (sc_base h)).
  Variables (ms log : list M) (groups : list (list M)) (k : nat).
  Hypothesis Rk : forall g, In g groups -> ranked sc_score g /\ forall m, In m g -> zero_one (m_err m).
  Hypothesis Lg : forall g, In g groups -> (List.length g <= k)%nat.
  Hypothesis Ls : (List.length groups <= k)%nat.
  Hypothesis Ln : (Z.of_nat k <= 2 ^ 25)%Z.

  Definition four_computed (c : config) samples v1 v2 v3 v4 i1 i2 i3 i4 : Prop :=
    (compute_statistic DArith (RE := RE) (HE := HE) srt rngs (lit "gAP") c (cf_ci_gap c) groups (global_ap DArith sc_score ms (cf_collapse c) (cf_interp c) (cf_trapezoid c))
      (fun g => global_ap_groups DArith sc_score srt g (cf_collapse c) (cf_interp c) (cf_trapezoid c) true) = ([EStat (A := DArith) (lit "gAP") v1 i1], inl tt) /\
    compute_statistic DArith (RE := RE) (HE := HE) srt rngs (lit "mAP") c (cf_ci_map c) groups (mean_ap DArith sc_score srt groups (cf_collapse c) (cf_interp c) (cf_trapezoid c) false)
      (fun g => mean_ap DArith sc_score srt g (cf_collapse c) (cf_interp c) (cf_trapezoid c) true) = ([EStat (A := DArith) (lit "mAP") v2 i2], inl tt) /\
    compute_statistic DArith (RE := RE) (HE := HE) srt rngs (lit "gNDCG") c (cf_ci_gndcg c) groups (Ok (global_ndcg DArith T sc_score ms (cf_collapse c)))
      (fun g => global_ndcg_groups DArith T sc_score srt g (cf_collapse c) true) = ([EStat (A := DArith) (lit "gNDCG") v3 i3], inl tt) /\
    compute_statistic DArith (RE := RE) (HE := HE) srt rngs (lit "mNDCG") c (cf_ci_mndcg c) groups (mean_ndcg DArith T sc_score srt groups (cf_collapse c) false)
      (fun g => mean_ndcg DArith T sc_score srt g (cf_collapse c) true) = ([EStat (A := DArith) (lit "mNDCG") v4 i4], inl tt)) /\
    (measured c (cf_ci_gap c) groups samples (global_ap DArith sc_score ms (cf_collapse c) (cf_interp c) (cf_trapezoid c))
      (fun g => global_ap_groups DArith sc_score srt g (cf_collapse c) (cf_interp c) (cf_trapezoid c) true) v1 i1 /\
    measured c (cf_ci_map c) groups samples (mean_ap DArith sc_score srt groups (cf_collapse c) (cf_interp c) (cf_trapezoid c) false)
      (fun g => mean_ap DArith sc_score srt g (cf_collapse c) (cf_interp c) (cf_trapezoid c) true) v2 i2 /\
    measured c (cf_ci_gndcg c) groups samples (Ok (global_ndcg DArith T sc_score ms (cf_collapse c)))
      (fun g => global_ndcg_groups DArith T sc_score srt g (cf_collapse c) true) v3 i3 /\
    measured c (cf_ci_mndcg c) groups samples (mean_ndcg DArith T sc_score srt groups (cf_collapse c) false)
      (fun g => mean_ndcg DArith T sc_score srt g (cf_collapse c) true) v4 i4).

  Lemma all_computed c samples : (cf_samples c <= 2 ^ 53)%Z -> (bootstraps c -> usable_options c) -> List.length samples = Z.to_nat (cf_samples c) ->
    drawn (by_query_sampler match_default (rngs (cf_seed c))) groups (rng_start (rngs (cf_seed c))) samples ->
    exists v1 v2 v3 v4 i1 i2 i3 i4, four_computed c samples v1 v2 v3 v4 i1 i2 i3 i4.
  Proof.
    intros Sm U Lss Dss. unfold bootstraps in U.
    assert (St := Samples.stat_measured srt Hs rngs c groups k Ls Sm samples Lss Dss).
    destruct (St (lit "gAP") (cf_ci_gap c) (global_ap DArith sc_score ms (cf_collapse c) (cf_interp c) (cf_trapezoid c))
      (fun g => global_ap_groups DArith sc_score srt g (cf_collapse c) (cf_interp c) (cf_trapezoid c) true)) as (v1 & i1 & S1 & M1).
    { apply global_ap_ok. } { intros s. exact (Samples.gap_stat sc_score srt Hs groups k Rk Lg Ls Ln _ _ _ s). } { auto. }
    destruct (St (lit "mAP") (cf_ci_map c) (mean_ap DArith sc_score srt groups (cf_collapse c) (cf_interp c) (cf_trapezoid c) false)
      (fun g => mean_ap DArith sc_score srt g (cf_collapse c) (cf_interp c) (cf_trapezoid c) true)) as (v2 & i2 & S2 & M2).
    { apply mean_ap_ok. } { intros s. exact (Samples.map_stat sc_score srt Hs groups k Rk Lg Ls Ln _ _ _ s). } { auto. }
    destruct (St (lit "gNDCG") (cf_ci_gndcg c) (Ok (global_ndcg DArith T sc_score ms (cf_collapse c)))
      (fun g => global_ndcg_groups DArith T sc_score srt g (cf_collapse c) true)) as (v3 & i3 & S3 & M3).
    { eauto. } { intros s. exact (Samples.gndcg_stat sc_score srt Hs T HT groups k Rk Lg Ls Ln _ s). } { auto. }
    destruct (St (lit "mNDCG") (cf_ci_mndcg c) (mean_ndcg DArith T sc_score srt groups (cf_collapse c) false)
      (fun g => mean_ndcg DArith T sc_score srt g (cf_collapse c) true)) as (v4 & i4 & S4 & M4).
    { apply mean_ndcg_ok. } { intros s. exact (Samples.mndcg_stat sc_score srt Hs T HT groups k Rk Lg Ls Ln _ s). } { auto. }
    exists v1, v2, v3, v4, i1, i2, i3, i4. repeat (split; try assumption).
  Qed.

  Lemma finish_wider w w' c c' m n : same_but_level c c' -> w_writable w = w_writable w' -> B2R (cf_alpha c) <= B2R (cf_alpha c') ->
    (cf_samples c <= 2 ^ 53)%Z -> (bootstraps c -> usable_options c) -> (bootstraps c' -> usable_options c') ->
    (cf_dump c <> [] -> w_writable w (cf_dump c) = true) ->
    group_matches cq rq hqs ms m = Ok groups -> (total (fun x => me_nh (m_err x)) ms <= n)%nat ->
    wider c (finish T srt rngs cq rq hq w c m n ms log) (finish T srt rngs cq rq hq w' c' m n ms log).
  Proof.
    intros Ss Hw L Sm U U' Dm G Tn.
    destruct (Samples.drawn_exists (by_query_sampler match_default (rngs (cf_seed c))) groups (Z.to_nat (cf_samples c)) (rng_start (rngs (cf_seed c)))) as (ss & Lss & Dss).
    destruct (all_computed c ss Sm U Lss Dss) as (v1 & v2 & v3 & v4 & i1 & i2 & i3 & i4 & (S1 & S2 & S3 & S4) & (M1 & M2 & M3 & M4)).
    destruct (finish_lines T srt rngs cq rq hq w c m n ms log groups v1 v2 v3 v4 i1 i2 i3 i4 G Tn Dm S1 S2 S3 S4) as [O R].
    destruct Ss as ((E1 & E2 & E3 & E4) & (E5 & E6 & E7) & (E8 & E9 & E10 & E11) & E12 & E13 & E14).
    destruct (all_computed c' ss) as (v1' & v2' & v3' & v4' & j1 & j2 & j3 & j4 & (S1' & S2' & S3' & S4') & (M1' & M2' & M3' & M4')); [now rewrite <- E12|exact U'|now rewrite <- E12|now rewrite <- E13|].
    destruct (finish_lines T srt rngs cq rq hq w' c' m n ms log groups v1' v2' v3' v4' j1 j2 j3 j4 G Tn) as [O' R']; auto.
    { rewrite <- E1, <- Hw. exact Dm. }
    rewrite <- E5, <- E6, <- E7, <- E8 in M1'. rewrite <- E5, <- E6, <- E7, <- E9 in M2'. rewrite <- E5, <- E10 in M3'. rewrite <- E5, <- E11 in M4'.
    destruct (measured_wider c c' _ _ _ _ _ _ _ _ _ L M1 M1') as [<- W1]. destruct (measured_wider c c' _ _ _ _ _ _ _ _ _ L M2 M2') as [<- W2].
    destruct (measured_wider c c' _ _ _ _ _ _ _ _ _ L M3 M3') as [<- W3]. destruct (measured_wider c c' _ _ _ _ _ _ _ _ _ L M4 M4') as [<- W4].
    assert (Ec : curves_of (A := DArith) w c ms groups = curves_of w' c' ms groups).
    { unfold curves_of, write_global_curve, write_mean_curve. rewrite E3, E4, E5, E6, E7, E14, Hw. reflexivity. }
    assert (Ed : dumped (A := DArith) c ms log = dumped c' ms log) by (unfold dumped; rewrite E1; reflexivity).
    split; [rewrite R, R', Ec; reflexivity|].
    exists v1, v2, v3, v4, i1, i2, i3, i4, j1, j2, j3, j4, (dumped c ms log), (outputs (fst (curves_of (A := DArith) w c ms groups))).
    split; [exact O|]. split; [rewrite O', Ec, Ed; reflexivity|auto].
  Qed.
End Level.

(** ** The programs *)

(** The groups of matches that can be assessed. *)
Section Groups.
  Context {Q RE HE : Type} (cq : Cmp Q) (Hq : total_order cq) (rq : RE -> Q) (hq : HE -> Q).
  Notation M := (match_t RE HE).

  Lemma groups_found (m : list (Q * Q)) (ms : list M) : NoDup (map fst m) -> (forall x, In x ms -> exists q, has_query rq hq x q) ->
    exists gs, group_matches cq rq hq ms m = Ok gs /\ (List.length gs <= List.length ms)%nat /\ (forall g, In g gs -> sublist g ms).
  Proof.
    intros N Q1. destruct (Grouping.forall_grouped cq Hq rq hq m N ms Q1) as [ks K].
    destruct (Grouping.groups_spec cq Hq rq hq m N ms ks K) as (keys & gs & Eg & Fs & Fg). exists gs. split; [exact Eg|]. split.
    - rewrite <- (Grouping.Forall2_len _ _ _ Fg), (Grouping.Forall2_len _ _ _ K). clear - Fs. induction Fs; simpl; rewrite ?app_length; simpl; lia.
    - intros g I. clear - Fg I. induction Fg as [|k x keys gs [_ S] F IH]; [destruct I|]. destruct I as [->|I]; [exact (Grouping.selects_sub _ _ _ S)|auto].
  Qed.
End Groups.

Section Programs.
  Variables (T : Trans DArith) (HT : accurate T) (srt : sort_fn) (Hs : sort_contract srt).
  Variables (rngs : Z -> rng) (show_int : Z -> bytes) (show_f64 : f64 -> bytes).
  Notation icdar := (icdar17 DArith T srt rngs show_int show_f64).
  Notation simple := (simple_kws DArith T srt rngs show_int show_f64).

  Lemma wider_quiet {RE HE} c (p q p' q' : list (effect DArith (RE := RE) (HE := HE)) * (unit + fin)) : quiet p q -> quiet p' q' -> wider c q q' -> wider c p p'.
  Proof.
    intros [A B] [A' B'] [E H]. split; [congruence|]. rewrite A, A'. exact H.
  Qed.

  Lemma level_wider {Q RE E} (cq : Cmp Q) (Hq : total_order cq) (rq : RE -> Q) (hq : E -> Q) w w' c c' m m' n (ms log : list (match_t RE (scored E))) k : same_but_level c c' -> w_writable w = w_writable w' -> B2R (cf_alpha c) <= B2R (cf_alpha c') ->
    (cf_samples c <= 2 ^ 53)%Z -> (bootstraps c -> usable_options c) -> (bootstraps c' -> usable_options c') ->
    (cf_dump c <> [] -> w_writable w (cf_dump c) = true) -> (total (fun x => me_nh (m_err x)) ms <= n)%nat ->
    (forall x, In x ms -> exists q, has_query rq (fun h : scored E => hq (sc_base h)) x q) -> Selected.assessable k ms -> (Z.of_nat k <= 2 ^ 25)%Z ->
    NoDup (map fst m) -> group_matches cq rq (fun h : scored E => hq (sc_base h)) ms m = group_matches cq rq (fun h : scored E => hq (sc_base h)) ms m' ->
    wider c (finish T srt rngs cq rq hq w c m n ms log) (finish T srt rngs cq rq hq w' c' m' n ms log).
  Proof.
    intros Ss Hw L Sm U U' Dm Tn Q1 (Rk & Z & Lk) Bk N Em.
    destruct (groups_found cq Hq rq (fun h : scored E => hq (sc_base h)) m ms N Q1) as (gs & G & Lg & Sg).
    assert (Ef : finish T srt rngs cq rq hq w' c' m' n ms log = finish T srt rngs cq rq hq w' c' m n ms log) by (unfold finish, report; now rewrite Em).
    rewrite Ef. apply (finish_wider T HT srt Hs rngs cq rq hq ms log gs k); auto; [| |lia].
    - intros g I. assert (J := fun m => Bootstrap.sublist_in g ms m (Sg g I)). split; [intros x K; apply Rk; auto|intros x K; apply Z; auto].
    - intros g I. assert (J := Printed.sublist_length _ _ (Sg g I)). lia.
  Qed.

  Lemma keeps_le {L} f refs kr (hyps : list (scored (event bytes L))) kh : keeps f refs kr hyps kh -> (List.length kr + List.length kh <= List.length refs + List.length hyps)%nat.
  Proof. intros [A B]. assert (C := Matching.sub_length _ _ (Grouping.selects_sub _ _ _ A)). assert (D := Matching.sub_length _ _ (Grouping.selects_sub _ _ _ B)). lia. Qed.

  Lemma icdar_wider w w' pn pn' args args' c c' refs hyps f : command args c -> command args' c' -> same_but_level c c' -> w_writable w = w_writable w' ->
    inputs shaped_text scored_shaped_text w c refs hyps f -> inputs shaped_text scored_shaped_text w' c' refs hyps f ->
    B2R (cf_alpha c) <= B2R (cf_alpha c') -> (cf_samples c <= 2 ^ 53)%Z -> (bootstraps c -> usable_options c) -> (bootstraps c' -> usable_options c') ->
    (Z.of_nat (List.length refs + List.length hyps) <= 2 ^ 25)%Z ->
    wider c (icdar w pn args) (icdar w' pn' args').
  Proof.
    intros Cm Cm' Ss Hw I I' L Sm U U' B. destruct (Selected.keeps_exists w c f refs hyps (in_queries _ _ _ _ _ _ _ I)) as (kr & kh & K). assert (Lk := keeps_le _ _ _ _ _ K).
    assert (Es : cf_sort c = cf_sort c') by apply Ss.
    destruct (Selected.icdar_both T srt Hs rngs show_int show_f64 w w' pn pn' args args' c c' refs hyps f refs hyps f kr kh Cm Cm' Es I I' K K) as (n & ms & log & m & m' & Tn & Q1 & As & Hm & Hm' & Q & Q').
    apply (wider_quiet c _ _ _ _ Q Q'). apply (level_wider cmp_str Order.total_order_str ev_query ev_query w w' c c' m m' n ms log (List.length kr + List.length kh)%nat Ss Hw L Sm U U' (in_dump _ _ _ _ _ _ _ I) Tn); [|exact As|exact (Z.le_trans _ _ _ (proj1 (Nat2Z.inj_le _ _) Lk) B)|apply Hm|].
    - intros x J. destruct (Q1 x J) as (q & _ & H). eauto.
    - apply (Selected.group_matches_same cmp_str Order.total_order_str ev_query _ m m' ms (asked kr kh) (proj1 Hm) (proj1 Hm') Q1).
      intros q q' _ _. rewrite (Selected.group_together cmp_str Order.total_order_str m f q q' Hm), (Selected.group_together cmp_str Order.total_order_str m' f q q' Hm'). reflexivity.
  Qed.

  Lemma simple_wider qf w w' pn pn' args args' c c' refs hyps f : command args c -> command args' c' -> same_but_level c c' -> w_writable w = w_writable w' ->
    inputs str_event_text scored_str_event_text w c refs hyps f -> inputs str_event_text scored_str_event_text w' c' refs hyps f -> (Z.of_nat (strings refs hyps f) <= 2147483648)%Z ->
    B2R (cf_alpha c) <= B2R (cf_alpha c') -> (cf_samples c <= 2 ^ 53)%Z -> (bootstraps c -> usable_options c) -> (bootstraps c' -> usable_options c') ->
    (Z.of_nat (List.length refs + List.length hyps) <= 2 ^ 25)%Z ->
    wider c (simple qf w pn args) (simple qf w' pn' args').
  Proof.
    intros Cm Cm' Ss Hw I I' Ls L Sm U U' B. destruct (Selected.keeps_exists w c f refs hyps (in_queries _ _ _ _ _ _ _ I)) as (kr & kh & K). assert (Lk := keeps_le _ _ _ _ _ K).
    assert (Es : cf_sort c = cf_sort c') by apply Ss.
    destruct (Selected.simple_both T srt Hs rngs show_int show_f64 qf w w' pn pn' args args' c c' refs hyps f f kr kh Cm Cm' Es I I' Ls Ls K K) as (id & id' & n & ms & log & m & m' & Inj & Inj' & Ie & Tn & Q1 & As & Hm & Hm' & Q & Q').
    apply (wider_quiet c _ _ _ _ Q Q'). apply (level_wider cmp_Z Order.total_order_Z ev_query ev_query w w' c c' m m' n ms log (List.length kr + List.length kh)%nat Ss Hw L Sm U U' (in_dump _ _ _ _ _ _ _ I) Tn); [|exact As|exact (Z.le_trans _ _ _ (proj1 (Nat2Z.inj_le _ _) Lk) B)|apply Hm|].
    - intros x J. destruct (Q1 x J) as (q & _ & H). eauto.
    - apply (Selected.group_matches_same cmp_Z Order.total_order_Z ev_query _ m m' ms (fun z => exists q, asked kr kh q /\ z = id q) (proj1 Hm) (proj1 Hm')).
      { intros x J. destruct (Q1 x J) as (q & Aq & Hx). exists (id q). eauto. }
      intros z z' (q & Dq & ->) (q' & Dq' & ->). rewrite (Selected.group_together cmp_Z Order.total_order_Z m _ _ _ Hm), (Selected.group_together cmp_Z Order.total_order_Z m' _ _ _ Hm').
      rewrite (Selected.together_back id f q q' Inj), (Ie q Dq), (Ie q' Dq'), (Selected.together_back id' f q q' Inj'). reflexivity.
  Qed.
End Programs.

(** ** Exact arithmetic *)

Lemma R_swo (l : list R) : swo_on (a_lt RArith) l.
Proof.
  constructor; cbn [a_lt RArith].
  - intros x _. destruct Rlt_dec; [lra|reflexivity].
  - intros x y z _ _ _ A B. destruct (Rlt_dec x y); [|discriminate]. destruct (Rlt_dec y z); [|discriminate]. destruct Rlt_dec; [reflexivity|lra].
  - intros x y z _ _ _ A B C D. repeat destruct Rlt_dec in *; try discriminate; try (split; reflexivity); lra.
Qed.

Section Exact.
  Context {C St : Type} (srt : sort_fn) (SC : sort_contract srt).
  Context (stat : C -> outcome R) (sampler : St -> C -> C * St) (start : St) (original : C) (P : R -> Prop).
  Hypothesis good : exists v, stat original = Ok v /\ P v.
  Hypothesis goods : forall k, exists v, stat (fst (sampler k original)) = Ok v /\ P v.

  Lemma diffs_exact obs n : forall k, exists ds, diffs_loop RArith stat sampler original obs n k = Ok ds /\ List.length ds = n /\
    forall d, In d ds -> exists v, d = v - obs /\ P v.
  Proof.
    induction n as [|n IH]; intros k; simpl; [exists []; split; [reflexivity|]; split; [reflexivity|intros d []]|].
    assert (G := goods k). destruct (sampler k original) as [s k']. cbn [fst] in G. destruct G as (v & -> & Pv). simpl.
    destruct (IH k') as (ds & -> & L & H). simpl. eexists. split; [reflexivity|]. split; [exact (f_equal S L)|].
    intros d [<-|I]; [exists v; auto|auto].
  Qed.

  Lemma ci_exact reps alpha : usable_level alpha -> (1 <= Z.of_nat reps <= 2 ^ 53)%Z ->
    exists obs a b, bootstrap_ci RArith srt stat sampler start original reps alpha = Ok (obs, 2 * obs - a, 2 * obs - b) /\
      stat original = Ok obs /\ P obs /\ P a /\ P b /\ (B2R alpha <= 1 -> b <= a).
  Proof.
    intros U N. destruct good as (obs & Eo & Po). destruct (diffs_exact obs reps start) as (ds & Ed & Ld & Hd).
    destruct (SC _ (a_lt RArith) ds (R_swo ds)) as [Pm So].
    destruct (Bootstrap.half_indices alpha reps U N) as (li & ui & E1 & E2 & I1 & I2 & B1 & B2).
    assert (Lst := Permutation_length Pm). rewrite Ld in Lst.
    destruct (nth_error (srt _ (a_lt RArith) ds) li) as [dl|] eqn:Nl; [|apply nth_error_None in Nl; lia].
    destruct (nth_error (srt _ (a_lt RArith) ds) ui) as [du|] eqn:Nu; [|apply nth_error_None in Nu; lia].
    assert (In' : forall d, In d (srt _ (a_lt RArith) ds) -> exists v, d = v - obs /\ P v) by (intros d I; apply Hd, (Permutation_in d (Permutation_sym Pm) I)).
    destruct (In' dl (nth_error_In _ _ Nl)) as (a & Ea & Pa). destruct (In' du (nth_error_In _ _ Nu)) as (b & Eb & Pb).
    exists obs, a, b. split.
    - unfold bootstrap_ci. rewrite Eo. cbn [obind]. rewrite Ed. cbn [obind]. rewrite (Order.std_sort_ok srt (a_lt RArith) ds (R_swo ds)). cbn [obind].
      rewrite E1, E2. cbn [obind]. unfold at_. rewrite !Nat2Z.id. change (num RArith) with R in *. rewrite Nl, Nu. cbn [obind]. subst dl du. cbn [a_sub RArith].
      replace (2 * obs - a) with (obs - (a - obs)) by ring. replace (2 * obs - b) with (obs - (b - obs)) by ring. reflexivity.
    - split; [exact Eo|]. split; [exact Po|]. split; [exact Pa|]. split; [exact Pb|]. intros A1.
      assert (O2 : (ui <= li)%nat).
      { apply Nat2Z.inj_le. rewrite I1, I2. apply Ztrunc_le. rewrite !Double.nearest_rnd. apply rnd64_le, Rmult_le_compat_r; [apply IZR_le; lia|].
        assert (Hh : half_level alpha <= 1 / 2).
        { unfold half_level. rewrite Double.nearest_rnd. apply rnd64_le_fmt64; [|lra].
          replace (1 / 2) with (bpow radix2 (-1)) by (simpl; lra). apply fmt64_bpow. vm_compute. discriminate. }
        unfold rest_level. rewrite Double.nearest_rnd. apply rnd64_ge; [|lra]. unfold half_level. apply rnd64_fmt64. }
      assert (Sr : StronglySorted Rle (srt _ (a_lt RArith) ds)).
      { clear - So. unfold sorted_by in So. induction So as [|x l S IH F]; constructor; [exact IH|]. rewrite Forall_forall in *. intros y I. specialize (F y I). cbn [a_lt RArith] in F. destruct Rlt_dec; [discriminate|lra]. }
      assert (K := sorted_nth _ Sr _ _ _ _ O2 Nu Nl). lra.
  Qed.
End Exact.

Section Values.
  Context {RE E : Type} (srt : sort_fn) (Hs : sort_contract srt).
  Notation M := (match_t RE (scored E)).

  Lemma sort_some (l : list M) : ranked sc_score l -> exists l', maybe_sort sc_score srt true l = Ok l' /\ Permutation l l'.
  Proof. intros R. destruct (Curves.sort_matches_spec sc_score srt l Hs R) as (s & E1 & P & _). exists s. auto. Qed.

  Lemma ranked_concat (s : list (list M)) : (forall g, In g s -> ranked sc_score g) -> ranked sc_score (concat s).
  Proof. intros H m I. apply in_concat in I as (g & J & I). exact (H g J m I). Qed.

  Lemma gap_exact (s : list (list M)) cb i t : (forall g, In g s -> ranked sc_score g) ->
    exists l, global_ap_groups RArith sc_score srt s cb i t true = Ok (Unfound.ap cb i t l) /\ Permutation (concat s) l.
  Proof.
    intros H. destruct (sort_some (concat s) (ranked_concat s H)) as (l & E1 & P). exists l. split; [|exact P].
    unfold global_ap_groups. rewrite E1. cbn [obind]. apply Unfound.global_value.
  Qed.

  Lemma gndcg_exact (s : list (list M)) cb : (forall g, In g s -> ranked sc_score g) ->
    exists l, global_ndcg_groups RArith RTrans sc_score srt s cb true = Ok (Unfound.gain cb l) /\ Permutation (concat s) l.
  Proof.
    intros H. destruct (sort_some (concat s) (ranked_concat s H)) as (l & E1 & P). exists l. split; [|exact P].
    unfold global_ndcg_groups. rewrite E1. reflexivity.
  Qed.

  Lemma all_sorted (val : list M -> R) (s : list (list M)) : (forall g, In g s -> ranked sc_score g) ->
    exists vs, Forall2 (fun g v => exists g', maybe_sort sc_score srt true g = Ok g' /\ v = val g') s vs /\
      forall v, In v vs -> exists g g', In g s /\ Permutation g g' /\ v = val g'.
  Proof.
    induction s as [|g s IH]; intros H; [exists []; split; [constructor|intros v []]|].
    destruct (IH (fun g I => H g (or_intror I))) as (vs & F & K). destruct (sort_some g (H g (or_introl eq_refl))) as (g' & E1 & P).
    exists (val g' :: vs). split; [constructor; eauto|]. intros v [<-|I]; [exists g, g'; split; [now left|auto]|].
    destruct (K v I) as (x & x' & J & H'). exists x, x'. split; [now right|exact H'].
  Qed.

  Lemma mean_bound lo vs m : is_mean vs m -> (forall v, In v vs -> lo <= v <= 1) -> vs <> [] \/ lo <= 0 -> lo <= m <= 1.
  Proof.
    intros H B N. destruct vs as [|v vs]; [|apply (Curves.is_mean_between (v :: vs)); auto; discriminate].
    destruct H as [[_ ->]|[K _]]; [|now elim K]. destruct N as [N|N]; [now elim N|lra].
  Qed.

  Lemma map_exact lo (s : list (list M)) cb i t : (forall g, In g s -> ranked sc_score g) -> (s <> [] \/ lo <= 0) ->
    exists v, mean_ap RArith sc_score srt s cb i t true = Ok v /\
      ((forall g l, In g s -> Permutation g l -> lo <= Unfound.ap cb i t l <= 1) -> lo <= v <= 1).
  Proof.
    intros H N. destruct (all_sorted (Unfound.ap cb i t) s H) as (vs & F & K).
    destruct (Curves.mean_ap_spec sc_score srt s cb i t true vs) as (v & Ev & Mv).
    { clear - F. induction F as [|g v s vs (g' & E1 & ->) F IH]; constructor; [|exact IH]. exists g'. split; [exact E1|apply Unfound.global_value]. }
    exists v. split; [exact Ev|]. intros B. apply (mean_bound lo vs v Mv); [intros x I; destruct (K x I) as (g & g' & J & P & ->); eauto|].
    destruct N as [N|N]; [left|now right]. intros ->. inversion F. now subst.
  Qed.

  Lemma mndcg_exact lo (s : list (list M)) cb : (forall g, In g s -> ranked sc_score g) -> (s <> [] \/ lo <= 0) ->
    exists v, mean_ndcg RArith RTrans sc_score srt s cb true = Ok v /\
      ((forall g l, In g s -> Permutation g l -> lo <= Unfound.gain cb l <= 1) -> lo <= v <= 1).
  Proof.
    intros H N. destruct (all_sorted (Unfound.gain cb) s H) as (vs & F & K).
    destruct (Curves.mean_ndcg_spec sc_score srt s cb true vs) as (v & Ev & Mv).
    { clear - F. induction F as [|g v s vs (g' & E1 & ->) F IH]; constructor; [|exact IH]. exists g'. split; [exact E1|reflexivity]. }
    exists v. split; [exact Ev|]. intros B. apply (mean_bound lo vs v Mv); [intros x I; destruct (K x I) as (g & g' & J & P & ->); eauto|].
    destruct N as [N|N]; [left|now right]. intros ->. inversion F. now subst.
  Qed.

  (** Without sorting. *)
  Lemma map_plain lo (s : list (list M)) cb i t : (s <> [] \/ lo <= 0) ->
    exists v, mean_ap RArith sc_score srt s cb i t false = Ok v /\ ((forall g, In g s -> lo <= Unfound.ap cb i t g <= 1) -> lo <= v <= 1).
  Proof.
    intros N. destruct (Curves.mean_ap_spec sc_score srt s cb i t false (map (Unfound.ap cb i t) s)) as (v & Ev & Mv).
    { clear. induction s; constructor; [|assumption]. eexists. split; [reflexivity|apply Unfound.global_value]. }
    exists v. split; [exact Ev|]. intros B. apply (mean_bound lo _ v Mv); [intros x I; apply in_map_iff in I as (g & <- & I); auto|].
    destruct N as [N|N]; [left|now right]. now destruct s.
  Qed.

  Lemma mndcg_plain lo (s : list (list M)) cb : (s <> [] \/ lo <= 0) ->
    exists v, mean_ndcg RArith RTrans sc_score srt s cb false = Ok v /\ ((forall g, In g s -> lo <= Unfound.gain cb g <= 1) -> lo <= v <= 1).
  Proof.
    intros N. destruct (Curves.mean_ndcg_spec sc_score srt s cb false (map (Unfound.gain cb) s)) as (v & Ev & Mv).
    { clear. induction s; constructor; [|assumption]. eexists. split; reflexivity. }
    exists v. split; [exact Ev|]. intros B. apply (mean_bound lo _ v Mv); [intros x I; apply in_map_iff in I as (g & <- & I); auto|].
    destruct N as [N|N]; [left|now right]. now destruct s.
  Qed.
End Values.

(** ** Statistics in exact arithmetic *)

(** A statistic with a property that it has for all samples. *)
Definition shown (P : R -> Prop) (c : config) (ci : bool) (v : R) (iv : option (R * R)) : Prop :=
  P v /\ match iv with
         | Some (lo, up) => ci = true /\ exists a b, lo = 2 * v - a /\ up = 2 * v - b /\ P a /\ P b /\ (B2R (cf_alpha c) <= 1 -> b <= a)
         | None => ci = false
         end.

Section ExactEnd.
  Context {Q RE E : Type}.
  Notation HE := (scored E).
  Notation M := (match_t RE HE).
  Context (srt : sort_fn) (Hs : sort_contract srt) (rngs : Z -> rng).
  Context (cq : Cmp Q) (rq : RE -> Q) (hq : E -> Q) (w : world) (c : config).
  Notation hqs := (fun h : HE => hq (sc_base h)).
  Hypothesis Sm : (cf_samples c <= 2 ^ 53)%Z.
  Hypothesis U : bootstraps c -> usable_options c.
  Hypothesis Dm : cf_dump c <> [] -> w_writable w (cf_dump c) = true.
  Variables (ms log : list M) (groups : list (list M)).

  Lemma stat_exact (P : R -> Prop) name ci (plain : outcome R) on : (ci = true -> usable_options c) -> (ci = false -> exists v, plain = Ok v /\ P v) ->
    (ci = true -> forall s, resample groups s -> exists v, on s = Ok v /\ P v) ->
    exists v iv, compute_statistic RArith (RE := RE) (HE := HE) srt rngs name c ci groups plain on = ([EStat (A := RArith) name v iv], inl tt) /\ shown P c ci v iv.
  Proof.
    intros Uc Pl On. unfold compute_statistic, bootstrap_groups. destruct ci.
    - destruct (Uc eq_refl) as [Ul Us].
      destruct (ci_exact srt Hs on (by_query_sampler match_default (rngs (cf_seed c))) (rng_start (rngs (cf_seed c))) groups P (On eq_refl _ (Samples.self_resample groups))
        (fun k => On eq_refl _ (Bootstrap.by_query_sound match_default (rngs (cf_seed c)) k groups)) (Z.to_nat (cf_samples c)) (cf_alpha c) Ul) as (v & a & b & Ec & Ev & Pv & Pa & Pb & O); [rewrite Z2Nat.id; lia|].
      exists v, (Some (2 * v - a, 2 * v - b)). change (num RArith) with R. rewrite Ec. split; [reflexivity|]. split; [exact Pv|]. split; [reflexivity|]. exists a, b. auto.
    - destruct (Pl eq_refl) as (v & -> & Pv). exists v, None. split; [reflexivity|]. split; [exact Pv|reflexivity].
  Qed.

  Variables (lo : R) (C3 C4 : Prop).
  Notation ap := (Unfound.ap (RE := RE) (E := E) (cf_collapse c) (cf_interp c) (cf_trapezoid c)).
  Notation gain := (Unfound.gain (RE := RE) (E := E) (cf_collapse c)).
  Hypothesis Rk : forall g, In g groups -> ranked sc_score g.
  Hypothesis Ne : groups <> [] \/ lo <= 0.
  Hypothesis W1 : lo <= ap ms <= 1.
  Hypothesis W2 : forall g, In g groups -> lo <= ap g <= 1.
  Hypothesis W3 : C3 -> lo <= gain ms <= 1.
  Hypothesis W4 : C4 -> forall g, In g groups -> lo <= gain g <= 1.
  Hypothesis V1 : cf_ci_gap c = true -> forall s l, resample groups s -> Permutation (concat s) l -> lo <= ap l <= 1.
  Hypothesis V2 : forall s g l, resample groups s -> In g s -> Permutation g l -> lo <= ap l <= 1.
  Hypothesis V3 : C3 -> cf_ci_gndcg c = true -> forall s l, resample groups s -> Permutation (concat s) l -> lo <= gain l <= 1.
  Hypothesis V4 : C4 -> forall s g l, resample groups s -> In g s -> Permutation g l -> lo <= gain l <= 1.

  Lemma sample_ranked s : resample groups s -> forall g, In g s -> ranked sc_score g.
  Proof. intros [_ H] g I. destruct (H g I) as (g0 & J & _ & Inc). intros m K. apply (Rk g0 J), Inc, K. Qed.

  Lemma sample_some s : resample groups s -> s <> [] \/ lo <= 0.
  Proof. intros [L _]. destruct Ne as [N|N]; [left|now right]. intros ->. destruct groups; [now elim N|discriminate L]. Qed.

  Lemma finish_exact m n : group_matches cq rq hqs ms m = Ok groups -> (total (fun x => me_nh (m_err x)) ms <= n)%nat ->
    exists v1 v2 v3 v4 i1 i2 i3 i4, prints_intervals (fst (finish RTrans srt rngs cq rq hq w c m n ms log)) v1 v2 v3 v4 i1 i2 i3 i4 /\
      shown (fun v => lo <= v <= 1) c (cf_ci_gap c) v1 i1 /\ shown (fun v => lo <= v <= 1) c (cf_ci_map c) v2 i2 /\
      shown (fun v => C3 -> lo <= v <= 1) c (cf_ci_gndcg c) v3 i3 /\ shown (fun v => C4 -> lo <= v <= 1) c (cf_ci_mndcg c) v4 i4.
  Proof.
    intros G L. unfold bootstraps in U.
    destruct (stat_exact (fun v => lo <= v <= 1) (lit "gAP") (cf_ci_gap c) (global_ap RArith sc_score ms (cf_collapse c) (cf_interp c) (cf_trapezoid c))
      (fun g => global_ap_groups RArith sc_score srt g (cf_collapse c) (cf_interp c) (cf_trapezoid c) true)) as (v1 & i1 & S1 & M1).
    { auto. } { intros _. exists (ap ms). split; [apply Unfound.global_value|exact W1]. }
    { intros K s H. destruct (gap_exact srt Hs s (cf_collapse c) (cf_interp c) (cf_trapezoid c) (sample_ranked s H)) as (l & El & P). eexists. split; [exact El|exact (V1 K s l H P)]. }
    destruct (stat_exact (fun v => lo <= v <= 1) (lit "mAP") (cf_ci_map c) (mean_ap RArith sc_score srt groups (cf_collapse c) (cf_interp c) (cf_trapezoid c) false)
      (fun g => mean_ap RArith sc_score srt g (cf_collapse c) (cf_interp c) (cf_trapezoid c) true)) as (v2 & i2 & S2 & M2).
    { auto. } { intros _. destruct (map_plain srt lo groups (cf_collapse c) (cf_interp c) (cf_trapezoid c) Ne) as (v & Ev & B). exists v. auto. }
    { intros _ s H. destruct (map_exact srt Hs lo s (cf_collapse c) (cf_interp c) (cf_trapezoid c) (sample_ranked s H) (sample_some s H)) as (v & Ev & B).
      exists v. split; [exact Ev|]. apply B. intros g l. exact (V2 s g l H). }
    destruct (stat_exact (fun v => C3 -> lo <= v <= 1) (lit "gNDCG") (cf_ci_gndcg c) (Ok (global_ndcg RArith RTrans sc_score ms (cf_collapse c)))
      (fun g => global_ndcg_groups RArith RTrans sc_score srt g (cf_collapse c) true)) as (v3 & i3 & S3 & M3).
    { auto. } { intros _. eexists. split; [reflexivity|exact W3]. }
    { intros K s H. destruct (gndcg_exact srt Hs s (cf_collapse c) (sample_ranked s H)) as (l & El & P). eexists. split; [exact El|]. intros Q3. exact (V3 Q3 K s l H P). }
    destruct (stat_exact (fun v => C4 -> lo <= v <= 1) (lit "mNDCG") (cf_ci_mndcg c) (mean_ndcg RArith RTrans sc_score srt groups (cf_collapse c) false)
      (fun g => mean_ndcg RArith RTrans sc_score srt g (cf_collapse c) true)) as (v4 & i4 & S4 & M4).
    { auto. } { intros _. destruct (mndcg_plain srt lo groups (cf_collapse c) Ne) as (v & Ev & B). exists v. auto. }
    { intros _ s H. destruct (mndcg_exact srt Hs lo s (cf_collapse c) (sample_ranked s H) (sample_some s H)) as (v & Ev & B).
      exists v. split; [exact Ev|]. intros Q4. apply B. intros g l. exact (V4 Q4 s g l H). }
    exists v1, v2, v3, v4, i1, i2, i3, i4. split; [|auto].
    destruct (finish_lines RTrans srt rngs cq rq hq w c m n ms log groups v1 v2 v3 v4 i1 i2 i3 i4 G L Dm S1 S2 S3 S4) as [O _].
    assert (So : forall l : list (effect RArith (RE := RE) (HE := HE)), stats (outputs l) = stats l).
    { intros l. unfold stats, outputs. induction l as [|e l IH]; [reflexivity|]. destruct e; cbn [filter flat_map]; rewrite ?IH; reflexivity. }
    unfold prints_intervals. rewrite <- So, O. assert (Cs := curves_stats (A := RArith) w c ms groups). unfold stats in *. rewrite !flat_map_app, Cs.
    assert (Ds : flat_map (fun e : effect RArith (RE := RE) (HE := HE) => match e with EStat n v ci => [(n, v, ci)] | _ => [] end) (dumped c ms log) = []) by (unfold dumped; destruct (cf_dump c); reflexivity).
    rewrite Ds. reflexivity.
  Qed.
End ExactEnd.

(** ** Bounds of samples *)

Section Bounds.
  Context {RE E : Type}.
  Notation M := (match_t RE (scored E)).
  Notation sound := (Settings.sound (RE := RE) (E := E)).
  Notation all_hits := (Perfect.all_hits (RE := RE) (HE := scored E)).
  Variables (groups : list (list M)) (k : nat).
  Hypothesis Sg : forall g, In g groups -> sound k g.
  Hypothesis Lg : (List.length groups <= k)%nat.

  Lemma concat_le (s : list (list M)) n : (forall g, In g s -> (List.length g <= n)%nat) -> (List.length (concat s) <= List.length s * n)%nat.
  Proof.
    clear. induction s as [|g s IH]; intros H; [reflexivity|]. cbn [concat List.length]. rewrite app_length.
    assert (A := H g (or_introl eq_refl)). assert (B := IH (fun g K => H g (or_intror K))). lia.
  Qed.

  Lemma sound_perm n (l l' : list M) : Permutation l l' -> sound n l -> sound n l'.
  Proof.
    clear groups k Sg Lg. intros P (Z & R & L). assert (I : forall m, In m l' -> In m l) by (intros m; apply Permutation_in, Permutation_sym, P).
    split; [intros m J; apply Z; auto|]. split; [intros m J; apply R; auto|]. now rewrite <- (Permutation_length P).
  Qed.

  Lemma sample_sound s g : resample groups s -> In g s -> sound k g.
  Proof.
    clear Lg. intros [_ H] I. destruct (H g I) as (g0 & J & L & Inc). destruct (Sg g0 J) as (Z & R & L0).
    split; [intros m K; apply Z, Inc, K|]. split; [intros m K; apply R, Inc, K|lia].
  Qed.

  Lemma sample_concat s : resample groups s -> sound (k * k) (concat s).
  Proof.
    intros H. assert (Sn := fun g => sample_sound s g H). split; [|split].
    - intros m I. apply in_concat in I as (g & J & I). exact (proj1 (Sn g J) m I).
    - intros m I. apply in_concat in I as (g & J & I). exact (proj1 (proj2 (Sn g J)) m I).
    - assert (L := concat_le s k (fun g J => proj2 (proj2 (Sn g J)))). destruct H as [Ls _]. rewrite Ls in L.
      eapply Nat.le_trans; [exact L|]. now apply Nat.mul_le_mono_r.
  Qed.

  Lemma sound_ap cb i t n (l : list M) : sound n l -> 0 <= Unfound.ap cb i t l <= 1.
  Proof.
    clear groups k Sg Lg. intros (Z & R & L). destruct (Metrics.global_ap_01 _ _ sc_score l cb i t) as (v & Ev & B); [intros m I; apply AveragePrecision.zero_one_fractions; auto|auto|].
    rewrite Unfound.global_value in Ev. injection Ev as <-. exact B.
  Qed.

  Lemma sound_gain cb n (l : list M) : sound n l -> (cb = true -> Z.of_nat n <= 2 ^ 19)%Z -> 0 <= Unfound.gain cb l <= 1.
  Proof.
    clear groups k Sg Lg. intros (Z & R & L) B. destruct cb.
    - apply (Ndcg.ndcg_collapsed_01 _ _ sc_score l Z R). specialize (B eq_refl). lia.
    - apply (Ndcg.ndcg_raw_01 _ _ sc_score l). intros m I. apply AveragePrecision.zero_one_fractions. auto.
  Qed.

  Lemma hits_perm (l l' : list M) : Permutation l l' -> all_hits l -> all_hits l'.
  Proof.
    intros P [N H]. split; [intros ->; apply N, Permutation_nil, Permutation_sym, P|]. intros m I. apply H, (Permutation_in _ (Permutation_sym P) I).
  Qed.

  Hypothesis Hg : forall g, In g groups -> all_hits g.
  Hypothesis Ng : groups <> [].

  Lemma sample_hits s g : resample groups s -> In g s -> all_hits g.
  Proof.
    intros [_ H] I. destruct (H g I) as (g0 & J & L & Inc). destruct (Hg g0 J) as [N K]. split; [|intros m Q; apply K, Inc, Q].
    intros ->. destruct g0; [now elim N|discriminate L].
  Qed.

  Lemma concat_hits s : resample groups s -> all_hits (concat s).
  Proof.
    clear k Sg Lg. intros H. split; [|intros m I; apply in_concat in I as (g & J & I); exact (proj2 (sample_hits s g H J) m I)].
    destruct s as [|g s]; [destruct H as [L _]; destruct groups; [now elim Ng|discriminate L]|].
    destruct (sample_hits (g :: s) g H (or_introl eq_refl)) as [N _]. cbn [concat]. destruct g; [now elim N|discriminate].
  Qed.
End Bounds.

Section ExactRuns.
  Context {Q RE E : Type} (srt : sort_fn) (Hs : sort_contract srt) (rngs : Z -> rng).
  Context (cq : Cmp Q) (rq : RE -> Q) (hq : E -> Q) (w : world) (c : config).
  Notation HE := (scored E).
  Notation M := (match_t RE HE).
  Notation sound := (Settings.sound (RE := RE) (E := E)).
  Hypothesis Sm : (cf_samples c <= 2 ^ 53)%Z.
  Hypothesis U : bootstraps c -> usable_options c.
  Hypothesis Dm : cf_dump c <> [] -> w_writable w (cf_dump c) = true.
  Variables (ms log : list M) (groups : list (list M)) (k : nat).
  Hypothesis Sn : sound k ms.
  Hypothesis Sg : forall g, In g groups -> sound k g.
  Hypothesis Lg : (List.length groups <= k)%nat.
  Variables (l : list (effect RArith (RE := RE) (HE := HE))) (r : unit + fin).
  Hypothesis Rc : Instances.reached RTrans srt rngs w cq rq hq c ms log groups l r.

  Lemma reached_stats v1 v2 v3 v4 i1 i2 i3 i4 (D l' : list (effect RArith (RE := RE) (HE := HE))) : outputs D = [] -> prints_intervals l' v1 v2 v3 v4 i1 i2 i3 i4 -> prints_intervals (D ++ l') v1 v2 v3 v4 i1 i2 i3 i4.
  Proof.
    intros O P. unfold prints_intervals in *. assert (S : stats D = []).
    { clear - O. unfold stats, outputs in *. induction D as [|e D IH]; [reflexivity|]. destruct e; cbn [filter flat_map] in *; try discriminate. auto. }
    unfold stats in *. rewrite flat_map_app, S. exact P.
  Qed.

  Lemma reached_range : exists v1 v2 v3 v4 i1 i2 i3 i4, prints_intervals l v1 v2 v3 v4 i1 i2 i3 i4 /\
    reflected c (cf_ci_gap c) v1 i1 /\ reflected c (cf_ci_map c) v2 i2 /\
    ((cf_collapse c = true -> Z.of_nat (if cf_ci_gndcg c then k * k else k) <= 2 ^ 19)%Z -> reflected c (cf_ci_gndcg c) v3 i3) /\
    ((cf_collapse c = true -> Z.of_nat k <= 2 ^ 19)%Z -> reflected c (cf_ci_mndcg c) v4 i4).
  Proof.
    destruct Rc as (m & n & D & G & Tn & O & -> & _).
    destruct (finish_exact srt Hs rngs cq rq hq w c Sm U Dm ms log groups 0 (cf_collapse c = true -> Z.of_nat (if cf_ci_gndcg c then k * k else k) <= 2 ^ 19)%Z (cf_collapse c = true -> Z.of_nat k <= 2 ^ 19)%Z)
      with (m := m) (n := n) as (v1 & v2 & v3 & v4 & i1 & i2 & i3 & i4 & P & H1 & H2 & H3 & H4); auto.
    - intros g I. apply (Sg g I).
    - right. lra.
    - exact (sound_ap _ _ _ k ms Sn).
    - intros g I. exact (sound_ap _ _ _ k g (Sg g I)).
    - intros B. apply (sound_gain _ k ms Sn). intros K. specialize (B K). destruct (cf_ci_gndcg c); [nia|exact B].
    - intros B g I. exact (sound_gain _ k g (Sg g I) B).
    - intros _ s x H Pm. exact (sound_ap _ _ _ (k * k) x (sound_perm _ _ _ Pm (sample_concat groups k Sg Lg s H))).
    - intros s g x H I Pm. exact (sound_ap _ _ _ k x (sound_perm _ _ _ Pm (sample_sound groups k Sg s g H I))).
    - intros B K s x H Pm. rewrite K in B. exact (sound_gain _ (k * k) x (sound_perm _ _ _ Pm (sample_concat groups k Sg Lg s H)) B).
    - intros B s g x H I Pm. exact (sound_gain _ k x (sound_perm _ _ _ Pm (sample_sound groups k Sg s g H I)) B).
    - exists v1, v2, v3, v4, i1, i2, i3, i4. split; [exact (reached_stats _ _ _ _ _ _ _ _ D _ O P)|].
      assert (K : forall (Cd : Prop) ci v iv, shown (fun v => Cd -> 0 <= v <= 1) c ci v iv -> Cd -> reflected c ci v iv).
      { intros Cd ci v iv [A B] H. split; [exact (A H)|]. destruct iv as [[lo up]|]; [|exact B]. destruct B as (B & a & b & -> & -> & Pa & Pb & Or). specialize (Pa H). specialize (Pb H). split; [exact B|].
        split; [lra|]. split; [lra|]. intros A1. specialize (Or A1). lra. }
      assert (K' : forall ci v iv, shown (fun v => 0 <= v <= 1) c ci v iv -> reflected c ci v iv).
      { intros ci v iv [A B]. apply (K True); [|trivial]. split; [auto|]. destruct iv as [[lo up]|]; [|exact B]. destruct B as (B & a & b & ? & ? & Pa & Pb & Or). split; [exact B|]. exists a, b. auto. }
      split; [apply K', H1|]. split; [apply K', H2|]. split; [intros Q3; exact (K _ _ _ _ H3 Q3)|intros Q4; exact (K _ _ _ _ H4 Q4)].
  Qed.

  Hypothesis Hm : Perfect.all_hits ms.
  Hypothesis Hg : forall g, In g groups -> Perfect.all_hits g.
  Hypothesis Ng : groups <> [].
  Hypothesis Bk : (cf_collapse c = true -> Z.of_nat (if cf_ci_gap c || cf_ci_gndcg c then k * k else k) <= 2 ^ 24)%Z.

  Lemma reached_perfect : prints_intervals l 1 1 1 1 (point (cf_ci_gap c) 1) (point (cf_ci_map c) 1) (point (cf_ci_gndcg c) 1) (point (cf_ci_mndcg c) 1).
  Proof.
    destruct Rc as (m & n & D & G & Tn & O & -> & _).
    assert (B1 : (cf_collapse c = true -> Z.of_nat k <= 2 ^ 24)%Z) by (intros K; specialize (Bk K); destruct (_ || _); [nia|exact Bk]).
    assert (B2 : forall b, b = true -> (b = cf_ci_gap c \/ b = cf_ci_gndcg c) -> (cf_collapse c = true -> Z.of_nat (k * k) <= 2 ^ 24)%Z).
    { intros b Eb Q2 K. specialize (Bk K). replace (cf_ci_gap c || cf_ci_gndcg c) with true in Bk; [exact Bk|]. symmetry. apply orb_true_iff. destruct Q2 as [<-|<-]; auto. }
    assert (Eq1 : forall x : R, x = 1 -> 1 <= x <= 1) by (intros x ->; lra).
    destruct (finish_exact srt Hs rngs cq rq hq w c Sm U Dm ms log groups 1 True True)
      with (m := m) (n := n) as (v1 & v2 & v3 & v4 & i1 & i2 & i3 & i4 & P & H1 & H2 & H3 & H4); auto.
    - intros g I. apply (Sg g I).
    - apply Eq1. exact (Perfect.hits_value _ _ _ k ms Hm Sn B1).
    - intros g I. apply Eq1. exact (Perfect.hits_value _ _ _ k g (Hg g I) (Sg g I) B1).
    - intros _. apply Eq1. exact (Perfect.hits_gain _ k ms Hm Sn B1).
    - intros _ g I. apply Eq1. exact (Perfect.hits_gain _ k g (Hg g I) (Sg g I) B1).
    - intros K s x H Pm. apply Eq1. apply (Perfect.hits_value _ _ _ (k * k) x (hits_perm _ _ Pm (concat_hits groups Hg Ng s H)) (sound_perm _ _ _ Pm (sample_concat groups k Sg Lg s H))). apply (B2 _ K). now left.
    - intros s g x H I Pm. apply Eq1. exact (Perfect.hits_value _ _ _ k x (hits_perm _ _ Pm (sample_hits groups Hg s g H I)) (sound_perm _ _ _ Pm (sample_sound groups k Sg s g H I)) B1).
    - intros _ K s x H Pm. apply Eq1. apply (Perfect.hits_gain _ (k * k) x (hits_perm _ _ Pm (concat_hits groups Hg Ng s H)) (sound_perm _ _ _ Pm (sample_concat groups k Sg Lg s H))). apply (B2 _ K). now right.
    - intros _ s g x H I Pm. apply Eq1. exact (Perfect.hits_gain _ k x (hits_perm _ _ Pm (sample_hits groups Hg s g H I)) (sound_perm _ _ _ Pm (sample_sound groups k Sg s g H I)) B1).
    - assert (K : forall (Cd : Prop) ci v iv, shown (fun v => Cd -> 1 <= v <= 1) c ci v iv -> Cd -> v = 1 /\ iv = point ci 1).
      { intros Cd ci v iv [A B] H. specialize (A H). assert (Ev : v = 1) by lra. split; [exact Ev|]. destruct iv as [[a b]|]; [|subst ci; reflexivity]. destruct B as (-> & x & y & -> & -> & Px & Py & _).
        specialize (Px H). specialize (Py H). unfold point. f_equal. f_equal; lra. }
      assert (K' : forall ci v iv, shown (fun v => 1 <= v <= 1) c ci v iv -> v = 1 /\ iv = point ci 1).
      { intros ci v iv [A B]. apply (K True); [|trivial]. split; [auto|]. destruct iv as [[a b]|]; [|exact B]. destruct B as (B & x & y & ? & ? & Px & Py & Or). split; [exact B|]. exists x, y. auto. }
      destruct (K' _ _ _ H1) as [-> ->]. destruct (K' _ _ _ H2) as [-> ->]. destruct (K _ _ _ _ H3 Logic.I) as [-> ->]. destruct (K _ _ _ _ H4 Logic.I) as [-> ->].
      exact (reached_stats _ _ _ _ _ _ _ _ D _ O P).
  Qed.
End ExactRuns.

(** ** The programs in exact arithmetic *)

Section ExactPrograms.
  Variables (srt : sort_fn) (Hs : sort_contract srt).
  Variables (rngs : Z -> rng) (show_int : Z -> bytes) (show_f64 : f64 -> bytes).
  Notation icdar := (icdar17 RArith RTrans srt rngs show_int show_f64).
  Notation simple := (simple_kws RArith RTrans srt rngs show_int show_f64).

  Lemma sound_renamed id n (g : list (match_t (event bytes bytes) (scored (event bytes bytes)))) : Settings.sound n g -> Settings.sound n (map (renamed_match id) g).
  Proof.
    intros (Z & R & L). split; [|split; [|now rewrite map_length]].
    - intros m I. apply in_map_iff in I as (m0 & <- & I). exact (Z m0 I).
    - intros m I. apply in_map_iff in I as (m0 & <- & I). specialize (R m0 I). unfold rank, renamed_match, map_match in *. cbn [m_hyp]. destruct (m_hyp m0); exact R.
  Qed.

  Lemma hits_renamed id (g : list (match_t (event bytes bytes) (scored (event bytes bytes)))) : Perfect.all_hits g -> Perfect.all_hits (map (renamed_match id) g).
  Proof.
    intros [N H]. split; [now destruct g|]. intros m I. apply in_map_iff in I as (m0 & <- & I). exact (H m0 I).
  Qed.

  Lemma eval_sound {RE E} (lte : E -> E -> bool) (cr : Cmp RE) (Hr : total_order cr) {Q} (rq : RE -> Q) (hq : E -> Q) (S : EvSet RE (scored E)) R (HS : finds S R) (scorer : RE -> scored E -> match_error)
    (Z01 : forall r h, zero_one (scorer r h)) crit f refs hyps ms log groups : (forall h, In h hyps -> is_finite (sc_score h) = true) ->
    evaluation lte (c_lt cr) rq hq R scorer crit f refs hyps ms log groups ->
    let n := (List.length refs + List.length hyps)%nat in
    Settings.sound n ms /\ (forall g, In g groups -> Settings.sound n g) /\ (List.length groups <= n)%nat.
  Proof.
    intros Fi Ev n. destruct (Samples.eval_groups lte cr Hr rq hq S R HS scorer Z01 crit f refs hyps ms log groups Fi Ev) as [A B].
    split; [|split; [intros g I; destruct (A g I) as [[A1 A2] A3]; exact (conj A2 (conj A1 A3))|exact B]].
    split; [exact (Evaluation.eval_zero_one lte cr rq hq R scorer crit f refs hyps ms log groups Ev Z01)|].
    split; [exact (Evaluation.eval_ranked lte cr rq hq R scorer crit f refs hyps ms log groups Ev Fi)|].
    exact (Evaluation.eval_length lte cr Hr rq hq S R HS scorer crit f refs hyps ms log groups Ev).
  Qed.

  Lemma icdar_sound crit f refs hyps ms log groups : (forall h, In h hyps -> is_finite (sc_score h) = true) ->
    icdar17_evaluation crit f refs hyps ms log groups -> let n := (List.length refs + List.length hyps)%nat in
    Settings.sound n ms /\ (forall g, In g groups -> Settings.sound n g) /\ (List.length groups <= n)%nat.
  Proof.
    apply (eval_sound (c_lt cmp_shaped) cmp_shaped Order.total_order_shaped ev_query ev_query (evset_docbox srt cmp_str) (box_search cmp_str)
      (Matching.finds_docbox srt cmp_str Hs Order.total_order_str) (fun r h => ioh_scorer cmp_str f32_half r (sc_base h))).
    intros r h. apply Instances.zero_one_ioh.
  Qed.

  Lemma simple_sound id crit f refs hyps ms log groups : (forall s s', id s = id s' -> s = s') -> (forall h, In h hyps -> is_finite (sc_score h) = true) ->
    simple_evaluation id crit f refs hyps ms log groups -> let n := (List.length refs + List.length hyps)%nat in
    Settings.sound n (map (renamed_match id) ms) /\ (forall g, In g (map (map (renamed_match id)) groups) -> Settings.sound n g) /\ (List.length (map (map (renamed_match id)) groups) <= n)%nat.
  Proof.
    intros Inj Fi Ev n.
    destruct (eval_sound (c_lt (Results.by_id id)) (Results.by_id id) (Results.by_id_total id Inj) ev_query ev_query (evset_generic (Results.by_id id)) exact_search
      (Matching.finds_generic (Results.by_id id) (Results.by_id_total id Inj)) (fun r h => trivial_scorer cmp_str cmp_str r (sc_base h))
      (fun r h => Instances.zero_one_trivial _ _ _ _) crit f refs hyps ms log groups Fi Ev) as (A & B & C).
    split; [now apply sound_renamed|]. split; [|now rewrite map_length]. intros g I. apply in_map_iff in I as (g0 & <- & I). apply sound_renamed; auto.
  Qed.

  Lemma icdar_range w pn args c refs hyps f : command args c -> inputs shaped_text scored_shaped_text w c refs hyps f ->
    (cf_samples c <= 2 ^ 53)%Z -> (bootstraps c -> usable_options c) ->
    let k := (List.length refs + List.length hyps)%nat in
    exists v1 v2 v3 v4 i1 i2 i3 i4, prints_intervals (fst (icdar w pn args)) v1 v2 v3 v4 i1 i2 i3 i4 /\
      reflected c (cf_ci_gap c) v1 i1 /\ reflected c (cf_ci_map c) v2 i2 /\
      ((cf_collapse c = true -> Z.of_nat (if cf_ci_gndcg c then k * k else k) <= 2 ^ 19)%Z -> reflected c (cf_ci_gndcg c) v3 i3) /\
      ((cf_collapse c = true -> Z.of_nat k <= 2 ^ 19)%Z -> reflected c (cf_ci_mndcg c) v4 i4).
  Proof.
    intros Cm I Sm U k. destruct (icdar w pn args) as [l e] eqn:Et. cbn [fst].
    destruct (Instances.icdar_reach RTrans srt Hs rngs show_int show_f64 w pn args c refs hyps f l e Cm I Et) as (ms & log & gs & Fi & Ev & Rc).
    destruct (icdar_sound _ _ _ _ _ _ _ Fi Ev) as (A & B & D).
    exact (reached_range srt Hs rngs cmp_str ev_query ev_query w c Sm U (in_dump _ _ _ _ _ _ _ I) ms log gs k A B D l e Rc).
  Qed.

  Lemma simple_range qf w pn args c refs hyps f : command args c -> inputs str_event_text scored_str_event_text w c refs hyps f -> (Z.of_nat (strings refs hyps f) <= 2147483648)%Z ->
    (cf_samples c <= 2 ^ 53)%Z -> (bootstraps c -> usable_options c) ->
    let k := (List.length refs + List.length hyps)%nat in
    exists v1 v2 v3 v4 i1 i2 i3 i4, prints_intervals (fst (simple qf w pn args)) v1 v2 v3 v4 i1 i2 i3 i4 /\
      reflected c (cf_ci_gap c) v1 i1 /\ reflected c (cf_ci_map c) v2 i2 /\
      ((cf_collapse c = true -> Z.of_nat (if cf_ci_gndcg c then k * k else k) <= 2 ^ 19)%Z -> reflected c (cf_ci_gndcg c) v3 i3) /\
      ((cf_collapse c = true -> Z.of_nat k <= 2 ^ 19)%Z -> reflected c (cf_ci_mndcg c) v4 i4).
  Proof.
    intros Cm I Ls Sm U k. destruct (simple qf w pn args) as [l e] eqn:Et. cbn [fst].
    destruct (Instances.simple_reach RTrans srt Hs rngs show_int show_f64 w qf pn args c refs hyps f l e Cm I Et Ls) as (id & ms & log & gs & Inj & Fi & Ev & Rc).
    destruct (simple_sound id _ _ _ _ _ _ _ Inj Fi Ev) as (A & B & D).
    exact (reached_range srt Hs rngs cmp_Z ev_query ev_query w c Sm U (in_dump _ _ _ _ _ _ _ I) _ _ _ k A B D l e Rc).
  Qed.

  Lemma icdar_point w pn args c refs hyps f : command args c -> inputs shaped_text scored_shaped_text w c refs hyps f -> all_found f refs hyps ->
    (forall r, In r refs -> fits (ev_loc r)) -> (forall h, In h hyps -> fits (ev_loc (sc_base h))) ->
    (cf_samples c <= 2 ^ 53)%Z -> (bootstraps c -> usable_options c) ->
    let k := (List.length refs + List.length hyps)%nat in
    (cf_collapse c = true -> Z.of_nat (if cf_ci_gap c || cf_ci_gndcg c then k * k else k) <= 2 ^ 24)%Z ->
    prints_intervals (fst (icdar w pn args)) 1 1 1 1 (point (cf_ci_gap c) 1) (point (cf_ci_map c) 1) (point (cf_ci_gndcg c) 1) (point (cf_ci_mndcg c) 1).
  Proof.
    intros Cm I Af Fr Fh Sm U k Bk. destruct (icdar w pn args) as [l e] eqn:Et. cbn [fst].
    destruct (Instances.icdar_reach RTrans srt Hs rngs show_int show_f64 w pn args c refs hyps f l e Cm I Et) as (ms & log & gs & Fi & Ev & Rc).
    destruct (icdar_sound _ _ _ _ _ _ _ Fi Ev) as (A & B & D). destruct (Perfect.icdar_hits srt Hs _ _ _ _ _ _ _ Fi Ev Af Fr Fh) as ([A1 _] & A2 & A3).
    exact (reached_perfect srt Hs rngs cmp_str ev_query ev_query w c Sm U (in_dump _ _ _ _ _ _ _ I) ms log gs k A B D l e Rc A1 (fun g J => proj1 (A3 g J)) A2 Bk).
  Qed.

  Lemma simple_point qf w pn args c refs hyps f : command args c -> inputs str_event_text scored_str_event_text w c refs hyps f -> (Z.of_nat (strings refs hyps f) <= 2147483648)%Z ->
    submits_references f refs hyps -> (cf_samples c <= 2 ^ 53)%Z -> (bootstraps c -> usable_options c) ->
    let k := (List.length refs + List.length hyps)%nat in
    (cf_collapse c = true -> Z.of_nat (if cf_ci_gap c || cf_ci_gndcg c then k * k else k) <= 2 ^ 24)%Z ->
    prints_intervals (fst (simple qf w pn args)) 1 1 1 1 (point (cf_ci_gap c) 1) (point (cf_ci_map c) 1) (point (cf_ci_gndcg c) 1) (point (cf_ci_mndcg c) 1).
  Proof.
    intros Cm I Ls Sub Sm U k Bk. destruct (simple qf w pn args) as [l e] eqn:Et. cbn [fst].
    destruct (Instances.simple_reach RTrans srt Hs rngs show_int show_f64 w qf pn args c refs hyps f l e Cm I Et Ls) as (id & ms & log & gs & Inj & Fi & Ev & Rc).
    destruct (simple_sound id _ _ _ _ _ _ _ Inj Fi Ev) as (A & B & D). destruct (Perfect.simple_hits id _ _ _ _ _ _ _ Inj Fi Ev Sub) as ([A1 _] & A2 & A3).
    refine (reached_perfect srt Hs rngs cmp_Z ev_query ev_query w c Sm U (in_dump _ _ _ _ _ _ _ I) _ _ _ k A B D l e Rc (hits_renamed id _ A1) _ _ Bk).
    - intros g J. apply in_map_iff in J as (g0 & <- & J). apply hits_renamed, (A3 g0 J).
    - now destruct gs.
  Qed.
End ExactPrograms.
