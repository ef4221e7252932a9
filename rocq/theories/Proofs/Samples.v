(** Runs with bootstrapping. *)
From Coq Require Import Ascii String List Bool ZArith Reals Lra Lia Permutation Sorted.
From Flocq Require Import Core BinarySingleNaN.
From Verif.Model Require Import Cpp Floats Events EventSets Matches Matcher Scorers Assessment Bootstrap Mapper Stream
  Reader Options Tool.
From Verif.Spec Require Import Order Matching Grouping Collapse Metrics Curves Double Bootstrap Reader Options Gain Tool Libm Samples.
From Verif.Proofs Require Import FloatFacts Queries Tool Finish.
From Verif.Proofs Require Order Double Bootstrap GainD Programs Matching Evaluation Instances Results Printed.
Import ListNotations.
Local Open Scope list_scope.

(** ** The interval of a statistic defined on the samples *)

Section CI.
  Context {C St : Type} (srt : sort_fn) (SC : sort_contract srt).
  Context (statistic : C -> outcome f64) (sampler : St -> C -> C * St) (start : St) (original : C).
  Hypothesis good : exists v, statistic original = Ok v /\ moderate v.
  Hypothesis goods : forall k, exists v, statistic (fst (sampler k original)) = Ok v /\ moderate v.

  (** The same where it is defined and moderate. *)
  Definition tamed (c : C) : outcome f64 :=
    match statistic c with
    | Ok v => if is_finite v then if Rle_dec (Rabs (B2R v)) (bpow radix2 1000) then Ok v else Ok (f64_of_Z 0)
              else Ok (f64_of_Z 0)
    | _ => Ok (f64_of_Z 0)
    end.

  Lemma zero_moderate : moderate (f64_of_Z 0).
  Proof. split; [reflexivity|]. replace (B2R (f64_of_Z 0)) with 0%R by reflexivity. rewrite Rabs_R0. apply bpow_ge_0. Qed.

  Lemma tamed_total c : exists v, tamed c = Ok v /\ moderate v.
  Proof.
    unfold tamed. assert (Z := zero_moderate). destruct (statistic c) as [v| |]; eauto.
    destruct (is_finite v) eqn:F; eauto. destruct Rle_dec; eauto. exists v. split; [reflexivity|]. split; assumption.
  Qed.

  Lemma tamed_same c v : statistic c = Ok v -> moderate v -> tamed c = Ok v.
  Proof. intros E [F B]. unfold tamed. rewrite E, F. destruct Rle_dec; [reflexivity|contradiction]. Qed.

  Lemma diffs_same obs n : forall k,
    diffs_loop DArith statistic sampler original obs n k = diffs_loop DArith tamed sampler original obs n k.
  Proof.
    induction n as [|n IH]; intros k; simpl; [reflexivity|]. assert (G := goods k).
    destruct (sampler k original) as [s k']. cbn [fst] in G. destruct G as (v & E & M).
    rewrite E, (tamed_same s v E M), IH. reflexivity.
  Qed.

  Lemma ci_same reps alpha : bootstrap_ci DArith srt statistic sampler start original reps alpha =
    bootstrap_ci DArith srt tamed sampler start original reps alpha.
  Proof.
    unfold bootstrap_ci. destruct good as (v & E & M). rewrite E, (tamed_same original v E M). cbn [obind].
    now rewrite diffs_same.
  Qed.

  Lemma ci_bad reps alpha : (Z.of_nat reps <= 2 ^ 53)%Z -> (reps = 0%nat \/ ~ usable_level alpha) ->
    bootstrap_ci DArith srt statistic sampler start original reps alpha = UB.
  Proof. rewrite ci_same. apply Bootstrap.ci_unsafe; [exact SC|exact tamed_total]. Qed.

  Lemma drawn_in k ss s : drawn sampler original k ss -> In s ss -> exists j, s = fst (sampler j original).
  Proof.
    induction 1 as [|k s' k' l E D IH]; intros K; [destruct K|]. destruct K as [<-|K]; [|auto].
    exists k. now rewrite E.
  Qed.

  Lemma ci_good reps alpha : usable_level alpha -> (1 <= Z.of_nat reps <= 2 ^ 53)%Z ->
    exists obs lo up, bootstrap_ci DArith srt statistic sampler start original reps alpha = Ok (obs, lo, up) /\
      statistic original = Ok obs /\
      (exists samples values diffs li ui dl du,
        List.length samples = reps /\ drawn sampler original start samples /\
        Forall2 (fun s v => statistic s = Ok v) samples values /\
        Permutation (map (fun v => f64_sub v obs) values) diffs /\
        StronglySorted (fun a b : f64 => (B2R a <= B2R b)%R) diffs /\
        percentile_index (rest_level alpha) reps li /\ percentile_index (half_level alpha) reps ui /\
        nth_error diffs li = Some dl /\ nth_error diffs ui = Some du /\
        lo = f64_sub obs dl /\ up = f64_sub obs du) /\
      (is_finite obs = true /\ is_finite lo = true /\ is_finite up = true) /\
      ((B2R alpha <= 1)%R -> (B2R lo <= B2R up)%R).
  Proof.
    intros U N. destruct (Bootstrap.ci_safe srt tamed sampler start original SC tamed_total reps alpha U N) as [[[obs lo] up] E].
    rewrite ci_same. exists obs, lo, up. split; [exact E|].
    assert (Or : (B2R alpha <= 1)%R -> (B2R lo <= B2R up)%R).
    { intros A1. apply (Bootstrap.ci_order srt tamed sampler start original SC tamed_total reps alpha obs lo up (proj2 N) A1 E). }
    rewrite <- ci_same in E.
    destruct (Bootstrap.ci_definition DArith srt statistic sampler start original reps alpha obs lo up SC E)
      as (Eo & ss & ds & st & li & ui & dl & du & L & D & F & P & S & E1 & E2 & Q1 & Q2 & El & Eu).
    destruct good as (v & Ev & O). rewrite Eo in Ev. injection Ev as <-. split; [exact Eo|].
    assert (Ff : forall d, In d ds -> is_finite d = true /\ (Rabs (B2R d) <= bpow radix2 1001)%R).
    { intros d K. clear - goods D F K O. revert D K. generalize start.
      induction F as [|s e ss ds [v [V ->]] F IH]; intros k D K; [destruct K|].
      inversion D as [|? ? k' ? Es D']; subst.
      destruct K as [<-|K]; [|eauto]. destruct (goods k) as (v' & V' & Hv). rewrite Es in V'. cbn [fst] in V'.
      rewrite V in V'. injection V' as <-.
      destruct (Bootstrap.moderate_sub v obs Hv O) as [A [_ B]]. split; assumption. }
    assert (Fs : forall d, In d st -> is_finite d = true /\ (Rabs (B2R d) <= bpow radix2 1001)%R).
    { intros d K. apply Ff. exact (Permutation_in d (Permutation_sym P) K). }
    destruct (Bootstrap.half_indices alpha reps U N) as (li' & ui' & X1 & X2 & Y1 & Y2 & _).
    rewrite E1 in X1. injection X1 as ->. rewrite E2 in X2. injection X2 as ->. rewrite Nat2Z.id in Q1, Q2.
    split; [|split; [|exact Or]].
    - assert (V : exists values, Forall2 (fun s v => statistic s = Ok v) ss values /\ ds = map (fun v => f64_sub v obs) values).
      { clear - F. induction F as [|s e ss ds [v [V ->]] F (vs & G & ->)]; [exists []; split; constructor|].
        exists (v :: vs). split; [now constructor|reflexivity]. }
      destruct V as (values & V & ->).
      exists ss, values, st, li', ui', dl, du. split; [exact L|]. split; [exact D|].
      repeat (split; [assumption|]). split.
      + apply StronglySorted_Sorted in S as _S. clear _S. unfold sorted_by in S.
          clear - S Fs. induction S as [|x l S IH A]; constructor; [apply IH; intros; apply Fs; now right|].
          rewrite Forall_forall in A |- *. intros y K. apply Rnot_lt_le. intros Lt.
          specialize (A y K). cbn beta in A.
          apply (Double.D_lt_v y x) in Lt; [change (a_lt DArith y x) with (f64_lt y x) in *; congruence|apply Fs; now right|apply Fs; now left].
      + repeat (split; [assumption|]). assumption.
    - destruct (Fs dl (nth_error_In _ _ Q1)) as [F1 B1]. destruct (Fs du (nth_error_In _ _ Q2)) as [F2 B2].
      destruct (Bootstrap.bound_sub obs dl O F1 B1) as [G1 _]. destruct (Bootstrap.bound_sub obs du O F2 B2) as [G2 _].
      split; [apply O|]. subst lo up. split; [exact G1|exact G2].
  Qed.
End CI.

(** As many samples as wanted are drawn, in one way. *)
Lemma drawn_exists {C St} (sampler : St -> C -> C * St) original n : forall k,
  exists ss, List.length ss = n /\ drawn sampler original k ss.
Proof.
  induction n as [|n IH]; intros k; [exists []; split; constructor|].
  destruct (sampler k original) as [s k'] eqn:E. destruct (IH k') as (ss & L & D).
  exists (s :: ss). split; [simpl; congruence|econstructor; eauto].
Qed.

Lemma drawn_unique {C St} (sampler : St -> C -> C * St) original k a b : List.length a = List.length b ->
  drawn sampler original k a -> drawn sampler original k b -> a = b.
Proof.
  intros L D. revert b L. induction D as [k|k s k' l E D IH]; intros b L D'; inversion D'; subst; try discriminate; [reflexivity|].
  rewrite E in H. injection H as <- <-. f_equal. apply IH; [now injection L|assumption].
Qed.

(** ** Samples of matches *)

Section Matches.
  Context {RE HE : Type} (score : HE -> f32) (srt : sort_fn) (Hs : sort_contract srt) (T : Trans DArith) (HT : accurate T).
  Notation M := (match_t RE HE).
  Variables (groups : list (list M)) (n : nat).
  Hypothesis Rk : forall g, In g groups -> ranked score g /\ forall m, In m g -> zero_one (m_err m).
  Hypothesis Lg : forall g, In g groups -> (List.length g <= n)%nat.
  Hypothesis Ls : (List.length groups <= n)%nat.
  Hypothesis Ln : (Z.of_nat n <= 2 ^ 25)%Z.

  Lemma concat_length_le (gs : list (list M)) k : (forall g, In g gs -> (List.length g <= k)%nat) ->
    (List.length (concat gs) <= List.length gs * k)%nat.
  Proof.
    induction gs as [|g gs IH]; intros H; [simpl; lia|]. cbn [concat List.length]. rewrite app_length.
    assert (A := H g (or_introl eq_refl)). assert (B := IH (fun g K => H g (or_intror K))). lia.
  Qed.

  Lemma resampled s : resample groups s ->
    (forall g, In g s -> ranked score g /\ forall m, In m g -> zero_one (m_err m)) /\
    (Z.of_nat (List.length (concat s)) <= 2 ^ 51)%Z /\ (Z.of_nat (List.length s) <= 2 ^ 52)%Z /\
    (forall g, In g s -> (Z.of_nat (List.length g) <= 2 ^ 51)%Z).
  Proof.
    intros [L H].
    assert (Lg' : forall g, In g s -> (List.length g <= n)%nat).
    { intros g K. destruct (H g K) as (g0 & I & E & _). rewrite E. auto. }
    split; [|split; [|split]].
    - intros g K. destruct (H g K) as (g0 & I & _ & Inc). destruct (Rk g0 I) as [A B].
      split; [intros m J; apply A, Inc, J|intros m J; apply B, Inc, J].
    - assert (C := concat_length_le s n Lg'). assert (D : (List.length s * n <= n * n)%nat) by (apply Nat.mul_le_mono_r; lia).
      assert (E : (Z.of_nat (n * n) <= 2 ^ 25 * 2 ^ 25)%Z) by (rewrite Nat2Z.inj_mul; apply Z.mul_le_mono_nonneg; lia).
      lia.
    - lia.
    - intros g K. specialize (Lg' g K). lia.
  Qed.

  Lemma self_resample : resample groups groups.
  Proof. split; [reflexivity|]. intros s K. exists s. split; [exact K|]. split; [reflexivity|apply incl_refl]. Qed.

  Section Stat.
    Variable stat : list (list M) -> outcome f64.
    Hypothesis St : forall s, resample groups s -> exists v, stat s = Ok v /\ moderate v.
    Variables (rg : rng) (c : config).

    Let ci := bootstrap_ci DArith srt stat (by_query_sampler match_default rg) (rng_start rg) groups (Z.to_nat (cf_samples c)) (cf_alpha c).

    Lemma stat_interval : usable_options c -> (cf_samples c <= 2 ^ 53)%Z ->
      forall samples, List.length samples = Z.to_nat (cf_samples c) ->
      drawn (by_query_sampler match_default rg) groups (rng_start rg) samples ->
      exists v lo up, ci = Ok (v, lo, up) /\ interval stat groups samples (cf_alpha c) v lo up.
    Proof.
      intros [U N] N' samples Ls' Ds.
      destruct (ci_good srt Hs stat (by_query_sampler match_default rg) (rng_start rg) groups (St _ self_resample)
        (fun k => St _ (Bootstrap.by_query_sound match_default rg k groups)) (Z.to_nat (cf_samples c)) (cf_alpha c) U)
        as (obs & lo & up & E & Eo & (ss & vs & ds & li & ui & dl & du & L & D & F & P & S & I) & Fi & Or).
      { rewrite Z2Nat.id; lia. }
      assert (Es : samples = ss) by (apply (drawn_unique (by_query_sampler match_default rg) groups (rng_start rg)); [congruence|exact Ds|exact D]).
      subst samples.
      exists obs, lo, up. split; [exact E|]. constructor; auto. rewrite L.
      exists vs, ds, li, ui, dl, du. auto.
    Qed.

    Lemma stat_undefined : ~ usable_options c -> (cf_samples c <= 2 ^ 53)%Z -> ci = UB.
    Proof.
      intros U N. apply (ci_bad srt Hs stat (by_query_sampler match_default rg) (rng_start rg) groups (St _ self_resample)
        (fun k => St _ (Bootstrap.by_query_sound match_default rg k groups))); [lia|].
      destruct (Z_lt_le_dec (cf_samples c) 1) as [K|K]; [left; lia|right]. intros V. apply U. split; assumption.
    Qed.
  End Stat.

  Lemma gap_stat c i t s : resample groups s -> exists v, global_ap_groups DArith score srt s c i t true = Ok v /\ moderate v.
  Proof. intros H. destruct (resampled s H) as (A & B & _). now apply GainD.gap_groups. Qed.

  Lemma map_stat c i t s : resample groups s -> exists v, mean_ap DArith score srt s c i t true = Ok v /\ moderate v.
  Proof. intros H. destruct (resampled s H) as (A & _ & B & C). now apply GainD.map_groups. Qed.

  Lemma gndcg_stat c s : resample groups s -> exists v, global_ndcg_groups DArith T score srt s c true = Ok v /\ moderate v.
  Proof. intros H. destruct (resampled s H) as (A & B & _). now apply GainD.gndcg_groups. Qed.

  Lemma mndcg_stat c s : resample groups s -> exists v, mean_ndcg DArith T score srt s c true = Ok v /\ moderate v.
  Proof. intros H. destruct (resampled s H) as (A & _ & B & C). now apply GainD.mndcg_groups. Qed.
End Matches.

(** ** The end of a run *)

Section End_.
  Context {Q RE E : Type}.
  Notation HE := (scored E).
  Notation M := (match_t RE HE).
  Context (T : Trans DArith) (HT : accurate T) (srt : sort_fn) (Hs : sort_contract srt) (rngs : Z -> rng).
  Context (cq : Cmp Q) (rq : RE -> Q) (hq : E -> Q) (w : world) (c : config).
  Notation hqs := (fun h : HE => hq (sc_base h)).
  Variables (ms log : list M) (groups : list (list M)) (n : nat).
  Hypothesis Rk : forall g, In g groups -> ranked sc_score g /\ forall m, In m g -> zero_one (m_err m).
  Hypothesis Lg : forall g, In g groups -> (List.length g <= n)%nat.
  Hypothesis Ls : (List.length groups <= n)%nat.
  Hypothesis Ln : (Z.of_nat n <= 2 ^ 25)%Z.
  Hypothesis Sm : (cf_samples c <= 2 ^ 53)%Z.
  Hypothesis Dm : cf_dump c <> [] -> w_writable w (cf_dump c) = true.

  Notation gap_on := (fun g => global_ap_groups DArith sc_score srt g (cf_collapse c) (cf_interp c) (cf_trapezoid c) true).
  Notation map_on := (fun g => mean_ap DArith sc_score srt g (cf_collapse c) (cf_interp c) (cf_trapezoid c) true).
  Notation gndcg_on := (fun g => global_ndcg_groups DArith T sc_score srt g (cf_collapse c) true).
  Notation mndcg_on := (fun g => mean_ndcg DArith T sc_score srt g (cf_collapse c) true).
  Notation gap_plain := (global_ap DArith sc_score ms (cf_collapse c) (cf_interp c) (cf_trapezoid c)).
  Notation map_plain := (mean_ap DArith sc_score srt groups (cf_collapse c) (cf_interp c) (cf_trapezoid c) false).
  Notation gndcg_plain := (Ok (global_ndcg DArith T sc_score ms (cf_collapse c))).
  Notation mndcg_plain := (mean_ndcg DArith T sc_score srt groups (cf_collapse c) false).

  Lemma stat_measured samples : List.length samples = Z.to_nat (cf_samples c) ->
    drawn (by_query_sampler match_default (rngs (cf_seed c))) groups (rng_start (rngs (cf_seed c))) samples ->
    forall name ci plain on, (exists v, plain = Ok v) ->
    (forall s, resample groups s -> exists v, on s = Ok v /\ moderate v) -> (ci = true -> usable_options c) ->
    exists v iv, compute_statistic DArith srt rngs name c ci groups plain on = ([EStat (A := DArith) name v iv], inl tt) /\
      measured c ci groups samples plain on v iv.
  Proof.
    intros Lss Dss name ci plain on (v & V) St U. unfold compute_statistic, measured, bootstrap_groups. destruct ci.
    - destruct (stat_interval srt Hs groups n Ls on St (rngs (cf_seed c)) c (U eq_refl) Sm samples Lss Dss) as (v' & lo & up & E1 & E2).
      exists v', (Some (lo, up)). rewrite E1. split; [reflexivity|]. exists lo, up. split; [reflexivity|exact E2].
    - exists v, None. rewrite V. split; [reflexivity|]. split; reflexivity.
  Qed.

  Lemma stat_bad name plain on :
    (forall s, resample groups s -> exists v, on s = Ok v /\ moderate v) -> ~ usable_options c ->
    compute_statistic DArith srt rngs name c true groups plain on = ([], inr FUB).
  Proof.
    intros St U. unfold compute_statistic, bootstrap_groups. rewrite (stat_undefined srt Hs groups n Ls on St (rngs (cf_seed c)) c U Sm). reflexivity.
  Qed.

  Lemma finish_measured m k : group_matches cq rq hqs ms m = Ok groups ->
    (total (fun x => me_nh (m_err x)) ms <= k)%nat -> (bootstraps c -> usable_options c) ->
    exists l e v1 v2 v3 v4 i1 i2 i3 i4 curves,
      finish T srt rngs cq rq hq w c m k ms log = (l, inr e) /\
      all_measured T srt (rngs (cf_seed c)) c ms groups v1 v2 v3 v4 i1 i2 i3 i4 /\
      outputs l = dumped c ms log ++ four_lines v1 v2 v3 v4 i1 i2 i3 i4 ++ curves /\
      curve_files w c (global_points c ms) (mean_points w c groups) curves e.
  Proof.
    intros G L U.
    destruct (check_ok (A := DArith) k ms L) as (D & Ec & OD).
    destruct (drawn_exists (by_query_sampler match_default (rngs (cf_seed c))) groups (Z.to_nat (cf_samples c)) (rng_start (rngs (cf_seed c))))
      as (ss & Lss & Dss).
    assert (Rss : Forall (resample groups) ss).
    { apply Forall_forall. intros s K. destruct (drawn_in _ _ _ _ s Dss K) as [j ->]. apply Bootstrap.by_query_sound. }
    destruct (stat_measured ss Lss Dss (lit "gAP") (cf_ci_gap c) gap_plain gap_on) as (v1 & i1 & S1 & M1).
    { apply global_ap_ok. } { intros s. exact (gap_stat sc_score srt Hs groups n Rk Lg Ls Ln _ _ _ s). }
    { unfold bootstraps in U. auto. }
    destruct (stat_measured ss Lss Dss (lit "mAP") (cf_ci_map c) map_plain map_on) as (v2 & i2 & S2 & M2).
    { apply mean_ap_ok. } { intros s. exact (map_stat sc_score srt Hs groups n Rk Lg Ls Ln _ _ _ s). }
    { unfold bootstraps in U. auto. }
    destruct (stat_measured ss Lss Dss (lit "gNDCG") (cf_ci_gndcg c) gndcg_plain gndcg_on) as (v3 & i3 & S3 & M3).
    { eauto. } { intros s. exact (gndcg_stat sc_score srt Hs T HT groups n Rk Lg Ls Ln _ s). }
    { unfold bootstraps in U. auto. }
    destruct (stat_measured ss Lss Dss (lit "mNDCG") (cf_ci_mndcg c) mndcg_plain mndcg_on) as (v4 & i4 & S4 & M4).
    { apply mean_ndcg_ok. } { intros s. exact (mndcg_stat sc_score srt Hs T HT groups n Rk Lg Ls Ln _ s). }
    { unfold bootstraps in U. auto. }
    assert (EF : finish T srt rngs cq rq hq w c m k ms log =
        pbind DArith (dumped c ms log ++ D ++ four_lines v1 v2 v3 v4 i1 i2 i3 i4, inl tt)
          (fun _ => pbind DArith (curve_part (cf_grp c) (write_global_curve DArith sc_score w c ms))
          (fun _ => pbind DArith (curve_part (cf_mrp c) (write_mean_curve DArith sc_score w c groups))
          (fun _ => stop DArith 0)))).
    { unfold finish. destruct (dump_cases (A := DArith) w c ms log) as [(N & W & _)|(_ & Ed)]; [rewrite (Dm N) in W; discriminate|].
      assert (R : report DArith T srt rngs cq rq hqs sc_score w c m ms =
        pbind DArith (four_lines v1 v2 v3 v4 i1 i2 i3 i4, inl tt)
          (fun _ => pbind DArith (curve_part (cf_grp c) (write_global_curve DArith sc_score w c ms))
          (fun _ => curve_part (cf_mrp c) (write_mean_curve DArith sc_score w c groups)))).
      { unfold report. rewrite G. cbn [run]. unfold pret at 1. rewrite pbind_nil, S1, S2, S3, S4. unfold four_lines.
        repeat (progress (rewrite ?pbind_assoc, ?pbind_inl; cbn [fst snd app])). reflexivity. }
      rewrite Ed, Ec, R. repeat (progress (rewrite ?pbind_assoc, ?pbind_inl; cbn [fst snd])).
      rewrite <- !app_assoc. reflexivity. }
    rewrite EF. clear EF. rewrite pbind_inl.
    destruct (curve_part_ok w (cf_grp c) (write_global_curve DArith sc_score w c ms) (global_points c ms)) as (g & b & Eg & Og & Cg).
    { intros N. exact (global_curve_ok sc_score w c ms N). }
    destruct (curve_part_ok w (cf_mrp c) (write_mean_curve DArith sc_score w c groups) (mean_points w c groups)) as (j & b' & Ek & Ok_ & Ck).
    { intros N. destruct (mean_curve_ok (A := DArith) sc_score w c groups N) as [(W1 & pts & E1 & ys & P1 & P2)|(W1 & E1)].
      - left. split; [exact W1|]. exists pts. split; [exact E1|]. exists ys. auto.
      - right. auto. }
    assert (OS : outputs (A := DArith) (dumped c ms log) = dumped c ms log) by (unfold dumped; destruct (cf_dump c); reflexivity).
    assert (OF : outputs (four_lines (RE := RE) (HE := HE) v1 v2 v3 v4 i1 i2 i3 i4) = four_lines v1 v2 v3 v4 i1 i2 i3 i4) by reflexivity.
    assert (AM : all_measured T srt (rngs (cf_seed c)) c ms groups v1 v2 v3 v4 i1 i2 i3 i4) by (exists ss; split; [exact Lss|]; split; [exact Rss|]; split; [exact Dss|]; split; [exact M1|split; [exact M2|split; [exact M3|exact M4]]]).
    destruct b.
    - rewrite Eg, pbind_inl. destruct b'.
      + rewrite Ek, pbind_inl. cbn [fst snd stop]. rewrite app_nil_r.
        eexists _, _, v1, v2, v3, v4, i1, i2, i3, i4, (g ++ j). split; [reflexivity|]. split; [exact AM|]. split.
        * rewrite !outputs_app, OS, OD, Og, Ok_, OF, <- !app_assoc. reflexivity.
        * exact (cf_both _ _ _ _ _ _ true Cg Ck).
      + rewrite Ek. cbn [pbind fst snd].
        eexists _, _, v1, v2, v3, v4, i1, i2, i3, i4, (g ++ j). split; [reflexivity|]. split; [exact AM|]. split.
        * rewrite !outputs_app, OS, OD, Og, Ok_, OF, <- !app_assoc. reflexivity.
        * exact (cf_both _ _ _ _ _ _ false Cg Ck).
    - rewrite Eg. cbn [pbind fst snd].
      eexists _, _, v1, v2, v3, v4, i1, i2, i3, i4, g. split; [reflexivity|]. split; [exact AM|]. split.
      + rewrite !outputs_app, OS, OD, Og, OF, <- !app_assoc. reflexivity.
      + now constructor.
  Qed.

  (** An interval that cannot be computed. *)
  Lemma finish_undefined m k : group_matches cq rq hqs ms m = Ok groups ->
    (total (fun x => me_nh (m_err x)) ms <= k)%nat -> bootstraps c -> ~ usable_options c ->
    snd (finish T srt rngs cq rq hq w c m k ms log) = inr FUB.
  Proof.
    intros G L B U.
    destruct (check_ok (A := DArith) k ms L) as (D & Ec & OD).
    assert (S : forall name ci plain on, (exists v, plain = Ok v) ->
      (forall s, resample groups s -> exists v, on s = Ok v /\ moderate v) ->
      (ci = true /\ compute_statistic DArith srt rngs name c ci groups plain on = ([], inr FUB)) \/
      (ci = false /\ exists v, compute_statistic DArith srt rngs name c ci groups plain on = ([EStat (A := DArith) name v None], inl tt))).
    { intros name ci plain on (v & V) St. destruct ci.
      - left. split; [reflexivity|]. now apply stat_bad.
      - right. split; [reflexivity|]. exists v. unfold compute_statistic. now rewrite V. }
    assert (S1 := S (lit "gAP") (cf_ci_gap c) gap_plain gap_on (global_ap_ok _ _ _ _ _)
      (gap_stat sc_score srt Hs groups n Rk Lg Ls Ln _ _ _)).
    assert (S2 := S (lit "mAP") (cf_ci_map c) map_plain map_on (mean_ap_ok _ _ _ _ _ _)
      (map_stat sc_score srt Hs groups n Rk Lg Ls Ln _ _ _)).
    assert (S3 := S (lit "gNDCG") (cf_ci_gndcg c) gndcg_plain gndcg_on (ex_intro _ _ eq_refl)
      (gndcg_stat sc_score srt Hs T HT groups n Rk Lg Ls Ln _)).
    assert (S4 := S (lit "mNDCG") (cf_ci_mndcg c) mndcg_plain mndcg_on (mean_ndcg_ok _ _ _ _ _)
      (mndcg_stat sc_score srt Hs T HT groups n Rk Lg Ls Ln _)).
    unfold finish. destruct (dump_cases (A := DArith) w c ms log) as [(N & W & _)|(_ & Ed)]; [rewrite (Dm N) in W; discriminate|].
    rewrite Ed, Ec, !pbind_inl. cbn [fst snd].
    assert (R : snd (report DArith T srt rngs cq rq hqs sc_score w c m ms) = inr FUB).
    { unfold report. rewrite G. cbn [run]. unfold pret at 1. rewrite pbind_nil.
      destruct S1 as [(C1 & ->)|(C1 & x1 & ->)]; [reflexivity|]. rewrite pbind_inl.
      destruct S2 as [(C2 & ->)|(C2 & x2 & ->)]; [reflexivity|]. rewrite pbind_inl.
      destruct S3 as [(C3 & ->)|(C3 & x3 & ->)]; [reflexivity|]. rewrite pbind_inl.
      destruct S4 as [(C4 & ->)|(C4 & x4 & ->)]; [reflexivity|].
      exfalso. clear - B C1 C2 C3 C4. unfold bootstraps in B. rewrite C1, C2, C3, C4 in B. intuition discriminate. }
    destruct (report DArith T srt rngs cq rq hqs sc_score w c m ms) as [lr [x|e]]; cbn [snd] in R; [discriminate|].
    injection R as ->. reflexivity.
  Qed.
End End_.

(** ** The programs *)

Section Reached.
  Context {Q RE E : Type}.
  Notation HE := (scored E).
  Notation M := (match_t RE HE).
  Context (T : Trans DArith) (HT : accurate T) (srt : sort_fn) (Hs : sort_contract srt) (rngs : Z -> rng).
  Context (cq : Cmp Q) (rq : RE -> Q) (hq : E -> Q) (w : world) (c : config).
  Variables (ms log : list M) (groups : list (list M)) (n : nat).
  Hypothesis Rk : forall g, In g groups -> ranked sc_score g /\ forall m, In m g -> zero_one (m_err m).
  Hypothesis Lg : forall g, In g groups -> (List.length g <= n)%nat.
  Hypothesis Ls : (List.length groups <= n)%nat.
  Hypothesis Ln : (Z.of_nat n <= 2 ^ 25)%Z.
  Hypothesis Sm : (cf_samples c <= 2 ^ 53)%Z.
  Hypothesis Dm : cf_dump c <> [] -> w_writable w (cf_dump c) = true.
  Variables (l : list (effect DArith (RE := RE) (HE := HE))) (r : unit + fin).
  Hypothesis Rc : Instances.reached T srt rngs w cq rq hq c ms log groups l r.

  Lemma reached_measured : (bootstraps c -> usable_options c) ->
    exists v1 v2 v3 v4 i1 i2 i3 i4 curves e, r = inr e /\
      all_measured T srt (rngs (cf_seed c)) c ms groups v1 v2 v3 v4 i1 i2 i3 i4 /\
      outputs l = dumped c ms log ++ four_lines v1 v2 v3 v4 i1 i2 i3 i4 ++ curves /\
      curve_files w c (global_points c ms) (mean_points w c groups) curves e.
  Proof.
    intros U. destruct Rc as (m & k & D & G & Tn & O & -> & ->).
    destruct (finish_measured T HT srt Hs rngs cq rq hq w c ms log groups n Rk Lg Ls Ln Sm Dm m k G Tn U)
      as (l' & e & v1 & v2 & v3 & v4 & i1 & i2 & i3 & i4 & cs & -> & A & B & C). cbn [fst snd].
    exists v1, v2, v3, v4, i1, i2, i3, i4, cs, e. rewrite outputs_app, O. auto.
  Qed.

  Lemma reached_undefined : bootstraps c -> ~ usable_options c -> r = inr FUB.
  Proof.
    intros B U. destruct Rc as (m & k & D & G & Tn & O & -> & ->).
    exact (finish_undefined T HT srt Hs rngs cq rq hq w c ms log groups n Rk Lg Ls Ln Sm Dm m k G Tn B U).
  Qed.
End Reached.

Lemma curve_end {A : Arith} {RE HE} w c PG PM (l : list (effect A (RE := RE) (HE := HE))) e : curve_files w c PG PM l e ->
  (e = FExit 0 \/ e = FThrow IosFailure) /\
  (e = FThrow IosFailure <-> (cf_grp c <> [] /\ w_writable w (cf_grp c) = false) \/ (cf_mrp c <> [] /\ w_writable w (cf_mrp c) = false)).
Proof.
  intros [g m b G M|g G].
  - destruct b; (split; [auto|]).
    + split; [discriminate|]. inversion G; inversion M; subst; intros [[? ?]|[? ?]]; congruence.
    + split; [|reflexivity]. intros _. right. inversion M; auto.
  - split; [auto|]. split; [|reflexivity]. intros _. left. inversion G; auto.
Qed.

Section Eval.
  Context {Q RE E : Type}.
  Variables (lte : E -> E -> bool) (cr : Cmp RE) (Hr : total_order cr) (rq : RE -> Q) (hq : E -> Q).
  Variables (S : EvSet RE (scored E)) (R : list RE -> scored E -> list RE -> Prop) (HS : finds S R).
  Variable scorer : RE -> scored E -> match_error.
  Hypothesis Z01 : forall r h, zero_one (scorer r h).

  Lemma eval_groups crit f refs hyps ms log groups : (forall h, In h hyps -> is_finite (sc_score h) = true) ->
    evaluation lte (c_lt cr) rq hq R scorer crit f refs hyps ms log groups ->
    (forall g, In g groups -> (ranked sc_score g /\ forall m, In m g -> zero_one (m_err m)) /\
       (List.length g <= List.length refs + List.length hyps)%nat) /\
    (List.length groups <= List.length refs + List.length hyps)%nat.
  Proof.
    intros Fi Ev.
    assert (L := Evaluation.eval_length lte cr Hr rq hq S R HS scorer crit f refs hyps ms log groups Ev).
    assert (Z := Evaluation.eval_zero_one lte cr rq hq R scorer crit f refs hyps ms log groups Ev Z01).
    assert (K := Evaluation.eval_ranked lte cr rq hq R scorer crit f refs hyps ms log groups Ev Fi).
    split.
    - intros g I. destruct (Evaluation.eval_group_in lte cr rq hq R scorer crit f refs hyps ms log groups Ev g I) as [_ Sg].
      assert (J := Evaluation.sublist_in g ms Sg). assert (L' := Printed.sublist_length _ _ Sg).
      split; [|lia]. split; [intros m H; apply K, J, H|intros m H; apply Z, J, H].
    - destruct Ev as (? & ? & ? & ? & ? & ? & _ & _ & _ & _ & _ & _ & _ & G). assert (L' := Printed.groups_length _ _ _ _ _ G). lia.
  Qed.
End Eval.

Lemma icdar_groups srt crit f refs hyps ms log groups : sort_contract srt ->
  (forall h, In h hyps -> is_finite (sc_score h) = true) ->
  icdar17_evaluation crit f refs hyps ms log groups ->
  (forall g, In g groups -> (ranked sc_score g /\ forall m, In m g -> zero_one (m_err m)) /\
     (List.length g <= List.length refs + List.length hyps)%nat) /\
  (List.length groups <= List.length refs + List.length hyps)%nat.
Proof.
  intros Hs. apply (eval_groups (c_lt cmp_shaped) cmp_shaped Order.total_order_shaped ev_query ev_query (evset_docbox srt cmp_str) (box_search cmp_str)
      (Matching.finds_docbox srt cmp_str Hs Order.total_order_str) (fun r h => ioh_scorer cmp_str f32_half r (sc_base h))).
  intros r h. apply Instances.zero_one_ioh.
Qed.

Lemma simple_groups id crit f refs hyps ms log groups : (forall s s', id s = id s' -> s = s') ->
  (forall h, In h hyps -> is_finite (sc_score h) = true) ->
  simple_evaluation id crit f refs hyps ms log groups ->
  (forall g, In g (map (map (renamed_match id)) groups) -> (ranked sc_score g /\ forall m, In m g -> zero_one (m_err m)) /\
     (List.length g <= List.length refs + List.length hyps)%nat) /\
  (List.length (map (map (renamed_match id)) groups) <= List.length refs + List.length hyps)%nat.
Proof.
  intros Inj Fi Ev.
  destruct (eval_groups (c_lt (Results.by_id id)) (Results.by_id id) (Results.by_id_total id Inj) ev_query ev_query
      (evset_generic (Results.by_id id)) exact_search
      (Matching.finds_generic (Results.by_id id) (Results.by_id_total id Inj)) (fun r h => trivial_scorer cmp_str cmp_str r (sc_base h))
      (fun r h => Instances.zero_one_trivial _ _ _ _) crit f refs hyps ms log groups Fi Ev) as [A B].
  split; [|now rewrite map_length]. intros g I. apply in_map_iff in I as (g0 & <- & I). destruct (A g0 I) as [[A1 A2] A3].
  rewrite map_length. split; [|exact A3]. split.
  - intros m K. apply in_map_iff in K as (m0 & <- & K). specialize (A1 m0 K).
    unfold rank, renamed_match, map_match in *. cbn [m_hyp]. destruct (m_hyp m0); exact A1.
  - intros m K. apply in_map_iff in K as (m0 & <- & K). exact (A2 m0 K).
Qed.
