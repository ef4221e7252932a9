(** Proofs about average precision. *)
From Coq Require Import List Bool ZArith Sorted Reals Lra Lia Permutation.
Import ListNotations.
From Flocq Require Import Core BinarySingleNaN.
From Verif.Model Require Import Cpp Floats Events Matches Assessment.
From Verif.Spec Require Import Order Objects Matching Collapse Metrics.
From Verif.Proofs Require Import Order FloatFacts Matching Collapse Metrics.
From Verif.Proofs Require Objects.
Local Open Scope R_scope.

Definition c0 : counts := Counts f32_0 f32_0 0 0.

(** References found at a point. *)
Definition gain (c : counts) : R := INR (ec_nr c) - B2R (ec_fn c).

Lemma firstn_snoc {A} (d : A) l i : (i < length l)%nat -> firstn (S i) l = firstn i l ++ [nth i l d].
Proof.
  revert l. induction i as [|i IH]; intros [|x l] H; simpl in H; try lia; auto.
  simpl. f_equal. apply IH. lia.
Qed.

Lemma recall_step pts rc pr i : curve pts pr rc -> (i < length pts)%nat -> (references pts > 0)%nat ->
  nth i rc 0 - left_of rc i = gain (nth i pts c0) / INR (references pts).
Proof.
  intros [L1 [L2 [_ C]]] Hi HT.
  assert (P : 0 < INR (references pts)) by (apply lt_0_INR; lia).
  assert (N : forall j, (j < length pts)%nat ->
            nth j rc 0 = (INR (references (firstn (S j) pts)) - misses (firstn (S j) pts)) / INR (references pts)).
  { intros j Hj. assert (E : nth_error rc j = Some (nth j rc 0)).
    { apply nth_error_nth'. rewrite L2. exact Hj. }
    apply C in E. destruct E as [[E _]|[_ E]]; [lia|exact E]. }
  assert (S0 : forall j, (j < length pts)%nat ->
    INR (references (firstn (S j) pts)) - misses (firstn (S j) pts) =
    INR (references (firstn j pts)) - misses (firstn j pts) + gain (nth j pts c0)).
  { intros j Hj. rewrite (firstn_snoc c0) by exact Hj. unfold references, misses, gain.
    rewrite total_app, sum_of_app, plus_INR. unfold total at 2. simpl. rewrite Nat.add_0_r. lra. }
  rewrite N, S0 by exact Hi. destruct i as [|i]; simpl left_of.
  - simpl firstn. unfold references at 1, misses, total. simpl. unfold Rdiv. lra.
  - rewrite N by lia. unfold Rdiv. lra.
Qed.

Lemma area_gain pts pr0 pr rc trap : curve pts pr0 rc -> length pr = length rc -> (references pts > 0)%nat ->
  area trap pr rc =
  sum_of (fun i => step_height trap pr i * gain (nth i pts c0)) (seq 0 (length pts)) / INR (references pts).
Proof.
  intros C L H. unfold area. assert (L2 : length rc = length pts) by apply C.
  rewrite L, L2. unfold Rdiv. rewrite Rmult_comm, <- sum_of_scal. apply sum_of_ext.
  intros i K. apply in_seq in K. rewrite (recall_step pts rc pr0) by (auto; lia). unfold Rdiv. lra.
Qed.

(** Without references the recall is 1 everywhere. *)
Lemma area_no_refs pts pr0 pr rc trap : curve pts pr0 rc -> length pr = length rc -> references pts = 0%nat ->
  area trap pr rc = nth 0 pr 0.
Proof.
  intros [L1 [L2 [_ C]]] L H. unfold area.
  assert (N : forall i, (i < length pts)%nat -> nth i rc 0 = 1).
  { intros i Hi. assert (E : nth_error rc i = Some (nth i rc 0)).
    { apply nth_error_nth'. rewrite L2. exact Hi. }
    apply C in E. destruct E as [[_ E]|[E _]]; [exact E|lia]. }
  rewrite L, L2. destruct (length pts) as [|n] eqn:En.
  - destruct pr; [reflexivity|]. simpl in L. congruence.
  - cbn [seq]. rewrite sum_of_cons. simpl step_height. simpl left_of. rewrite N by lia.
    assert (Z : sum_of (fun i => step_height trap pr i * (nth i rc 0 - left_of rc i)) (seq 1 n) = 0).
    { rewrite (sum_of_ext _ (fun _ => 0 * 0)); [rewrite sum_of_scal; lra|].
      intros i K. apply in_seq in K. destruct i as [|i]; [lia|]. simpl left_of. rewrite !N by lia. lra. }
    rewrite Z. lra.
Qed.

(** ** AP on errors *)

Definition tp (c : counts) : R := B2R (f32_sub (f32_of_Z (Z.of_nat (ec_nh c))) (ec_fp c)).

Lemma ap_errors_loop_sum trap prev s pts pr : length pr = length pts ->
  ap_errors_loop RArith trap prev s pts pr =
  s + sum_of (fun i => at_height trap prev pr i * tp (nth i pts c0)) (seq 0 (length pts)).
Proof.
  revert prev s pr. induction pts as [|c pts IH]; intros prev s pr L; destruct pr as [|p pr];
    try discriminate.
  - simpl. lra.
  - cbn [ap_errors_loop length seq]. rewrite IH by (injection L; auto).
    rewrite sum_of_cons, <- seq_shift, sum_of_map. cbn [at_height nth].
    change (a_add RArith) with Rplus. change (a_mul RArith) with Rmult. change (num RArith) with R in *.
    rewrite height_R. change (a_f32 RArith) with (fun x : f32 => B2R x). cbv beta.
    change (B2R (f32_sub (f32_of_Z (Z.of_nat (ec_nh c))) (ec_fp c))) with (tp c).
    rewrite (sum_of_ext (fun x => at_height trap prev (p :: pr) (S x) * tp (nth (S x) (c :: pts) c0))
               (fun i => at_height trap (Some p) pr i * tp (nth i pts c0))).
    + rewrite (Rmult_comm (tp c)). apply Rplus_assoc.
    + intros [|i] _; reflexivity.
Qed.

Lemma ap_errors_sum trap pts pr : length pr = length pts ->
  ap_errors RArith pts pr trap =
  Ok (if Nat.ltb 0 (references pts)
      then sum_of (fun i => step_height trap pr i * tp (nth i pts c0)) (seq 0 (length pts)) / INR (references pts)
      else 0).
Proof.
  intros L. unfold ap_errors. rewrite L, Nat.eqb_refl, total_refs. f_equal.
  destruct (Nat.ltb 0 (references pts)); auto.
  rewrite ap_errors_loop_sum by exact L. change (a_div RArith) with Rdiv. change (a_nat RArith) with INR.
  f_equal. change (a0 RArith) with 0. rewrite Rplus_0_l. apply sum_of_ext. intros [|i] _; reflexivity.
Qed.

(** Points with as many found references as right hypotheses. *)
Definition balanced (c : counts) : Prop :=
  bounded c /\ INR (ec_nh c) - B2R (ec_fp c) = gain c /\ tp c = gain c /\ (1 <= ec_nh c + ec_nr c)%nat.

Lemma balanced_no_refs pts p : (forall c, In c pts -> balanced c) -> references pts = 0%nat ->
  forall i, (i < length pts)%nat -> is_precision (firstn (S i) pts) p -> p = 0.
Proof.
  intros B H i Hi Hp.
  assert (Z : forall c, In c pts -> ec_nr c = 0%nat).
  { revert H. unfold references, total. clear. induction pts as [|c l IH]; intros H x K; [destruct K|].
    simpl in H. destruct K as [<-|K]; [lia|]. apply IH; auto. lia. }
  assert (F : forall c, In c pts -> B2R (ec_fp c) = INR (ec_nh c) /\ (1 <= ec_nh c)%nat).
  { intros c K. destruct (B c K) as [[_ [_ [_ Fn]]] [E [_ N]]]. rewrite (Z c K) in Fn, N. simpl in Fn.
    unfold gain in E. rewrite (Z c K) in E. simpl in E. split; [lra|lia]. }
  assert (E : false_positives (firstn (S i) pts) = INR (hypotheses (firstn (S i) pts))).
  { unfold false_positives, hypotheses. rewrite <- sum_of_INR. apply sum_of_ext.
    intros c K. apply F. apply (incl_firstn _ _ _ K). }
  destruct Hp as [[Hp _]|[_ ->]].
  - exfalso. destruct pts as [|c pts']; [simpl in Hi; lia|].
    assert (N := proj2 (F c (or_introl eq_refl))). simpl in Hp. unfold hypotheses, total in Hp. simpl in Hp. lia.
  - rewrite E. unfold Rdiv. lra.
Qed.

Lemma all_zero_first (pr0 : list R) interpolate : (forall p, In p pr0 -> p = 0) ->
  nth 0 (if interpolate : bool then interp RArith pr0 else pr0) 0 = 0.
Proof.
  intros H. destruct (nth_in_or_default 0 (if interpolate then interp RArith pr0 else pr0) 0) as [K|K]; auto.
  destruct interpolate; auto. apply H. apply (interp_in RArith) in K. exact K.
Qed.

Lemma ap_balanced pts interpolate trap : (forall c, In c pts -> balanced c) ->
  let (pr, rc) := precision_recall RArith pts interpolate in
  ap_errors RArith pts pr trap = ap_curves RArith pr rc trap.
Proof.
  intros B. destruct (pr_curve pts interpolate) as [pr0 [pr [rc [_ [E [C [L [I F]]]]]]]]. rewrite E.
  assert (L' : length pr = length pts) by (rewrite L; apply C).
  rewrite ap_area by exact L. rewrite ap_errors_sum by exact L'. f_equal.
  destruct (Nat.ltb_spec 0 (references pts)) as [H|H].
  - rewrite (area_gain pts pr0) by auto. f_equal. apply sum_of_ext.
    intros i K. apply in_seq in K. f_equal. apply B. apply nth_In. lia.
  - rewrite (area_no_refs pts pr0) by (auto; lia). rewrite F. symmetry. apply all_zero_first.
    intros p K. apply In_nth_error in K. destruct K as [i K].
    destruct C as [C1 [_ [C2 _]]]. apply (balanced_no_refs pts p B) with i; auto; [lia|].
    rewrite <- C1. apply nth_error_Some. congruence.
Qed.

(** ** 0/1 errors *)

Lemma f32_10 : f32_eq f32_1 f32_0 = false.
Proof. reflexivity. Qed.

(** The four kinds of 0/1 errors. *)
Lemma zero_one_cases e : zero_one e ->
  (e = MatchError f32_0 f32_0 /\ counts_of e = Counts f32_0 f32_0 1 1) \/
  (e = MatchError f32_1 f32_0 /\ counts_of e = Counts f32_1 f32_0 1 0) \/
  (e = MatchError f32_0 f32_1 /\ counts_of e = Counts f32_0 f32_1 0 1) \/
  (e = MatchError f32_1 f32_1 /\ counts_of e = Counts f32_1 f32_1 1 1).
Proof.
  destruct e as [p n]. intros [[H|H] [K|K]]; simpl in H, K; subst; auto 6.
Qed.

Lemma zero_one_fractions e : zero_one e -> fractions e.
Proof.
  assert (O := f32_1_R). assert (Z := f32_0_R). destruct O as [O O'].
  unfold fractions, unit_f32. intros [[-> | ->] [-> | ->]]; rewrite ?O, ?O', ?Z;
    change (is_finite f32_0) with true; repeat split; lra.
Qed.

Lemma f32_sub_exact n x (k : Z) : (0 <= k <= Z.of_nat n)%Z -> (Z.of_nat n <= 2 ^ 24)%Z ->
  is_finite x = true -> B2R x = IZR k ->
  B2R (f32_sub (f32_of_Z (Z.of_nat n)) x) = INR n - B2R x.
Proof.
  intros Hk Hn Fx Ex. destruct (f32_of_Z_exact (Z.of_nat n)) as [E F]; [lia|].
  destruct (f32_minus_correct (f32_of_Z (Z.of_nat n)) x 25 F Fx) as [R _]; [easy| |].
  - rewrite E, Ex, <- minus_IZR, Rabs_pos_eq by (apply (IZR_le 0); lia).
    change (bpow radix2 25) with (IZR 33554432). apply IZR_le. lia.
  - unfold f32_sub. rewrite R, E, Ex, INR_IZR_INZ, <- minus_IZR. apply rnd32_id, fmt32_Z. lia.
Qed.

Lemma balanced_raw e : zero_one e -> balanced (counts_of e).
Proof.
  intros H. assert (B := capped_bounded _ (capped_of e (zero_one_fractions e H))).
  destruct f32_1_R as [O O']. assert (Z := f32_0_R).
  assert (T : forall n x k, (0 <= k <= Z.of_nat n)%Z -> (n <= 1)%nat -> is_finite x = true -> B2R x = IZR k ->
            tp (Counts x f32_0 n 0) = INR n - IZR k).
  { intros n x k K1 K2 K3 K4. unfold tp. cbn [ec_nh ec_fp]. rewrite <- K4. eapply f32_sub_exact; eauto. lia. }
  assert (T' : forall n x y k, tp (Counts x y n k) = tp (Counts x f32_0 n 0)) by reflexivity.
  destruct (zero_one_cases e H) as [[_ E]|[[_ E]|[[_ E]|[_ E]]]]; rewrite E in *; unfold balanced;
    (split; [exact B|]); unfold gain; cbn [ec_nh ec_nr ec_fp ec_fn]; rewrite ?O, ?Z; try rewrite T'.
  - rewrite ?(T 1%nat f32_0 0%Z); try reflexivity; try assumption; try lia. simpl. repeat split; try lra; try lia.
  - rewrite ?(T 1%nat f32_1 1%Z); try reflexivity; try assumption; try lia. simpl. repeat split; try lra; try lia.
  - rewrite ?(T 0%nat f32_0 0%Z); try reflexivity; try assumption; try lia. simpl. repeat split; try lra; try lia.
  - rewrite ?(T 1%nat f32_1 1%Z); try reflexivity; try assumption; try lia. simpl. repeat split; try lra; try lia.
Qed.

Lemma balanced_run RE HE (r : list (match_t RE HE)) c : r <> [] -> counted_as r c -> bounded c -> summed_as r c ->
  (forall m, In m r -> zero_one (m_err m)) -> (Z.of_nat (length r) <= 2 ^ 24)%Z -> balanced c.
Proof.
  intros Hr [C1 C2] B [S1 S2] Z L. unfold balanced. split; [exact B|].
  assert (N : (ec_nh c <= length r)%nat).
  { rewrite C1. clear. induction r as [|m r IH]; simpl; [unfold total; simpl; lia|].
    rewrite total_cons. assert (K := Objects.nh_le_1 (m_err m)). lia. }
  assert (G : INR (ec_nh c) - B2R (ec_fp c) = gain c).
  { unfold gain. rewrite C1, C2, S1, S2, <- !sum_of_INR, <- !sum_of_minus. apply sum_of_ext.
    intros m K. destruct (balanced_raw _ (Z m K)) as [_ [G _]]. exact G. }
  assert (I : B2R (ec_fp c) = IZR (ones me_fp r)).
  { rewrite S1, ones_sum; auto. intros m K. apply Z, K. }
  split; [exact G|]. split.
  - rewrite <- G. unfold tp. apply f32_sub_exact with (ones me_fp r); auto; [|lia|apply B].
    split; [apply ones_range|]. apply le_IZR. rewrite <- I, <- INR_IZR_INZ. apply B.
  - rewrite C1, C2. destruct r as [|m r]; [congruence|]. rewrite !total_cons.
    assert (K := balanced_raw _ (Z m (or_introl eq_refl))). destruct K as [_ [_ [_ K]]]. simpl in K. lia.
Qed.

Lemma balanced_points RE HE (score : HE -> f32) (l : list (match_t RE HE)) collapse :
  (forall m, In m l -> zero_one (m_err m)) ->
  (collapse = true -> ranked score l /\ (Z.of_nat (length l) <= 2 ^ 24)%Z) ->
  forall c, In c (points score collapse l) -> balanced c.
Proof.
  intros Z H c K. destruct collapse; simpl in K.
  - destruct (H eq_refl) as [R L].
    destruct (collapse_spec score l R) as [rs [[A1 A2 _ _] B]].
    assert (F : forall r, In r rs -> r <> [] /\ (length r <= length l)%nat /\ forall m, In m r -> zero_one (m_err m)).
    { intros r Hr. split; [auto|]. split.
      - rewrite <- A1. clear -Hr. induction rs as [|s rs IH]; [destruct Hr|]. simpl. rewrite app_length.
        destruct Hr as [->|Hr]; [lia|]. specialize (IH Hr). lia.
      - intros m Hm. apply Z. rewrite <- A1. apply in_concat. eauto. }
    clear A1 A2. induction B as [|r c' rs cs B1 B2 IH]; [destruct K|]. destruct K as [<-|K].
    + destruct (F r (or_introl eq_refl)) as [F1 [F2 F3]]. destruct B1 as [B1 [B3 B4]].
      apply (balanced_run RE HE r); auto; [| |lia].
      * apply B3. intros m Hm. apply zero_one_fractions, F3, Hm.
      * apply B4; auto. lia.
    + apply IH; auto. intros r' Hr. apply F. right. exact Hr.
  - unfold get_match_errors in K. apply in_map_iff in K. destruct K as [m [<- K]].
    apply balanced_raw, Z, K.
Qed.

Lemma two_aps RE HE (score : HE -> f32) (l : list (match_t RE HE)) collapse interpolate trapezoid :
  (forall m, In m l -> zero_one (m_err m)) ->
  (collapse = true -> ranked score l /\ (Z.of_nat (length l) <= 2 ^ 24)%Z) ->
  let pts := points score collapse l in
  let (pr, rc) := precision_recall RArith pts interpolate in
  ap_errors RArith pts pr trapezoid = ap_curves RArith pr rc trapezoid.
Proof. intros Z H. apply ap_balanced. apply balanced_points; auto. Qed.

(** ** Rankings of 0/1 matches *)

Section Rankings.
  Context {RE HE : Type}.
  Notation M := (match_t RE HE).

  Definition cnt (m : M) : counts := counts_of (m_err m).

  Lemma hitb_spec (m : M) : zero_one (m_err m) -> (is_hitb m = true <-> is_hit m).
  Proof.
    intros H. unfold is_hitb, is_hit.
    assert (E := f32_10). assert (E' : f32_eq f32_0 f32_0 = true) by reflexivity.
    assert (N : f32_1 <> f32_0) by (intros K; rewrite K in E; congruence).
    destruct H as [[-> | ->] [-> | ->]]; rewrite ?E, ?E'; simpl; split; intros K; auto;
      try discriminate; destruct K; congruence.
  Qed.

  Lemma gain_hit (m : M) : zero_one (m_err m) -> gain (cnt m) = if is_hitb m then 1 else 0.
  Proof.
    intros H. unfold is_hitb, cnt. destruct f32_1_R as [O _]. assert (Z := f32_0_R).
    destruct (zero_one_cases _ H) as [[A B]|[[A B]|[[A B]|[A B]]]]; rewrite B, A; unfold gain;
      cbn [ec_nr ec_fn me_fp me_fn]; rewrite ?O, ?Z, ?f32_10; change (f32_eq f32_0 f32_0) with true; simpl; lra.
  Qed.

  (** Hypotheses minus false positives are hits. *)
  Lemma hits_sum (l : list M) : (forall m, In m l -> zero_one (m_err m)) ->
    INR (hypotheses (map cnt l)) - false_positives (map cnt l) = INR (hits l).
  Proof.
    intros H. unfold hypotheses, false_positives. rewrite <- sum_of_INR, <- sum_of_minus, sum_of_map.
    unfold hits. induction l as [|m l IH]; [reflexivity|]. rewrite sum_of_cons. cbn [filter].
    rewrite IH by (intros x K; apply H; right; exact K).
    destruct (balanced_raw _ (H m (or_introl eq_refl))) as [_ [B _]].
    change (counts_of (m_err m)) with (cnt m) in B. rewrite B, gain_hit by (apply H; left; reflexivity).
    destruct (is_hitb m); simpl length; [rewrite S_INR|]; lra.
  Qed.

  Lemma hyps_map (l : list M) : hypotheses (map cnt l) = hyps l.
  Proof. unfold hypotheses, hyps, total. rewrite map_map. reflexivity. Qed.

  Lemma refs_map (l : list M) : references (map cnt l) = refs l.
  Proof. unfold references, refs, total. rewrite map_map. reflexivity. Qed.

  Lemma hits_le_hyps (l : list M) : (forall m, In m l -> zero_one (m_err m)) -> (hits l <= hyps l)%nat.
  Proof.
    intros H. apply INR_le. rewrite <- hits_sum by exact H. rewrite hyps_map.
    assert (B := fp_le_nh (map cnt l)). specialize (B (fun c K => proj1 (balanced_points RE HE (fun _ => f32_0) l false H (fun e => match Bool.diff_false_true e with end) c K)) (map cnt l) (incl_refl _)).
    lra.
  Qed.

  Lemma hit_precisions_sum (d : M) (l seen : list M) :
    hit_precisions seen l =
    sum_of (fun i => if is_hitb (nth i l d)
                     then INR (hits (seen ++ firstn (S i) l)) / INR (hyps (seen ++ firstn (S i) l)) else 0)
      (seq 0 (length l)).
  Proof.
    revert seen. induction l as [|m l IH]; intros seen; auto.
    cbn [hit_precisions length seq]. rewrite sum_of_cons. f_equal.
    rewrite IH, <- seq_shift, sum_of_map. apply sum_of_ext. intros i _. cbn [nth].
    rewrite <- app_assoc. reflexivity.
  Qed.

  Lemma raw_points (score : HE -> f32) (l : list M) : points score false l = map cnt l.
  Proof. reflexivity. Qed.

  (** C35. *)
  Lemma textbook (score : HE -> f32) (l : list M) :
    (forall m, In m l -> zero_one (m_err m)) -> (refs l > 0)%nat ->
    global_ap RArith score l false false false = Ok (hit_precisions [] l / INR (refs l)).
  Proof.
    intros H Hr. unfold global_ap, precision_recall_matches. rewrite raw_points.
    destruct (curve_spec (map cnt l)) as [pr [rc [E C]]]. rewrite E.
    assert (L : length pr = length rc) by (destruct C as [C1 [C2 _]]; exact (eq_trans C1 (eq_sym C2))).
    rewrite ap_area by exact L. f_equal. rewrite (area_gain (map cnt l) pr) by (auto; rewrite refs_map; auto).
    rewrite refs_map, map_length. f_equal.
    rewrite (hit_precisions_sum match_default). apply sum_of_ext. intros i K. apply in_seq in K.
    assert (In_l : In (nth i l match_default) l) by (apply nth_In; lia).
    assert (G : gain (nth i (map cnt l) c0) = if is_hitb (nth i l match_default) then 1 else 0).
    { rewrite <- gain_hit by (apply H, In_l). f_equal.
      rewrite nth_indep with (d' := cnt match_default) by (rewrite map_length; lia). apply map_nth. }
    rewrite G. destruct (is_hitb (nth i l match_default)) eqn:B; [|lra]. rewrite Rmult_1_r.
    assert (P : step_height false pr i = nth i pr 0) by (destruct i; reflexivity). rewrite P.
    assert (N : nth_error pr i = Some (nth i pr 0)).
    { apply nth_error_nth'. destruct C as [C1 _]. rewrite C1, map_length. lia. }
    destruct C as [_ [_ [C _]]]. apply C in N. rewrite firstn_map in N. simpl app.
    assert (H' : forall m, In m (firstn (S i) l) -> zero_one (m_err m)) by (intros m Hm; apply H, (incl_firstn _ _ _ Hm)).
    destruct N as [[N _]|[_ N]].
    - exfalso. rewrite hyps_map in N. assert (Q := hits_le_hyps _ H').
      assert (hits (firstn (S i) l) > 0)%nat; [|lia].
      unfold hits. rewrite (firstn_snoc match_default) by lia. rewrite filter_app, app_length. simpl. rewrite B. simpl. lia.
    - rewrite N, hits_sum, hyps_map by exact H'. reflexivity.
  Qed.

  (** C38: without references. *)
  Lemma no_refs (score : HE -> f32) (l : list M) collapse interpolate trapezoid :
    (forall m, In m l -> zero_one (m_err m)) -> refs l = 0%nat ->
    (collapse = true -> ranked score l /\ (Z.of_nat (length l) <= 2 ^ 24)%Z) ->
    global_ap RArith score l collapse interpolate trapezoid = Ok 0.
  Proof.
    intros H Hr Hc. assert (B := balanced_points RE HE score l collapse H Hc).
    unfold global_ap, precision_recall_matches.
    destruct (pr_curve (points score collapse l) interpolate) as [pr0 [pr [rc [_ [E [C [L [I F]]]]]]]]. rewrite E.
    rewrite ap_area by exact L. f_equal.
    assert (R0 : references (points score collapse l) = 0%nat).
    { destruct collapse; [|rewrite raw_points, refs_map; exact Hr].
      unfold references, total. simpl. rewrite (proj2 (collapse_totals score l)). exact Hr. }
    rewrite (area_no_refs _ pr0 pr rc trapezoid C L R0). rewrite F. apply all_zero_first.
    intros p K. apply In_nth_error in K. destruct K as [i K].
    destruct C as [C1 [_ [C2 _]]]. apply (balanced_no_refs _ p B R0) with i; auto.
    rewrite <- C1. apply nth_error_Some. congruence.
  Qed.

  (** The gain of a point is that of its matches. *)
  Lemma points_gain (score : HE -> f32) (l : list M) collapse :
    (forall m, In m l -> zero_one (m_err m)) ->
    (collapse = true -> ranked score l /\ (Z.of_nat (length l) <= 2 ^ 24)%Z) ->
    forall c, In c (points score collapse l) ->
    exists r, incl r l /\ gain c = sum_of (fun m => gain (cnt m)) r.
  Proof.
    intros Z H c K. destruct collapse; simpl in K.
    - destruct (H eq_refl) as [R L].
      destruct (collapse_spec score l R) as [rs [[A1 A2 _ _] B]].
      assert (F : forall r, In r rs -> (length r <= length l)%nat /\ incl r l).
      { intros r Hr. split.
        - rewrite <- A1. clear -Hr. induction rs as [|s rs IH]; [destruct Hr|]. simpl. rewrite app_length.
          destruct Hr as [->|Hr]; [lia|]. specialize (IH Hr). lia.
        - intros m Hm. rewrite <- A1. apply in_concat. eauto. }
      clear A1 A2. induction B as [|r c' rs cs B1 B2 IH]; [destruct K|]. destruct K as [<-|K].
      + destruct (F r (or_introl eq_refl)) as [F1 F2]. destruct B1 as [[B0 B1] [_ B4]].
        exists r. split; auto. destruct B4 as [_ B4]; [intros m Hm; apply Z, F2, Hm|lia|].
        unfold gain. rewrite B1, B4, <- sum_of_INR, <- sum_of_minus. reflexivity.
      + apply IH; auto. intros r' Hr. apply F. right. exact Hr.
    - unfold get_match_errors in K. apply in_map_iff in K. destruct K as [m [<- K]].
      exists [m]. split; [intros x [<-|[]]; exact K|]. simpl. change (counts_of (m_err m)) with (cnt m). lra.
  Qed.

  (** C38: without hits. *)
  Lemma no_hits (score : HE -> f32) (l : list M) collapse interpolate trapezoid :
    (forall m, In m l -> zero_one (m_err m)) -> (forall m, In m l -> ~ is_hit m) ->
    (collapse = true -> ranked score l /\ (Z.of_nat (length l) <= 2 ^ 24)%Z) ->
    global_ap RArith score l collapse interpolate trapezoid = Ok 0.
  Proof.
    intros H Hf Hc.
    destruct (Nat.eq_dec (refs l) 0) as [Hr|Hr]; [apply no_refs; auto|].
    assert (R0 : (references (points score collapse l) > 0)%nat).
    { destruct collapse; [|rewrite raw_points, refs_map; lia].
      unfold references, total. simpl. rewrite (proj2 (collapse_totals score l)). unfold refs in Hr. lia. }
    unfold global_ap, precision_recall_matches.
    destruct (pr_curve (points score collapse l) interpolate) as [pr0 [pr [rc [_ [E [C [L [I F]]]]]]]]. rewrite E.
    rewrite ap_area by exact L. f_equal.
    rewrite (area_gain _ pr0 pr rc trapezoid C L R0).
    rewrite (sum_of_ext _ (fun _ => 0 * 0)); [rewrite sum_of_scal; unfold Rdiv; lra|].
    intros i K. apply in_seq in K.
    destruct (points_gain score l collapse H Hc (nth i (points score collapse l) c0)) as [r [I' G]]; [apply nth_In; lia|].
    rewrite G, (sum_of_ext _ (fun _ => 0 * 0)); [rewrite sum_of_scal; lra|].
    intros m Hm. rewrite gain_hit by auto. destruct (is_hitb m) eqn:B; [|lra].
    apply hitb_spec in B; auto. destruct (Hf m); auto.
  Qed.

  (** ** Perfect rankings *)

  Lemma nh_gain (m : M) : zero_one (m_err m) -> 0 <= gain (cnt m) <= INR (ec_nr (cnt m)).
  Proof.
    intros H. destruct (balanced_raw _ H) as [[_ [_ [_ B]]] _]. unfold gain, cnt. lra.
  Qed.

  Lemma nth_cnt (l : list M) i : (i < length l)%nat -> nth i (map cnt l) c0 = cnt (nth i l match_default).
  Proof.
    intros H. rewrite nth_indep with (d' := cnt match_default) by (rewrite map_length; lia). apply map_nth.
  Qed.

  (** Step heights are at most 1, and 1 only where nothing false came before. *)
  Lemma height_le_1 trap (pr : list R) i : (forall p, In p pr -> in01 p) -> (i < length pr)%nat ->
    in01 (step_height trap pr i) /\ (step_height trap pr i = 1 -> nth i pr 0 = 1).
  Proof.
    intros H Hi.
    assert (N : forall j, (j < length pr)%nat -> in01 (nth j pr 0)) by (intros j Hj; apply H, nth_In, Hj).
    destruct i as [|i]; simpl step_height; [split; auto|].
    assert (N1 := N (S i) Hi). assert (N2 := N i ltac:(lia)). unfold in01 in *.
    destruct trap; split; intros; try lra; auto.
  Qed.

  Lemma precision_1 (l : list M) i p : (forall m, In m l -> zero_one (m_err m)) ->
    is_precision (firstn i (map cnt l)) p -> p = 1 -> false_positives (firstn i (map cnt l)) = 0.
  Proof.
    intros H Hp ->.
    assert (B := fp_le_nh (map cnt l)). specialize (B (fun c K => proj1 (balanced_points RE HE (fun _ => f32_0) l false H (fun e => match Bool.diff_false_true e with end) c K)) (firstn i (map cnt l)) (incl_firstn _ _)).
    destruct Hp as [[E _]|[P E]].
    - rewrite E in B. simpl in B. lra.
    - assert (Q : 0 < INR (hypotheses (firstn i (map cnt l)))) by (apply lt_0_INR; lia).
      apply (f_equal (fun x => x * INR (hypotheses (firstn i (map cnt l))))) in E.
      unfold Rdiv in E. rewrite Rmult_assoc, Rinv_l, Rmult_1_r in E; lra.
  Qed.

  Lemma false_positives_0 (l : list M) : (forall m, In m l -> zero_one (m_err m)) ->
    (false_positives (map cnt l) = 0 <-> forall m, In m l -> ~ is_fp m).
  Proof.
    intros H. unfold false_positives. rewrite sum_of_map. destruct f32_1_R as [O _]. assert (Z := f32_0_R).
    split.
    - intros E m K F. apply sum_of_zero with (x := m) in E; auto.
      + unfold is_fp in F. simpl in E. rewrite F in E. lra.
      + intros x Hx. unfold cnt, counts_of. cbn [ec_fp]. destruct (H x Hx) as [[-> | ->] _]; rewrite ?O, ?Z; lra.
    - intros N. rewrite (sum_of_ext _ (fun _ => 0 * 0)); [rewrite sum_of_scal; lra|].
      intros x Hx. specialize (N x Hx). destruct (H x Hx) as [[E | E] _]; [|contradiction].
      unfold cnt, counts_of. cbn [ec_fp]. rewrite E. lra.
  Qed.

  Lemma nth_error_skipn {X} (x : list X) i k : nth_error (skipn i x) k = nth_error x (i + k).
  Proof.
    revert x. induction i as [|i IH]; intros x; simpl; auto.
    destruct x; auto. destruct k; reflexivity.
  Qed.

  Lemma nth_split_lt (l : list M) i j a b : (i < j)%nat -> nth_error l i = Some a -> nth_error l j = Some b ->
    exists u v w, l = u ++ a :: v ++ b :: w.
  Proof.
    intros L E1 E2. apply nth_error_split in E1. destruct E1 as [u [t [-> Lu]]].
    rewrite nth_error_app2 in E2 by lia. destruct (j - length u)%nat as [|k] eqn:Ek; [lia|].
    simpl in E2. apply nth_error_split in E2. destruct E2 as [v [w [-> _]]]. eauto.
  Qed.

  (** C37. *)
  Lemma perfect_ap (score : HE -> f32) (l : list M) interpolate trapezoid :
    (forall m, In m l -> zero_one (m_err m)) -> (refs l > 0)%nat ->
    (global_ap RArith score l false interpolate trapezoid = Ok 1 <-> perfect l).
  Proof.
    intros H Hr. unfold global_ap, precision_recall_matches. rewrite raw_points.
    destruct (pr_curve (map cnt l) interpolate) as [pr0 [pr [rc [_ [E [C [L [I F]]]]]]]]. rewrite E.
    assert (V : forall c, In c (map cnt l) -> bounded c).
    { intros c K. apply (balanced_points RE HE score l false H); [discriminate|exact K]. }
    destruct (curve_bounds _ _ _ V C) as [B1 _].
    assert (Lp : length pr0 = length l) by (destruct C as [C1 _]; rewrite C1; apply map_length).
    assert (Lr : length rc = length l) by (destruct C as [_ [C2 _]]; rewrite C2; apply map_length).
    assert (Lpr : length pr = length l) by exact (eq_trans L Lr).
    assert (B : forall p, In p pr -> in01 p) by (intros p K; apply B1, I, K).
    rewrite ap_area by exact L. rewrite (area_gain (map cnt l) pr0) by (auto; rewrite refs_map; auto).
    rewrite refs_map, map_length.
    assert (HT : 0 < INR (refs l)) by (apply lt_0_INR; lia).
    (* the sum of all references *)
    assert (TR : INR (refs l) = sum_of (fun i => INR (ec_nr (cnt (nth i l match_default)))) (seq 0 (length l))).
    { unfold refs. rewrite <- sum_of_INR. clear. induction l as [|m l IH]; auto.
      cbn [length seq]. rewrite !sum_of_cons, <- seq_shift, sum_of_map. f_equal. exact IH. }
    assert (Hz : forall i, (i < length l)%nat -> zero_one (m_err (nth i l match_default))).
    { intros i Hi. apply H, nth_In, Hi. }
    set (S := sum_of (fun i => step_height trapezoid pr i * gain (nth i (map cnt l) c0)) (seq 0 (length l))).
    assert (ST : S / INR (refs l) = 1 <-> S = INR (refs l)).
    { split; intros K.
      - apply (f_equal (fun x => x * INR (refs l))) in K. unfold Rdiv in K.
        rewrite Rmult_assoc, Rinv_l, Rmult_1_r, Rmult_1_l in K; lra.
      - rewrite K. field. lra. }
    (* where a raw precision is 1 *)
    assert (One : forall i, (i < length l)%nat -> nth i pr 0 = 1 ->
              forall m, In m (firstn (Datatypes.S i) l) -> ~ is_fp m).
    { intros i Hi E1 m Km.
      assert (J : exists j, (i <= j < length l)%nat /\ nth j pr0 0 = 1).
      { destruct interpolate.
        - assert (N : nth_error pr i = Some (nth i pr 0)) by (apply nth_error_nth'; lia).
          rewrite F in N at 1. apply interp_R in N. destruct N as [N _]. rewrite E1 in N.
          apply In_nth_error in N. destruct N as [k N].
          exists (i + k)%nat. rewrite nth_error_skipn in N. split.
          + split; [lia|]. rewrite <- Lp. apply nth_error_Some. congruence.
          + apply nth_error_nth. exact N.
        - exists i. rewrite <- F. split; [lia|exact E1]. }
      destruct J as [j [Hj E2]].
      assert (N : nth_error pr0 j = Some (nth j pr0 0)) by (apply nth_error_nth'; lia).
      destruct C as [_ [_ [C _]]]. apply C in N.
      assert (Z := precision_1 l (Datatypes.S j) _ H N E2). rewrite firstn_map in Z.
      apply (false_positives_0 (firstn (Datatypes.S j) l)); auto.
      - intros x K. apply H, (incl_firstn _ _ _ K).
      - assert (Ex : firstn (Datatypes.S j) l = firstn (Datatypes.S i) l ++ firstn (j - i) (skipn (Datatypes.S i) l)).
        { replace (Datatypes.S j) with (Datatypes.S i + (j - i))%nat at 1 by lia. apply firstn_plus. }
        rewrite Ex. apply in_or_app. left. exact Km. }
    assert (Eq : Ok (S / INR (refs l)) = Ok 1 <-> S = INR (refs l)).
    { rewrite <- ST. split; [intros K; injection K; auto|intros ->; reflexivity]. }
    eapply iff_trans; [exact Eq|]. clear Eq ST.
    assert (Term : forall i, In i (seq 0 (length l)) ->
      step_height trapezoid pr i * gain (nth i (map cnt l) c0) <= INR (ec_nr (cnt (nth i l match_default)))).
    { intros i K. apply in_seq in K. rewrite nth_cnt by lia.
      destruct (height_le_1 trapezoid pr i B) as [[H1 H2] _]; [lia|].
      assert (G := nh_gain _ (Hz i ltac:(lia))). nra. }
    split.
    - intros ES.
      assert (Z : forall i, (i < length l)%nat ->
        INR (ec_nr (cnt (nth i l match_default))) = step_height trapezoid pr i * gain (cnt (nth i l match_default))).
      { intros i Hi.
        assert (Q := sum_of_zero (fun i => INR (ec_nr (cnt (nth i l match_default))) -
                        step_height trapezoid pr i * gain (nth i (map cnt l) c0)) (seq 0 (length l))).
        specialize (Q (fun x K => ltac:(specialize (Term x K); lra))).
        rewrite sum_of_minus, <- TR in Q. fold S in Q. specialize (Q ltac:(lra) i ltac:(apply in_seq; lia)).
        rewrite nth_cnt in Q by lia. lra. }
      split.
      + intros m K Fn. apply In_nth with (d := match_default) in K. destruct K as [i [Hi Em]].
        specialize (Z i Hi). rewrite Em in Z.
        assert (Zm := Hz i Hi). rewrite Em in Zm.
        assert (G : gain (cnt m) = 0).
        { rewrite gain_hit by exact Zm. unfold is_hitb. unfold is_fn in Fn. rewrite Fn, f32_10, andb_false_r. reflexivity. }
        assert (N1 : ec_nr (cnt m) = 1%nat).
        { unfold cnt. destruct (zero_one_cases _ Zm) as [[A Bc]|[[A Bc]|[[A Bc]|[A Bc]]]]; rewrite Bc; auto;
            exfalso; unfold is_fn in Fn; rewrite A in Fn; simpl in Fn;
            assert (X := f32_10); rewrite <- Fn in X; discriminate. }
        rewrite G, N1 in Z. simpl in Z. lra.
      + intros u a v b w El Fa Hb.
        set (i := (length u + Datatypes.S (length v))%nat).
        assert (Eb : nth_error l i = Some b).
        { rewrite El. unfold i. rewrite nth_error_app2 by lia.
          replace (length u + Datatypes.S (length v) - length u)%nat with (Datatypes.S (length v)) by lia.
          simpl. rewrite nth_error_app2 by lia. rewrite Nat.sub_diag. reflexivity. }
        assert (Hi : (i < length l)%nat) by (apply nth_error_Some; congruence).
        specialize (Z i Hi). rewrite (nth_error_nth _ _ _ Eb) in Z.
        assert (Zb : zero_one (m_err b)) by (apply H; eapply nth_error_In; exact Eb).
        assert (G : gain (cnt b) = 1) by (rewrite gain_hit by exact Zb; apply hitb_spec in Hb; auto; rewrite Hb; reflexivity).
        assert (N1 : ec_nr (cnt b) = 1%nat).
        { unfold cnt. destruct Hb as [H1 H2]. destruct (m_err b) as [p n]. simpl in H1, H2. subst. reflexivity. }
        rewrite G, N1 in Z. simpl in Z.
        destruct (height_le_1 trapezoid pr i B) as [_ Hh]; [lia|].
        apply (One i Hi (Hh ltac:(lra)) a); auto.
        rewrite El. unfold i. rewrite firstn_app. apply in_or_app. right.
        replace (Datatypes.S (length u + Datatypes.S (length v)) - length u)%nat with (Datatypes.S (Datatypes.S (length v))) by lia.
        left. reflexivity.
    - intros [P1 P2]. unfold S. rewrite TR. apply sum_of_ext. intros i K. apply in_seq in K.
      rewrite nth_cnt by lia. set (m := nth i l match_default).
      assert (Hm : In m l) by (apply nth_In; lia).
      assert (Zm : zero_one (m_err m)) by auto.
      assert (Em : nth_error l i = Some m) by (apply nth_error_nth'; lia).
      destruct (is_hitb m) eqn:Hb.
      + (* a hit *)
        assert (Hit := proj1 (hitb_spec m Zm) Hb).
        assert (G : gain (cnt m) = 1) by (rewrite gain_hit by exact Zm; rewrite Hb; reflexivity).
        assert (N1 : ec_nr (cnt m) = 1%nat).
        { unfold cnt. destruct Hit as [H1 H2]. destruct (m_err m) as [p n]. simpl in H1, H2. subst. reflexivity. }
        rewrite G, N1. simpl.
        assert (Pr : forall j, (j <= i)%nat -> nth j pr 0 = 1).
        { intros j Hj.
          assert (P0 : nth j pr0 0 = 1).
          { assert (N : nth_error pr0 j = Some (nth j pr0 0)) by (apply nth_error_nth'; lia).
            destruct C as [_ [_ [C _]]]. apply C in N.
            assert (Z : false_positives (firstn (Datatypes.S j) (map cnt l)) = 0).
            { rewrite firstn_map. apply false_positives_0.
              - intros x Kx. apply H, (incl_firstn _ _ _ Kx).
              - intros x Kx Fx. apply In_nth_error in Kx. destruct Kx as [k Ek].
                assert (Lk : (k < Datatypes.S j)%nat).
                { assert (k < length (firstn (Datatypes.S j) l))%nat by (apply nth_error_Some; congruence).
                  rewrite firstn_length in *. lia. }
                assert (Ek' : nth_error l k = Some x).
                { rewrite <- (firstn_skipn (Datatypes.S j) l), nth_error_app1; auto. rewrite firstn_length. lia. }
                destruct (Nat.eq_dec k i) as [->|Nk].
                + assert (x = m) by congruence. subst x. unfold is_fp in Fx. destruct Hit as [H1 _].
                  rewrite H1 in Fx. assert (X := f32_10). rewrite <- Fx in X. discriminate.
                + destruct (nth_split_lt l k i x m) as [u [v [w El]]]; auto; [lia|].
                  apply (P2 _ _ _ _ _ El Fx Hit). }
            destruct N as [[_ N]|[Q N]]; [exact N|]. rewrite N, Z. field.
            assert (0 < INR (hypotheses (firstn (Datatypes.S j) (map cnt l)))) by (apply lt_0_INR; lia). lra. }
          destruct interpolate; [|rewrite F; exact P0].
          assert (N : nth_error pr j = Some (nth j pr 0)) by (apply nth_error_nth'; lia).
          assert (Bj : in01 (nth j pr 0)) by (apply B, nth_In; lia).
          rewrite F in N at 1. apply interp_R in N. destruct N as [_ N].
          assert (1 <= nth j pr 0); [|unfold in01 in Bj; lra].
          apply N. rewrite <- P0. assert (N0 : nth_error pr0 j = Some (nth j pr0 0)) by (apply nth_error_nth'; lia).
          apply skipn_nth in N0. destruct N0 as [t N0]. change (In (nth j pr0 0) (@skipn R j pr0)). rewrite N0. left. reflexivity. }
        assert (Sh : step_height trapezoid pr i = 1).
        { destruct i as [|i']; simpl; [apply Pr; lia|].
          rewrite !Pr by lia. destruct trapezoid; lra. }
        rewrite Sh. lra.
      + (* a false positive *)
        assert (G : gain (cnt m) = 0) by (rewrite gain_hit by exact Zm; rewrite Hb; reflexivity).
        rewrite G.
        assert (N0 : ec_nr (cnt m) = 0%nat).
        { unfold cnt. destruct (zero_one_cases _ Zm) as [[A Bc]|[[A Bc]|[[A Bc]|[A Bc]]]]; rewrite Bc; auto; exfalso.
          - unfold is_hitb in Hb. rewrite A in Hb. discriminate.
          - apply (P1 m Hm). unfold is_fn. rewrite A. reflexivity.
          - apply (P1 m Hm). unfold is_fn. rewrite A. reflexivity. }
        rewrite N0. simpl. lra.
  Qed.
End Rankings.

(** ** Counterexamples *)

(** A long run of false positives: float32 stops counting at 2^24. *)
Lemma same_repeat RE HE (score : HE -> f32) (m : match_t RE HE) k :
  is_nan (rank score m) = false -> same score m (repeat m k) = repeat m k /\ rest score m (repeat m k) = [].
Proof.
  intros H. induction k as [|k [I1 I2]]; simpl; auto.
  unfold tieb. rewrite f32_eq_refl by exact H. rewrite I1, I2. auto.
Qed.

Lemma ones_repeat RE HE f (m : match_t RE HE) k : ones f (repeat m k) = (Z.of_nat k * is_one (f (m_err m)))%Z.
Proof.
  unfold ones. induction k as [|k IH]; [reflexivity|]. cbn [repeat fold_right]. rewrite IH. lia.
Qed.

Lemma total_repeat {A} (f : A -> nat) m k : total f (repeat m k) = (k * f m)%nat.
Proof. unfold total. induction k as [|k IH]; simpl in *; lia. Qed.

Lemma cap_nat : exists k, Z.of_nat k = cap.
Proof. exists (Z.to_nat cap). apply Z2Nat.id. easy. Qed.

Lemma long_run_refuted :
  exists l : list (match_t unit unit),
    ranked tied l /\ descending tied l /\ (forall m, In m l -> zero_one (m_err m)) /\ refs l = 0%nat /\
    exists ap, global_ap RArith tied l true false false = Ok ap /\ 0 < ap.
Proof.
  destruct cap_nat as [k Hk]. exists (repeat miss (S k)).
  assert (Hin : forall m, In m (repeat miss (S k)) -> m = miss) by (intros m K; apply repeat_spec in K; exact K).
  split; [|split; [|split; [|split]]].
  - intros m K. rewrite (Hin m K). reflexivity.
  - unfold descending. generalize (S k). intros n. induction n as [|n IH]; simpl; constructor; auto.
    apply Forall_forall. intros m K. apply repeat_spec in K. subst. reflexivity.
  - intros m K. rewrite (Hin m K). split; simpl; auto.
  - unfold refs. rewrite total_repeat. change (me_nr (m_err miss)) with 0%nat. lia.
  - assert (E : points tied true (repeat miss (S k)) =
                  [Counts (f32_of_Z cap) (f32_of_Z 0) (S k) 0]).
    { change (points tied true (repeat miss (S k))) with (collapse_matches tied (miss :: repeat miss k)). rewrite collapse_cons.
      destruct (same_repeat unit unit tied miss k eq_refl) as [-> ->].
      rewrite point_zero_one.
      - change (miss :: repeat miss k) with (repeat miss (S k)).
        rewrite !ones_repeat, !total_repeat. change (is_one (me_fp (m_err miss))) with 1%Z.
        change (is_one (me_fn (m_err miss))) with 0%Z. change (me_nh (m_err miss)) with 1%nat.
        change (me_nr (m_err miss)) with 0%nat. rewrite !Z.mul_1_r, !Z.mul_0_r, Nat.mul_1_r, Nat.mul_0_r.
        cbn [collapse_matches]. repeat f_equal. rewrite Z.min_r; auto. lia.
      - intros m K. rewrite (Hin m K). split; simpl; auto. }
    unfold global_ap, precision_recall_matches. rewrite E.
    destruct (curve_spec [Counts (f32_of_Z cap) (f32_of_Z 0) (S k) 0]) as [pr [rc [Epr C]]]. rewrite Epr.
    assert (L : length pr = length rc) by (destruct C as [C1 [C2 _]]; exact (eq_trans C1 (eq_sym C2))).
    exists (area false pr rc). split; [apply ap_area, L|].
    rewrite (area_no_refs _ pr pr rc false C L eq_refl).
    destruct C as [C1 [_ [C2 _]]]. destruct pr as [|p [|? ?]]; try discriminate.
    assert (P := C2 0%nat p eq_refl). simpl nth.
    assert (Ef : false_positives (firstn 1 [Counts (f32_of_Z cap) (f32_of_Z 0) (S k) 0]) = IZR cap).
    { unfold false_positives, sum_of. cbn [firstn fold_right ec_fp].
      rewrite (proj1 (f32_of_Z_exact cap ltac:(unfold cap; lia))). lra. }
    assert (Eh : hypotheses (firstn 1 [Counts (f32_of_Z cap) (f32_of_Z 0) (S k) 0]) = S k).
    { unfold hypotheses, total. cbn [firstn map ec_nh list_sum fold_right]. unfold list_sum. cbn [fold_right]. lia. }
    destruct P as [[P _]|[_ P]]; [rewrite Eh in P; discriminate|]. rewrite Eh, Ef in P. rewrite P.
    assert (Ek : INR (S k) = IZR cap + 1).
    { rewrite S_INR, INR_IZR_INZ, Hk. reflexivity. }
    rewrite Ek. assert (0 < IZR cap) by (apply (IZR_lt 0); unfold cap; lia).
    apply Rdiv_lt_0_compat; lra.
Qed.

(** A hypothesis inside a reference that it covers by half. *)
Lemma two_aps_refuted :
  exists pts : list counts, (forall c, In c pts -> bounded c) /\
    pts = [counts_of (MatchError f32_0 f32_half)] /\
    let (pr, rc) := precision_recall RArith pts false in
    ap_errors RArith pts pr false = Ok 1 /\ ap_curves RArith pr rc false = Ok (/ 2).
Proof.
  exists [counts_of (MatchError f32_0 f32_half)].
  destruct f32_half_R as [Hh Hf].
  assert (E : counts_of (MatchError f32_0 f32_half) = Counts f32_0 f32_half 1 1) by reflexivity.
  split; [|split; [reflexivity|]].
  - intros c [<-|[]]. apply capped_bounded, capped_of. unfold fractions, unit_f32. cbn [me_fp me_fn]. change (is_finite f32_0) with true.
    rewrite Hh, Hf, f32_0_R. repeat split; lra.
  - rewrite E. unfold precision_recall, ap_errors, ap_curves, precision_of, recall_of, a0, a1.
    cbn -[f32_0 f32_half f32_of_Z f32_sub B2R INR]. unfold precision_of, recall_of, a1.
    cbn -[f32_0 f32_half f32_of_Z f32_sub B2R INR].
    assert (T : B2R (f32_sub (f32_of_Z 1) f32_0) = 1).
    { rewrite <- (proj1 f32_1_R). apply (eqb_R 24 128); [vm_compute; reflexivity|apply f32_1_R|].
      vm_compute. reflexivity. }
    change (Z.of_nat 1) with 1%Z. rewrite T, f32_0_R, Hh. simpl. split; f_equal; lra.
Qed.
