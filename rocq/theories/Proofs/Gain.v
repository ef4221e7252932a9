(** NDCG in terms of its specification. *)
From Coq Require Import List Bool ZArith Reals Lra Lia.
From Flocq Require Import Core BinarySingleNaN.
From Verif.Model Require Import Cpp Floats Matches Assessment.
From Verif.Spec Require Import Matching Collapse Metrics Curves Gain.
From Verif.Proofs Require Import FloatFacts.
From Verif.Proofs Require Objects Matching Collapse Metrics AveragePrecision Ndcg Curves Evaluation.
Import ListNotations.
Local Open Scope R_scope.

Lemma dsum_discounted i ws : Ndcg.dsum i ws = discounted i ws.
Proof. revert i. induction ws as [|w ws IH]; intros i; simpl; [reflexivity|]. now rewrite IH. Qed.

Lemma points_refs {RE HE} (score : HE -> f32) collapse (l : list (match_t RE HE)) : references (points score collapse l) = refs l.
Proof.
  destruct collapse; [|rewrite AveragePrecision.raw_points, AveragePrecision.refs_map; reflexivity].
  unfold references, total. simpl. rewrite (proj2 (Collapse.collapse_totals score l)). reflexivity.
Qed.

Lemma gain_run {RE HE} (r : list (match_t RE HE)) c : counted_as r c -> summed_as r c -> bounded c ->
  (Z.of_nat (length r) <= 2 ^ 24)%Z -> (0 < ec_nh c)%nat ->
  Ndcg.gain2 c = Rpower 2 (right_part r) - 1.
Proof.
  intros [C1 _] [S1 _] (F & _ & B & _) L N. unfold Ndcg.gain2.
  assert (K := Ndcg.total_nh_length _ _ r).
  destruct (Ndcg.rel32_R c (B2R (ec_fp c)) N) as [E _]; auto.
  { rewrite C1. lia. }
  rewrite E, S1, C1. reflexivity.
Qed.

Lemma ndcg_spec {RE HE} (score : HE -> f32) collapse (l : list (match_t RE HE)) :
  (forall m, In m l -> zero_one (m_err m)) ->
  (collapse = true -> ranked score l /\ (Z.of_nat (length l) <= 2 ^ 24)%Z) ->
  ndcg_is score collapse l (global_ndcg RArith RTrans score l collapse).
Proof.
  intros Z H. destruct (refs l) as [|n] eqn:Er.
  - left. split; [exact Er|]. rewrite Ndcg.ndcg_no_refs by exact Er. reflexivity.
  - right. split; [lia|]. destruct (Evaluation.points_spec score collapse l Z H) as (rs & A & F1 & F2).
    exists rs. split; [exact A|]. unfold global_ndcg. rewrite Ndcg.ndcg_sum, points_refs, Er.
    cbn [Nat.ltb Nat.leb]. rewrite dsum_discounted.
    assert (Id : Ndcg.dsum 1 (repeat 1 (S n)) = ideal (S n)) by apply Ndcg.dsum_ideal.
    rewrite Id. f_equal. f_equal. unfold Ndcg.gains. f_equal.
    assert (Bd := AveragePrecision.balanced_points RE HE score l collapse Z H).
    assert (Ln : forall r, In r rs -> (Z.of_nat (length r) <= 2 ^ 24)%Z).
    { intros r I. destruct collapse.
      - destruct (H eq_refl) as [_ L]. destruct A as [A _ _ _]. apply Z.le_trans with (2 := L). apply inj_le.
        rewrite <- A. clear - I. induction rs as [|s rs IH]; [destruct I|]. simpl. rewrite app_length.
        destruct I as [->|I]; [lia|]. specialize (IH I). lia.
      - subst rs. apply in_map_iff in I as (m & <- & _). simpl. lia. }
    clear A Er. revert F2 Bd Ln. induction F1 as [|r c rs pts C F1 IH]; intros F2 Bd Ln; [reflexivity|].
    inversion F2 as [|? ? ? ? Sm F2']; subst. cbn [map]. f_equal.
    + unfold hyps. rewrite <- (proj1 C). destruct (Nat.eq_dec (ec_nh c) 0) as [->|Ek]; [reflexivity|].
      rewrite (gain_run r c); auto; [apply (Bd c); now left|apply Ln; now left|lia].
    + apply IH; auto; intros; [apply Bd|apply Ln]; now right.
Qed.

Lemma mean_ndcg_means {RE HE} (score : HE -> f32) srt (groups : list (list (match_t RE HE))) c v :
  (forall g, In g groups -> (forall m, In m g -> zero_one (m_err m)) /\
     (c = true -> ranked score g /\ (Z.of_nat (List.length g) <= 2 ^ 24)%Z)) ->
  mean_ndcg RArith RTrans score srt groups c false = Ok v ->
  exists vs, Forall2 (ndcg_is score c) groups vs /\ is_mean vs v.
Proof.
  intros H E. exists (map (fun g => global_ndcg RArith RTrans score g c) groups). split.
  - clear E. induction groups as [|g gs IH]; constructor.
    + destruct (H g (or_introl eq_refl)). now apply ndcg_spec.
    + apply IH. intros; apply H. now right.
  - destruct (Curves.mean_ndcg_spec score srt groups c false (map (fun g => global_ndcg RArith RTrans score g c) groups)) as (m & E' & M).
    + clear. induction groups as [|g gs IH]; constructor; auto. exists g. split; reflexivity.
    + rewrite E in E'. injection E' as <-. exact M.
Qed.
