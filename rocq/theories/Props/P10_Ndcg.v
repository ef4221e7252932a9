(** C39 and the second half of C38: NDCG over the reals. *)
From Coq Require Import List Bool ZArith QArith Reals.
From Flocq Require Import BinarySingleNaN.
From Verif.Model Require Import Cpp Floats Matches Assessment.
From Verif.Spec Require Import Order Objects Matching Collapse Metrics.
From Verif.Proofs Require Ndcg.
From Verif.Props Require Import P09_Metrics.
Import ListNotations.
Local Open Scope R_scope.

(** C38.  Without references NDCG is 0, whatever the errors and in any
    arithmetic. *)
Theorem c38_ndcg_no_refs : forall RE HE (score : HE -> f32) (l : list (match_t RE HE)) A (T : Trans A) collapse,
  refs l = 0%nat -> global_ndcg A T score l collapse = a0 A.
Proof. exact @Ndcg.ndcg_no_refs. Qed.
Print Assumptions c38_ndcg_no_refs.

(** C38.  Without hypotheses, in particular without matches, NDCG is 0. *)
Theorem c38_ndcg_no_hyps : forall RE HE (score : HE -> f32) (l : list (match_t RE HE)) collapse,
  hyps l = 0%nat -> global_ndcg RArith RTrans score l collapse = 0.
Proof. exact @Ndcg.ndcg_no_hyps. Qed.
Print Assumptions c38_ndcg_no_hyps.

(** C38.  Without hits NDCG is 0. *)
Theorem c38_ndcg_no_hits : forall RE HE (score : HE -> f32) (l : list (match_t RE HE)) collapse,
  (forall m, In m l -> zero_one (m_err m)) -> (forall m, In m l -> ~ is_hit m) ->
  (collapse = true -> ranked score l /\ (Z.of_nat (length l) <= 2 ^ 24)%Z) ->
  global_ndcg RArith RTrans score l collapse = 0.
Proof. exact @Ndcg.ndcg_no_hits. Qed.
Print Assumptions c38_ndcg_no_hits.

(** C39.  On 0/1 matches NDCG is the discounted gain of the ranking over the
    ideal one. *)
Theorem c39_textbook : forall RE HE (score : HE -> f32) (l : list (match_t RE HE)),
  (forall m, In m l -> zero_one (m_err m)) -> (refs l > 0)%nat ->
  global_ndcg RArith RTrans score l false = dcg 1 (relevances l) / ideal (refs l).
Proof. exact @Ndcg.ndcg_textbook. Qed.
Print Assumptions c39_textbook.

(** C39.  NDCG is in [0,1] for all fractional errors. *)
Theorem c39_bounds : forall RE HE (score : HE -> f32) (l : list (match_t RE HE)),
  (forall m, In m l -> fractions (m_err m)) -> in01 (global_ndcg RArith RTrans score l false).
Proof. exact @Ndcg.ndcg_raw_01. Qed.
Print Assumptions c39_bounds.

(** C39.  Also when equal scores are merged, for 0/1 matches and lists of at
    most 2^19 matches. *)
Theorem c39_bounds_collapsed : forall RE HE (score : HE -> f32) (l : list (match_t RE HE)),
  (forall m, In m l -> zero_one (m_err m)) -> ranked score l -> (Z.of_nat (length l) <= 2 ^ 19)%Z ->
  in01 (global_ndcg RArith RTrans score l true).
Proof. exact @Ndcg.ndcg_collapsed_01. Qed.
Print Assumptions c39_bounds_collapsed.

(** C39.  It is 1 for the perfect rankings and no other. *)
Theorem c39_perfect : forall RE HE (score : HE -> f32) (l : list (match_t RE HE)),
  (forall m, In m l -> zero_one (m_err m)) -> (refs l > 0)%nat ->
  (global_ndcg RArith RTrans score l false = 1 <-> perfect l).
Proof. exact @Ndcg.ndcg_perfect. Qed.
Print Assumptions c39_perfect.

(** C39.  Merging equal scores changes nothing if no right hypothesis has the
    score of a wrong one. *)
Theorem c39_pure_ties : forall RE HE (score : HE -> f32) (l : list (match_t RE HE)),
  (forall m, In m l -> zero_one (m_err m)) -> ranked score l -> (Z.of_nat (length l) <= 2 ^ 24)%Z ->
  (forall a b, In a l -> In b l -> (me_nh (m_err a) > 0)%nat -> (me_nh (m_err b) > 0)%nat ->
     tie score a b -> (is_hit a <-> is_hit b)) ->
  global_ndcg RArith RTrans score l true = global_ndcg RArith RTrans score l false.
Proof. exact @Ndcg.ndcg_pure. Qed.
Print Assumptions c39_pure_ties.

(** The ranking of C35: a hit, a false positive, a hit and a miss. *)
Example c39_case : (forall m, In m rk -> zero_one (m_err m)) /\ (refs rk > 0)%nat /\
  relevances rk = [true; false; true] /\ refs rk = 3%nat /\ ranked sc rk /\
  (Z.of_nat (length rk) <= 2 ^ 19)%Z /\ ~ perfect rk /\
  perfect [match_pair 1%nat 1%nat me_default; make_fp 2%nat].
Proof.
  split; [apply c35_case|]. split; [apply c35_case|]. split; [reflexivity|]. split; [reflexivity|].
  split; [|split; [vm_compute; discriminate|split; apply c37_case]].
  intros m K. simpl in K. repeat (destruct K as [<-|K]; [reflexivity|]). destruct K.
Qed.
Example c39_pure_case :
  let l := [match_pair 1%nat 1%nat me_default; make_fp 2%nat; make_fp 3%nat] in
  let s (h : nat) := if Nat.eqb h 1 then f32_1 else f32_0 in
  (forall a b, In a l -> In b l -> (me_nh (m_err a) > 0)%nat -> (me_nh (m_err b) > 0)%nat ->
     tie s a b -> (is_hit a <-> is_hit b)) /\ tie s (make_fp 2%nat : match_t nat nat) (make_fp 3%nat).
Proof.
  split; [|reflexivity].
  intros a b Ka Kb _ _ T. simpl in Ka, Kb. unfold tie in T.
  destruct Ka as [<-|[<-|[<-|[]]]]; destruct Kb as [<-|[<-|[<-|[]]]]; try tauto; vm_compute in T; discriminate.
Qed.
Example c38_case :
  (forall m : match_t nat nat, In m [make_fp 2%nat; make_fn 3%nat] -> zero_one (m_err m) /\ ~ is_hit m) /\
  refs [make_fp 2%nat : match_t nat nat] = 0%nat /\ hyps [make_fn 3%nat : match_t nat nat] = 0%nat.
Proof.
  split; [|split; reflexivity].
  assert (N : f32_1 <> f32_0) by (intros K; assert (E : f32_eq f32_1 f32_0 = false) by reflexivity; rewrite K in E; discriminate).
  intros m K. simpl in K. destruct K as [<-|[<-|[]]]; (split; [unfold zero_one; simpl; auto|]).
  - intros [K _]. apply N, K.
  - intros [_ K]. apply N, K.
Qed.
