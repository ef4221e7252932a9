(** Proofs about precision, recall, AP. *)
From Coq Require Import List Bool ZArith Sorted Reals Lra Lia Permutation.
Import ListNotations.
From Flocq Require Import Core BinarySingleNaN.
From Verif.Model Require Import Cpp Floats Events Matches Assessment.
From Verif.Spec Require Import Order Objects Matching Collapse Metrics.
From Verif.Proofs Require Import Order FloatFacts Matching Collapse.
From Verif.Proofs Require Objects.
Local Open Scope R_scope.

(** ** Sums *)

Lemma sum_of_app {A} (f : A -> R) a b : sum_of f (a ++ b) = sum_of f a + sum_of f b.
Proof. induction a as [|x a IH]; simpl; [lra|]. rewrite IH. lra. Qed.

Lemma sum_of_cons {A} (f : A -> R) x l : sum_of f (x :: l) = f x + sum_of f l.
Proof. reflexivity. Qed.

Lemma sum_of_ext {A} (f g : A -> R) l : (forall x, In x l -> f x = g x) -> sum_of f l = sum_of g l.
Proof.
  induction l as [|x l IH]; intros H; simpl; auto. rewrite (H x), IH; auto; [|left; reflexivity].
  intros y K. apply H. right. exact K.
Qed.

Lemma sum_of_le {A} (f g : A -> R) l : (forall x, In x l -> f x <= g x) -> sum_of f l <= sum_of g l.
Proof.
  induction l as [|x l IH]; intros H; simpl; [lra|].
  assert (f x <= g x) by (apply H; left; reflexivity).
  assert (sum_of f l <= sum_of g l) by (apply IH; intros y K; apply H; right; exact K). lra.
Qed.

Lemma sum_of_nonneg {A} (f : A -> R) l : (forall x, In x l -> 0 <= f x) -> 0 <= sum_of f l.
Proof.
  induction l as [|x l IH]; intros H; simpl; [lra|].
  assert (0 <= f x) by (apply H; left; reflexivity).
  assert (0 <= sum_of f l) by (apply IH; intros y K; apply H; right; exact K). lra.
Qed.

Lemma sum_of_map {A B} (f : B -> R) (g : A -> B) l : sum_of f (map g l) = sum_of (fun x => f (g x)) l.
Proof. induction l as [|x l IH]; simpl; auto. rewrite IH. reflexivity. Qed.

Lemma sum_of_scal {A} c (f : A -> R) l : sum_of (fun x => c * f x) l = c * sum_of f l.
Proof. induction l as [|x l IH]; simpl; [lra|]. rewrite IH. lra. Qed.

Lemma sum_of_minus {A} (f g : A -> R) l : sum_of (fun x => f x - g x) l = sum_of f l - sum_of g l.
Proof. induction l as [|x l IH]; simpl; [lra|]. rewrite IH. lra. Qed.

Lemma sum_of_INR {A} (f : A -> nat) l : sum_of (fun x => INR (f x)) l = INR (total f l).
Proof.
  unfold total. induction l as [|x l IH]; simpl; auto.
  unfold list_sum in *. simpl. rewrite plus_INR, <- IH. reflexivity.
Qed.

Lemma sum_of_zero {A} (f : A -> R) l : (forall x, In x l -> 0 <= f x) -> sum_of f l = 0 ->
  forall x, In x l -> f x = 0.
Proof.
  induction l as [|x l IH]; intros H E y K; [destruct K|]. simpl in E.
  assert (0 <= f x) by (apply H; left; reflexivity).
  assert (0 <= sum_of f l) by (apply sum_of_nonneg; intros z Z; apply H; right; exact Z).
  destruct K as [<-|K]; [lra|]. apply IH; auto; [|lra]. intros z Z. apply H. right. exact Z.
Qed.

Lemma total_refs pts : num_total_refs pts = references pts.
Proof.
  unfold num_total_refs, references, total.
  enough (G : forall a, fold_left (fun a e => a + ec_nr e)%nat pts a = (a + list_sum (map ec_nr pts))%nat)
    by (rewrite G; reflexivity).
  induction pts as [|c pts IH]; intros a; simpl; [lia|]. rewrite IH. lia.
Qed.

(** ** Precision and recall *)

Section Points.
  Variable pts : list counts.
  Hypothesis valid : forall c, In c pts -> bounded c.

  Lemma fp_le_nh s : incl s pts -> 0 <= false_positives s <= INR (hypotheses s).
  Proof.
    intros H. unfold false_positives, hypotheses. rewrite <- sum_of_INR. split.
    - apply sum_of_nonneg. intros c K. apply (valid c (H c K)).
    - apply sum_of_le. intros c K. apply (valid c (H c K)).
  Qed.

  Lemma fn_le_nr s : incl s pts -> 0 <= misses s <= INR (references s).
  Proof.
    intros H. unfold misses, references. rewrite <- sum_of_INR. split.
    - apply sum_of_nonneg. intros c K. apply (valid c (H c K)).
    - apply sum_of_le. intros c K. apply (valid c (H c K)).
  Qed.
End Points.

(** The value of the precision and recall expressions. *)
Lemma precision_of_spec s : is_precision s (precision_of RArith (hypotheses s) (false_positives s)).
Proof.
  unfold precision_of, is_precision. destruct (Nat.ltb_spec 0 (hypotheses s)) as [H|H].
  - right. split; auto. unfold a1. cbn. assert (0 < INR (hypotheses s)) by (apply lt_0_INR; lia). field. lra.
  - left. split; [lia|]. reflexivity.
Qed.

Lemma recall_of_spec n s : is_recall n s (recall_of RArith n (references s) (misses s)).
Proof.
  unfold recall_of, is_recall. destruct (Nat.ltb_spec 0 n) as [H|H].
  - right. split; auto.
  - left. split; [lia|]. reflexivity.
Qed.

Lemma is_precision_unique s p q : is_precision s p -> is_precision s q -> p = q.
Proof. intros [[A B]|[A B]] [[C D]|[C D]]; try lia; congruence. Qed.

Lemma is_recall_unique n s p q : is_recall n s p -> is_recall n s q -> p = q.
Proof. intros [[A B]|[A B]] [[C D]|[C D]]; try lia; congruence. Qed.

Lemma pr_loop_spec TR seen l :
  pr_loop RArith TR (references seen) (hypotheses seen) (false_positives seen) (misses seen) l =
  map (fun i => (precision_of RArith (hypotheses (seen ++ firstn (S i) l)) (false_positives (seen ++ firstn (S i) l)),
                 recall_of RArith TR (references (seen ++ firstn (S i) l)) (misses (seen ++ firstn (S i) l))))
    (seq 0 (length l)).
Proof.
  revert seen. induction l as [|c l IH]; intros seen; auto.
  cbn [pr_loop length seq map].
  assert (E1 : (references seen + ec_nr c)%nat = references (seen ++ [c])).
  { unfold references. rewrite total_app. unfold total at 3. simpl. lia. }
  assert (E2 : (hypotheses seen + ec_nh c)%nat = hypotheses (seen ++ [c])).
  { unfold hypotheses. rewrite total_app. unfold total at 3. simpl. lia. }
  assert (E3 : a_add RArith (false_positives seen) (a_f32 RArith (ec_fp c)) = false_positives (seen ++ [c])).
  { unfold false_positives. rewrite sum_of_app. simpl. lra. }
  assert (E4 : a_add RArith (misses seen) (a_f32 RArith (ec_fn c)) = misses (seen ++ [c])).
  { unfold misses. rewrite sum_of_app. simpl. lra. }
  cbv zeta. rewrite E1, E2, E3, E4. f_equal.
  rewrite IH. rewrite <- seq_shift, map_map. apply map_ext. intros i.
  rewrite <- app_assoc. reflexivity.
Qed.

Lemma precision_recall_eq pts :
  precision_recall RArith pts false =
  (map (fun i => precision_of RArith (hypotheses (firstn (S i) pts)) (false_positives (firstn (S i) pts))) (seq 0 (length pts)),
   map (fun i => recall_of RArith (references pts) (references (firstn (S i) pts)) (misses (firstn (S i) pts))) (seq 0 (length pts))).
Proof.
  unfold precision_recall. rewrite total_refs.
  assert (E := pr_loop_spec (references pts) [] pts).
  change (references []) with 0%nat in E. change (hypotheses []) with 0%nat in E.
  change (false_positives []) with 0 in E. change (misses []) with 0 in E.
  change (a0 RArith) with 0. rewrite E, !map_map. reflexivity.
Qed.

Lemma nth_error_map_seq {A} (f : nat -> A) n i : (i < n)%nat -> nth_error (map f (seq 0 n)) i = Some (f i).
Proof.
  intros H. apply map_nth_error. rewrite nth_error_nth' with (d := 0%nat); [|rewrite seq_length; lia].
  rewrite seq_nth; auto.
Qed.

Lemma nth_error_map_seq_inv {A} (f : nat -> A) n i x : nth_error (map f (seq 0 n)) i = Some x ->
  (i < n)%nat /\ x = f i.
Proof.
  intros H. assert (L : (i < n)%nat).
  { assert (K : nth_error (map f (seq 0 n)) i <> None) by congruence.
    apply nth_error_Some in K. rewrite map_length, seq_length in K. exact K. }
  split; auto. rewrite nth_error_map_seq in H by auto. congruence.
Qed.

Definition curve (pts : list counts) (pr rc : list R) : Prop :=
  length pr = length pts /\ length rc = length pts /\
  (forall i p, nth_error pr i = Some p -> is_precision (firstn (S i) pts) p) /\
  (forall i r, nth_error rc i = Some r -> is_recall (references pts) (firstn (S i) pts) r).

Lemma curve_spec pts : exists pr rc : list R, precision_recall RArith pts false = (pr, rc) /\ curve pts pr rc.
Proof.
  rewrite precision_recall_eq. eexists _, _. split; [reflexivity|].
  split; [rewrite map_length, seq_length; reflexivity|].
  split; [rewrite map_length, seq_length; reflexivity|]. split.
  - intros i p H. apply nth_error_map_seq_inv in H. destruct H as [H ->]. apply precision_of_spec.
  - intros i p H. apply nth_error_map_seq_inv in H. destruct H as [H ->]. apply recall_of_spec.
Qed.

(** Bounds. *)
Lemma incl_firstn {A} n (l : list A) : incl (firstn n l) l.
Proof. intros x K. rewrite <- (firstn_skipn n l). apply in_or_app. auto. Qed.

Lemma firstn_plus {A} i k (l : list A) : firstn (i + k) l = firstn i l ++ firstn k (skipn i l).
Proof.
  revert l. induction i as [|i IH]; intros l; simpl; auto.
  destruct l as [|x l]; simpl; [rewrite firstn_nil; reflexivity|]. rewrite IH. reflexivity.
Qed.

Lemma ratio01 a b : 0 <= a <= b -> 0 < b -> in01 (a / b).
Proof.
  intros H K. unfold in01. split.
  - apply Rmult_le_pos; [lra|]. left. apply Rinv_0_lt_compat. lra.
  - apply Rmult_le_reg_r with b; auto. unfold Rdiv. rewrite Rmult_assoc, Rinv_l; lra.
Qed.

Lemma precision01 pts i p : (forall c, In c pts -> bounded c) -> is_precision (firstn i pts) p -> in01 p.
Proof.
  intros H [[A ->]|[A ->]]; [unfold in01; lra|].
  assert (B := fp_le_nh pts H (firstn i pts) (incl_firstn i pts)).
  apply ratio01; [lra|]. apply lt_0_INR. lia.
Qed.

Lemma references_le pts i : (references (firstn i pts) <= references pts)%nat.
Proof.
  rewrite <- (firstn_skipn i pts) at 2. unfold references. rewrite total_app. lia.
Qed.

Lemma recall01 pts i r : (forall c, In c pts -> bounded c) ->
  is_recall (references pts) (firstn i pts) r -> in01 r.
Proof.
  intros H [[A ->]|[A ->]]; [unfold in01; lra|].
  assert (B := fn_le_nr pts H (firstn i pts) (incl_firstn i pts)).
  assert (L : INR (references (firstn i pts)) <= INR (references pts)) by (apply le_INR, references_le).
  apply ratio01; [lra|]. apply lt_0_INR. lia.
Qed.

Lemma recall_mono pts i j r s : (forall c, In c pts -> bounded c) -> (i <= j)%nat ->
  is_recall (references pts) (firstn i pts) r -> is_recall (references pts) (firstn j pts) s -> r <= s.
Proof.
  intros H L [[A ->]|[A ->]] [[B ->]|[B ->]]; try lia; [lra|].
  assert (P : 0 < INR (references pts)) by (apply lt_0_INR; lia).
  unfold Rdiv. apply Rmult_le_compat_r; [left; apply Rinv_0_lt_compat; exact P|].
  assert (E : firstn j pts = firstn i pts ++ firstn (j - i) (skipn i pts)).
  { replace j with (i + (j - i))%nat at 1 by lia. apply firstn_plus. }
  assert (I : incl (firstn (j - i) (skipn i pts)) pts).
  { intros x K. apply incl_firstn in K. rewrite <- (firstn_skipn i pts). apply in_or_app. auto. }
  assert (F := fn_le_nr pts H _ I).
  rewrite E. unfold references, misses in *. rewrite total_app, sum_of_app, plus_INR. lra.
Qed.

Lemma sorted_nth {A} (P : A -> A -> Prop) l :
  (forall i j x y, (i < j)%nat -> nth_error l i = Some x -> nth_error l j = Some y -> P x y) ->
  StronglySorted P l.
Proof.
  induction l as [|x l IH]; intros H; constructor.
  - apply IH. intros i j a b L E1 E2. apply (H (S i) (S j)); auto. lia.
  - apply Forall_forall. intros y K. apply In_nth_error in K. destruct K as [j E].
    apply (H 0%nat (S j)); auto. lia.
Qed.

Lemma curve_bounds pts pr rc : (forall c, In c pts -> bounded c) -> curve pts pr rc ->
  (forall p, In p pr -> in01 p) /\ (forall r, In r rc -> in01 r) /\ nondecreasing rc.
Proof.
  intros H [L1 [L2 [C1 C2]]]. split; [|split].
  - intros p K. apply In_nth_error in K. destruct K as [i E].
    apply (precision01 pts (S i)); auto.
  - intros r K. apply In_nth_error in K. destruct K as [i E].
    apply (recall01 pts (S i)); auto.
  - apply sorted_nth. intros i j x y L E1 E2.
    apply (recall_mono pts (S i) (S j)); auto.
Qed.

(** Points of matches. *)
Lemma points_valid RE HE (score : HE -> f32) (l : list (match_t RE HE)) collapse :
  (forall m, In m l -> fractions (m_err m)) -> (collapse = true -> ranked score l) ->
  forall c, In c (points score collapse l) -> bounded c.
Proof.
  intros H R c K. destruct collapse; simpl in K.
  - destruct (collapse_spec score l (R eq_refl)) as [rs [[A1 A2 A3 A4] B]].
    assert (F : forall r, In r rs -> forall m, In m r -> fractions (m_err m)).
    { intros r Hr m Hm. apply H. rewrite <- A1. apply in_concat. eauto. }
    clear A1 A2 A3 A4 R. induction B as [|r c' rs cs B1 B2 IH]; [destruct K|].
    destruct K as [<-|K].
    + destruct B1 as [_ [B1 _]]. apply B1, F. left. reflexivity.
    + apply IH; auto. intros r' Hr. apply F. right. exact Hr.
  - unfold get_match_errors in K. apply in_map_iff in K. destruct K as [m [<- K]].
    apply capped_bounded, capped_of, H, K.
Qed.

(** ** Interpolation *)

Section Interp.
  Context (A : Arith) (P : num A -> Prop) (v : num A -> R).
  Hypothesis lt_v : forall a b, P a -> P b -> (a_lt A a b = true <-> v a < v b).

  Lemma interp_length l : length (interp A l) = length l.
  Proof.
    induction l as [|p t IH]; simpl; auto.
    destruct (interp A t); simpl in *; lia.
  Qed.

  Lemma interp_in l x : In x (interp A l) -> In x l.
  Proof.
    revert x. induction l as [|p t IH]; intros x; simpl; auto.
    destruct (interp A t) as [|q t'] eqn:E; simpl; [tauto|].
    intros [<-|K]; [|right; apply IH; exact K].
    unfold a_max. destruct (a_lt A p q); auto. right. apply IH. left. reflexivity.
  Qed.

  (** The head is the largest element. *)
  Lemma interp_head l q t : Forall P l -> interp A l = q :: t ->
    In q l /\ forall x, In x l -> v x <= v q.
  Proof.
    revert q t. induction l as [|p l IH]; intros q t H E; simpl in E; [discriminate|].
    inversion H as [|? ? Hp Hl]; subst.
    destruct (interp A l) as [|q' t'] eqn:El.
    - injection E as <- <-. assert (L := interp_length l). rewrite El in L. simpl in L.
      destruct l; [|discriminate]. split; [left; reflexivity|]. intros x [<-|[]]. lra.
    - injection E as <- <-. destruct (IH q' t' Hl eq_refl) as [I1 I2].
      assert (Hq' : P q') by (rewrite Forall_forall in Hl; auto).
      unfold a_max. destruct (a_lt A p q') eqn:C.
      + apply lt_v in C; auto. split; [right; exact I1|]. intros x [<-|K]; [lra|auto].
      + assert (N : ~ v p < v q') by (intros K; apply lt_v in K; auto; congruence).
        split; [left; reflexivity|]. intros x [<-|K]; [lra|]. specialize (I2 x K). lra.
  Qed.

  Lemma interp_skipn l i : skipn i (interp A l) = interp A (skipn i l).
  Proof.
    revert l. induction i as [|i IH]; intros l; auto.
    destruct l as [|p l]; auto. simpl. rewrite <- IH.
    destruct (interp A l) as [|q t]; auto.
  Qed.

  Lemma skipn_nth {X} (l : list X) i x : nth_error l i = Some x -> exists t, skipn i l = x :: t.
  Proof.
    revert l. induction i as [|i IH]; intros [|y l] E; simpl in *; try discriminate.
    - injection E as <-. eauto.
    - auto.
  Qed.

  Lemma in_skipn_plus {X} (l : list X) i k x : In x (skipn (i + k) l) -> In x (skipn i l).
  Proof.
    revert l. induction i as [|i IH]; intros l K; simpl in *.
    - rewrite <- (firstn_skipn k l). apply in_or_app. auto.
    - destruct l; auto.
  Qed.

  Lemma interp_nth l i m : Forall P l -> nth_error (interp A l) i = Some m ->
    In m (skipn i l) /\ forall x, In x (skipn i l) -> v x <= v m.
  Proof.
    intros H E. apply skipn_nth in E. destruct E as [t E]. rewrite interp_skipn in E.
    apply interp_head in E; auto.
    rewrite <- (firstn_skipn i l) in H. apply Forall_app in H. tauto.
  Qed.

  Lemma interp_sorted l : Forall P l -> StronglySorted (fun a b => v b <= v a) (interp A l).
  Proof.
    intros H. apply sorted_nth. intros i j x y L E1 E2.
    apply interp_nth in E1; auto. apply interp_nth in E2; auto.
    apply E1. destruct E2 as [E2 _]. replace j with (i + (j - i))%nat in E2 by lia.
    apply in_skipn_plus in E2. exact E2.
  Qed.
End Interp.

Lemma R_lt_v a b : True -> True -> (a_lt RArith a b = true <-> a < b).
Proof. intros _ _. simpl. destruct (Rlt_dec a b); split; auto; discriminate || lra. Qed.

Lemma all_true {X} (l : list X) : Forall (fun _ => True) l.
Proof. induction l; auto. Qed.

Lemma interp_R l i m : nth_error (interp RArith l) i = Some m -> is_max (skipn i l) m.
Proof.
  intros E. exact (interp_nth RArith (fun _ => True) (fun x => x) R_lt_v l i m (all_true l) E).
Qed.

Lemma interpolated pts : exists pr rc : list R,
  precision_recall RArith pts false = (pr, rc) /\
  precision_recall RArith pts true = (interp RArith pr, rc) /\
  length (interp RArith pr) = length pr /\
  (forall i m, nth_error (interp RArith pr) i = Some m -> is_max (skipn i pr) m) /\
  nonincreasing (interp RArith pr) /\
  Forall2 Rle pr (interp RArith pr).
Proof.
  eexists _, _. split; [reflexivity|]. split; [reflexivity|]. split; [apply interp_length|].
  split; [apply interp_R|]. split.
  - assert (S := interp_sorted RArith (fun _ => True) (fun x => x) R_lt_v
                   (map fst (pr_loop RArith (num_total_refs pts) 0 0 (a0 RArith) (a0 RArith) pts)) (all_true _)).
    unfold nonincreasing. induction S as [|a l S IH K]; constructor; auto.
    eapply Forall_impl; [|exact K]. simpl. intros b. lra.
  - generalize (map fst (pr_loop RArith (num_total_refs pts) 0 0 (a0 RArith) (a0 RArith) pts)).
    intros l. induction l as [|p l IH]; [constructor|]. cbn [interp].
    destruct (interp RArith l) as [|q t] eqn:E.
    + inversion IH; subst. constructor; [lra|constructor].
    + constructor; auto. unfold a_max. cbn. destruct (Rlt_dec p q); lra.
Qed.

(** ** Area *)

Definition at_left (s : R) (rc : list R) (i : nat) : R := match i with O => s | S j => nth j rc 0 end.

Definition at_height (trap : bool) (prev : option R) (pr : list R) (i : nat) : R :=
  match i with
  | O => match prev with
         | Some q => if trap then (nth 0 pr 0 + q) / 2 else nth 0 pr 0
         | None => nth 0 pr 0
         end
  | S j => if trap then (nth (S j) pr 0 + nth j pr 0) / 2 else nth (S j) pr 0
  end.

Fixpoint area_rec (trap : bool) (prev : option R) (s : R) (pr rc : list R) : R :=
  match pr, rc with
  | p :: pt, r :: rt => height RArith trap prev p * (r - s) + area_rec trap (Some p) r pt rt
  | _, _ => 0
  end.

Lemma height_R trap prev p :
  height RArith trap prev p =
  match prev with Some q => if trap then (p + q) / 2 else p | None => p end.
Proof. unfold height. destruct prev, trap; cbn; lra. Qed.

Lemma ap_loops trap q s x y pr rc : length pr = length rc ->
  ap1_loop RArith trap (Some q) x pr rc - ap2_loop RArith trap q s y pr rc =
  x - y + area_rec trap (Some q) s pr rc.
Proof.
  revert q s x y rc. induction pr as [|p pr IH]; intros q s x y rc L; destruct rc as [|r rc];
    try discriminate; cbn [ap1_loop ap2_loop area_rec]; [lra|].
  rewrite IH by (injection L; auto). change (a_add RArith) with Rplus. change (a_mul RArith) with Rmult. cbv beta. change (num RArith) with R in *. ring.
Qed.

Lemma ap_curves_rec trap pr rc : length pr = length rc ->
  ap_curves RArith pr rc trap = Ok (area_rec trap None 0 pr rc).
Proof.
  intros L. unfold ap_curves. rewrite L, Nat.eqb_refl. f_equal.
  destruct pr as [|p pr], rc as [|r rc]; try discriminate.
  - cbn. lra.
  - cbn [ap1_loop area_rec]. change (a_sub RArith) with Rminus. rewrite ap_loops by (injection L; auto).
    change (a_add RArith) with Rplus. change (a_mul RArith) with Rmult. change (a0 RArith) with 0. change (num RArith) with R in *. lra.
Qed.

Lemma area_rec_sum trap prev s pr rc : length pr = length rc ->
  area_rec trap prev s pr rc =
  sum_of (fun i => at_height trap prev pr i * (nth i rc 0 - at_left s rc i)) (seq 0 (length pr)).
Proof.
  revert prev s rc. induction pr as [|p pr IH]; intros prev s rc L; destruct rc as [|r rc];
    try discriminate; auto.
  cbn [area_rec length seq]. rewrite sum_of_cons.
  rewrite IH by (injection L; auto). f_equal.
  - cbn [at_height at_left nth]. rewrite height_R. destruct prev; reflexivity.
  - rewrite <- seq_shift, sum_of_map. apply sum_of_ext. intros [|i] _; reflexivity.
Qed.

Lemma ap_area trap pr rc : length pr = length rc -> ap_curves RArith pr rc trap = Ok (area trap pr rc).
Proof.
  intros L. rewrite ap_curves_rec by exact L. f_equal. rewrite area_rec_sum by exact L.
  apply sum_of_ext. intros [|i] _; reflexivity.
Qed.

Lemma ap_curves_ub A trap pr rc : length pr <> length rc -> ap_curves A pr rc trap = UB.
Proof. intros H. unfold ap_curves. apply Nat.eqb_neq in H. rewrite H. reflexivity. Qed.

Lemma area_rec_01 trap prev s pr rc : length pr = length rc ->
  match prev with Some q => in01 q | None => True end -> in01 s ->
  (forall p, In p pr -> in01 p) -> (forall r, In r rc -> in01 r) ->
  nondecreasing (s :: rc) -> 0 <= area_rec trap prev s pr rc <= 1 - s.
Proof.
  revert prev s rc. induction pr as [|p pr IH]; intros prev s rc L Hq Hs Hp Hr Hm;
    destruct rc as [|r rc]; try discriminate; cbn [area_rec].
  - unfold in01 in Hs. lra.
  - inversion Hm as [|? ? M1 M2]; subst. inversion M2 as [|? ? M3 M4]; subst.
    assert (Hp0 : in01 p) by (apply Hp; left; reflexivity).
    assert (Hr0 : in01 r) by (apply Hr; left; reflexivity).
    destruct (IH (Some p) r rc) as [I1 I2]; auto.
    + intros q K. apply Hp. right. exact K.
    + intros q K. apply Hr. right. exact K.
    + assert (Hh : in01 (height RArith trap prev p)).
      { rewrite height_R. unfold in01 in *. destruct prev, trap; lra. }
      unfold in01 in *. nra.
Qed.

Lemma area_01 trap pr rc : length pr = length rc ->
  (forall p, In p pr -> in01 p) -> (forall r, In r rc -> in01 r) -> nondecreasing rc ->
  in01 (area trap pr rc).
Proof.
  intros L Hp Hr Hm.
  assert (E := ap_area trap pr rc L). rewrite ap_curves_rec in E by exact L. injection E as <-.
  assert (B : 0 <= area_rec trap None 0 pr rc <= 1 - 0).
  { apply area_rec_01; auto; [unfold in01; lra|]. constructor; auto.
    apply Forall_forall. intros r K. apply Hr, K. }
  unfold in01. lra.
Qed.

(** The curve that AP is computed from, for every option. *)
Lemma pr_curve pts interpolate : exists pr0 pr rc : list R,
  precision_recall RArith pts false = (pr0, rc) /\
  precision_recall RArith pts interpolate = (pr, rc) /\ curve pts pr0 rc /\
  length pr = length rc /\ (forall p, In p pr -> In p pr0) /\
  pr = (if interpolate then interp RArith pr0 else pr0).
Proof.
  destruct (curve_spec pts) as [pr [rc [E C]]]. exists pr, (if interpolate then interp RArith pr else pr), rc.
  assert (C' := C). destruct C' as [L1 [L2 _]].
  split; auto. split.
  - destruct interpolate; auto. unfold precision_recall in *. injection E as <- <-. reflexivity.
  - split; auto. split; [|split; auto].
    + destruct interpolate; [eapply eq_trans; [apply (interp_length RArith)|]|]; exact (eq_trans L1 (eq_sym L2)).
    + destruct interpolate; auto. intros p. apply (interp_in RArith).
Qed.

Lemma global_ap_01 RE HE (score : HE -> f32) (l : list (match_t RE HE)) collapse interpolate trapezoid :
  (forall m, In m l -> fractions (m_err m)) -> (collapse = true -> ranked score l) ->
  exists ap, global_ap RArith score l collapse interpolate trapezoid = Ok ap /\ in01 ap.
Proof.
  intros H R. assert (V := points_valid RE HE score l collapse H R).
  destruct (pr_curve (points score collapse l) interpolate) as [pr0 [pr [rc [E0 [E [C [L [I _]]]]]]]].
  destruct (curve_bounds _ _ _ V C) as [B1 [B2 B3]].
  unfold global_ap, precision_recall_matches. rewrite E. exists (area trapezoid pr rc).
  split; [apply ap_area, L|]. apply area_01; auto.
Qed.

Lemma matches_bounds RE HE (score : HE -> f32) (l : list (match_t RE HE)) collapse pr rc :
  (forall m, In m l -> fractions (m_err m)) -> (collapse = true -> ranked score l) ->
  precision_recall_matches RArith score l collapse false = (pr, rc) ->
  (forall p, In p pr -> in01 p) /\ (forall r, In r rc -> in01 r) /\ nondecreasing rc.
Proof.
  intros H R E. assert (V := points_valid RE HE score l collapse H R).
  destruct (curve_spec (points score collapse l)) as [pr' [rc' [E' C]]].
  unfold precision_recall_matches in E. rewrite E' in E. injection E as <- <-.
  apply (curve_bounds _ _ _ V C).
Qed.

Lemma interpolated' pts : exists pr rc pri : list R,
  precision_recall RArith pts false = (pr, rc) /\
  precision_recall RArith pts true = (pri, rc) /\
  length pri = length pr /\
  (forall i m, nth_error pri i = Some m -> is_max (skipn i pr) m) /\
  nonincreasing pri /\ Forall2 Rle pr pri.
Proof.
  destruct (interpolated pts) as [pr [rc H]]. exists pr, rc, (interp RArith pr). exact H.
Qed.
