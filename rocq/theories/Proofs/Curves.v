(** Means, sampled curves, sorting of matches. *)
From Coq Require Import List Bool ZArith Arith Reals Lra Lia Sorted Permutation.
From Flocq Require Import Core BinarySingleNaN.
From Verif.Model Require Import Cpp Floats Events EventSets Matches Matcher Assessment.
From Verif.Spec Require Import Order Objects Sets Matching Collapse Metrics Curves.
From Verif.Proofs Require Import Order Metrics.
From Verif.Proofs Require Matching Collapse.
Import ListNotations.
Local Open Scope R_scope.

(** ** Means *)

Lemma sum_of_perm {A} (f : A -> R) l l' : Permutation l l' -> sum_of f l = sum_of f l'.
Proof. induction 1; simpl; try rewrite IHPermutation; lra. Qed.

Lemma mean_of_spec vs : is_mean vs (mean_of RArith (sum_of (fun v => v) vs) (length vs)).
Proof.
  unfold is_mean, mean_of. destruct vs as [|v vs].
  - left. split; reflexivity.
  - right. split; [discriminate|].
    assert (0 < INR (length (v :: vs))) by (apply lt_0_INR; simpl; lia).
    change (Nat.ltb 0 (length (v :: vs))) with true. cbv iota.
    set (n := length (v :: vs)) in *. set (x := sum_of _ _).
    change (x / INR n * INR n = x). field. lra.
Qed.

Lemma is_mean_unique vs m m' : is_mean vs m -> is_mean vs m' -> m = m'.
Proof.
  intros [[E ->]|[N E]] [[E' ->]|[N' E']]; try congruence.
  destruct vs as [|v vs]; [congruence|].
  assert (0 < INR (length (v :: vs))) by (apply lt_0_INR; simpl; lia). nra.
Qed.

Lemma is_mean_between vs m lo hi : is_mean vs m -> vs <> [] ->
  (forall v, In v vs -> lo <= v <= hi) -> lo <= m <= hi.
Proof.
  intros [[E _]|[N E]] Hn H; [congruence|].
  assert (P : 0 < INR (length vs)) by (apply lt_0_INR; destruct vs; [congruence|simpl; lia]).
  assert (B : lo * INR (length vs) <= sum_of (fun v => v) vs <= hi * INR (length vs)).
  { clear N E Hn P. induction vs as [|v vs IH].
    - simpl. lra.
    - rewrite sum_of_cons. assert (Hv := H v (or_introl eq_refl)).
      assert (I := IH (fun x K => H x (or_intror K))).
      change (length (v :: vs)) with (S (length vs)). rewrite S_INR. lra. }
  split; apply Rmult_le_reg_r with (INR (length vs)); lra.
Qed.

Lemma is_mean_perm vs vs' m : Permutation vs vs' -> is_mean vs m -> is_mean vs' m.
Proof.
  intros P [[-> ->]|[N E]].
  - apply Permutation_nil in P. subst. left. auto.
  - right. split.
    + intros ->. apply Permutation_sym, Permutation_nil in P. auto.
    + rewrite <- (Permutation_length P), E. apply sum_of_perm, P.
Qed.

Lemma Forall2_len {A B} (P : A -> B -> Prop) a b : Forall2 P a b -> length a = length b.
Proof. induction 1; simpl; congruence. Qed.

Section MeanLoop.
  Context {G : Type} (value : G -> outcome R).

  Lemma mean_loop gs vs s : Forall2 (fun g v => value g = Ok v) gs vs ->
    ofold (fun s g => obind (value g) (fun v => Ok (s + v))) gs s = Ok (s + sum_of (fun v => v) vs).
  Proof.
    intros H. revert s. induction H as [|g v gs vs E _ IH]; intros s; simpl.
    - f_equal. lra.
    - rewrite E. simpl. rewrite IH. f_equal. simpl. lra.
  Qed.

  Lemma mean_loop_ub gs g s : In g gs -> (forall x e, value x <> Throw e) -> value g = UB ->
    ofold (fun s g => obind (value g) (fun v => Ok (s + v))) gs s = UB.
  Proof.
    intros K T E. revert s. induction gs as [|x gs IH]; intros s; [destruct K|].
    simpl. destruct (value x) as [v| |e] eqn:V; simpl.
    - apply IH. destruct K as [<-|K]; [congruence|exact K].
    - reflexivity.
    - destruct (T x e V).
  Qed.

  Lemma mean_loop_cases gs : (forall x e, value x <> Throw e) ->
    (exists vs, Forall2 (fun g v => value g = Ok v) gs vs) \/ (exists g, In g gs /\ value g = UB).
  Proof.
    intros T. induction gs as [|x gs IH]; [left; exists []; constructor|].
    destruct (value x) as [v| |e] eqn:V.
    - destruct IH as [[vs H]|[g [K E]]].
      + left. exists (v :: vs). constructor; auto.
      + right. exists g. simpl. auto.
    - right. exists x. simpl. auto.
    - destruct (T x e V).
  Qed.

  Lemma forall2_perm_l {A B} (P : A -> B -> Prop) l l' vs : Permutation l l' -> Forall2 P l vs ->
    exists vs', Permutation vs vs' /\ Forall2 P l' vs'.
  Proof.
    intros Q. revert vs. induction Q; intros vs H.
    - inversion H; subst. exists []. auto.
    - inversion H; subst. destruct (IHQ _ H4) as [w [W1 W2]]. exists (y :: w). auto.
    - inversion H as [|? b ? t H2 H3]; subst. inversion H3 as [|? b' ? t' H5 H6]; subst.
      exists (b' :: b :: t'). split; [constructor|]. auto.
    - destruct (IHQ1 _ H) as [w [W1 W2]]. destruct (IHQ2 _ W2) as [w' [W3 W4]].
      exists w'. split; [eapply Permutation_trans; eauto|auto].
  Qed.

  Lemma mean_loop_perm gs gs' s : (forall x e, value x <> Throw e) -> Permutation gs gs' ->
    ofold (fun s g => obind (value g) (fun v => Ok (s + v))) gs s =
    ofold (fun s g => obind (value g) (fun v => Ok (s + v))) gs' s.
  Proof.
    intros T P. destruct (mean_loop_cases gs T) as [[vs H]|[g [K E]]].
    - destruct (forall2_perm_l _ _ _ _ P H) as [vs' [P' H']].
      rewrite (mean_loop _ _ _ H), (mean_loop _ _ _ H'). do 2 f_equal. apply sum_of_perm, P'.
    - rewrite (mean_loop_ub gs g s K T E), (mean_loop_ub gs' g s); auto.
      eapply Permutation_in; eauto.
  Qed.
End MeanLoop.

Lemma ofold_ext {A S} (f g : S -> A -> outcome S) l s : (forall s x, f s x = g s x) ->
  ofold f l s = ofold g l s.
Proof.
  intros E. revert s. induction l as [|x l IH]; intros s; simpl; auto.
  rewrite E. destruct (g s x); simpl; auto.
Qed.

Section Means.
  Context {RE HE : Type} (score : HE -> f32) (srt : sort_fn).
  Notation M := (match_t RE HE).

  Lemma sort_no_throw l e : sort_matches (RE := RE) score srt l <> Throw e.
  Proof. unfold sort_matches, std_sort. destruct swo_onb; discriminate. Qed.

  Lemma maybe_sort_no_throw sort (l : list M) e : maybe_sort score srt sort l <> Throw e.
  Proof. unfold maybe_sort. destruct sort; [apply sort_no_throw|discriminate]. Qed.

  Lemma global_ap_no_throw A (l : list M) c i t e : global_ap A score l c i t <> Throw e.
  Proof.
    unfold global_ap. destruct precision_recall_matches. unfold ap_curves.
    destruct Nat.eqb; discriminate.
  Qed.

  Definition ap_value c i t sort (g : list M) : outcome R :=
    obind (maybe_sort score srt sort g) (fun g' => global_ap RArith score g' c i t).

  Definition ndcg_value c sort (g : list M) : outcome R :=
    obind (maybe_sort score srt sort g) (fun g' => Ok (global_ndcg RArith RTrans score g' c)).

  Lemma ap_value_no_throw c i t sort g e : ap_value c i t sort g <> Throw e.
  Proof.
    unfold ap_value. destruct maybe_sort eqn:E; simpl; try discriminate.
    - exact (global_ap_no_throw RArith a c i t e).
    - destruct (maybe_sort_no_throw _ _ _ E).
  Qed.

  Lemma ndcg_value_no_throw c sort g e : ndcg_value c sort g <> Throw e.
  Proof.
    unfold ndcg_value. destruct maybe_sort eqn:E; simpl; try discriminate.
    destruct (maybe_sort_no_throw _ _ _ E).
  Qed.

  Lemma mean_ap_eq groups c i t sort : mean_ap RArith score srt groups c i t sort =
    obind (ofold (fun s g => obind (ap_value c i t sort g) (fun v => Ok (s + v))) groups 0)
      (fun sum => Ok (mean_of RArith sum (length groups))).
  Proof.
    unfold mean_ap. f_equal. apply ofold_ext. intros s g. unfold ap_value.
    destruct (maybe_sort score srt sort g); reflexivity.
  Qed.

  Lemma mean_ndcg_eq groups c sort : mean_ndcg RArith RTrans score srt groups c sort =
    obind (ofold (fun s g => obind (ndcg_value c sort g) (fun v => Ok (s + v))) groups 0)
      (fun sum => Ok (mean_of RArith sum (length groups))).
  Proof.
    unfold mean_ndcg. f_equal. apply ofold_ext. intros s g. unfold ndcg_value.
    destruct (maybe_sort score srt sort g); reflexivity.
  Qed.

  Lemma obind_value {X} (v : X -> outcome R) gs vs :
    Forall2 (fun g x => v g = Ok x) gs vs ->
    exists m, obind (ofold (fun s g => obind (v g) (fun x => Ok (s + x))) gs 0)
      (fun sum => Ok (mean_of RArith sum (length gs))) = Ok m /\ is_mean vs m.
  Proof.
    intros H. exists (mean_of RArith (sum_of (fun v => v) vs) (length vs)).
    split; [|apply mean_of_spec].
    rewrite (mean_loop v _ _ _ H). simpl. rewrite (Forall2_len _ _ _ H). do 2 f_equal. lra.
  Qed.

  Lemma mean_ap_spec (groups : list (list M)) c i t sort vs :
    Forall2 (fun g v => exists g', maybe_sort score srt sort g = Ok g' /\
                                   global_ap RArith score g' c i t = Ok v) groups vs ->
    exists m, mean_ap RArith score srt groups c i t sort = Ok m /\ is_mean vs m.
  Proof.
    intros H. rewrite mean_ap_eq. apply obind_value.
    eapply Collapse.Forall2_weaken; [|exact H].
    intros g v [g' [E1 E2]]. unfold ap_value. rewrite E1. exact E2.
  Qed.

  Lemma mean_ndcg_spec (groups : list (list M)) c sort vs :
    Forall2 (fun g v => exists g', maybe_sort score srt sort g = Ok g' /\
                                   global_ndcg RArith RTrans score g' c = v) groups vs ->
    exists m, mean_ndcg RArith RTrans score srt groups c sort = Ok m /\ is_mean vs m.
  Proof.
    intros H. rewrite mean_ndcg_eq. apply obind_value.
    eapply Collapse.Forall2_weaken; [|exact H].
    intros g v [g' [E1 E2]]. unfold ndcg_value. rewrite E1. simpl. congruence.
  Qed.

  Lemma mean_ap_order (groups groups' : list (list M)) c i t sort : Permutation groups groups' ->
    mean_ap RArith score srt groups c i t sort = mean_ap RArith score srt groups' c i t sort.
  Proof.
    intros P. rewrite !mean_ap_eq, (Permutation_length P). f_equal.
    apply mean_loop_perm; [apply ap_value_no_throw|exact P].
  Qed.

  Lemma mean_ndcg_order (groups groups' : list (list M)) c sort : Permutation groups groups' ->
    mean_ndcg RArith RTrans score srt groups c sort = mean_ndcg RArith RTrans score srt groups' c sort.
  Proof.
    intros P. rewrite !mean_ndcg_eq, (Permutation_length P). f_equal.
    apply mean_loop_perm; [apply ndcg_value_no_throw|exact P].
  Qed.
End Means.

(** ** Sorting of matches *)

Section SortMatches.
  Context {RE HE : Type} (score : HE -> f32).
  Notation M := (match_t RE HE).

  Lemma match_before_swo (l : list M) : ranked score l -> swo_on (match_before score) l.
  Proof.
    intros Hr. unfold match_before.
    assert (N : forall m h, In m l -> m_hyp m = Some h -> is_nan (score h) = false).
    { intros m h K E. generalize (Hr m K). unfold rank. rewrite E. auto. }
    split.
    - intros x Hx. destruct (m_hyp x); auto. apply f32_lt_irrefl.
    - intros x y z Hx Hy Hz. destruct (m_hyp x) as [a|] eqn:Ea, (m_hyp y) as [b|] eqn:Eb, (m_hyp z) as [c|] eqn:Ec;
        try discriminate; auto.
      intros A B. eapply f32_lt_trans; eauto.
    - intros x y z Hx Hy Hz. destruct (m_hyp x) as [a|] eqn:Ea, (m_hyp y) as [b|] eqn:Eb, (m_hyp z) as [c|] eqn:Ec;
        try discriminate; auto.
      intros A B C D.
      assert (Na := N x a Hx Ea). assert (Nb := N y b Hy Eb). assert (Nc := N z c Hz Ec).
      destruct (f32_total (score a) (score b) Na Nb) as [K|[K|K]]; try congruence.
      destruct (f32_total (score b) (score c) Nb Nc) as [L|[L|L]]; try congruence.
      assert (F := f32_eq_trans _ _ _ K L).
      split; [apply f32_eq_not_lt; rewrite f32_eq_sym; auto|apply f32_eq_not_lt; auto].
  Qed.

  (** Sorted by the comparator: descending, misses last. *)
  Lemma sorted_split (l : list M) : sorted_by (match_before score) l ->
    exists a b, l = a ++ b /\ (forall m, In m a -> has_hyp m = true) /\ (forall m, In m b -> has_hyp m = false).
  Proof.
    induction 1 as [|m l H IH F]; [exists [], []; simpl; intuition|].
    destruct (has_hyp m) eqn:E.
    - destruct IH as [a [b [-> [Ha Hb]]]]. exists (m :: a), b. split; [reflexivity|]. split; auto.
      intros x [<-|K]; auto.
    - exists [], (m :: l). split; [reflexivity|]. split; [intros x []|].
      intros x [<-|K]; auto. rewrite Forall_forall in F. specialize (F x K).
      unfold match_before, has_hyp in *. destruct (m_hyp m); [discriminate|].
      destruct (m_hyp x); [discriminate|reflexivity].
  Qed.

  Lemma sorted_descending (l : list M) : ranked score l -> sorted_by (match_before score) l -> descending score l.
  Proof.
    intros Hr. induction 1 as [|m l H IH F]; constructor.
    - apply IH. intros x K. apply Hr. simpl; auto.
    - rewrite Forall_forall in *. intros x K. specialize (F x K). unfold match_before, rank in *.
      assert (Nm := Hr m (or_introl eq_refl)). assert (Nx := Hr x (or_intror K)). unfold rank in Nm, Nx.
      destruct (m_hyp m) as [hm|], (m_hyp x) as [hx|]; try discriminate; auto.
      destruct (score hm) as [?|[]| |]; try discriminate; reflexivity.
  Qed.

  Lemma sort_matches_spec srt (l : list M) : sort_contract srt -> ranked score l ->
    exists s, sort_matches score srt l = Ok s /\ Permutation l s /\ descending score s /\
      exists a b, s = a ++ b /\ (forall m, In m a -> has_hyp m = true) /\ (forall m, In m b -> has_hyp m = false).
  Proof.
    intros C Hr. assert (W := match_before_swo l Hr). exists (srt _ (match_before score) l).
    destruct (C _ _ _ W) as [P Q].
    split; [unfold sort_matches; apply std_sort_ok; exact W|]. split; [exact P|].
    split; [|apply sorted_split; exact Q].
    apply sorted_descending; [|exact Q]. intros m K. apply Hr.
    eapply Permutation_in; [apply Permutation_sym, P|exact K].
  Qed.

  (** With a NaN the comparator is not an order. *)
  Lemma sort_matches_nan srt (h n h' : HE) :
    is_nan (score n) = true -> f32_lt (score h) (score h') = true ->
    sort_matches score srt [make_fp h; make_fp n; make_fp h' : M] = UB.
  Proof.
    intros N L. unfold sort_matches. apply std_sort_ub. intros W.
    destruct (swo_incomp _ _ W (make_fp h) (make_fp n) (make_fp h')) as [A B]; simpl; auto;
      try (unfold match_before; simpl; first [solve [apply f32_lt_nan_l; assumption]|solve [apply f32_lt_nan_r; assumption]]).
    unfold match_before in A. simpl in A, B. unfold match_before in B. simpl in B. congruence.
  Qed.
End SortMatches.

(** ** The order of the result of the matcher *)

Section MatcherOrder.
  Context {RE HE : Type} (cr : Cmp RE) (score : HE -> f32).
  Notation M := (match_t RE HE).

  Lemma sorted_sublist {A} (P : A -> A -> Prop) a b : sublist a b -> StronglySorted P b -> StronglySorted P a.
  Proof.
    induction 1 as [|x a b H IH|x a b H IH]; intros S; auto.
    - inversion S; subst. constructor; auto. rewrite Forall_forall in *. intros y K.
      match goal with F : forall x, In x b -> _ |- _ => apply F end.
      clear - H K. induction H; simpl in *; intuition.
    - inversion S; auto.
  Qed.

  Lemma hyps_of_sorted (a : list M) : (forall m, In m a -> has_hyp m = true) ->
    StronglySorted (fun x y => f32_lt (score x) (score y) = false) (hyps_of a) ->
    sorted_by (match_before score) a.
  Proof.
    induction a as [|m a IH]; intros H S; [constructor|].
    unfold hyps_of in S. simpl in S. assert (Hm := H m (or_introl eq_refl)). unfold has_hyp in Hm.
    destruct (m_hyp m) as [h|] eqn:E; [|discriminate]. simpl in S. inversion S as [|? ? S1 S2]; subst.
    constructor.
    - apply IH; [intros x K; apply H; simpl; auto|exact S1].
    - rewrite Forall_forall in *. intros x K. unfold match_before.
      assert (Hx := H x (or_intror K)). unfold has_hyp in Hx.
      destruct (m_hyp x) as [h'|] eqn:E'; [|discriminate]. rewrite E.
      apply S2. apply in_flat_map. exists x. split; [exact K|]. rewrite E'. simpl; auto.
  Qed.

  Lemma sorted_app_last {A} (lt : A -> A -> bool) a b : sorted_by lt a -> sorted_by lt b ->
    (forall x y, In x a -> In y b -> lt y x = false) -> sorted_by lt (a ++ b).
  Proof.
    intros Ha Hb H. induction Ha as [|x a S IH F]; auto. simpl. constructor.
    - apply IH. intros u v K L. apply H; simpl; auto.
    - rewrite Forall_forall in *. intros y K. apply in_app_or in K. destruct K as [K|K]; auto.
      apply H; simpl; auto.
  Qed.

  Lemma matcher_sorted : total_order cr -> forall (S : EvSet RE HE) R, finds S R ->
    forall scorer mt refs hyps ms mt',
    StronglySorted (fun x y => f32_lt (score x) (score y) = false) hyps ->
    match_run (c_lt cr) S scorer mt refs hyps = Ok (ms, mt') ->
    sorted_by (match_before score) ms.
  Proof.
    intros To S R F scorer mt refs hyps ms mt' Hs E.
    destruct (Matching.result_shape cr To S R F scorer mt refs hyps) as [taken [a [missed [t [E1 [E2 _]]]]]].
    rewrite E1 in E. injection E as <- _.
    assert (Hh : forall m, In m a -> has_hyp m = true).
    { eapply Matching.matching_all_hyp; eauto. }
    apply sorted_app_last.
    - apply hyps_of_sorted; auto. eapply sorted_sublist; [|exact Hs].
      eapply Matching.matching_hyps; eauto.
    - clear E1. induction missed; simpl; constructor; auto.
      apply Forall_forall. intros y K. apply in_map_iff in K. destruct K as [r [<- _]]. reflexivity.
    - intros x y Kx Ky. apply in_map_iff in Ky. destruct Ky as [r [<- _]].
      unfold match_before. simpl. destruct (m_hyp x); reflexivity.
  Qed.
End MatcherOrder.

(** ** Sampled curves *)

Lemma lt_R a b : a_lt RArith a b = true <-> a < b.
Proof. simpl. destruct (Rlt_dec a b); split; intros; auto; try discriminate; contradiction. Qed.

Lemma count_lt_spec x l : (count_lt RArith x l <= length l)%nat /\
  (forall i a, (i < count_lt RArith x l)%nat -> nth_error l i = Some a -> a < x) /\
  (forall a, nth_error l (count_lt RArith x l) = Some a -> x <= a).
Proof.
  induction l as [|b l IH]; cbn [count_lt].
  - simpl. split; [lia|]. split; [intros; lia|]. intros a E. discriminate.
  - destruct (a_lt RArith b x) eqn:L.
    + apply lt_R in L. destruct IH as [I1 [I2 I3]]. split; [apply le_n_S, I1|]. split.
      * intros [|i] a K E; simpl in E; [injection E as <-; exact L|]. apply (I2 i); auto. lia.
      * exact I3.
    + assert (NL : ~ b < x) by (intros K; apply lt_R in K; change R with (num RArith) in K; congruence).
      split; [simpl; lia|]. split; [intros; lia|]. simpl. intros a [= <-]. lra.
Qed.

Lemma nth_error_skipn' {A} (l : list A) i k : nth_error (skipn i l) k = nth_error l (i + k).
Proof. revert i. induction l as [|x l IH]; intros [|i]; simpl; auto. destruct k; reflexivity. Qed.

(** The index advances to the first point from [x] on. *)
Lemma advance xs j x : (j <= length xs)%nat ->
  (forall i a, (i < j)%nat -> nth_error xs i = Some a -> a < x) ->
  let k := (j + count_lt RArith x (skipn j xs))%nat in
  (k <= length xs)%nat /\ (forall i a, (i < k)%nat -> nth_error xs i = Some a -> a < x) /\
  (forall a, nth_error xs k = Some a -> x <= a).
Proof.
  intros Hj Hb k. destruct (count_lt_spec x (skipn j xs)) as [C1 [C2 C3]].
  rewrite skipn_length in C1. unfold k. split; [lia|]. split.
  - intros i a K E. destruct (Nat.lt_ge_cases i j) as [L|L]; [eauto|].
    apply (C2 (i - j)%nat); [lia|]. rewrite nth_error_skipn'. replace (j + (i - j))%nat with i by lia. exact E.
  - intros a E. apply C3. rewrite nth_error_skipn'. exact E.
Qed.

Lemma at_ok {X} (l : list X) i : (i < length l)%nat -> exists x, at_ l i = Ok x /\ nth_error l i = Some x.
Proof.
  intros K. unfold at_. destruct (nth_error l i) eqn:E; eauto. apply nth_error_None in E. lia.
Qed.

Definition sample_at A (src_x src_y : list (num A)) (linear : bool) (j : nat) (x : num A) : outcome (num A) :=
  if Nat.eqb j (length src_x) then Ok (a0 A)
  else if negb linear || Nat.eqb j 0 then at_ src_y j
  else
    obind (at_ src_x j) (fun xj => obind (at_ src_x (j - 1)) (fun xp =>
    obind (at_ src_y (j - 1)) (fun yp => obind (at_ src_y j) (fun yj =>
    Ok (a_add A (a_mul A (a_div A (a_sub A xj x) (a_add A (a_sub A xj x) (a_sub A x xp))) yp)
          (a_mul A (a_sub A (a1 A) (a_div A (a_sub A xj x) (a_add A (a_sub A xj x) (a_sub A x xp)))) yj)))))).

Lemma sample_loop_cons A xs ys linear j x dst :
  sample_loop A xs ys linear j (x :: dst) =
  obind (sample_at A xs ys linear (j + count_lt A x (skipn j xs)) x) (fun y =>
  obind (sample_loop A xs ys linear (j + count_lt A x (skipn j xs)) dst) (fun l => Ok (y :: l))).
Proof. reflexivity. Qed.

Lemma sample_loop_spec linear xs ys dst j : (length xs <= length ys)%nat -> (j <= length xs)%nat ->
  nondecreasing dst ->
  (forall x i a, In x dst -> (i < j)%nat -> nth_error xs i = Some a -> a < x) ->
  exists out, sample_loop RArith xs ys linear j dst = Ok out /\ Forall2 (curve_value linear xs ys) dst out.
Proof.
  intros Hl. revert j. induction dst as [|x dst IH]; intros j Hj Hs Hb; [exists []; split; [reflexivity|constructor]|].
  inversion Hs as [|? ? Hs1 Hs2]; subst. rewrite Forall_forall in Hs2.
  destruct (advance xs j x Hj (fun i a => Hb x i a (or_introl eq_refl))) as [K1 [K2 K3]].
  rewrite sample_loop_cons. cbv zeta in K1, K2, K3. unfold sample_at. change (num RArith) with R in *.
  set (k := (j + count_lt RArith x (skipn j xs))%nat) in *. clearbody k.
  destruct (IH k K1 Hs1) as [out [E F]].
  { intros z i a Kz Ki Ea. apply Rlt_le_trans with x; [eauto|apply Hs2; exact Kz]. }
  rewrite E. cbn [obind].
  destruct (Nat.eqb_spec k (length xs)) as [Ek|Nk].
  - exists (a0 RArith :: out). split; [reflexivity|]. constructor; [|exact F].
    assert (B : beyond xs x).
    { intros a Ka. apply In_nth_error in Ka. destruct Ka as [i Ei]. apply (K2 i); auto.
      rewrite Ek. apply nth_error_Some. congruence. }
    unfold curve_value. destruct linear; [right; right|right]; (split; [exact B|reflexivity]).
  - assert (Kl : (k < length xs)%nat) by lia.
    destruct (at_ok xs k Kl) as [b [Eb Nb]]. destruct (at_ok ys k ltac:(lia)) as [v [Ev Nv]].
    assert (FF : first_from xs x k) by (split; [exists b; split; [exact Nb|apply K3; exact Nb]|exact K2]).
    destruct (negb linear || Nat.eqb k 0) eqn:D.
    + rewrite Ev. cbn [obind]. exists (v :: out). split; [reflexivity|]. constructor; [|exact F].
      destruct linear; simpl in D.
      * apply Nat.eqb_eq in D. rewrite D in *. left. auto.
      * left. eauto.
    + apply orb_false_elim in D. destruct D as [D1 D2]. apply Nat.eqb_neq in D2.
      destruct linear; [|discriminate].
      destruct k as [|k']; [congruence|]. replace (S k' - 1)%nat with k' by lia.
      destruct (at_ok xs k' ltac:(lia)) as [a [Ea Na]]. destruct (at_ok ys k' ltac:(lia)) as [u [Eu Nu]].
      rewrite Eb, Ea. cbn [obind]. rewrite Eu, Ev. cbn [obind]. eexists. split; [reflexivity|].
      constructor; [|exact F]. right. left. exists k', a, b, u, v.
      assert (a < x) by (apply (K2 k'); auto).
      assert (x <= b) by (apply K3; auto).
      do 5 (split; [assumption|]). unfold on_line. change (a_nat RArith 1) with 1. unfold a1.
      cbn [a_add a_sub a_mul a_div RArith]. change (a_nat RArith 1) with 1. field. lra.
Qed.

Lemma sample_curve_spec linear xs ys dst : (length xs <= length ys)%nat -> nondecreasing dst ->
  exists out, sample_curve RArith xs ys dst linear = Ok out /\ Forall2 (curve_value linear xs ys) dst out.
Proof. intros Hl Hs. apply sample_loop_spec; auto; [lia|]. intros; lia. Qed.

(** A value on a line lies between the ends. *)
Lemma on_line_between a u b v x y lo hi : a < x <= b -> on_line a u b v x y ->
  lo <= u <= hi -> lo <= v <= hi -> lo <= y <= hi.
Proof.
  unfold on_line. intros X E U V. assert (D : 0 < b - a) by lra.
  assert (Y : y * (b - a) = u * (b - x) + v * (x - a)) by lra.
  split; apply Rmult_le_reg_r with (b - a); nra.
Qed.

Lemma on_line_end a u b v y : a < b -> on_line a u b v b y -> y = v.
Proof. unfold on_line. intros L E. apply Rmult_eq_reg_r with (b - a); nra. Qed.

Lemma curve_value_range linear xs ys x y lo hi : curve_value linear xs ys x y ->
  lo <= 0 <= hi -> (forall v, In v ys -> lo <= v <= hi) -> lo <= y <= hi.
Proof.
  intros H Z V. destruct linear; simpl in H.
  - destruct H as [[_ E]|[[j [a [b [u [v [[[b' [Eb Xb]] F] [Ea [Eb' [Eu [Ev L]]]]]]]]]]|[_ ->]]]; auto.
    + apply V. eapply nth_error_In; eauto.
    + rewrite Eb' in Eb. injection Eb as <-. apply (on_line_between a u b v x y); auto.
      * split; [|exact Xb]. apply (F j); auto.
      * apply V. eapply nth_error_In; eauto.
      * apply V. eapply nth_error_In; eauto.
  - destruct H as [[j [_ E]]|[_ ->]]; auto. apply V. eapply nth_error_In; eauto.
Qed.

(** The linear curve goes through the points. *)
Lemma linear_hits xs ys x j b v y : first_from xs x j -> nth_error xs j = Some b -> b = x ->
  nth_error ys j = Some v -> linear_value xs ys x y -> y = v.
Proof.
  intros [[b' [Eb' Xb]] F] Eb -> Ev H.
  assert (U : forall k, first_from xs x k -> k = j).
  { intros k [[c [Ec Xc]] G]. destruct (Nat.lt_trichotomy k j) as [L|[L|L]]; auto.
    - specialize (F k c L Ec). lra.
    - specialize (G j x L Eb). lra. }
  destruct H as [[FF E]|[[k [a [b [u [w [FF [Ea [Eb2 [Eu [Ew L]]]]]]]]]]|[B _]]].
  - apply U in FF. subst. congruence.
  - assert (S k = j) by (apply U; exact FF). subst j. rewrite Eb in Eb2. injection Eb2 as <-.
    rewrite Ew in Ev. injection Ev as ->. eapply on_line_end; [|exact L].
    destruct FF as [_ G]. apply (G k); auto.
  - exfalso. assert (x < x); [|lra]. apply B. eapply nth_error_In; eauto.
Qed.

(** Step sampling of interpolated precision. *)
Lemma step_best pr rc pri x y : length pr = length rc -> nondecreasing rc ->
  (forall i m, nth_error pri i = Some m -> is_max (skipn i pr) m) ->
  step_value rc pri x y -> best_from pr rc x y.
Proof.
  intros Hl Hn Hi [[j [[[b [Eb Xb]] F] E]]|[B ->]]; [left|right; auto].
  destruct (Hi j y E) as [Iy My]. apply In_nth_error in Iy. destruct Iy as [k Ek].
  rewrite nth_error_skipn' in Ek.
  assert (Kk : (j + k < length rc)%nat) by (rewrite <- Hl; apply nth_error_Some; congruence).
  destruct (nth_error rc (j + k)) as [r|] eqn:Er; [|apply nth_error_None in Er; lia].
  assert (mono : forall i l a c, (i <= l)%nat -> nth_error rc i = Some a -> nth_error rc l = Some c -> a <= c).
  { intros i l a c Hil Ea Ec. destruct (Nat.eq_dec i l) as [->|N]; [rewrite Ea in Ec; injection Ec as ->; lra|].
    clear - Hn Hil N Ea Ec. revert i l Hil N Ea Ec. induction Hn as [|z l0 S IH Fa]; intros i l Hil N Ea Ec.
    - destruct i; discriminate.
    - destruct l as [|l]; [lia|]. destruct i as [|i]; simpl in Ea, Ec.
      + injection Ea as ->. rewrite Forall_forall in Fa. apply Fa. eapply nth_error_In; eauto.
      + apply (IH i l); auto; lia. }
  exists (j + k)%nat, r. split; [exact Er|]. split.
  - apply Rle_trans with b; [exact Xb|]. apply (mono j (j + k)%nat); auto. lia.
  - split; [exact Ek|]. intros i s p Es Xs Ep. apply My.
    destruct (Nat.lt_ge_cases i j) as [L|L].
    + specialize (F i s L Es). lra.
    + apply (nth_error_In _ (i - j)). rewrite nth_error_skipn'. replace (j + (i - j))%nat with i by lia. exact Ep.
Qed.

(** ** Even points *)

Lemma even_points_small n : (n <= 1)%nat -> forall A, even_points A n = [].
Proof. intros K A. unfold even_points. destruct (Nat.ltb_spec 1 n); [lia|reflexivity]. Qed.

Lemma even_points_nth n i : (1 < n)%nat -> (i < n)%nat ->
  nth_error (even_points RArith n) i = Some (INR i / INR (n - 1)).
Proof.
  intros N K. unfold even_points. destruct (Nat.ltb_spec 1 n); [|lia].
  rewrite nth_error_map_seq; auto.
Qed.

Lemma even_points_length A n : length (even_points A n) = if Nat.ltb 1 n then n else 0%nat.
Proof. unfold even_points. destruct Nat.ltb; [rewrite map_length, seq_length|]; reflexivity. Qed.

Lemma map_seq_sorted (f : nat -> R) k n : (forall i j, (i < j)%nat -> f i < f j) ->
  StronglySorted Rlt (map f (seq k n)).
Proof.
  intros F. revert k. induction n as [|n IH]; intros k; simpl; constructor; auto.
  apply Forall_forall. intros y K. apply in_map_iff in K. destruct K as [i [<- K]].
  apply in_seq in K. apply F. lia.
Qed.

Lemma even_points_sorted n : StronglySorted Rlt (even_points RArith n).
Proof.
  unfold even_points. destruct (Nat.ltb_spec 1 n) as [L|L]; [|constructor].
  assert (P : 0 < INR (n - 1)) by (apply lt_0_INR; lia).
  apply map_seq_sorted. intros i j K. cbn [a_div a_nat RArith]. unfold Rdiv.
  apply Rmult_lt_compat_r; [apply Rinv_0_lt_compat; exact P|]. apply lt_INR. exact K.
Qed.

Lemma sorted_lt_le l : StronglySorted Rlt l -> nondecreasing l.
Proof.
  induction 1 as [|x l S IH F]; constructor; auto.
  eapply Forall_impl; [|exact F]. intros y. simpl. lra.
Qed.

Lemma even_points_in01 n x : In x (even_points RArith n) -> in01 x.
Proof.
  unfold even_points. destruct (Nat.ltb_spec 1 n) as [L|L]; [|intros []].
  intros K. apply in_map_iff in K. destruct K as [i [<- K]]. apply in_seq in K.
  cbn [a_div a_nat RArith]. apply ratio01; [|apply lt_0_INR; lia].
  split; [apply pos_INR|apply le_INR; lia].
Qed.

(** ** Bounds of means *)

Lemma ap_values {RE HE} (score : HE -> f32) srt (groups : list (list (match_t RE HE))) c i t :
  (forall g m, In g groups -> In m g -> fractions (m_err m)) ->
  (c = true -> forall g, In g groups -> ranked score g) ->
  exists vs, Forall2 (fun g v => exists g', maybe_sort score srt false g = Ok g' /\
                                 global_ap RArith score g' c i t = Ok v) groups vs /\
             forall v, In v vs -> 0 <= v <= 1.
Proof.
  induction groups as [|g gs IH]; intros F R.
  - exists []. split; [constructor|intros v []].
  - destruct IH as [vs [H1 H2]].
    + intros g' m K1 K2. apply (F g'); simpl; auto.
    + intros C g' K. apply R; simpl; auto.
    + destruct (global_ap_01 _ _ score g c i t) as [ap [E B]].
      * intros m K. apply (F g); simpl; auto.
      * intros C. apply R; simpl; auto.
      * exists (ap :: vs). split; [constructor; [exists g; auto|exact H1]|].
        intros v [<-|K]; auto.
Qed.

Lemma mean_ap_01 RE HE (score : HE -> f32) srt (groups : list (list (match_t RE HE))) c i t :
  (forall g m, In g groups -> In m g -> fractions (m_err m)) ->
  (c = true -> forall g, In g groups -> ranked score g) ->
  exists m, mean_ap RArith score srt groups c i t false = Ok m /\ in01 m.
Proof.
  intros F R.
  destruct (ap_values score srt groups c i t F R) as [vs [H1 H2]].
  destruct (mean_ap_spec score srt groups c i t false vs H1) as [m [E M]].
  exists m. split; [exact E|]. unfold in01.
  destruct vs as [|v vs].
  - destruct M as [[_ ->]|[N _]]; [lra|destruct (N eq_refl)].
  - apply (is_mean_between (v :: vs)); auto. discriminate.
Qed.
