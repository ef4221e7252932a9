(** Proofs about the number of references found. *)
From Coq Require Import String List Bool ZArith Sorted Reals Lra Lia Permutation.
From Flocq Require Import Core BinarySingleNaN.
From Verif.Model Require Import Cpp Floats Box Events EventSets Matches Matcher Scorers Assessment Bootstrap Mapper Stream Reader Options Tool.
From Verif.Spec Require Import Order Objects Sets Matching Scorers Grouping Collapse Metrics Reader Options Tool Parts Found.
From Verif.Proofs Require Import FloatFacts Metrics Curves Collapse AveragePrecision Better Hoist Queries Insert Unfound.
From Verif.Proofs Require Ndcg Gain Matching Grouping Evaluation Runs Ties Parts Raised Renumber Lifted Order Rescore Instances Results Mapper Sets Errors Geometry Ids Tool Scorers Added.
Import ListNotations.
Local Open Scope string_scope.
Local Open Scope list_scope.
Local Open Scope R_scope.

(** ** Points *)

Notation gn := AveragePrecision.gain.

(** Where something is found, there were no false positives so far. *)
Fixpoint clean (fp : R) (w : list counts) : Prop :=
  match w with
  | [] => True
  | c :: w => (0 < gn c -> fp + B2R (ec_fp c) = 0) /\ clean (fp + B2R (ec_fp c)) w
  end.

Lemma precision_one n x : 0 <= x <= INR n -> precision_of RArith n x <= 1 /\ 0 <= precision_of RArith n x /\ (precision_of RArith n x = 1 <-> x = 0).
Proof.
  intros B. destruct n as [|n].
  - cbn [INR] in B. unfold precision_of. cbn [Nat.ltb Nat.leb]. change (1 <= 1 /\ 0 <= 1 /\ (1 = 1 <-> x = 0)). split; [lra|]. split; [lra|]. split; intros; [lra|reflexivity].
  - rewrite precision_R by lia. assert (P := lt_0_INR (Datatypes.S n) ltac:(lia)). destruct (ratio01 x _ B P) as [K1 K2].
    split; [lra|]. split; [lra|]. split.
    + intros H. assert (E0 : x / INR (Datatypes.S n) = 0) by lra. apply (Rmult_eq_compat_r (INR (Datatypes.S n))) in E0. unfold Rdiv in E0.
      rewrite Rmult_assoc, Rinv_l in E0; lra.
    + intros ->. unfold Rdiv. rewrite Rmult_0_l. lra.
Qed.

(** The values of a curve. *)
Lemma raw_values n w : (forall c, In c w -> bounded c) -> forall nr nh fp fn, 0 <= fp <= INR nh ->
  forall p, In p (map fst (pr_loop RArith n nr nh fp fn w)) -> 0 <= p <= 1 /\ (p = 1 -> fp = 0).
Proof.
  intros B. induction w as [|c w IH]; intros nr nh fp fn Bf p I; [destruct I|]. cbn [pr_loop map fst a_add a_f32 RArith] in I.
  destruct (B c (or_introl eq_refl)) as (_ & _ & [B1 B2] & _). assert (B' : 0 <= fp + B2R (ec_fp c) <= INR (nh + ec_nh c)) by (rewrite plus_INR; lra).
  destruct I as [<-|I].
  - destruct (precision_one _ _ B') as (K1 & K2 & K3). split; [lra|]. intros E. apply K3 in E. lra.
  - destruct (IH (fun x J => B x (or_intror J)) _ _ _ _ B' p I) as [K1 K2]. split; [exact K1|]. intros E. specialize (K2 E). lra.
Qed.

Lemma inter_in i l x : In x (inter i l) -> In x l.
Proof. destruct i; [apply (interp_in RArith)|auto]. Qed.

Lemma inter_hd i l q t : inter i l = q :: t -> exists p l', l = p :: l' /\ t = inter i l' /\ p <= q /\ In q l.
Proof.
  destruct i; cbn [inter].
  - intros E. destruct l as [|p l]; [discriminate|]. destruct (interp_nth RArith (fun _ => True) (fun x => x) R_lt_v (p :: l) 0 q (all_true _)) as [K1 K2]; [now rewrite E|].
    exists p, l. split; [reflexivity|]. split; [|split; [apply K2; now left|exact K1]].
    assert (K := interp_skipn RArith (p :: l) 1). rewrite E in K. exact K.
  - intros ->. exists q, t. split; [reflexivity|]. split; [reflexivity|]. split; [lra|now left].
Qed.

(** The area falls short of what is found by the errors. *)
Lemma area_found n i t w : (0 < n)%nat -> (forall c, In c w -> bounded c) -> forall nr nh fp fn prev, 0 <= fp <= INR nh ->
  (forall z, prev = Some z -> z <= 1 /\ (fp = 0 -> z = 1)) ->
  let a := area_rec t prev ((INR nr - fn) / INR n) (inter i (map fst (pr_loop RArith n nr nh fp fn w))) (map snd (pr_loop RArith n nr nh fp fn w)) in
  a * INR n <= sum_of gn w /\ (a * INR n = sum_of gn w <-> clean fp w).
Proof.
  intros Hn B. assert (Pn := lt_0_INR n Hn). induction w as [|c w IH]; intros nr nh fp fn prev Bf Hp.
  - cbn [pr_loop map]. destruct i; cbn; (split; [lra|]); split; auto; intros; lra.
  - destruct (B c (or_introl eq_refl)) as (_ & _ & [B1 B2] & B3 & B4).
    assert (B' : 0 <= fp + B2R (ec_fp c) <= INR (nh + ec_nh c)) by (rewrite plus_INR; lra).
    assert (Rv := raw_values n (c :: w) B nr nh fp fn Bf).
    assert (Rv' := raw_values n w (fun x J => B x (or_intror J)) (nr + ec_nr c) (nh + ec_nh c) _ (fn + B2R (ec_fn c)) B').
    specialize (IH (fun x J => B x (or_intror J)) (nr + ec_nr c)%nat (nh + ec_nh c)%nat (fp + B2R (ec_fp c)) (fn + B2R (ec_fn c))).
    cbv zeta. cbn [pr_loop map fst snd a_add a_f32 RArith] in *. change (num RArith) with R in *.
    match goal with |- context [inter i ?l] => destruct (inter i l) as [|q qs] eqn:Eq end.
    { exfalso. apply (f_equal (@List.length R)) in Eq. rewrite inter_length in Eq. discriminate. }
    destruct (inter_hd i _ _ _ Eq) as (p & l' & E1 & -> & Lp & Iq). injection E1 as <- <-.
    destruct (precision_one _ _ B') as (K1 & K2 & K3).
    assert (Hq : q <= 1 /\ (q = 1 <-> fp + B2R (ec_fp c) = 0)).
    { destruct (Rv q Iq) as [[_ Q1] _]. split; [exact Q1|]. split.
      - intros E. destruct Iq as [<-|Iq]; [now apply K3|]. exact (proj2 (Rv' q Iq) E).
      - intros E. apply K3 in E. rewrite E in Lp. lra. }
    destruct (IH (Some q) B') as [H1 H2]. { intros z [= <-]. split; [apply Hq|]. intros E. now apply Hq. }
    cbn [area_rec]. rewrite recall_R by exact Hn. set (b := area_rec t (Some q) _ _ _) in *.
    assert (Eg : ((INR (nr + ec_nr c) - (fn + B2R (ec_fn c))) / INR n - (INR nr - fn) / INR n) * INR n = gn c).
    { unfold AveragePrecision.gain. rewrite plus_INR. field. lra. }
    assert (Gc : 0 <= gn c) by (unfold AveragePrecision.gain; lra).
    set (h := height RArith t prev q).
    assert (Hh : h <= 1 /\ (h = 1 <-> fp + B2R (ec_fp c) = 0)).
    { unfold h. rewrite height_R. destruct prev as [z|]; [|exact Hq]. destruct t; [|exact Hq].
      destruct (Hp z eq_refl) as [Z1 Z2]. destruct Hq as [Q1 Q2]. split; [lra|]. split.
      - intros E. apply Q2. lra.
      - intros E. rewrite Z2 by lra. apply Q2 in E. lra. }
    change (let a := h * ((INR (nr + ec_nr c) - (fn + B2R (ec_fn c))) / INR n - (INR nr - fn) / INR n) + b in
      a * INR n <= sum_of gn (c :: w) /\ (a * INR n = sum_of gn (c :: w) <-> clean fp (c :: w))).
    cbv zeta. rewrite Rmult_plus_distr_r, Rmult_assoc, Eg. unfold sum_of in *. cbn [fold_right clean]. destruct Hh as [Q1 Q2].
    split; [nra|]. split.
    + intros E. assert (E1 : b * INR n = fold_right (fun x s => gn x + s) 0 w) by nra. split; [|now apply H2].
      intros P. apply Q2. nra.
    + intros [C1 C2]. apply H2 in C2. rewrite C2. destruct Gc as [Gc|Gc]; [|rewrite <- Gc; lra]. apply C1, Q2 in Gc. rewrite Gc. lra.
Qed.

(** With interpolation no step is lower than the last precision. *)
Lemma area_above P t : forall e prev s re, length e = length re -> (forall z, prev = Some z -> P <= z) -> (forall x, In x e -> P <= x) -> StronglySorted Rle (s :: re) ->
  P * (last re s - s) <= area_rec t prev s e re.
Proof.
  induction e as [|p e IH]; intros prev s re L Hp He So; destruct re as [|r re]; try discriminate; [cbn; lra|].
  cbn [area_rec]. inversion So as [|? ? So' F]; subst. inversion F; subst.
  assert (K := IH (Some p) r re ltac:(now injection L) ltac:(intros z [= <-]; apply He; now left) (fun x I => He x (or_intror I)) So').
  assert (Pp := He p (or_introl eq_refl)).
  assert (P <= height RArith t prev p).
  { rewrite height_R. destruct prev as [q|]; [|destruct t; lra]. specialize (Hp q eq_refl). destruct t; lra. }
  assert (El : last (r :: re) s = last re r) by (destruct re as [|x re _] using rev_ind; [reflexivity|]; change (r :: re ++ [x]) with ((r :: re) ++ [x]); now rewrite !last_last).
  rewrite El. change (P * (last re r - s) <= height RArith t prev p * (r - s) + area_rec t (Some p) r e re).
  assert (P * (r - s) <= height RArith t prev p * (r - s)) by (apply Rmult_le_compat_r; lra). lra.
Qed.

Lemma interp_above l d : forall x, In x (interp RArith l) -> last l d <= x.
Proof.
  induction l as [|p l IH]; intros x I; [destruct I|]. destruct l as [|q l]; [destruct I as [<-|[]]; cbn; lra|].
  rewrite interp_cons in I by discriminate. change (last (p :: q :: l) d) with (last (q :: l) d). destruct I as [<-|I]; [|now apply IH].
  eapply Rle_trans; [|apply Rmax_r]. apply IH. destruct (interp RArith (q :: l)) eqn:E; [apply interp_some in E; [destruct E|discriminate]|now left].
Qed.

Lemma last_some (l : list R) x : In x (interp RArith l) -> last (map Some l) None = Some (last l 0).
Proof. destruct l as [|p l]; intros I; [destruct I|]. clear. revert p. induction l as [|q l IH]; intros p; [reflexivity|]. exact (IH q). Qed.

Lemma sum_gain w : sum_of gn w = INR (references w) - misses w.
Proof. unfold references, misses. rewrite <- sum_of_INR, <- sum_of_minus. reflexivity. Qed.

Lemma clean_nothing w : (forall c, In c w -> bounded c) -> references w = 0%nat -> sum_of gn w = 0 /\ forall fp, clean fp w.
Proof.
  induction w as [|c w IH]; intros B R0; [split; [reflexivity|intros; exact Logic.I]|]. change (ec_nr c + references w = 0)%nat in R0.
  destruct (IH (fun x J => B x (or_intror J)) ltac:(lia)) as [A1 A2]. destruct (B c (or_introl eq_refl)) as (_ & _ & _ & B4).
  assert (Z0 : ec_nr c = 0%nat) by lia. rewrite Z0 in B4. cbn [INR] in B4.
  assert (G0 : gn c = 0) by (unfold AveragePrecision.gain; rewrite Z0; cbn [INR]; lra).
  split; [unfold sum_of in *; cbn [fold_right]; lra|]. intros fp. cbn [clean]. split; [lra|apply A2].
Qed.

Lemma value_found i t w : (forall c, In c w -> bounded c) ->
  value i t w * INR (references w) <= sum_of gn w /\ (value i t w * INR (references w) = sum_of gn w <-> clean 0 w) /\
  (i = true -> (0 < hypotheses w)%nat ->
    sum_of gn w * (INR (hypotheses w) - false_positives w) <= value i t w * INR (references w) * INR (hypotheses w)).
Proof.
  intros B. destruct (Nat.eq_dec (references w) 0) as [Z|N].
  - destruct (clean_nothing w B Z) as [A1 A2]. rewrite Z, A1. cbn [INR]. split; [lra|]. split; [split; intros; [apply A2|lra]|]. intros _ _. lra.
  - assert (Hn : (0 < references w)%nat) by lia. assert (Pn := lt_0_INR _ Hn).
    assert (Ev : value i t w = start (references w) i t w) by (unfold value, curve, start; now rewrite total_refs).
    rewrite Ev. unfold start.
    assert (K := area_found (references w) i t w Hn B 0 0 0 0 None ltac:(cbn; lra) ltac:(discriminate)). cbv zeta in K.
    replace ((INR 0 - 0) / INR (references w)) with 0 in K by (cbn [INR]; field; lra). destruct K as [K1 K2].
    split; [exact K1|]. split; [exact K2|]. intros -> Hh. assert (Ph := lt_0_INR _ Hh).
    set (P := precision_of RArith (hypotheses w) (false_positives w)).
    assert (Lr := pr_last_recall (references w) w Hn). rewrite <- sum_gain in Lr.
    assert (A := area_above P t (inter true (map fst (pr_loop RArith (references w) 0 0 0 0 w))) None 0 (map snd (pr_loop RArith (references w) 0 0 0 0 w))
      ltac:(now rewrite inter_length, !map_length) ltac:(discriminate)).
    change (num RArith) with R in *. rewrite Lr in A.
    assert (Pe : P * INR (hypotheses w) = INR (hypotheses w) - false_positives w).
    { unfold P. rewrite precision_R by exact Hh. field. lra. }
    rewrite <- Pe. set (a := area_rec _ _ _ _ _) in *. specialize (fun X => A X (recalls _ _ B)).
    assert (P * (sum_of gn w / INR (references w)) <= a).
    { rewrite <- (Rminus_0_r (sum_of gn w / _)). apply A. intros x I. cbn [inter] in I.
      assert (Lp := pr_last_precision (references w) w (last (map fst (pr_loop RArith (references w) 0 0 0 0 w)) 0)).
      unfold P. rewrite <- Lp; [exact (interp_above _ 0 x I)|].
      exact (last_some _ x I). }
    assert (P * sum_of gn w <= a * INR (references w)).
    { apply (Rmult_le_compat_r (INR (references w))) in H; [|lra]. replace (P * (sum_of gn w / INR (references w)) * INR (references w)) with (P * sum_of gn w) in H by (field; lra). exact H. }
    nra.
Qed.

(** ** Matches *)

Section Lists.
  Context {RE HE : Type} (score : HE -> f32).
  Notation M := (match_t RE HE).

  Definition is_fpb (m : M) : bool := f32_eq (me_fp (m_err m)) f32_1.
  Definition alarms (l : list M) : nat := length (filter is_fpb l).

  Lemma kinds (m : M) : zero_one (m_err m) ->
    INR (me_nr (m_err m)) - B2R (me_fn (m_err m)) = (if is_hitb m then 1 else 0) /\ B2R (me_fp (m_err m)) = (if is_fpb m then 1 else 0) /\
    INR (me_nh (m_err m)) = (if is_hitb m then 1 else 0) + (if is_fpb m then 1 else 0) /\
    (is_hitb m = true <-> is_hit m) /\ (is_fpb m = true <-> is_fp m).
  Proof.
    intros Z. assert (E10 := f32_10). destruct f32_1_R as [O _].
    assert (N : f32_0 <> f32_1) by (intros K; rewrite <- K in E10; discriminate).
    assert (N' : f32_1 <> f32_0) by congruence.
    assert (E01 : f32_eq f32_0 f32_1 = false) by reflexivity. assert (E00 : f32_eq f32_0 f32_0 = true) by reflexivity. assert (E11 : f32_eq f32_1 f32_1 = true) by reflexivity.
    unfold is_hitb, is_hit, is_fp, is_fpb.
    destruct (zero_one_cases _ Z) as [[A B]|[[A B]|[[A B]|[A B]]]]; (assert (Eh := f_equal ec_nh B); assert (Er := f_equal ec_nr B); cbn [counts_of ec_nh ec_nr] in Eh, Er;
      rewrite Eh, Er, A; cbn [me_fp me_fn]; rewrite ?E10, ?E01, ?E00, ?E11, ?O, ?f32_0_R; cbn [andb INR];
      (split; [lra|]); (split; [lra|]); (split; [lra|]); split; split; intros; auto; try discriminate; try tauto; destruct H; congruence).
  Qed.

  (** A point has the hits and the false alarms of a list. *)
  Definition stands (r : list M) (c : counts) : Prop := gn c = INR (hits r) /\ B2R (ec_fp c) = INR (alarms r) /\ INR (ec_nh c) = INR (hits r) + INR (alarms r).

  Lemma counted_stands r c : (forall m, In m r -> zero_one (m_err m)) -> counted_as r c -> summed_as r c -> stands r c.
  Proof.
    intros Z [C1 C2] [S1 S2]. unfold stands, AveragePrecision.gain. rewrite C1, C2, S1, S2, <- !sum_of_INR, <- sum_of_minus.
    unfold hits, alarms. clear C1 C2 S1 S2 c. induction r as [|m r IH]; [cbn; repeat split; lra|].
    destruct (IH (fun x J => Z x (or_intror J))) as (A1 & A2 & A3). destruct (kinds m (Z m (or_introl eq_refl))) as (K1 & K2 & K3 & _).
    unfold sum_of in *. cbn [fold_right filter]. rewrite A1, A2, A3, K1, K2, K3.
    destruct (is_hitb m), (is_fpb m); cbn [length]; rewrite ?S_INR; repeat split; lra.
  Qed.

  Lemma points_stand cb (l : list M) : (forall m, In m l -> zero_one (m_err m)) -> (cb = true -> ranked score l /\ Z.of_nat (length l) <= 2 ^ 24)%Z ->
    exists rs, Forall2 stands rs (points score cb l) /\ concat rs = l /\ (if cb then are_runs score l rs else rs = map (fun m => [m]) l) /\
      (forall c, In c (points score cb l) -> bounded c).
  Proof.
    intros Z H. destruct cb.
    - destruct (H eq_refl) as [Rk L]. destruct (collapse_spec score l Rk) as (rs & Ar & F). exists rs. split; [|split; [apply Ar|split; [exact Ar|]]].
      + cbn [points]. assert (Q : forall r, In r rs -> (forall m, In m r -> zero_one (m_err m)) /\ (Z.of_nat (length r) <= 2 ^ 24)%Z).
        { intros r I. destruct Ar as [A1 _ _ _]. split.
          - intros m J. apply Z. rewrite <- A1. apply in_concat. eauto.
          - enough (length r <= length l)%nat by lia. rewrite <- A1. clear - I. induction rs as [|x rs IH]; [destruct I|]. cbn [concat]. rewrite app_length.
            destruct I as [->|I]; [lia|]. specialize (IH I). lia. }
        clear - F Q. induction F as [|r c rs cs (F1 & F2 & F3) F IH]; [constructor|]. destruct (Q r (or_introl eq_refl)) as [Q1 Q2].
        constructor; [now apply counted_stands; auto|]. apply IH. intros x I. apply Q. now right.
      + cbn [points]. apply (points_valid RE HE score l true); [|auto]. intros m I. destruct (Z m I) as [Z1 Z2].
        assert (U0 : unit_f32 f32_0) by (split; [reflexivity|rewrite f32_0_R; lra]).
        assert (U1 : unit_f32 f32_1) by (destruct f32_1_R as [O O']; split; [exact O'|rewrite O; lra]).
        split; [destruct Z1 as [-> | ->]|destruct Z2 as [-> | ->]]; auto.
    - exists (map (fun m => [m]) l). split; [|split; [|split; [reflexivity|]]].
      + cbn [points]. clear H. induction l as [|m l IH]; [constructor|]. cbn [map]. constructor; [|apply IH; intros x I; apply Z; now right].
        assert (Z1 : forall x, In x [m] -> zero_one (m_err x)) by (intros x [<-|[]]; apply Z; now left).
        apply counted_stands; [exact Z1| |]; split; unfold total, sum_of; cbn; try lia; lra.
      + clear. induction l as [|m l IH]; [reflexivity|]. cbn. now rewrite IH.
      + cbn [points]. intros c I. apply in_map_iff in I as (m & <- & I). exact (proj1 (fair_raw _ (Z m I))).
  Qed.

  Lemma alarms_app a b : alarms (a ++ b) = (alarms a + alarms b)%nat.
  Proof. unfold alarms. now rewrite filter_app, app_length. Qed.

  Lemma hits_app (a b : list M) : hits (a ++ b) = (hits a + hits b)%nat.
  Proof. unfold hits. now rewrite filter_app, app_length. Qed.

  Lemma stand_sums rs cs : Forall2 stands rs cs -> sum_of gn cs = INR (hits (concat rs)) /\ false_positives cs = INR (alarms (concat rs)) /\
    INR (hypotheses cs) = INR (hits (concat rs)) + INR (alarms (concat rs)).
  Proof.
    induction 1 as [|r c rs cs (S1 & S2 & S3) F (A1 & A2 & A3)]; [cbn; repeat split; lra|]. unfold false_positives, hypotheses, sum_of in *. cbn [fold_right concat].
    change (total ec_nh (c :: cs)) with (ec_nh c + total ec_nh cs)%nat. rewrite hits_app, alarms_app, !plus_INR, S1, S2, S3, A1, A2, A3. repeat split; lra.
  Qed.

  Lemma clean_runs rs cs : Forall2 stands rs cs -> forall k, clean (INR k) cs <->
    forall u r v, rs = u ++ r :: v -> (0 < hits r)%nat -> (k + alarms (concat (u ++ [r])) = 0)%nat.
  Proof.
    induction 1 as [|r c rs cs (S1 & S2 & S3) F IH]; intros k; cbn [clean].
    - split; [|auto]. intros _ [|? u] r v K; discriminate.
    - rewrite S1, S2, <- plus_INR, IH. split.
      + intros [A1 A2] u x v E P. destruct u as [|y u]; cbn [app] in E; injection E as <- ->.
        * cbn. rewrite app_nil_r. apply INR_eq, A1, lt_0_INR, P.
        * cbn [app concat]. rewrite alarms_app. rewrite Nat.add_assoc. now apply (A2 u x v).
      + intros A. split.
        * intros P. change 0 with (INR 0) in P. apply INR_lt in P. specialize (A [] r rs eq_refl P). cbn [app concat] in A. rewrite app_nil_r in A. now rewrite A.
        * intros u x v -> P. specialize (A (r :: u) x v eq_refl P). cbn [app concat] in A. rewrite alarms_app in A. lia.
  Qed.

  Lemma hits_in (l : list M) : (forall m, In m l -> zero_one (m_err m)) -> (0 < hits l)%nat <-> exists m, In m l /\ is_hit m.
  Proof.
    intros Z. unfold hits. split.
    - intros P. destruct (filter is_hitb l) as [|m t] eqn:E; [cbn in P; lia|]. assert (I : In m (filter is_hitb l)) by (rewrite E; now left).
      apply filter_In in I as [I B]. exists m. split; [exact I|]. apply (kinds m (Z m I)), B.
    - intros (m & I & H). assert (J : In m (filter is_hitb l)) by (apply filter_In; split; [exact I|]; apply (kinds m (Z m I)), H).
      destruct (filter is_hitb l); [destruct J|cbn; lia].
  Qed.

  Lemma alarms_none (l : list M) : (forall m, In m l -> zero_one (m_err m)) -> alarms l = 0%nat <-> forall m, In m l -> ~ is_fp m.
  Proof.
    intros Z. unfold alarms. split.
    - intros E m I F. assert (J : In m (filter is_fpb l)) by (apply filter_In; split; [exact I|]; apply (kinds m (Z m I)), F).
      destruct (filter is_fpb l); [destruct J|discriminate].
    - intros H. destruct (filter is_fpb l) as [|m t] eqn:E; [reflexivity|]. assert (I : In m (filter is_fpb l)) by (rewrite E; now left).
      apply filter_In in I as [I B]. elim (H m I). apply (kinds m (Z m I)), B.
  Qed.

  (** No false alarm up to a run with a hit. *)
  Definition unspoilt (rs : list (list M)) : Prop := forall u r v, rs = u ++ r :: v -> (0 < hits r)%nat -> alarms (concat (u ++ [r])) = 0%nat.

  Lemma unspoilt_first (l : list M) : (forall m, In m l -> zero_one (m_err m)) -> unspoilt (map (fun m => [m]) l) <-> hits_first l.
  Proof.
    intros Z. assert (Cm : forall k : list M, concat (map (fun m => [m]) k) = k) by (induction k as [|m k IH]; cbn; congruence).
    assert (Sub : forall a b, l = a ++ b -> (forall m, In m a -> zero_one (m_err m)) /\ (forall m, In m b -> zero_one (m_err m))).
    { intros a b ->. split; intros m I; apply Z, in_or_app; auto. }
    split.
    - intros H u a v b w -> Fa Hb. specialize (H (map (fun m => [m]) (u ++ a :: v)) [b] (map (fun m => [m]) w)).
      rewrite app_comm_cons, app_assoc in Sub, Z, H. rewrite map_app in H.
      assert (Zb : zero_one (m_err b)) by (apply Z; apply in_elt).
      specialize (H eq_refl). rewrite concat_app, Cm in H. cbn [concat] in H.
      assert (K : alarms ((u ++ a :: v) ++ [b] ++ []) = 0%nat).
      { apply H. apply hits_in; [intros m [<-|[]]; exact Zb|]. exists b. split; [now left|exact Hb]. }
      rewrite app_nil_r, alarms_none in K.
      + apply (K a); [|exact Fa]. apply in_or_app. left. apply in_elt.
      + intros m I. apply Z. apply in_app_or in I as [I|[<-|[]]]; apply in_or_app; [now left|right; now left].
    - intros H u r v E P. apply map_eq_app in E as (l1 & l2 & -> & <- & E). destruct l2 as [|b l2]; [discriminate|]. cbn [map] in E. injection E as <- <-.
      rewrite concat_app, Cm. cbn [concat]. rewrite app_nil_r.
      assert (Zb : zero_one (m_err b)) by (apply Z; apply in_elt).
      apply hits_in in P as (b' & [<-|[]] & Hb); [|intros m [<-|[]]; exact Zb].
      apply alarms_none; [intros m I; apply Z; apply in_app_or in I as [I|[<-|[]]]; apply in_or_app; [now left|right; now left]|].
      intros a I Fa. apply in_app_or in I as [I|[<-|[]]].
      + apply in_split in I as (u & v & ->). rewrite <- app_assoc in H. cbn [app] in H. now apply (H u a v b l2).
      + destruct Hb as [Hb _]. unfold is_fp in Fa. rewrite Hb in Fa. assert (X := f_equal (fun y => f32_eq y f32_0) Fa). discriminate.
  Qed.

  Lemma unspoilt_above (l : list M) rs : (forall m, In m l -> zero_one (m_err m)) -> ranked score l -> descending score l -> are_runs score l rs ->
    unspoilt rs <-> hits_above score l.
  Proof.
    intros Z Rk De Ar. assert (Dc := runs_decrease score l rs Rk De Ar). destruct Ar as [A1 A2 A3 A4].
    assert (Zs : forall k, incl k l -> forall m, In m k -> zero_one (m_err m)) by (intros k I m J; apply Z, I, J).
    assert (In_run : forall m, In m l -> exists u r v, rs = u ++ r :: v /\ In m r).
    { intros m I. rewrite <- A1 in I. apply in_concat in I as (r & I & J). apply in_split in I as (u & v & ->). eauto. }
    split.
    - intros H a b Ia Ib Fa Hb. destruct (In_run b Ib) as (u & r & v & E & J).
      assert (Ir : incl (concat (u ++ [r])) l).
      { rewrite <- A1, E. intros m I. rewrite !concat_app in *. cbn [concat] in *. rewrite app_nil_r in I. apply in_app_or in I as [I|I]; apply in_or_app; [now left|right; apply in_or_app; now left]. }
      assert (Irr : incl r l) by (intros m I; apply Ir; rewrite concat_app; cbn [concat]; rewrite app_nil_r; apply in_or_app; now right).
      assert (K : alarms (concat (u ++ [r])) = 0%nat) by (apply (H u r v E); apply hits_in; [exact (Zs r Irr)|eauto]).
      rewrite alarms_none in K by exact (Zs _ Ir).
      destruct (In_run a Ia) as (u' & r' & v' & E' & J').
      assert (Nu : ~ In a (concat (u ++ [r]))) by (intros I; exact (K a I Fa)).
      rewrite <- A1, E in Ia. change (r :: v) with ([r] ++ v) in Ia. rewrite app_assoc, concat_app in Ia. apply in_app_or in Ia as [Ia|Ia]; [contradiction|].
      apply in_concat in Ia as (x & Ix & Jx). apply in_split in Ix as (v1 & v2 & ->).
      exact (Dc u r v1 x v2 b a E J Jx).
    - intros H u r v E P.
      assert (Ir : incl (concat (u ++ [r])) l).
      { rewrite <- A1, E. intros m I. rewrite !concat_app in *. cbn [concat] in *. rewrite app_nil_r in I. apply in_app_or in I as [I|I]; apply in_or_app; [now left|right; apply in_or_app; now left]. }
      assert (Irr : incl r l) by (intros m I; apply Ir; rewrite concat_app; cbn [concat]; rewrite app_nil_r; apply in_or_app; now right).
      apply hits_in in P as (b & Jb & Hb); [|exact (Zs r Irr)].
      apply alarms_none; [exact (Zs _ Ir)|]. intros a Ia Fa. assert (L := H a b (Ir a Ia) (Irr b Jb) Fa Hb).
      rewrite concat_app in Ia. cbn [concat] in Ia. rewrite app_nil_r in Ia. apply in_app_or in Ia as [Ia|Ia].
      + apply in_concat in Ia as (x & Ix & Jx). apply in_split in Ix as (u1 & u2 & ->). rewrite <- app_assoc in E. cbn [app] in E.
        assert (L' := Dc u1 x u2 r v a b E Jx Jb). rewrite (Order.f32_lt_asym _ _ L) in L'. discriminate.
      + assert (T := A3 r a b). unfold tie in T. rewrite E in T. specialize (T (in_elt _ _ _) Ia Jb). rewrite (Order.f32_eq_not_lt _ _ T) in L. discriminate.
  Qed.

  (** AP and the number of hits. *)
  Lemma ap_found cb i t (l : list M) : (forall m, In m l -> zero_one (m_err m)) -> (cb = true -> ranked score l /\ Z.of_nat (length l) <= 2 ^ 24)%Z ->
    exists a : R, global_ap RArith score l cb i t = Ok a /\ a * INR (Metrics.refs l) <= INR (hits l) /\
      (i = true -> INR (hits l) * INR (hits l) <= a * INR (Metrics.refs l) * INR (Metrics.hyps l)) /\
      (cb = false -> (a * INR (Metrics.refs l) = INR (hits l) <-> hits_first l)) /\
      (cb = true -> descending score l -> (a * INR (Metrics.refs l) = INR (hits l) <-> hits_above score l)).
  Proof.
    intros Z H. destruct (points_stand cb l Z H) as (rs & F & Ec & Hr & B). exists (value i t (points score cb l)). split; [apply value_ok|].
    destruct (value_found i t _ B) as (V1 & V2 & V3). destruct (stand_sums rs _ F) as (S1 & S2 & S3). rewrite Ec in *. rewrite S1, S2 in *.
    rewrite (Gain.points_refs score) in *. split; [exact V1|].
    assert (Cr := clean_runs rs _ F 0). change (INR 0) with 0 in Cr. change (clean 0 (points score cb l) <-> unspoilt rs) in Cr. rewrite V2, Cr.
    assert (Eh : INR (hypotheses (points score cb l)) = INR (Metrics.hyps l)).
    { f_equal. destruct cb; [exact (proj1 (collapse_totals score l))|apply hyps_map]. }
    rewrite Eh in *. split; [|split].
    - intros Ei. destruct (hypotheses (points score cb l)) as [|k] eqn:Ek.
      + cbn [INR] in Eh. rewrite <- Eh in *. assert (P1 := pos_INR (hits l)). assert (P2 := pos_INR (alarms l)). assert (E0 : INR (hits l) = 0) by lra. rewrite E0. lra.
      + specialize (V3 Ei ltac:(lia)). replace (INR (Metrics.hyps l) - INR (alarms l)) with (INR (hits l)) in V3 by lra. exact V3.
    - intros ->. subst rs. now apply unspoilt_first.
    - intros -> De. destruct (H eq_refl). now apply unspoilt_above.
  Qed.

  Lemma hits_first_cons (m : M) l : (forall x, In x (m :: l) -> zero_one (m_err x)) -> hits_first (m :: l) <-> (is_fp m -> hits l = 0%nat) /\ hits_first l.
  Proof.
    intros Z. assert (Zl : forall x, In x l -> zero_one (m_err x)) by (intros x I; apply Z; now right). split.
    - intros H. split.
      + intros Fm. destruct (hits l) eqn:E; [reflexivity|]. destruct (proj1 (hits_in l Zl)) as (b & I & Hb); [lia|].
        apply in_split in I as (v & w & ->). now elim (H [] m v b w eq_refl Fm).
      + intros u a v b w -> . exact (H (m :: u) a v b w eq_refl).
    - intros [H1 H2] u a v b w E Fa Hb. destruct u as [|x u]; cbn [app] in E; injection E as <- ->.
      + specialize (H1 Fa). assert (K : (0 < hits (v ++ b :: w))%nat) by (apply hits_in; [exact Zl|exists b; split; [apply in_elt|exact Hb]]). lia.
      + exact (H2 u a v b w eq_refl Fa Hb).
  Qed.

  Lemma relevances_hits (l : list M) : (forall m, In m l -> zero_one (m_err m)) -> Ndcg.count_true (relevances l) = hits l /\
    (hits_first l <-> exists k, relevances l = repeat true (hits l) ++ repeat false k).
  Proof.
    induction l as [|m l IH]; intros Z.
    - split; [reflexivity|]. split; [exists 0%nat; reflexivity|]. intros _ [|? u] a v b w K; discriminate.
    - destruct (IH (fun x I => Z x (or_intror I))) as [C1 C2]. rewrite (hits_first_cons m l Z), C2.
      destruct (kinds m (Z m (or_introl eq_refl))) as (_ & _ & Kh & K4 & K5). unfold relevances, hits, Ndcg.count_true in *. cbn [filter].
      destruct (is_hitb m) eqn:Eh.
      + assert (Fb : is_fpb m = false).
        { destruct (is_fpb m) eqn:Eb; [|reflexivity]. assert (Ef := proj1 K5 eq_refl). destruct (proj1 K4 eq_refl) as [Q _]. unfold is_fp in Ef. rewrite Q in Ef.
          assert (X := f_equal (fun y => f32_eq y f32_0) Ef). discriminate. }
        rewrite Fb in Kh. assert (N : me_nh (m_err m) = 1%nat) by (apply INR_eq; cbn [INR]; lra). rewrite N. change (Nat.ltb 0 1) with true; cbv iota. cbn [map filter]. rewrite Eh. cbn [length].
        split; [congruence|]. cbn [repeat app]. split.
        * intros [_ (k & E)]. exists k. now rewrite E.
        * intros (k & E). injection E as E. split; [|eauto]. intros F. apply K5 in F. congruence.
      + destruct (is_fpb m) eqn:Ef.
        * assert (N : me_nh (m_err m) = 1%nat) by (apply INR_eq; cbn [INR]; lra). rewrite N. change (Nat.ltb 0 1) with true; cbv iota. cbn [map filter]. rewrite Eh.
          split; [exact C1|]. split.
          -- intros [H0 (k & E)]. rewrite H0 in * by now apply K5. cbn [repeat app] in *. exists (Datatypes.S k). now rewrite E.
          -- intros (k & E). destruct (length (filter is_hitb l)) as [|n] eqn:En; [|discriminate]. split; [auto|]. cbn [repeat app] in *.
             destruct k as [|k]; [discriminate|]. cbn [repeat] in E. injection E as E. eauto.
        * assert (N : me_nh (m_err m) = 0%nat) by (apply INR_eq; cbn [INR]; lra). rewrite N. change (Nat.ltb 0 0) with false; cbv iota.
          split; [exact C1|]. split; [tauto|]. intros K. split; [|exact K]. intros F. apply K5 in F. discriminate.
  Qed.

  Lemma hits_le_refs (l : list M) : (forall m, In m l -> zero_one (m_err m)) -> (hits l <= Metrics.refs l)%nat.
  Proof.
    intros Z. unfold hits, Metrics.refs. induction l as [|m l IH]; [auto|]. rewrite total_cons. cbn [filter].
    specialize (IH (fun x I => Z x (or_intror I))). destruct (kinds m (Z m (or_introl eq_refl))) as (K & _). destruct (is_hitb m); cbn [length]; [|lia].
    enough (0 < me_nr (m_err m))%nat by lia. destruct (Z m (or_introl eq_refl)) as [_ Z2]. apply INR_lt. cbn [INR].
    destruct f32_1_R as [O _]. destruct Z2 as [E|E]; rewrite E, ?O, ?f32_0_R in K; lra.
  Qed.

  (** NDCG and the number of hits. *)
  Lemma ndcg_found cb (l : list M) : (forall m, In m l -> zero_one (m_err m)) -> (cb = true -> ranked score l /\ Z.of_nat (length l) <= 2 ^ 19)%Z ->
    let g := global_ndcg RArith RTrans score l cb in
    g * ideal (Metrics.refs l) <= ideal (hits l) /\ (cb = false -> (g * ideal (Metrics.refs l) = ideal (hits l) <-> hits_first l)).
  Proof.
    intros Z H g. assert (Hr := hits_le_refs l Z). destruct (relevances_hits l Z) as [C1 C2].
    destruct (Nat.eq_dec (Metrics.refs l) 0) as [R0|N].
    { assert (H0 : hits l = 0%nat) by lia. rewrite R0, H0. unfold ideal. cbn [repeat dcg]. rewrite Rmult_0_r. split; [lra|]. intros _. split; [|reflexivity].
      intros _ u a v b w -> _ Hb. assert (K : (0 < hits (u ++ a :: v ++ b :: w))%nat) by (apply hits_in; [exact Z|]; exists b; split; [rewrite app_comm_cons, app_assoc; apply in_elt|exact Hb]). lia. }
    assert (Pi : 0 < ideal (Metrics.refs l)) by (apply ideal_le; lia). destruct cb.
    - split; [|discriminate]. destruct (H eq_refl) as [Rk L].
      destruct (points_stand true l Z ltac:(intros _; split; [exact Rk|lia])) as (rs & F & Ec & Ar & B). unfold g, global_ndcg. rewrite Ndcg.ndcg_sum.
      rewrite (Gain.points_refs score). destruct (Nat.ltb_spec 0 (Metrics.refs l)) as [_|]; [|lia]. unfold ideal in *. rewrite <- !Ndcg.dsum_ideal in *.
      set (d := Ndcg.dsum 1 (Ndcg.gains _)). change (num RArith) with R. replace (d / Ndcg.dsum 1 (repeat 1 (Metrics.refs l)) * Ndcg.dsum 1 (repeat 1 (Metrics.refs l))) with d by (field; lra).
      assert (G : forall c, In c (points score true l) -> (0 < ec_nh c)%nat -> in01 (Ndcg.gain2 c) /\ INR (ec_nh c) * Ndcg.gain2 c <= gn c).
      { destruct Ar as [A1 A2 A3 A4]. assert (Lr : forall r, In r rs -> (length r <= length l)%nat).
        { intros r I. rewrite <- A1. clear - I. induction rs as [|x rs IH]; [destruct I|]. cbn [concat]. rewrite app_length. destruct I as [->|I]; [lia|]. specialize (IH I). lia. }
        intros c I N1. assert (Q : exists r, In r rs /\ stands r c).
        { clear - F I. induction F as [|r c' rs cs S1 F IH]; [destruct I|]. destruct I as [<-|I]; [exists r; split; [now left|exact S1]|].
          destruct (IH I) as (x & J & K). exists x. split; [now right|exact K]. }
        destruct Q as (r & Ir & S1 & S2 & S3). specialize (Lr r Ir).
        destruct (B c I) as (F1 & F2 & B1 & B2).
        assert (Ln : (ec_nh c <= length r)%nat).
        { apply INR_le. rewrite S3, <- plus_INR. apply le_INR. unfold hits, alarms. clear - Z Ir A1.
          assert (Zr : forall m, In m r -> zero_one (m_err m)) by (intros m J; apply Z; rewrite <- A1; apply in_concat; eauto). clear Ir A1.
          induction r as [|m r IH]; [auto|]. specialize (IH (fun x I => Zr x (or_intror I))). cbn [filter].
          destruct (kinds m (Zr m (or_introl eq_refl))) as (_ & _ & K & _). assert (K1 := Objects.nh_le_1 (m_err m)). apply le_INR in K1. cbn [INR] in K1.
          destruct (is_hitb m), (is_fpb m); cbn [length]; try lia. exfalso. lra. }
        destruct (Ndcg.run_gain c (Z.of_nat (alarms r)) N1) as [R1 R2]; [lia|exact F1|rewrite S2; apply INR_IZR_INZ| |].
        - split; [lia|]. apply le_IZR. rewrite <- !INR_IZR_INZ. rewrite S3. assert (P := pos_INR (hits r)). lra.
        - split; [exact R1|]. rewrite <- INR_IZR_INZ in R2. rewrite S1. lra. }
      apply Ndcg.dsum_max; [lia|apply Ndcg.gains_01; intros c I P; apply G; auto|]. rewrite Ndcg.gains_sum.
      destruct (stand_sums rs _ F) as (S1 & _). rewrite Ec in S1. rewrite <- S1. apply sum_of_le. intros c I.
      destruct (Nat.eq_dec (ec_nh c) 0) as [N0|N0]; [|apply G; auto; lia]. rewrite N0. cbn [INR]. rewrite Rmult_0_l.
      destruct (B c I) as (_ & _ & _ & B2). unfold AveragePrecision.gain. lra.
    - unfold g. rewrite (Ndcg.ndcg_textbook RE HE score l Z) by lia.
      change (num RArith) with R. replace (dcg 1 (relevances l) / ideal (Metrics.refs l) * ideal (Metrics.refs l)) with (dcg 1 (relevances l)) by (field; lra).
      split; [apply Ndcg.dcg_max; lia|]. intros _. rewrite C2. apply Ndcg.dcg_eq_max; lia.
  Qed.
End Lists.

(** ** Evaluations *)

Section Evaluations.
  Context {RE E : Type}.
  Notation HE := (scored E).
  Notation M := (match_t RE HE).
  Variables (lte : E -> E -> bool) (cr : Cmp RE) (Hr : total_order cr).
  Variables (rq : RE -> bytes) (hq : E -> bytes).
  Variables (S : EvSet RE HE) (R : list RE -> HE -> list RE -> Prop) (HS : finds S R).
  Variable scorer : RE -> HE -> match_error.
  Hypothesis Hac : forall r h, acceptable scorer r h -> scorer r h = MatchError f32_0 f32_0.
  Notation eval := (evaluation lte (c_lt cr) rq hq R scorer).

  (** The matches and the references with an acceptable hypothesis. *)
  Lemma evaluation_found crit f refs hyps (ms log : list M) gs : (forall h, In h hyps -> is_finite (sc_score h) = true) ->
    eval crit f refs hyps ms log gs ->
    (forall m, In m ms -> zero_one (m_err m)) /\ ranked sc_score ms /\ (List.length ms <= List.length refs + List.length hyps)%nat /\
    (forall ln, lists (fun r => In r refs /\ kept f (rq r)) ln -> Metrics.refs ms = List.length ln) /\
    (forall lk, lists (fun r => (In r refs /\ kept f (rq r)) /\ exists h, In h hyps /\ acceptable scorer r h) lk -> (hits ms <= List.length lk)%nat).
  Proof.
    intros Fi Ev. destruct (Evaluation.eval_refs lte cr Hr rq hq S R HS scorer _ _ _ _ _ _ _ Ev) as [N1 N2].
    destruct Ev as (r1 & h1 & rank & taken & found & missed & Sr & Sh & Rk & Mt & So & Mi & -> & G).
    destruct (Evaluation.ranking_in lte _ _ _ Rk) as [Ri Rl].
    assert (Ih : forall h, In h rank -> In h hyps) by (intros h I; apply Ri in I; now apply (Grouping.selects_in _ _ _ Sh) in I).
    destruct (matching_plain R scorer Hac _ _ _ _ _ (fun h I => Fi h (Ih h I)) Mt) as [Pl Rf].
    assert (Rm : Metrics.refs (found ++ map make_fn missed) = List.length (refs_of (found ++ map make_fn missed))).
    { unfold Metrics.refs in *. rewrite Matching.total_app, Matching.refs_app, app_length, Rf, Matching.refs_fn. f_equal.
      clear. induction missed as [|x l IH]; [reflexivity|]. cbn [map List.length]. rewrite total_cons, IH. reflexivity. }
    assert (Zo : forall m, In m (found ++ map make_fn missed) -> zero_one (m_err m)).
    { intros m I. apply in_app_or in I as [I|I]; [apply Pl, I|]. apply in_map_iff in I as (x & <- & _). split; cbn; auto. }
    split; [exact Zo|]. split; [|split; [|split]].
    - intros m I. apply in_app_or in I as [I|I].
      + destruct (Pl m I) as (_ & h & Eh & Fh). unfold Collapse.rank. rewrite Eh. now apply Rescore.finite_not_nan.
      + apply in_map_iff in I as (x & <- & _). reflexivity.
    - rewrite app_length, map_length. assert (L1 := Added.matching_length R scorer _ _ _ _ _ Mt). assert (L2 := Lifted.selects_length _ _ _ Sh). rewrite Rl in L1.
      enough (List.length missed <= List.length refs)%nat by lia. rewrite Matching.refs_app, Matching.refs_fn in N1, N2. apply NoDup_incl_length.
      + clear - N1. revert N1. generalize (refs_of found). intros u. induction u as [|z u IH]; [auto|]. intros N1. inversion N1. auto.
      + intros x I. apply (N2 x), in_or_app. now right.
    - intros ln [Nl Il]. rewrite Rm. apply same_length; auto. intros x. rewrite N2, Il. reflexivity.
    - intros lk [Nl Il]. rewrite hits_app. rewrite Matching.refs_app in N1.
      assert (H0 : hits (map (@make_fn RE HE) missed) = 0%nat) by (clear; unfold hits; induction missed as [|x l IH]; [reflexivity|exact IH]).
      rewrite H0, Nat.add_0_r. assert (Rs : forall x, In x (refs_of (filter is_hitb found)) -> In x (refs_of found)).
      { intros x I. apply in_flat_map in I as (m & I & J). apply filter_In in I as [I _]. apply in_flat_map. eauto. }
      assert (K : forall m, In m found -> is_hitb m = true -> exists r h, m_ref m = Some r /\ In h rank /\ acceptable scorer r h).
      { intros m I Hm. destruct (Matching.matching_members R scorer _ _ _ _ _ Mt m I) as (h & J & [(r & l & -> & _ & _ & A)|(l & -> & _)]).
        - exists r, h. split; [reflexivity|]. auto.
        - discriminate Hm. }
      assert (L : hits found = List.length (refs_of (filter is_hitb found))).
      { unfold hits. clear - K. induction found as [|m l IH]; [reflexivity|]. cbn [filter]. specialize (IH (fun x I => K x (or_intror I))).
        destruct (is_hitb m) eqn:Em; [|exact IH]. destruct (K m (or_introl eq_refl) Em) as (r & h & Er & _). unfold refs_of in *. cbn [flat_map]. rewrite Er. cbn [List.length app]. now rewrite IH. }
      rewrite L. apply NoDup_incl_length.
      + assert (N0 : NoDup (refs_of found)).
        { clear - N1. revert N1. generalize (refs_of found). intros u. induction u as [|z u IH]; [constructor|]. intros N1. inversion N1; subst. constructor; auto. intros J. apply H1, in_or_app. now left. }
        clear - N0. induction found as [|m l IH]; [constructor|]. cbn [filter]. unfold refs_of in *. cbn [flat_map] in N0.
        destruct (m_ref m) as [r|] eqn:Er; cbn [app] in N0.
        * inversion N0 as [|? ? N2 N3]; subst. destruct (is_hitb m); [|auto]. cbn [flat_map]. rewrite Er. cbn [app]. constructor; [|auto].
          intros J. apply N2. apply in_flat_map in J as (y & J1 & J2). apply filter_In in J1 as [J1 _]. apply in_flat_map. eauto.
        * destruct (is_hitb m); [|auto]. cbn [flat_map]. rewrite Er. cbn [app]. auto.
      + intros x I. apply Il. split; [apply N2; rewrite Matching.refs_app; apply in_or_app; left; auto|].
        apply in_flat_map in I as (m & I & J). apply filter_In in I as [I Hm]. destruct (K m I Hm) as (r & h & Er & Ih' & A). rewrite Er in J. destruct J as [->|[]].
        exists h. auto.
  Qed.
End Evaluations.

Lemma hits_perm {RE HE} (l l' : list (match_t RE HE)) : Permutation l l' -> hits l = hits l' /\ Metrics.hyps l = Metrics.hyps l'.
Proof.
  unfold hits, Metrics.hyps. induction 1 as [|x l l' P [I1 I2]|x y l|l1 l2 l3 _ [I1 I2] _ [I3 I4]]; [auto| | |].
  - rewrite !total_cons. cbn [filter]. destruct (is_hitb x); cbn [length]; split; congruence.
  - rewrite !total_cons. cbn [filter]. destruct (is_hitb x), (is_hitb y); cbn [length]; split; lia.
  - split; congruence.
Qed.

(** SimpleKwsEval: the references found and the false alarms. *)
Section Simple.
  Notation Ev := (event bytes bytes).
  Notation H := (scored Ev).
  Notation M := (match_t Ev H).
  Variables (id : bytes -> Z) (Inj : forall s s', id s = id s' -> s = s').

  Lemma simple_counts crit f refs hyps (ms log : list M) gs : (forall h, In h hyps -> is_finite (sc_score h) = true) ->
    simple_evaluation id crit f refs hyps ms log gs ->
    exists rank hs fps missed fd, ms = fd ++ map make_fn missed /\ Permutation fd (map Ties.hit hs ++ map make_fp fps) /\
      (forall h, In h rank <-> In h hyps /\ kept f (ev_query (sc_base h))) /\
      (forall r, found f refs hyps r <-> exists h, In h hs /\ sc_base h = r) /\
      (forall h, In h hs -> In h rank /\ exists a b, rank = a ++ h :: b /\ forall h', In h' a -> sc_base h' <> sc_base h) /\
      (forall g, In g fps <-> In g hyps /\ false_alarms f refs g) /\
      (crit = lit "desc" -> StronglySorted (fun a b => f32_lt (sc_score a) (sc_score b) = false) rank /\ descending sc_score ms) /\
      (forall lk, lists (found f refs hyps) lk -> hits ms = List.length lk) /\
      (forall lk la, lists (found f refs hyps) lk -> selects (false_alarms f refs) hyps la -> Metrics.hyps ms = (List.length lk + List.length la)%nat).
  Proof.
    intros Fi Sev. assert (Sev' := Sev). destruct Sev as (r1 & h1 & rank & taken & fd & missed & Sr & Sh & Rk & Mt & So & Mi & -> & G).
    destruct (Evaluation.ranking_in _ _ _ _ Rk) as [Ri Rl].
    destruct (Runs.first_rules_spec cmp_str Order.total_order_str cmp_str Order.total_order_str _ _ _ _ _ Mt) as [Fr Tk].
    destruct (Ties.first_rules_parts _ _ _ _ Fr) as (hs & fps & P & Nh & Ld & Sf).
    assert (Ik : forall h, In h rank <-> In h hyps /\ kept f (ev_query (sc_base h))) by (intros h; rewrite Ri; apply (Grouping.selects_in _ _ _ Sh)).
    assert (Ir : forall r, In r r1 <-> In r refs /\ kept f (ev_query r)) by (intros r; apply (Grouping.selects_in _ _ _ Sr)).
    assert (Fd : forall r, found f refs hyps r <-> exists h, In h hs /\ sc_base h = r).
    { intros r. split.
      - intros [[I K] J]. apply in_map_iff in J as (h & <- & J). destruct (Ties.leads_some Ties.event_dec r1 rank h) as (h' & L & B); [now apply Ik|now apply Ir|].
        exists h'. split; [now apply Ld|exact B].
      - intros (h & I & <-). apply Ld in I. assert (J := Ties.leads_in _ _ _ I). destruct I as [I _]. apply Ir in I. split; [exact I|]. apply in_map. now apply Ik in J. }
    assert (Ff : forall g, In g fps <-> In g hyps /\ false_alarms f refs g).
    { intros g. rewrite (Grouping.selects_in _ _ _ Sf). rewrite Ik. unfold false_alarms. split.
      - intros [[I K] N]. split; [exact I|]. split; [exact K|]. intros J. apply N, Ir. auto.
      - intros (I & K & N). split; [auto|]. intros J. apply Ir in J. tauto. }
    assert (Lh : forall lk, lists (found f refs hyps) lk -> List.length hs = List.length lk).
    { intros lk [Nl Il]. rewrite <- (map_length sc_base hs). apply same_length; auto.
      - clear - Nh Ld. assert (U : forall h h', In h hs -> In h' hs -> sc_base h = sc_base h' -> h = h') by (intros h h' I I'; apply (Ties.leads_fun r1 rank); now apply Ld).
        clear Ld. induction Nh as [|h hs N Nh IH]; [constructor|]. cbn [map]. constructor; [|apply IH; intros x y Ix Iy; apply U; now right].
        intros J. apply in_map_iff in J as (h' & B & J). apply N. rewrite (U h h'); [exact J|now left|now right|auto].
      - intros r. rewrite Il, Fd. rewrite in_map_iff. split; intros (h & A & B); exists h; auto. }
    assert (Hx : hits (map (@make_fn Ev H) missed) = 0%nat /\ Metrics.hyps (map (@make_fn Ev H) missed) = 0%nat).
    { clear. unfold hits, Metrics.hyps. induction missed as [|x l IH]; [auto|]. cbn [map]. rewrite total_cons. exact IH. }
    assert (Hh : hits (map Ties.hit hs) = List.length hs /\ Metrics.hyps (map Ties.hit hs) = List.length hs).
    { clear. unfold hits, Metrics.hyps. induction hs as [|x l [I1 I2]]; [auto|]. cbn [map]. rewrite total_cons. cbn [filter List.length]. rewrite <- I1 at 1. rewrite <- I2 at 1. split; reflexivity. }
    assert (Hf : hits (map (@make_fp Ev H) fps) = 0%nat /\ Metrics.hyps (map (@make_fp Ev H) fps) = List.length fps).
    { clear. unfold hits, Metrics.hyps. induction fps as [|x l [I1 I2]]; [auto|]. cbn [map]. rewrite total_cons. cbn [filter List.length]. rewrite <- I2 at 1. split; [exact I1|reflexivity]. }
    destruct (hits_perm _ _ P) as [P1 P2].
    exists rank, hs, fps, missed, fd. split; [reflexivity|]. split; [exact P|]. split; [exact Ik|]. split; [exact Fd|]. split; [|split; [exact Ff|split; [|split]]].
    - intros h I. apply Ld in I. split; [exact (Ties.leads_in _ _ _ I)|exact (proj2 I)].
    - intros ->. destruct (Ties.evaluation_parts id _ _ f refs hyps _ log gs Ties.flattens_desc Inj Fi Sev') as (_ & _ & _ & _ & _ & _ & _ & _ & _ & _ & _ & _ & _ & [Fl _] & _). split.
      + assert (Fi' : forall h, In h h1 -> is_finite (sc_score h) = true) by (intros h I; apply Fi; now apply (Grouping.selects_in _ _ _ Sh) in I).
        destruct (Ties.fl_rank _ _ Ties.flattens_desc _ _ _ _ Fi' Rk) as [_ S0]. revert S0. apply Ties.sorted_weaken. intros a b _ _ L. now rewrite Ties.unsigned_lt in L.
      + revert Fl. apply Ties.sorted_weaken. intros a b _ _ L. rewrite <- L. symmetry.
        unfold Collapse.rank, Ties.adjm, map_match. cbn [m_hyp]. destruct (m_hyp a) as [x|], (m_hyp b) as [y|]; cbn [option_map sc_score]; try reflexivity.
        * apply Ties.unsigned_lt.
        * apply (Ties.unsigned_lt (sc_score x) f32_ninf).
        * apply (Ties.unsigned_lt f32_ninf (sc_score y)).
    - intros lk L. rewrite hits_app, P1, hits_app. rewrite (proj1 Hx), (proj1 Hh), (proj1 Hf), (Lh lk L). lia.
    - intros lk la L Sa. unfold Metrics.hyps in *. rewrite Matching.total_app, P2, Matching.total_app. rewrite (proj2 Hx), (proj2 Hh), (proj2 Hf), (Lh lk L).
      enough (List.length fps = List.length la) by lia.
      assert (Pr : Permutation h1 rank).
      { destruct Rk as [(_ & Pm & _)|[(_ & Pm & _)|(_ & _ & ->)]]; auto. }
      destruct (Runs.selects_perm _ _ _ (Permutation_sym Pr) _ Sf) as (s1 & S1 & Ps). rewrite (Permutation_length Ps).
      assert (S2 := Raised.selects_compose _ _ _ _ _ Sh S1). f_equal.
      apply (Queries.selects_fun (false_alarms f refs) hyps); [|exact Sa]. revert S2. apply Parts.selects_in_iff. intros g I. unfold false_alarms. split; intros [K N]; (split; [exact K|]); intros J; apply N.
      + apply Ir. auto.
      + now apply Ir in J.
  Qed.

  (** Hits first, hits above and the scores of the references found. *)
  Lemma simple_firsts f refs hyps (ms log : list M) gs : (forall h, In h hyps -> is_finite (sc_score h) = true) ->
    simple_evaluation id (lit "desc") f refs hyps ms log gs ->
    descending sc_score ms /\ (hits_above sc_score ms <-> found_above f refs hyps) /\
    (found_above f refs hyps -> hits_first ms) /\ (hits_first ms -> found_not_below f refs hyps).
  Proof.
    intros Fi Sev. destruct (simple_counts _ _ _ _ _ _ _ Fi Sev) as (rank & hs & fps & missed & fd & -> & P & Ik & Fd & Lh & Ff & So & _).
    destruct (So eq_refl) as [Sr De]. clear So.
    assert (Hi : forall m, In m (fd ++ map make_fn missed) <-> (exists h, In h hs /\ m = Ties.hit h) \/ (exists g, In g fps /\ m = make_fp g) \/ (exists r, In r missed /\ m = make_fn r)).
    { intros m. rewrite in_app_iff. assert (K : In m fd <-> In m (map Ties.hit hs ++ map make_fp fps)) by (split; apply Permutation_in; auto using Permutation_sym).
      rewrite K, in_app_iff, !in_map_iff. split.
      - intros [[(h & <- & I)|(h & <- & I)]|(h & <- & I)]; eauto.
      - intros [(h & I & ->)|[(h & I & ->)|(h & I & ->)]]; eauto. }
    assert (Nfp : forall m, In m (fd ++ map make_fn missed) -> is_fp m -> exists g, In g fps /\ m = make_fp g).
    { intros m I Fm. apply Hi in I as [(h & I & ->)|[K|(h & I & ->)]]; [|exact K|]; exfalso; assert (X := f_equal (fun y => f32_eq y f32_0) Fm); discriminate. }
    assert (Nh : forall m, In m (fd ++ map make_fn missed) -> is_hit m -> exists h, In h hs /\ m = Ties.hit h).
    { intros m I [Fm Fn]. apply Hi in I as [K|[(h & I & ->)|(h & I & ->)]]; [exact K| |]; exfalso.
      - assert (X := f_equal (fun y => f32_eq y f32_0) Fm). discriminate.
      - assert (X := f_equal (fun y => f32_eq y f32_0) Fn). discriminate. }
    assert (Hfp : forall g, is_fp (@make_fp Ev H g)) by reflexivity. assert (Hhit : forall h : H, is_hit (Ties.hit h)) by (split; reflexivity).
    assert (Top : forall h h', In h hs -> In h' hyps -> sc_base h' = sc_base h -> f32_lt (sc_score h) (sc_score h') = false).
    { intros h h' I I' B. destruct (Lh h I) as (I0 & a & b & Er & N). assert (J : In h' rank). { apply Ik. split; [exact I'|]. rewrite B. now apply Ik in I0. }
      rewrite Er in J, Sr. apply in_app_or in J as [J|[<-|J]]; [elim (N h' J B)|destruct (Order.f32_lt_irrefl (sc_score h)); reflexivity|].
      clear - Sr J. induction a as [|x a IH]; cbn [app] in Sr; inversion Sr as [|? ? S1 F1]; subst; [|auto]. rewrite Forall_forall in F1. auto. }
    assert (Fa : hits_above sc_score (fd ++ map make_fn missed) <-> found_above f refs hyps).
    { split.
      - intros A r g Fr Ig Al. apply Fd in Fr as (h & Ih & <-). exists h. destruct (Lh h Ih) as (I0 & _). split; [now apply Ik in I0|]. split; [reflexivity|].
        apply (A (make_fp g) (Ties.hit h)); [apply Hi; right; left; exists g; split; [now apply Ff|reflexivity]|apply Hi; left; eauto|apply Hfp|apply Hhit].
      - intros A a b Ia Ib Fpa Hb. destruct (Nfp a Ia Fpa) as (g & Ig & ->). destruct (Nh b Ib Hb) as (h & Ih & ->). apply Ff in Ig as [Ig Al].
        destruct (A (sc_base h) g) as (h' & Ih' & B & L); [apply Fd; eauto|auto|auto|]. change (f32_lt (sc_score g) (sc_score h) = true).
        assert (T := Top h h' Ih Ih' B). destruct (Lh h Ih) as (I0 & _). apply Ik in I0 as [I0 _].
        assert (F1 := Rescore.finite_not_nan _ (Fi h I0)). assert (F2 := Rescore.finite_not_nan _ (Fi h' Ih')). assert (F3 := Rescore.finite_not_nan _ (Fi g Ig)).
        destruct (Order.f32_total _ _ F1 F2) as [K|[K|K]]; [congruence| |].
        + rewrite (Order.f32_lt_eq_r _ _ _ K). exact L.
        + exact (Order.f32_lt_trans _ _ _ L K). }
    split; [exact De|]. split; [exact Fa|]. split.
    - intros A u a v b w E Fpa Hb. apply Fa in A. specialize (A a b). rewrite E in A, De. specialize (A (in_elt _ _ _) ltac:(rewrite app_comm_cons, app_assoc; apply in_elt) Fpa Hb).
      clear - De A. induction u as [|x u IH]; cbn [app] in De; inversion De as [|? ? S1 F1]; subst; [|auto]. rewrite Forall_forall in F1.
      rewrite (F1 b) in A; [discriminate|apply in_elt].
    - intros A r g Fr Ig Al. apply Fd in Fr as (h & Ih & <-). exists h. destruct (Lh h Ih) as (I0 & _). split; [now apply Ik in I0|]. split; [reflexivity|].
      assert (I1 : In (Ties.hit h) (fd ++ map make_fn missed)) by (apply Hi; left; eauto).
      assert (I2 : In (make_fp g) (fd ++ map make_fn missed)) by (apply Hi; right; left; exists g; split; [now apply Ff|reflexivity]).
      apply in_split in I1 as (u & w & E). rewrite E in A, De, I2. apply in_app_or in I2 as [I2|[I2|I2]].
      + apply in_split in I2 as (x & y & ->). exfalso. apply (A x (make_fp g) y (Ties.hit h) w); [now rewrite <- app_assoc|apply Hfp|apply Hhit].
      + discriminate I2.
      + clear - De I2. induction u as [|x u IH]; cbn [app] in De; inversion De as [|? ? S1 F1]; subst; [|auto]. rewrite Forall_forall in F1. exact (F1 _ I2).
  Qed.
End Simple.

(** ** The runs *)

Section Tools.
  Variables (srt : sort_fn) (Hs : sort_contract srt).
  Variables (rngs : Z -> rng) (show_int : Z -> bytes) (show_f64 : f64 -> bytes).
  Notation icdar := (icdar17 RArith RTrans srt rngs show_int show_f64).
  Notation simple := (simple_kws RArith RTrans srt rngs show_int show_f64).

  Lemma icdar_found w pn args c refs hyps f ln lk : command args c -> no_bootstrap c ->
    inputs shaped_text scored_shaped_text w c refs hyps f -> lists (wanted f refs) ln ->
    lists (fun r => wanted f refs r /\ exists h, In h hyps /\ accepted (ioh_scorer cmp_str f32_half r (sc_base h))) lk ->
    (cf_collapse c = true -> Z.of_nat (List.length refs + List.length hyps) <= 2 ^ 24)%Z ->
    exists gap vap gndcg vndcg : R, prints (A := RArith) (fst (icdar w pn args)) gap vap gndcg vndcg /\
      gap * INR (List.length ln) <= INR (List.length lk) /\
      ((cf_collapse c = true -> Z.of_nat (List.length refs + List.length hyps) <= 2 ^ 19)%Z -> gndcg * ideal (List.length ln) <= ideal (List.length lk)).
  Proof.
    intros Cm NB I Ln Lk Sz. destruct (icdar w pn args) as [l e] eqn:Et. cbn [fst].
    destruct (Instances.icdar_run RTrans srt Hs rngs show_int show_f64 w pn args c refs _ f l e Cm NB I Et) as (ms & log & gs & Fi & Ev & Rp).
    do 4 eexists. split; [exact (reported_values srt _ _ _ _ _ _ _ Rp)|].
    destruct (evaluation_found _ cmp_shaped Order.total_order_shaped ev_query ev_query
      (evset_docbox srt cmp_str) (box_search cmp_str) (Matching.finds_docbox srt cmp_str Hs Order.total_order_str)
      (fun r h => ioh_scorer cmp_str f32_half r (sc_base h)) (fun r h A => proj1 (Added.ioh_acceptable r h) A) _ _ _ _ _ _ _ Fi Ev) as (Z1 & Rk & Le & Rn & Hk).
    assert (Rn' : Metrics.refs ms = List.length ln) by exact (Rn ln Ln). clear Rn. rename Rn' into Rn. assert (Lk' : (hits ms <= List.length lk)%nat).
    { apply Hk. destruct Lk as [N J]. split; [exact N|]. intros r. rewrite J. unfold wanted. split; intros [W (h & Ih & A)]; (split; [exact W|]); exists h; (split; [exact Ih|]); now apply Added.ioh_acceptable. }
    split.
    - destruct (ap_found sc_score (cf_collapse c) (cf_interp c) (cf_trapezoid c) ms Z1) as (a & Ea & A1 & _); [intros Cc; split; [exact Rk|exact (Z.le_trans _ _ _ (proj1 (Nat2Z.inj_le _ _) Le) (Sz Cc))]|].
      rewrite global_value in Ea. injection Ea as Ea. rewrite Ea, <- Rn. apply (Rle_trans _ _ _ A1). now apply le_INR.
    - intros Sz'. destruct (ndcg_found sc_score (cf_collapse c) ms Z1) as [A1 _]; [intros Cc; split; [exact Rk|exact (Z.le_trans _ _ _ (proj1 (Nat2Z.inj_le _ _) Le) (Sz' Cc))]|].
      rewrite <- Rn. apply (Rle_trans _ _ _ A1). clear - Lk'. induction Lk' as [|m _ IH]; [lra|]. destruct (ideal_le m) as [[_ K] _]. lra.
  Qed.

  Lemma simple_found qf w pn args c refs hyps f ln lk la : command args c -> no_bootstrap c ->
    inputs str_event_text scored_str_event_text w c refs hyps f -> (Z.of_nat (strings refs hyps f) <= 2147483648)%Z ->
    lists (wanted f refs) ln -> lists (found f refs hyps) lk -> selects (false_alarms f refs) hyps la ->
    (cf_collapse c = true -> Z.of_nat (List.length refs + List.length hyps) <= 2 ^ 24)%Z ->
    let n := List.length ln in let k := List.length lk in
    exists gap vap gndcg vndcg : R, prints (A := RArith) (fst (simple qf w pn args)) gap vap gndcg vndcg /\
      gap * INR n <= INR k /\ (cf_interp c = true -> INR k * INR k <= gap * INR n * INR (k + List.length la)) /\
      ((cf_collapse c = true -> Z.of_nat (List.length refs + List.length hyps) <= 2 ^ 19)%Z -> gndcg * ideal n <= ideal k) /\
      (cf_sort c = lit "desc" ->
        (found_above f refs hyps -> gap * INR n = INR k) /\ (gap * INR n = INR k -> found_not_below f refs hyps) /\
        (cf_collapse c = true -> gap * INR n = INR k -> found_above f refs hyps) /\
        (cf_collapse c = false -> (gap * INR n = INR k <-> gndcg * ideal n = ideal k))).
  Proof.
    intros Cm NB I Ls Ln Lk La Sz n k. destruct (simple qf w pn args) as [l e] eqn:Et. rewrite Instances.simple_tool in Et. cbn [fst].
    destruct (Instances.simple_run RTrans srt Hs rngs show_int show_f64 w qf pn args c refs hyps f l e Cm NB I Et Ls) as (id & ms & log & gs & Inj & Fi & Ev & Rp).
    do 4 eexists. split; [exact (reported_values srt _ _ _ _ _ _ _ Rp)|].
    assert (E1 : ap (cf_collapse c) (cf_interp c) (cf_trapezoid c) (map (renamed_match id) ms) = ap (cf_collapse c) (cf_interp c) (cf_trapezoid c) ms).
    { unfold ap. now rewrite Ties.points_names. }
    assert (E2 : gain (cf_collapse c) (map (renamed_match id) ms) = gain (cf_collapse c) ms) by (unfold gain; now rewrite Ties.points_names).
    rewrite E1, E2. clear E1 E2 Rp.
    assert (Hac : forall r (h : scored (event bytes bytes)), acceptable (fun r h => trivial_scorer cmp_str cmp_str r (sc_base h)) r h ->
      trivial_scorer cmp_str cmp_str r (sc_base h) = MatchError f32_0 f32_0).
    { intros x h A. apply Added.trivial_acceptable in A. subst x. apply Added.trivial_same. }
    destruct (evaluation_found (c_lt (Results.by_id id)) (Results.by_id id) (Results.by_id_total id Inj) ev_query ev_query
      (evset_generic (Results.by_id id)) exact_search (Matching.finds_generic _ (Results.by_id_total id Inj))
      (fun r h => trivial_scorer cmp_str cmp_str r (sc_base h)) Hac _ _ _ _ _ _ _ Fi Ev) as (Z1 & Rk & Le & Rn & _).
    assert (Rn' : Metrics.refs ms = List.length ln) by exact (Rn ln Ln). clear Rn. rename Rn' into Rn.
    destruct (simple_counts id Inj _ _ _ _ _ _ _ Fi Ev) as (_ & _ & _ & _ & _ & _ & _ & _ & _ & _ & _ & _ & Hk & Hh).
    specialize (Hh lk la Lk La). specialize (Hk lk Lk). unfold n, k.
    destruct (ap_found sc_score (cf_collapse c) (cf_interp c) (cf_trapezoid c) ms Z1) as (a & Ea & A1 & A2 & A3 & A4); [intros Cc; split; [exact Rk|exact (Z.le_trans _ _ _ (proj1 (Nat2Z.inj_le _ _) Le) (Sz Cc))]|].
    rewrite global_value in Ea. injection Ea as Ea. rewrite Ea. rewrite Rn, Hk in *. rewrite Hh in A2.
    split; [exact A1|]. split; [exact A2|]. split.
    - intros Sz'. destruct (ndcg_found sc_score (cf_collapse c) ms Z1) as [G1 _]; [intros Cc; split; [exact Rk|exact (Z.le_trans _ _ _ (proj1 (Nat2Z.inj_le _ _) Le) (Sz' Cc))]|].
      rewrite Rn, Hk in G1. exact G1.
    - intros Cs. rewrite Cs in Ev. destruct (simple_firsts id Inj _ _ _ _ _ _ Fi Ev) as (De & F1 & F2 & F3).
      destruct (cf_collapse c) eqn:Cc.
      + specialize (A4 eq_refl De). split; [intros K; now apply A4, F1|]. split; [|split; [intros _ K; now apply F1, A4|discriminate]].
        intros K. apply A4, F1 in K. intros r g Fr Ig Al. destruct (K r g Fr Ig Al) as (h & B1 & B2 & B3). exists h. split; [exact B1|]. split; [exact B2|]. now apply Order.f32_lt_asym.
      + specialize (A3 eq_refl). split; [intros K; now apply A3, F2|]. split; [intros K; now apply F3, A3|]. split; [discriminate|]. intros _.
        destruct (ndcg_found sc_score false ms Z1) as [_ G2]; [discriminate|]. specialize (G2 eq_refl). rewrite Rn, Hk in G2. rewrite A3. symmetry. exact G2.
  Qed.
End Tools.
