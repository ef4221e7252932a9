(** Proofs about rankings with one more match. *)
From Coq Require Import List Bool ZArith Sorted Reals Lra Lia Permutation.
From Flocq Require Import Core BinarySingleNaN.
From Verif.Model Require Import Cpp Floats Events Matches Assessment.
From Verif.Spec Require Import Order Objects Matching Collapse Metrics Better.
From Verif.Proofs Require Import FloatFacts Collapse Metrics Better Hoist.
From Verif.Proofs Require Matching AveragePrecision Ndcg Order Ties Curves Rescore Raised Lifted.
Import ListNotations.
Local Open Scope R_scope.

(** ** Interpolation *)

Lemma inter_mono i l l' : ple l l' -> ple (inter i l) (inter i l').
Proof. destruct i; [apply interp_mono|auto]. Qed.

Lemma interp_prefix p e : exists X, interp RArith (p ++ e) = X ++ interp RArith e /\ length X = length p /\ ple (interp RArith p) X.
Proof.
  induction p as [|z p (X & E & L & F)]; [exists []; repeat split; constructor|]. cbn [app].
  destruct p as [|z' p].
  - destruct X; [|discriminate]. destruct e as [|q e]; [exists [z]; repeat split; constructor; auto; lra|].
    cbn [app]. rewrite interp_cons by discriminate. exists [Rmax z (hd 0 (interp RArith (q :: e)))]. split; [reflexivity|]. split; [reflexivity|].
    constructor; [apply Rmax_l|constructor].
  - rewrite (interp_cons z (z' :: p)), (interp_cons z ((z' :: p) ++ e)) by discriminate. rewrite E.
    exists (Rmax z (hd 0 (X ++ interp RArith e)) :: X). split; [reflexivity|]. split; [cbn in *; congruence|]. constructor; [|exact F].
    destruct X as [|a X]; [discriminate|]. destruct (interp RArith (z' :: p)) as [|b l]; inversion F; subst. cbn [app hd]. now apply Rle_max_compat_l.
Qed.

Lemma interp_hd_le e z : (forall x, In x e -> x <= z) -> e <> [] -> hd 0 (interp RArith e) <= z.
Proof.
  induction e as [|q e IH]; intros H N; [congruence|]. destruct e as [|q' e]; [cbn; apply H; now left|].
  rewrite interp_cons by discriminate. cbn [hd]. apply Rmax_lub; [apply H; now left|]. apply IH; [intros x I; apply H; now right|discriminate].
Qed.

(** Lower values at the end do not change the others. *)
Lemma inter_end i p z e : (forall x, In x e -> x <= z) -> inter i ((p ++ [z]) ++ e) = inter i (p ++ [z]) ++ inter i e.
Proof.
  intros H. destruct i; [|reflexivity]. cbn [inter]. destruct e as [|q e]; [now rewrite !app_nil_r|].
  rewrite <- app_assoc. cbn [app].
  assert (K := interp_hd_le (q :: e) z H ltac:(discriminate)).
  assert (Ez : interp RArith (z :: q :: e) = z :: interp RArith (q :: e)) by (rewrite interp_cons by discriminate; now rewrite Rmax_left).
  destruct (interp_same p (z :: q :: e) [z] ltac:(discriminate) ltac:(discriminate)) as (X & E & E' & _); [rewrite Ez; reflexivity|].
  change (num RArith) with R in *. rewrite E, E', Ez. cbn [interp]. now rewrite <- app_assoc.
Qed.

(** ** Areas *)

Lemma area_flat t : forall e prev s re, Forall (eq s) re -> area_rec t prev s e re = 0.
Proof.
  induction e as [|p e IH]; intros prev s re F; [reflexivity|]. destruct F as [|r re <- F]; [reflexivity|]. cbn [area_rec].
  rewrite IH by exact F. lra.
Qed.

Lemma area_nonneg t : forall e prev s re, (forall z, prev = Some z -> 0 <= z) -> (forall x, In x e -> 0 <= x) -> StronglySorted Rle (s :: re) ->
  0 <= area_rec t prev s e re.
Proof.
  induction e as [|p e IH]; intros prev s re Hp He So; [cbn; lra|]. destruct re as [|r re]; [cbn; lra|]. cbn [area_rec].
  inversion So as [|? ? So' F]; subst. inversion F; subst.
  assert (K := IH (Some p) r re ltac:(intros z [= <-]; apply He; now left) (fun x I => He x (or_intror I)) So').
  assert (P := He p (or_introl eq_refl)).
  assert (0 <= height RArith t prev p * (r - s)).
  { apply Rmult_le_pos; [|lra]. rewrite height_R. destruct prev as [q|]; [|destruct t; lra]. specialize (Hp q eq_refl). destruct t; lra. }
  change (0 <= height RArith t prev p * (r - s) + area_rec t (Some p) r e re). lra.
Qed.

Lemma inter_length i p : length (inter i p) = length p.
Proof. destruct i; [apply (interp_length RArith)|reflexivity]. Qed.

(** Points of no width and no higher precision at the end. *)
Lemma blank_end i t p e rc re : length p = length rc -> (forall z, last (map Some p) None = Some z -> forall x, In x e -> x <= z) ->
  Forall (eq (last rc 0)) re -> area_rec t None 0 (inter i (p ++ e)) (rc ++ re) = area_rec t None 0 (inter i p) rc.
Proof.
  intros L H F. destruct p as [|z p _] using rev_ind.
  - destruct rc; [|discriminate]. cbn [app]. rewrite area_flat by exact F. destruct i; reflexivity.
  - rewrite inter_end by (apply (H z); rewrite map_app; apply last_last).
    rewrite area_app by (rewrite <- L; apply inter_length).
    rewrite (area_flat t (inter i e)) by exact F. lra.
Qed.

Lemma inter_nonneg i p : (forall x, In x p -> 0 <= x) -> forall x, In x (inter i p) -> 0 <= x.
Proof.
  destruct i; [|auto]. cbn [inter]. induction p as [|q p IH]; intros H x I; [destruct I|]. destruct p as [|q' p]; [apply H, I|].
  rewrite interp_cons in I by discriminate. destruct I as [<-|I]; [eapply Rle_trans; [apply H; now left|apply Rmax_l]|].
  apply IH; [intros y J; apply H; now right|exact I].
Qed.

(** More points at the end do no harm. *)
Lemma longer i t p e rc re : length p = length rc -> (forall x, In x (p ++ e) -> 0 <= x) -> StronglySorted Rle (0 :: rc ++ re) ->
  area_rec t None 0 (inter i p) rc <= area_rec t None 0 (inter i (p ++ e)) (rc ++ re).
Proof.
  intros L H So.
  assert (exists X, inter i (p ++ e) = X ++ inter i e /\ length X = length p /\ ple (inter i p) X) as (X & E & Lx & F).
  { destruct i; [apply interp_prefix|]. exists p. cbn. repeat split. apply ple_refl. }
  assert (Hn := inter_nonneg i (p ++ e) H). rewrite E in *. rewrite area_app by congruence.
  inversion So as [|? ? So' Fs]; subst. apply sorted_app_inv in So' as (S1 & S2 & S3). rewrite Forall_forall in Fs.
  assert (K := area_mono t (inter i p) X None None 0 rc Logic.I F ltac:(constructor; [exact S1|apply Forall_forall; intros y J; apply Fs, in_or_app; auto])).
  enough (0 <= area_rec t (last (map Some X) None) (last rc 0) (inter i e) re) by lra.
  apply area_nonneg.
  - intros z Hz. apply Hn, in_or_app. left. destruct X as [|w X _] using rev_ind; [discriminate|].
    rewrite map_app in Hz. cbn [map] in Hz. rewrite last_last in Hz. injection Hz as <-. apply in_elt.
  - intros x J. apply Hn, in_or_app. auto.
  - constructor; [exact S2|]. apply Forall_forall. intros y J. destruct rc as [|w rc _] using rev_ind; [apply Fs, J|].
    rewrite last_last. apply S3; [apply in_elt|exact J].
Qed.

(** ** The curve *)

Lemma recalls t w : (forall x, In x w -> bounded x) -> StronglySorted Rle (0 :: map snd (pr_loop RArith t 0 0 0 0 w)).
Proof.
  intros Bw. destruct (Nat.eq_dec t 0) as [->|N].
  - assert (R1 : forall k h f m, Forall (eq 1) (map snd (pr_loop RArith 0 k h f m w))).
    { clear. induction w as [|e w IH]; intros k h f m; cbn; constructor; auto. }
    specialize (R1 0%nat 0%nat 0 0). revert R1. generalize (map snd (pr_loop RArith 0 0 0 0 0 w)). intros l F.
    assert (So : StronglySorted Rle l).
    { induction F as [|x l <- F IH]; constructor; auto. eapply Forall_impl; [|exact F]. intros a <-. lra. }
    constructor; [exact So|]. eapply Forall_impl; [|exact F]. intros a <-. lra.
  - enough (G : forall nr nh fp fn, fn <= INR nr -> StronglySorted Rle ((INR nr - fn) / INR t :: map snd (pr_loop RArith t nr nh fp fn w))).
    { specialize (G 0%nat 0%nat 0 0 (Rle_refl _)). cbn [INR] in G. unfold Rdiv in G at 1. rewrite Rminus_0_r, Rmult_0_l in G. exact G. }
    assert (Tp : 0 < INR t) by (apply lt_0_INR; lia).
    induction w as [|e w IH]; intros nr nh fp fn L; cbn [pr_loop map snd]; [constructor; constructor|].
    destruct (Bw e (or_introl eq_refl)) as (_ & _ & _ & B1 & B2).
    rewrite recall_R by lia. cbn [a_add a_f32 RArith].
    assert (So := IH (fun x J => Bw x (or_intror J)) (nr + ec_nr e)%nat (nh + ec_nh e)%nat (fp + B2R (ec_fp e)) (fn + B2R (ec_fn e))
      ltac:(rewrite plus_INR; lra)).
    assert (H : (INR nr - fn) / INR t <= (INR (nr + ec_nr e) - (fn + B2R (ec_fn e))) / INR t).
    { apply div_mono; [assumption|]. rewrite plus_INR. lra. }
    constructor; [exact So|]. inversion So as [|? ? So' F]; subst. constructor; [exact H|]. rewrite Forall_forall in *.
    intros y J. eapply Rle_trans; [exact H|apply F, J].
Qed.

Lemma precisions t w : (forall x, In x w -> bounded x) -> forall x, In x (map fst (pr_loop RArith t 0 0 0 0 w)) -> 0 <= x.
Proof.
  enough (G : (forall x, In x w -> bounded x) -> forall nr nh fp fn, 0 <= fp <= INR nh -> forall x, In x (map fst (pr_loop RArith t nr nh fp fn w)) -> 0 <= x).
  { intros Bw. apply (G Bw). cbn. lra. }
  intros Bw. induction w as [|e w IH]; intros nr nh fp fn B x I; [destruct I|]. cbn [pr_loop map fst] in I.
  destruct (Bw e (or_introl eq_refl)) as (_ & _ & [B1 B2] & _). cbn [a_add a_f32 RArith] in I.
  assert (B' : 0 <= fp + B2R (ec_fp e) <= INR (nh + ec_nh e)) by (rewrite plus_INR; lra).
  destruct I as [<-|I]; [|exact (IH (fun y J => Bw y (or_intror J)) _ _ _ _ B' x I)].
  unfold precision_of. destruct (Nat.ltb_spec 0 (nh + ec_nh e)) as [H|H]; [|unfold a1; cbn; lra].
  apply lt_0_INR in H. change (0 <= 1 - (fp + B2R (ec_fp e)) / INR (nh + ec_nh e)).
  enough ((fp + B2R (ec_fp e)) / INR (nh + ec_nh e) <= 1 / 1) by lra. apply div_le; lra.
Qed.

(** One more false alarm before. *)
Lemma lower_tail n v : (forall x, In x v -> bounded x) -> forall nr nh fp fn, 0 <= fp <= INR nh ->
  map snd (pr_loop RArith n nr (nh + 1) (fp + 1) fn v) = map snd (pr_loop RArith n nr nh fp fn v) /\
  ple (map fst (pr_loop RArith n nr (nh + 1) (fp + 1) fn v)) (map fst (pr_loop RArith n nr nh fp fn v)).
Proof.
  intros Bv. induction v as [|e v IH]; intros nr nh fp fn B; [split; constructor|]. cbn [pr_loop map fst snd].
  destruct (Bv e (or_introl eq_refl)) as (_ & _ & [B1 B2] & _). cbn [a_add a_f32 RArith].
  replace (nh + 1 + ec_nh e)%nat with (nh + ec_nh e + 1)%nat by lia. replace (fp + 1 + B2R (ec_fp e)) with (fp + B2R (ec_fp e) + 1) by lra.
  assert (B' : 0 <= fp + B2R (ec_fp e) <= INR (nh + ec_nh e)) by (rewrite plus_INR; lra).
  destruct (IH (fun x I => Bv x (or_intror I)) (nr + ec_nr e)%nat (nh + ec_nh e)%nat _ (fn + B2R (ec_fn e)) B') as [E F].
  split; [f_equal; exact E|]. constructor; [|exact F]. rewrite Nat.add_1_r. now apply precision_alarm.
Qed.

(** The curve after its last point. *)
Lemma curve_end n u : u <> [] -> exists x z, map fst (pr_loop RArith n 0 0 0 0 u) = x ++ [z] /\ length (x ++ [z]) = length (map snd (pr_loop RArith n 0 0 0 0 u)) /\
  z = precision_of RArith (hypotheses u) (false_positives u) /\ last (map snd (pr_loop RArith n 0 0 0 0 u)) 0 = recall_of RArith n (references u) (misses u).
Proof.
  intros N. destruct u as [|e u' _] using rev_ind; [congruence|]. set (w := u' ++ [e]).
  destruct (pr_loop_app n u' 0 0 0 0 [e]) as (nr & nh & fp & fn & E & -> & -> & -> & ->).
  eexists _, _. split; [unfold w; rewrite E, map_app; reflexivity|]. split; [unfold w; rewrite E, map_app, !app_length, !map_length; reflexivity|]. split.
  - apply (pr_last_precision n). unfold w. rewrite E, !map_app. cbn [pr_loop map fst]. apply last_last.
  - destruct (Nat.eq_dec n 0) as [Hn|Hn].
    + unfold w. rewrite E, map_app. cbn [pr_loop map snd]. rewrite last_last. rewrite Hn. reflexivity.
    + now rewrite pr_last_recall, recall_R by lia.
Qed.

Notation hit := (Counts f32_0 f32_0 1 1).
Notation alarm := (Counts f32_1 f32_0 1 0).

Lemma alarm_bounded : bounded alarm.
Proof. destruct f32_1_R as [O O']. assert (Z := f32_0_R). repeat split; cbn [ec_fp ec_fn ec_nh ec_nr INR]; rewrite ?O, ?Z; auto; lra. Qed.

Lemma hit_bounded : bounded hit.
Proof. assert (Z := f32_0_R). repeat split; cbn [ec_fp ec_fn ec_nh ec_nr INR]; rewrite ?Z; lra. Qed.

(** A further false alarm. *)
Lemma more_alarm u v i t : (forall c, In c (u ++ v) -> bounded c) -> value i t (u ++ alarm :: v) <= value i t (u ++ v).
Proof.
  intros Bu. destruct f32_1_R as [O _]. assert (Z := f32_0_R).
  unfold value, curve. rewrite !total_refs.
  assert (Et : references (u ++ alarm :: v) = references (u ++ v)) by (unfold references; rewrite !Matching.total_app; reflexivity).
  rewrite Et. set (n := references (u ++ v)).
  assert (Bx : forall x, In x u -> bounded x) by (intros x I; apply Bu, in_or_app; auto).
  assert (By : forall x, In x v -> bounded x) by (intros x I; apply Bu, in_or_app; auto).
  assert (K := fp_le_nh u Bx u (fun c I => I)).
  assert (Rs : StronglySorted Rle (0 :: map snd (pr_loop RArith n 0 0 0 0 (u ++ alarm :: v)))).
  { apply recalls. intros x I. apply in_app_or in I as [I|[<-|I]]; auto using alarm_bounded. }
  destruct (pr_loop_app n u 0 0 0 0 (alarm :: v)) as (nr & nh & fp & fn & E1 & -> & -> & -> & ->). rewrite E1 in *.
  destruct (pr_loop_app n u 0 0 0 0 v) as (nr & nh & fp & fn & -> & -> & -> & -> & ->).
  cbn [pr_loop ec_nr ec_nh ec_fp ec_fn a_add a_f32 RArith] in *. rewrite !map_app in *. cbn [map fst snd] in *. rewrite Z, O in *.
  rewrite ?Nat.add_0_l, ?Rplus_0_l, ?Rplus_0_r, ?Nat.add_0_r in *.
  destruct (lower_tail n v By (references u) (hypotheses u) (false_positives u) (misses u) K) as [Es Fp].
  set (w := precision_of RArith (hypotheses u + 1) (false_positives u + 1)) in *.
  set (r := recall_of RArith n (references u) (misses u)) in *.
  rewrite Es in *. change (num RArith) with R in *.
  set (V := map fst (pr_loop RArith n (references u) (hypotheses u) (false_positives u) (misses u) v)) in *.
  set (V' := map fst (pr_loop RArith n (references u) (hypotheses u + 1) (false_positives u + 1) (misses u) v)) in *.
  set (rv := map snd (pr_loop RArith n (references u) (hypotheses u) (false_positives u) (misses u) v)) in *.
  set (pu := map fst (pr_loop RArith n 0 0 0 0 u)) in *. set (ru := map snd (pr_loop RArith n 0 0 0 0 u)) in *.
  assert (Lu : length pu = length ru) by (unfold pu, ru; now rewrite !map_length).
  assert (Lv : length V = length rv) by (unfold V, rv; now rewrite !map_length).
  apply Rle_trans with (area_rec t None 0 (inter i (pu ++ w :: V)) (ru ++ r :: rv)).
  { apply area_mono; [exact Logic.I| |exact Rs]. apply inter_mono, Forall2_app; [apply ple_refl|]. constructor; [apply Rle_refl|exact Fp]. }
  change (area_rec t None 0 (inter i (pu ++ w :: V)) (ru ++ r :: rv) <= area_rec t None 0 (inter i (pu ++ V)) (ru ++ rv)).
  change (StronglySorted Rle (0 :: ru ++ r :: rv)) in Rs.
  clear V' Es Fp E1 Et. assert (Cu : u = [] \/ u <> []) by (destruct u; [now left|right; discriminate]). destruct Cu as [Eu|Nu].
  - subst u. assert (W0 : w = 0).
    { unfold w, hypotheses, false_positives, total. cbn [map list_sum fold_right sum_of]. rewrite precision_R by (cbn; lia). cbn [INR Nat.add]. unfold sum_of. cbn. field. }
    assert (PV : forall x, In x V -> 0 <= x) by exact (precisions n v By). clearbody V rv.
    unfold pu, ru in *. cbn [pr_loop map app] in *. rewrite W0. destruct V as [|q y], rv as [|r' rb]; try discriminate.
    + destruct i; cbn [inter interp area_rec]; rewrite height_R; lra.
    + clearbody r. assert (H1 : 0 <= r) by (apply StronglySorted_inv in Rs as [_ F]; now apply Forall_inv in F).
      assert (H2 : r <= r') by (apply StronglySorted_inv in Rs as [Rs _]; apply StronglySorted_inv in Rs as [_ F]; now apply Forall_inv in F).
      apply drop_first; [apply PV; now left|split; assumption].
  - destruct (curve_end n u Nu) as (x & z & E & L & Ez & El). fold pu ru in E, L, El.
    assert (Lw : w <= z) by (rewrite Ez; unfold w; rewrite Nat.add_1_r; now apply precision_alarm).
    change (num RArith) with R in *. fold r in El. rewrite E in *. rewrite <- El in *. clearbody V rv. destruct V as [|q y], rv as [|r' rb]; try discriminate.
    + rewrite app_nil_r. rewrite (app_nil_r ru). right. apply (blank_end i t (x ++ [z]) [w] ru [last ru 0]); [exact L| |repeat constructor].
      intros z' Hz x' [<-|[]]. rewrite map_app in Hz. cbn [map] in Hz. rewrite last_last in Hz. injection Hz as <-. exact Lw.
    + apply drop_step; [exact L|exact Lw|]. inversion Rs as [|? ? Rs' _]; subst. apply sorted_app_inv in Rs' as (_ & Rs' & _).
      inversion Rs' as [|? ? _ F]; subst. now inversion F; subst.
Qed.

(** ** A hit for a miss *)

(** Misses only. *)
Definition blank (c : counts) : Prop := ec_nh c = 0%nat /\ B2R (ec_fp c) = 0 /\ (0 < ec_nr c)%nat /\ B2R (ec_fn c) = INR (ec_nr c).

Lemma blank_curve n B : (forall c, In c B -> blank c) -> forall nr nh fp fn,
  Forall (eq (precision_of RArith nh fp)) (map fst (pr_loop RArith n nr nh fp fn B)) /\ Forall (eq (recall_of RArith n nr fn)) (map snd (pr_loop RArith n nr nh fp fn B)).
Proof.
  induction B as [|c B IH]; intros H nr nh fp fn; [split; constructor|]. destruct (H c (or_introl eq_refl)) as (Eh & Ef & _ & Em).
  cbn [pr_loop map fst snd]. rewrite Eh. cbn [a_add a_f32 RArith]. rewrite Ef, Em, Nat.add_0_r, Rplus_0_r.
  assert (Er : recall_of RArith n (nr + ec_nr c) (fn + INR (ec_nr c)) = recall_of RArith n nr fn).
  { unfold recall_of. destruct (Nat.ltb 0 n); [|reflexivity].
    change ((INR (nr + ec_nr c) - (fn + INR (ec_nr c))) / INR n = (INR nr - fn) / INR n). rewrite plus_INR. f_equal. lra. }
  destruct (IH (fun x I => H x (or_intror I)) (nr + ec_nr c)%nat nh fp (fn + INR (ec_nr c))) as [F F']. rewrite Er in *.
  split; constructor; auto.
Qed.

(** The end of the list finds some of the references. *)
Lemma tail_hit i t w B B' : (forall c, In c (w ++ B') -> bounded c) -> (forall c, In c B -> blank c) -> references B = references B' ->
  value i t (w ++ B) <= value i t (w ++ B').
Proof.
  intros Bw Bl Er. unfold value, curve. rewrite !total_refs.
  assert (Et : references (w ++ B) = references (w ++ B')) by (unfold references in *; rewrite !Matching.total_app; lia).
  rewrite Et. set (n := references (w ++ B')) in *.
  assert (Rs := recalls n (w ++ B') Bw). assert (Ps := precisions n (w ++ B') Bw).
  destruct (pr_loop_app n w 0 0 0 0 B) as (nr & nh & fp & fn & -> & -> & -> & -> & ->).
  destruct (pr_loop_app n w 0 0 0 0 B') as (nr & nh & fp & fn & E2 & -> & -> & -> & ->). rewrite E2 in *. clear E2.
  destruct (blank_curve n B Bl (0 + references w) (0 + hypotheses w) (0 + false_positives w) (0 + misses w)) as [F1 F2].
  rewrite !map_app in *. change (num RArith) with R in *.
  set (p := map fst (pr_loop RArith n 0 0 0 0 w)) in *. set (rc := map snd (pr_loop RArith n 0 0 0 0 w)) in *.
  assert (Lp : length p = length rc) by (unfold p, rc; now rewrite !map_length).
  eapply Rle_trans; [right; apply blank_end|apply longer]; auto.
  - intros z Hz x I. apply pr_last_precision in Hz as ->. rewrite Forall_forall in F1. rewrite <- (F1 x I). rewrite Nat.add_0_l, Rplus_0_l. apply Rle_refl.
  - assert (Cw : w = [] \/ w <> []) by (destruct w; [now left|right; discriminate]). destruct Cw as [->|Nw].
    + destruct B as [|c B]; [constructor|]. revert F2. apply Forall_impl. intros a <-. cbn [rc last map pr_loop].
      destruct (Bl c (or_introl eq_refl)) as (_ & _ & Hp & _). change (rc) with (@nil R). cbn [last].
      assert (Hn : (0 < n)%nat) by (rewrite <- Et; unfold references, total; cbn; lia).
      rewrite recall_R by exact Hn. unfold references, misses, total, Rdiv. cbn. rewrite Rplus_0_r, Rminus_0_r. ring.
    + destruct (curve_end n w Nw) as (x & z & _ & _ & _ & El). change (@last R rc 0 = recall_of RArith n (references w) (misses w)) in El. revert F2. apply Forall_impl. intros a <-. rewrite Nat.add_0_l, Rplus_0_l. exact El.
Qed.

(** ** Matches one by one *)

Definition miss_error : match_error := MatchError f32_0 f32_1.

Lemma ap_value_counts i t es : Raised.ap_value i t es = value i t (map counts_of es).
Proof. unfold Raised.ap_value, raw_ap. now rewrite value_ok. Qed.

Lemma alarm_ap i t u v : (forall e, In e (u ++ v) -> zero_one e) -> Raised.ap_value i t (u ++ alarm_error :: v) <= Raised.ap_value i t (u ++ v).
Proof.
  intros Zo. rewrite !ap_value_counts, !map_app. cbn [map]. apply more_alarm. rewrite <- map_app. now apply raw_bounded.
Qed.

Lemma dsum_shift ws : Forall (fun x => 0 <= x) ws -> forall i, (0 < i)%nat -> Ndcg.dsum (S i) ws <= Ndcg.dsum i ws.
Proof.
  induction 1 as [|w ws H F IH]; intros i Hi; cbn [Ndcg.dsum]; [lra|].
  assert (K := Ndcg.discount_le i (S i) ltac:(lia)). specialize (IH (S i) ltac:(lia)). nra.
Qed.

Lemma raw_gains es : (forall e, In e es -> zero_one e) -> Forall (fun x => 0 <= x) (Ndcg.gains (map counts_of es)).
Proof.
  intros Zo. assert (E : map counts_of es = map (fun m => counts_of (m_err m)) (map (fun e => Match (RE := unit) (HE := unit) None None e) es)) by (rewrite map_map; reflexivity).
  rewrite E. assert (G := Ndcg.gains_relevances unit unit (map (fun e => Match None None e) es)).
  change (fun m : match_t unit unit => counts_of (m_err m)) with (@AveragePrecision.cnt unit unit). rewrite G.
  - apply Forall_forall. intros x I. apply in_map_iff in I as ([] & <- & _); lra.
  - intros m I. apply in_map_iff in I as (e & <- & I). apply Zo, I.
Qed.

Lemma gain_hit : Ndcg.gains [counts_of hit_error] = [1].
Proof.
  unfold Ndcg.gains. cbn [map concat repeat ec_nh counts_of me_nh hit_error me_fp app].
  assert (K := Ndcg.raw_gain_01 unit unit (Match None None hit_error) ltac:(split; cbn; auto) ltac:(vm_compute; lia)).
  change (counts_of hit_error) with (AveragePrecision.cnt (Match (RE := unit) (HE := unit) None None hit_error)). now rewrite K.
Qed.

Lemma gain_alarm : Ndcg.gains [counts_of alarm_error] = [0].
Proof.
  unfold Ndcg.gains. cbn [map concat repeat ec_nh counts_of me_nh alarm_error me_fp app].
  assert (K := Ndcg.raw_gain_01 unit unit (Match None None alarm_error) ltac:(split; cbn; auto) ltac:(vm_compute; lia)).
  change (counts_of alarm_error) with (AveragePrecision.cnt (Match (RE := unit) (HE := unit) None None alarm_error)). now rewrite K.
Qed.

Lemma gains_misses k : (forall e, In e k -> e = miss_error) -> Ndcg.gains (map counts_of k) = [].
Proof. intros H. induction k as [|e k IH]; [reflexivity|]. rewrite (H e) by now left. cbn [map]. apply IH. intros x I. apply H. now right. Qed.

Lemma alarm_ndcg u v : (forall e, In e (u ++ v) -> zero_one e) -> raw_ndcg (u ++ alarm_error :: v) <= raw_ndcg (u ++ v).
Proof.
  intros Zo. unfold raw_ndcg. rewrite !map_app. cbn [map].
  set (U := map counts_of u). set (V := map counts_of v). change (counts_of alarm_error :: V) with ([counts_of alarm_error] ++ V).
  rewrite !Ndcg.ndcg_sum.
  assert (Er : references (U ++ [counts_of alarm_error] ++ V) = references (U ++ V)) by (unfold references; rewrite !Matching.total_app; reflexivity).
  rewrite Er. destruct (Nat.ltb_spec 0 (references (U ++ V))) as [P|P]; [|apply Rle_refl].
  apply Rmult_le_compat_r; [left; apply Rinv_0_lt_compat, Ndcg.z_pos, P|].
  rewrite !Ndcg.gains_app, gain_alarm, !Ndcg.dsum_app. apply Rplus_le_compat_l. cbn [Ndcg.dsum length].
  rewrite Rmult_0_l, Rplus_0_r, Rplus_0_l, Nat.add_1_r. apply dsum_shift; [|lia].
  apply raw_gains. intros e I. apply Zo, in_or_app. auto.
Qed.

(** Misses at the end. *)
Definition missing (k : list match_error) : Prop := forall e, In e k -> e = miss_error.

Lemma blank_misses k : missing k -> forall c, In c (map counts_of k) -> blank c.
Proof.
  intros H c I. apply in_map_iff in I as (e & <- & I). rewrite (H e I). destruct f32_1_R as [O _]. assert (Z := f32_0_R).
  unfold blank, counts_of, miss_error. cbn [ec_nh ec_fp ec_nr ec_fn me_nh me_nr me_fp me_fn].
  change (me_nh (MatchError f32_0 f32_1)) with 0%nat. change (me_nr (MatchError f32_0 f32_1)) with 1%nat. cbn [INR]. rewrite O, Z. repeat split; lia.
Qed.

Lemma last_hit_ap i t u k : (forall e, In e u -> zero_one e) -> missing k ->
  Raised.ap_value i t (u ++ miss_error :: k) <= Raised.ap_value i t (u ++ hit_error :: k).
Proof.
  intros Zo H. rewrite !ap_value_counts, !map_app. apply tail_hit.
  - rewrite <- map_app. apply raw_bounded. intros e I. apply in_app_or in I as [I|[<-|I]]; [auto|split; cbn; auto|]. rewrite (H e I). split; cbn; auto.
  - apply blank_misses. intros e [<-|I]; auto.
  - reflexivity.
Qed.

Lemma last_hit_ndcg u k : missing k -> raw_ndcg (u ++ miss_error :: k) <= raw_ndcg (u ++ hit_error :: k).
Proof.
  intros H. unfold raw_ndcg. rewrite !map_app. set (U := map counts_of u).
  change (map counts_of (hit_error :: k)) with ([counts_of hit_error] ++ map counts_of k). rewrite !Ndcg.ndcg_sum.
  assert (Er : references (U ++ map counts_of (miss_error :: k)) = references (U ++ [counts_of hit_error] ++ map counts_of k)) by (unfold references; rewrite !Matching.total_app; reflexivity).
  rewrite Er. destruct (Nat.ltb_spec 0 (references (U ++ [counts_of hit_error] ++ map counts_of k))) as [P|P]; [|apply Rle_refl].
  apply Rmult_le_compat_r; [left; apply Rinv_0_lt_compat, Ndcg.z_pos, P|].
  rewrite !Ndcg.gains_app, gain_hit, (gains_misses k H), (gains_misses (miss_error :: k)) by (intros e [<-|I]; auto).
  rewrite !Ndcg.dsum_app. apply Rplus_le_compat_l. cbn [Ndcg.dsum length app].
  assert (K := Ndcg.discount_pos (1 + length (Ndcg.gains U)) ltac:(lia)). lra.
Qed.

Lemma better_front v : (forall e, In e v -> e = hit_error \/ e = alarm_error) -> better (v ++ [hit_error]) (hit_error :: v).
Proof.
  induction v as [|e v IH]; intros H; [constructor|]. cbn [app].
  eapply better_trans; [apply (better_app [e]); apply IH; intros x I; apply H; now right|].
  cbn [app]. destruct (H e (or_introl eq_refl)) as [-> | ->]; [constructor|apply (better_swap [])].
Qed.

(** One more hit, one less miss. *)
Lemma new_hit u v k : (forall e, In e v -> e = hit_error \/ e = alarm_error) -> missing k -> (forall e, In e u -> zero_one e) ->
  (forall i t, Raised.ap_value i t (u ++ v ++ miss_error :: k) <= Raised.ap_value i t (u ++ hit_error :: v ++ k)) /\
  raw_ndcg (u ++ v ++ miss_error :: k) <= raw_ndcg (u ++ hit_error :: v ++ k).
Proof.
  intros Hv Hk Zu.
  assert (B : better (u ++ v ++ hit_error :: k) (u ++ hit_error :: v ++ k)).
  { apply better_app. change (v ++ hit_error :: k) with (v ++ [hit_error] ++ k). rewrite app_assoc. exact (better_in _ _ (better_front v Hv) [] k). }
  assert (Zv : forall e, In e (u ++ v) -> zero_one e).
  { intros e I. apply in_app_or in I as [I|I]; [auto|]. destruct (Hv e I) as [-> | ->]; split; cbn; auto. }
  split; [intros i t|].
  - rewrite app_assoc. eapply Rle_trans; [apply last_hit_ap; auto|]. rewrite <- app_assoc. apply Raised.better_ap_value; [exact B|].
    intros e I. apply in_app_or in I as [I|I]; [auto|]. apply in_app_or in I as [I|[<-|I]]; [apply Zv, in_or_app; auto|split; cbn; auto|].
    rewrite (Hk e I). split; cbn; auto.
  - rewrite app_assoc. eapply Rle_trans; [apply last_hit_ndcg; auto|]. rewrite <- app_assoc. now apply better_ndcg.
Qed.

(** ** Matches with scores *)

Notation ninf := (B754_infinity true : f32).
Notation P := (f32 * match_error)%type.

Lemma low x : is_nan x = false -> x = ninf \/ f32_lt ninf x = true.
Proof. destruct x as [s|[]| |s m e B]; intros N; try discriminate; auto. Qed.

Lemma bottom (ps : list P) : Lifted.pfalls ps -> (forall p, In p ps -> is_nan (fst p) = false) ->
  exists A B, ps = A ++ B /\ (forall p, In p A -> f32_lt ninf (fst p) = true) /\ (forall p, In p B -> fst p = ninf).
Proof.
  induction 1 as [|p ps S IH F]; intros N; [exists [], []; repeat split; intros ? []|].
  destruct (low (fst p) (N p (or_introl eq_refl))) as [L|L].
  - exists [], (p :: ps). split; [reflexivity|]. split; [intros ? []|]. intros q [<-|I]; [exact L|].
    rewrite Forall_forall in F. specialize (F q I). rewrite L in F. destruct (low (fst q) (N q (or_intror I))) as [K|K]; [exact K|congruence].
  - destruct IH as (A & B & -> & HA & HB); [intros q I; apply N; now right|]. exists (p :: A), B. split; [reflexivity|]. split; [|exact HB].
    intros q [<-|I]; auto.
Qed.

Lemma bottom_collapse (A B : list P) : (forall p, In p A -> f32_lt ninf (fst p) = true) -> (forall p, In p B -> fst p = ninf) ->
  collapse_matches sc (map item (A ++ B)) = collapse_matches sc (map item A) ++ collapse_matches sc (map item B).
Proof.
  intros HA HB. rewrite map_app. apply collapse_app. intros x y Ix Iy T. apply in_map_iff in Ix as (p & <- & Ip), Iy as (q & <- & Iq).
  specialize (HA p Ip). specialize (HB q Iq). unfold tie in T. cbn in T. rewrite HB in T. rewrite (Order.f32_lt_eq_r _ _ _ T), Order.f32_lt_irrefl in HA. discriminate.
Qed.

Lemma bottom_good (A B B' : list P) : Lifted.good (A ++ B) -> (forall p, In p B' -> fst p = ninf /\ zero_one (snd p)) -> Lifted.good (A ++ B').
Proof.
  intros [F G] H. split.
  - apply Ties.sorted_app_inv in F as (FA & _ & _). apply Ties.sorted_app; [exact FA| |].
    + clear - H. induction B' as [|p B' IH]; [constructor|]. constructor; [apply IH; intros q I; apply H; now right|].
      apply Forall_forall. intros q I. destruct (H p (or_introl eq_refl)) as [-> _], (H q (or_intror I)) as [-> _]. reflexivity.
    + intros p q Ip Iq. destruct (H q Iq) as [-> _]. destruct (G p) as [N _]; [apply in_or_app; auto|]. destruct (fst p) as [s|[]| |[] m e B0]; try discriminate; reflexivity.
  - intros p I. apply in_app_or in I as [I|I]; [apply G, in_or_app; auto|]. destruct (H p I) as [-> Z]. split; [reflexivity|exact Z].
Qed.

Lemma ninf_run (p : P) B : (forall q, In q (p :: B) -> fst q = ninf) -> collapse_matches sc (map item (p :: B)) = [point (item p) (map item B)].
Proof.
  intros H. cbn [map]. apply collapse_run. intros x I. apply in_map_iff in I as (q & <- & I). unfold tie. cbn.
  rewrite (H p) by now left. rewrite (H q) by now right. reflexivity.
Qed.

Lemma point_bounded (m : M) k : (forall x, In x (m :: k) -> zero_one (m_err x)) -> bounded (point m k).
Proof. intros Zk. apply capped_bounded, point_capped. intros y I. apply zero_one_fractions; auto. Qed.

(** A false alarm below everything. *)
Lemma bottom_alarm i t ps : Lifted.good ps -> (Z.of_nat (length ps) < 2 ^ 24)%Z ->
  Lifted.good (ps ++ [(ninf, alarm_error)]) /\ Lifted.tvalue i t (ps ++ [(ninf, alarm_error)]) <= Lifted.tvalue i t ps.
Proof.
  intros G Ln. destruct (bottom ps) as (A & B & -> & HA & HB); [apply G|intros p I; now apply G|].
  assert (Z1 : zero_one alarm_error) by (split; cbn; auto).
  assert (ZA : forall m, In m (map item A) -> zero_one (m_err m)) by (intros m I; apply in_map_iff in I as (p & <- & I); apply G, in_or_app; auto).
  assert (ZB : forall m, In m (map item B) -> zero_one (m_err m)) by (intros m I; apply in_map_iff in I as (p & <- & I); apply G, in_or_app; auto).
  assert (BA := collapse_bounded _ ZA).
  split.
  { rewrite <- app_assoc. apply (bottom_good A B); [exact G|]. intros p I. apply in_app_or in I as [I|[<-|[]]]; [|split; auto].
    split; [auto|]. apply G, in_or_app. auto. }
  assert (HB' : forall p, In p (B ++ [(ninf, alarm_error)]) -> fst p = ninf) by (intros p I; apply in_app_or in I as [I|[<-|[]]]; auto).
  unfold Lifted.tvalue. rewrite <- app_assoc. rewrite (bottom_collapse A B HA HB), (bottom_collapse A _ HA HB').
  destruct B as [|p B].
  - cbn [app map collapse_matches collapse_loop]. rewrite app_nil_r.
    assert (K := more_alarm (collapse_matches sc (map item A)) [] i t). rewrite app_nil_r in K. apply K, BA.
  - change ((p :: B) ++ [(ninf, alarm_error)]) with (p :: B ++ [(ninf, alarm_error)]). rewrite (ninf_run p B HB), (ninf_run p (B ++ [(ninf, alarm_error)]) HB'). rewrite map_app. cbn [map].
    assert (Pa : plus_alarm (point (item p) (map item B)) (point (item p) (map item B ++ [item (ninf, alarm_error)]))).
    { apply (point_alarm _ _ (item (ninf, alarm_error))); [reflexivity|exact ZB| |].
      - change (item p :: map item B ++ [item (ninf, alarm_error)]) with ((item p :: map item B) ++ [item (ninf, alarm_error)]). apply Permutation_sym, Permutation_cons_append.
      - cbn [length]. rewrite app_length, map_length. cbn [length]. rewrite app_length in Ln. cbn [length] in Ln. lia. }
    assert (Bp := point_bounded (item p) (map item B) ZB).
    eapply Rle_trans; [apply (split_alarm (collapse_matches sc (map item A)) []); [rewrite app_nil_r; exact BA|exact Bp|exact Pa]|].
    assert (K := more_alarm (collapse_matches sc (map item A) ++ [point (item p) (map item B)]) [] i t). rewrite app_nil_r, <- app_assoc in K. apply K.
    intros c I. apply in_app_or in I as [I|[<-|[]]]; auto.
Qed.

Lemma more_alarm_pairs i t ps ps' s : Lifted.good ps -> Lifted.good ps' -> (Z.of_nat (length ps) < 2 ^ 24)%Z ->
  Permutation (map norm ps') ((s, alarm_error) :: map norm ps) -> Lifted.tvalue i t ps' <= Lifted.tvalue i t ps.
Proof.
  intros G G' Ln Pm. destruct (bottom_alarm i t ps G Ln) as [G0 L]. eapply Rle_trans; [|exact L].
  assert (Ns : is_nan s = false).
  { apply Lifted.good_norm in G'. apply (proj2 G' (s, alarm_error)). apply (Permutation_in _ (Permutation_sym Pm)). now left. }
  assert (E0 : Permutation (map norm (ps ++ [(ninf, alarm_error)])) ((ninf, alarm_error) :: map norm ps)).
  { rewrite map_app. apply Permutation_sym, Permutation_cons_append. }
  destruct (low s Ns) as [->|Ls].
  - right. apply Lifted.tvalue_perm; auto. now rewrite Pm, E0.
  - apply Lifted.lifted_alarm; auto; [rewrite app_length; cbn [length]; lia|]. right. exists ninf, s, (map norm ps). auto.
Qed.

Lemma point_misses k : missing (map snd k) -> (Z.of_nat (length k) < 2 ^ 24)%Z ->
  blank (point (item (ninf, miss_error)) (map item k)).
Proof.
  intros H Ln.
  assert (Zo : forall m', In m' (item (ninf, miss_error) :: map item k) -> zero_one (m_err m')).
  { intros m [<-|I]; [split; cbn; auto|]. apply in_map_iff in I as (p & <- & I). cbn [m_err item]. rewrite (H (snd p)) by now apply in_map. split; cbn; auto. }
  assert (Ln' : (Z.of_nat (length (item (ninf, miss_error) :: map item k)) <= 2 ^ 24)%Z) by (cbn [length]; rewrite map_length; lia).
  destruct (point_summed (item (ninf, miss_error)) (map item k) Zo Ln') as [S1 S2]. destruct (point_counts (item (ninf, miss_error)) (map item k)) as [C1 C2].
  destruct f32_1_R as [O _]. assert (Z := f32_0_R).
  assert (K : forall l : list M, (forall m, In m l -> m_err m = miss_error) ->
    total (fun m => me_nh (m_err m)) l = 0%nat /\ total (fun m => me_nr (m_err m)) l = length l /\
    sum_of (fun m => B2R (me_fp (m_err m))) l = 0 /\ sum_of (fun m => B2R (me_fn (m_err m))) l = INR (length l)).
  { clear - O Z. induction l as [|m l IH]; intros H; [repeat split|]. destruct IH as (A & B & C & D); [intros x I; apply H; now right|].
    rewrite !total_cons. rewrite A, B. unfold sum_of in *. cbn [fold_right]. rewrite C, D, (H m) by now left. cbn [length]. rewrite S_INR.
    change (me_nh miss_error) with 0%nat. change (me_nr miss_error) with 1%nat. cbn [me_fp me_fn miss_error]. rewrite O, Z. repeat split; lra. }
  destruct (K (item (ninf, miss_error) :: map item k)) as (K1 & K2 & K3 & K4).
  { intros m [<-|I]; [reflexivity|]. apply in_map_iff in I as (p & <- & I). exact (H (snd p) (in_map snd _ _ I)). }
  unfold blank. rewrite C1, C2, S1, S2, K1, K2, K3, K4. cbn [length]. repeat split; lia.
Qed.

(** ** One more hit *)

Lemma area_shift t d : forall p prev s rc, area_rec t prev (s + d) p (map (fun x => x + d) rc) = area_rec t prev s p rc.
Proof.
  induction p as [|q p IH]; intros prev s rc; [reflexivity|]. destruct rc as [|r rc]; [reflexivity|]. cbn [map area_rec].
  rewrite IH. replace (r + d - (s + d)) with (r - s) by lra. reflexivity.
Qed.

Lemma area_bump t d rv : 0 <= d -> forall ra p prev s, (forall z, prev = Some z -> 0 <= z) -> (forall x, In x p -> 0 <= x) ->
  area_rec t prev s p (ra ++ rv) <= area_rec t prev s p (ra ++ map (fun x => x + d) rv).
Proof.
  intros Hd. induction ra as [|r0 ra IH]; intros p prev s Hp He; (destruct p as [|q p]; [cbn; lra|]); cbn [app].
  - destruct rv as [|r rb]; [cbn; lra|]. cbn [map area_rec]. rewrite area_shift. assert (Q := He q (or_introl eq_refl)).
    enough (height RArith t prev q * (r - s) <= height RArith t prev q * (r + d - s)) by lra.
    apply Rmult_le_compat_l; [|lra]. rewrite height_R. destruct prev as [z|]; [|destruct t; lra]. specialize (Hp z eq_refl). destruct t; lra.
  - cbn [area_rec]. apply Rplus_le_compat_l. apply IH; [intros z [= <-]; apply He; now left|intros x I; apply He; now right].
Qed.

(** The area under the curve of the first points. *)
Definition start (n : nat) (i t : bool) (w : list counts) : R :=
  area_rec t None 0 (inter i (map fst (pr_loop RArith n 0 0 0 0 w))) (map snd (pr_loop RArith n 0 0 0 0 w)).

Lemma higher_tail n v : (0 < n)%nat -> (forall x, In x v -> bounded x) -> forall nr nh fp fn, 0 <= fp <= INR nh ->
  map snd (pr_loop RArith n (nr + 1) (nh + 1) fp fn v) = map (fun x => x + 1 / INR n) (map snd (pr_loop RArith n nr nh fp fn v)) /\
  ple (map fst (pr_loop RArith n nr nh fp fn v)) (map fst (pr_loop RArith n (nr + 1) (nh + 1) fp fn v)).
Proof.
  intros Hn Bv. assert (Hn' := lt_0_INR n Hn). induction v as [|e v IH]; intros nr nh fp fn B; [split; constructor|]. cbn [pr_loop map fst snd].
  destruct (Bv e (or_introl eq_refl)) as (_ & _ & [B1 B2] & _). cbn [a_add a_f32 RArith].
  replace (nh + 1 + ec_nh e)%nat with (nh + ec_nh e + 1)%nat by lia. replace (nr + 1 + ec_nr e)%nat with (nr + ec_nr e + 1)%nat by lia.
  assert (B' : 0 <= fp + B2R (ec_fp e) <= INR (nh + ec_nh e)) by (rewrite plus_INR; lra).
  destruct (IH (fun x I => Bv x (or_intror I)) (nr + ec_nr e)%nat (nh + ec_nh e)%nat _ (fn + B2R (ec_fn e)) B') as [E F].
  split.
  - f_equal; [|exact E]. rewrite !recall_R by assumption. rewrite plus_INR. cbn [INR]. match goal with |- @eq _ ?a ?b => change (@eq R a b) end. field. lra.
  - constructor; [|exact F]. set (x := fp + B2R (ec_fp e)) in *. destruct (Nat.eq_dec (nh + ec_nh e) 0) as [Z|Z].
    + rewrite Z in *. cbn [INR] in B'. assert (x = 0) as -> by lra. rewrite (precision_R (0 + 1)) by lia. unfold precision_of. cbn. unfold a1. cbn. lra.
    + rewrite !precision_R by lia. enough (x / INR (nh + ec_nh e + 1) <= x / INR (nh + ec_nh e)) by lra.
      set (k := (nh + ec_nh e)%nat) in *. assert (0 < INR k) by (apply lt_0_INR; lia).
      assert (0 < INR (k + 1)) by (apply lt_0_INR; lia). apply div_le; auto. rewrite plus_INR. cbn [INR]. nra.
Qed.

Lemma ple_nonneg l l' : ple l l' -> (forall x, In x l -> 0 <= x) -> forall x, In x l' -> 0 <= x.
Proof.
  induction 1 as [|x y l l' L F IH]; intros H z I; [destruct I|].
  destruct I as [<-|I]; [eapply Rle_trans; [apply H; now left|exact L]|]. apply IH; [intros w J; apply H; now right|exact I].
Qed.

(** One point has one more hit. *)
Lemma start_hit n i t u c c' v : (0 < n)%nat -> (forall x, In x (u ++ c :: v) -> bounded x) -> plus_hit c c' ->
  start n i t (u ++ c :: v) <= start n i t (u ++ c' :: v).
Proof.
  intros Hn Bw (P1 & P2 & P3 & P4). unfold start.
  assert (Bu : forall x, In x u -> bounded x) by (intros x I; apply Bw, in_or_app; auto).
  assert (K := fp_le_nh u Bu u (fun c I => I)). destruct (Bw c (in_elt _ _ _)) as (_ & _ & [B1 B2] & _ & B4).
  assert (Bv : forall x, In x (c :: v) -> bounded x) by (intros x I; apply Bw, in_or_app; auto).
  assert (Rs := recalls n (u ++ c :: v) Bw). assert (Ps := precisions n (u ++ c :: v) Bw).
  destruct (pr_loop_app n u 0 0 0 0 (c :: v)) as (nr & nh & fp & fn & E1 & -> & -> & -> & ->).
  destruct (pr_loop_app n u 0 0 0 0 (c' :: v)) as (nr & nh & fp & fn & E2 & -> & -> & -> & ->). rewrite E1, E2 in *. clear E1 E2.
  rewrite ?Nat.add_0_l, ?Rplus_0_l in *. rewrite !map_app in *.
  destruct (higher_tail n (c :: v) Hn Bv (references u) (hypotheses u) (false_positives u) (misses u) K) as [Es Fp].
  assert (Ec : forall nr nh fp fn, pr_loop RArith n nr nh fp fn (c' :: v) = pr_loop RArith n (nr + 1) (nh + 1) fp fn (c :: v)).
  { intros nr nh fp fn. cbn [pr_loop]. rewrite P1, P2. cbn [a_f32 RArith]. rewrite P3, P4.
    replace (nr + S (ec_nr c))%nat with (nr + 1 + ec_nr c)%nat by lia. now replace (nh + S (ec_nh c))%nat with (nh + 1 + ec_nh c)%nat by lia. }
  rewrite Ec, Es in *. change (num RArith) with R in *.
  assert (Np : 0 <= 1 / INR n) by (apply Rlt_le, Rdiv_lt_0_compat; [lra|now apply lt_0_INR]).
  set (pu := map fst (pr_loop RArith n 0 0 0 0 u)) in *. set (ru := map snd (pr_loop RArith n 0 0 0 0 u)) in *.
  set (V := map fst (pr_loop RArith n (references u) (hypotheses u) (false_positives u) (misses u) (c :: v))) in *.
  set (V' := map fst (pr_loop RArith n (references u + 1) (hypotheses u + 1) (false_positives u) (misses u) (c :: v))) in *.
  set (rv := map snd (pr_loop RArith n (references u) (hypotheses u) (false_positives u) (misses u) (c :: v))) in *.
  assert (Fq : ple (pu ++ V) (pu ++ V')) by (apply Forall2_app; [apply ple_refl|exact Fp]).
  apply Rle_trans with (area_rec t None 0 (inter i (pu ++ V')) (ru ++ rv)).
  { apply area_mono; [exact Logic.I|now apply inter_mono|exact Rs]. }
  apply area_bump; [exact Np|discriminate|]. apply inter_nonneg. exact (ple_nonneg _ _ Fq Ps).
Qed.

(** A point at the recall of the one before, and not below it. *)
Lemma same_recall i t x w q y ra r' rb : length x = length ra -> (forall z, last (map Some x) None = Some z -> z <= w) -> (x = [] -> q <= w) ->
  StronglySorted Rle (0 :: ra ++ r' :: rb) ->
  area_rec t None 0 (inter i (x ++ q :: y)) (ra ++ r' :: rb) <= area_rec t None 0 (inter i (x ++ w :: q :: y)) (ra ++ last ra 0 :: r' :: rb).
Proof.
  intros L Lw Lq So. inversion So as [|? ? So' Fs]; subst. apply sorted_app_inv in So' as (S1 & _ & S3). rewrite Forall_forall in Fs.
  assert (Lr : last ra 0 <= r').
  { destruct ra as [|a ra _] using rev_ind; [apply Fs; now left|]. rewrite last_last. apply S3; [apply in_elt|now left]. }
  assert (S0 : StronglySorted Rle (0 :: ra)) by (constructor; [exact S1|apply Forall_forall; intros z I; apply Fs, in_or_app; auto]).
  destruct i; [apply new_point; auto; apply Rle_refl|]. cbn [inter]. rewrite !area_app by congruence. cbn [area_rec].
  replace (last ra 0 - last ra 0) with 0 by lra. rewrite !height_R. destruct x as [|z x _] using rev_ind; [specialize (Lq eq_refl); cbn [map last]; destruct t; nra|].
  rewrite map_app in *. cbn [map] in *. rewrite last_last in *. specialize (Lw z eq_refl). destruct t; nra.
Qed.

Notation zero := (Counts f32_0 f32_0 0 0).

(** One point more, with a hit. *)
Lemma start_new n i t u v : (0 < n)%nat -> (forall x, In x (u ++ v) -> bounded x) -> start n i t (u ++ v) <= start n i t (u ++ hit :: v).
Proof.
  intros Hn Bw. assert (Z := f32_0_R).
  assert (Bz : bounded zero) by (repeat split; cbn [ec_fp ec_fn ec_nh ec_nr INR]; rewrite ?Z; lra).
  destruct v as [|c v].
  - rewrite app_nil_r in *. unfold start.
    assert (Bh : forall x, In x (u ++ [hit]) -> bounded x) by (intros x I; apply in_app_or in I as [I|[<-|[]]]; [auto|apply hit_bounded]).
    assert (Rs := recalls n (u ++ [hit]) Bh). assert (Ps := precisions n (u ++ [hit]) Bh).
    destruct (pr_loop_app n u 0 0 0 0 [hit]) as (nr & nh & fp & fn & E & _). rewrite E in *. rewrite !map_app in *.
    apply longer; [now rewrite !map_length|exact Ps|exact Rs].
  - apply Rle_trans with (start n i t (u ++ zero :: c :: v)).
    + unfold start.
      assert (Bu : forall x, In x u -> bounded x) by (intros x I; apply Bw, in_or_app; auto).
      assert (Rs := recalls n (u ++ c :: v) Bw).
      destruct (pr_loop_app n u 0 0 0 0 (zero :: c :: v)) as (nr & nh & fp & fn & E & -> & -> & -> & ->). rewrite E. clear E.
      destruct (pr_loop_app n u 0 0 0 0 (c :: v)) as (nr & nh & fp & fn & E & -> & -> & -> & ->). rewrite E in *. clear E.
      remember (c :: v) as k eqn:Ek. cbn [pr_loop ec_nr ec_nh ec_fp ec_fn a_add a_f32 RArith] in *. rewrite !map_app in *. cbn [map fst snd]. rewrite !Z in *.
      rewrite ?Nat.add_0_l, ?Rplus_0_l, ?Rplus_0_r, ?Nat.add_0_r in *.
      assert (Er : recall_of RArith n (references u) (misses u) = last (map snd (pr_loop RArith n 0 0 0 0 u)) 0) by (rewrite pr_last_recall, recall_R by assumption; reflexivity).
      rewrite Er. subst k. cbn [pr_loop map fst snd] in *. change (num RArith) with R in *. apply same_recall; [now rewrite !map_length| | |exact Rs].
      * intros z Hz. apply pr_last_precision in Hz as ->. apply Rle_refl.
      * intros E. assert (u = []) as -> by (destruct u; [reflexivity|discriminate]). unfold hypotheses, false_positives, total. cbn [map list_sum fold_right sum_of].
        destruct (Bw c (in_elt _ _ _)) as (_ & _ & [B1 B2] & _).
        unfold precision_of at 2. cbn [Nat.ltb Nat.leb]. change (a1 RArith) with 1. unfold sum_of. cbn [fold_right]. rewrite Rplus_0_l.
        unfold precision_of. destruct (Nat.ltb_spec 0 (0 + ec_nh c)) as [H|H]; [|change (a1 RArith) with 1; lra].
        apply lt_0_INR in H. change (1 - B2R (ec_fp c) / INR (0 + ec_nh c) <= 1).
        enough (0 / 1 <= B2R (ec_fp c) / INR (0 + ec_nh c)) by lra. apply div_le; lra.
    + apply start_hit; [exact Hn| |repeat split; cbn; auto]. intros x I. apply in_app_or in I as [I|[<-|I]]; [apply Bw, in_or_app; auto|exact Bz|apply Bw, in_or_app; auto].
Qed.

(** The curve without the misses at its end. *)
Lemma start_value i t w B : (forall c, In c w -> bounded c) -> (forall c, In c B -> blank c) -> value i t (w ++ B) = start (references (w ++ B)) i t w.
Proof.
  intros Bw Bl. unfold value, curve, start. rewrite !total_refs. set (n := references (w ++ B)) in *.
  destruct (pr_loop_app n w 0 0 0 0 B) as (nr & nh & fp & fn & -> & -> & -> & -> & ->).
  destruct (blank_curve n B Bl (0 + references w) (0 + hypotheses w) (0 + false_positives w) (0 + misses w)) as [F1 F2].
  rewrite !map_app in *. change (num RArith) with R in *.
  set (p := map fst (pr_loop RArith n 0 0 0 0 w)) in *. set (rc := map snd (pr_loop RArith n 0 0 0 0 w)) in *.
  assert (Lp : length p = length rc) by (unfold p, rc; now rewrite !map_length).
  apply blank_end; auto.
  - intros z Hz x I. apply pr_last_precision in Hz as ->. rewrite Forall_forall in F1. rewrite <- (F1 x I). rewrite Nat.add_0_l, Rplus_0_l. apply Rle_refl.
  - assert (Cw : w = [] \/ w <> []) by (destruct w; [now left|right; discriminate]). destruct Cw as [Ew|Nw].
    + destruct B as [|c B]; [constructor|]. revert F2. apply Forall_impl. intros a <-. unfold rc. rewrite Ew. cbn [last map pr_loop].
      destruct (Bl c (or_introl eq_refl)) as (_ & _ & Hp & _).
      assert (Hn : (0 < n)%nat) by (unfold n, references; rewrite Matching.total_app; unfold total at 2; cbn; lia).
      rewrite recall_R by exact Hn. unfold references, misses, total, Rdiv. cbn. rewrite Rplus_0_r, Rminus_0_r. ring.
    + destruct (curve_end n w Nw) as (x & z & _ & _ & _ & El). change (@last R rc 0 = recall_of RArith n (references w) (misses w)) in El. revert F2. apply Forall_impl. intros a <-. rewrite Nat.add_0_l, Rplus_0_l. exact El.
Qed.

Lemma three s (ps : list P) : is_nan s = false -> Lifted.pfalls ps -> (forall p, In p ps -> is_nan (fst p) = false) ->
  exists a b d, ps = a ++ b ++ d /\ (forall p, In p a -> emb s < emb (fst p)) /\ (forall p, In p b -> emb (fst p) = emb s) /\ (forall p, In p d -> emb (fst p) < emb s).
Proof.
  intros Ns. induction 1 as [|p ps S IH F]; intros N; [exists [], [], []; repeat split; intros ? []|].
  destruct IH as (a & b & d & -> & Ha & Hb & Hd); [intros q I; apply N; now right|]. rewrite Forall_forall in F.
  assert (Le : forall q, In q (a ++ b ++ d) -> emb (fst q) <= emb (fst p)).
  { intros q I. apply emb_ge; [apply N; now left|apply N; now right|]. apply F, I. }
  destruct (Rlt_le_dec (emb s) (emb (fst p))) as [L|L].
  - exists (p :: a), b, d. repeat split; auto. intros q [<-|I]; auto.
  - assert (a = []) as ->. { destruct a as [|q a]; [reflexivity|]. specialize (Ha q (or_introl eq_refl)). specialize (Le q (or_introl eq_refl)). lra. }
    cbn [app] in *. destruct (Req_dec (emb (fst p)) (emb s)) as [E|E].
    + exists [], (p :: b), d. repeat split; auto. intros q [<-|I]; auto.
    + assert (b = []) as ->. { destruct b as [|q b]; [reflexivity|]. assert (K := Hb q (or_introl eq_refl)). specialize (Le q (or_introl eq_refl)). lra. }
      exists [], [], (p :: d). repeat split; auto. intros q [<-|I]; [lra|auto].
Qed.

(** A hit for a miss. *)
Lemma new_hit_pairs i t ps ps' s r : Lifted.good ps -> Lifted.good ps' -> (Z.of_nat (length ps) <= 2 ^ 24)%Z ->
  Permutation (map norm ps) ((ninf, miss_error) :: r) -> Permutation (map norm ps') ((s, hit_error) :: r) ->
  (forall p, In p r -> fst p = ninf -> snd p = miss_error) -> Lifted.tvalue i t ps <= Lifted.tvalue i t ps'.
Proof.
  intros G G' Ln Pm Pm' Hr. destruct (bottom ps) as (A & B & -> & HA & HB); [apply G|intros p I; now apply G|].
  assert (NB : forall p, In p B -> p = (ninf, miss_error)).
  { intros p I. assert (K : In (norm p) ((ninf, miss_error) :: r)) by (apply (Permutation_in _ Pm), in_map, in_or_app; auto).
    specialize (HB p I). destruct p as [x e]. cbn [fst] in HB. subst x. unfold norm in K. cbn [fst snd Ties.unsigned] in K.
    destruct K as [K|K]; [injection K as <-; reflexivity|]. f_equal. exact (Hr _ K eq_refl). }
  assert (IB : In (ninf, miss_error) B).
  { assert (K : In (ninf, miss_error) (map norm (A ++ B))) by (apply (Permutation_in _ (Permutation_sym Pm)); now left).
    apply in_map_iff in K as ([x e] & E & K). unfold norm in E. cbn [fst snd] in E. injection E as E1 E2. subst e.
    apply in_app_or in K as [K|K]; [|rewrite <- (NB _ K); exact K]. exfalso. specialize (HA _ K). cbn [fst] in HA.
    destruct x as [b|[]| |[] m e0 B0]; discriminate. }
  destruct B as [|p B]; [destruct IB|]. clear IB. assert (p = (ninf, miss_error)) as -> by (apply NB; now left).
  assert (HB' : forall q, In q ((ninf, hit_error) :: B) -> fst q = ninf) by (intros q [<-|I]; [reflexivity|apply HB; now right]).
  assert (MB : missing (map snd B)) by (intros e I; apply in_map_iff in I as (q & <- & I); rewrite (NB q) by (now right); reflexivity).
  assert (ZB : forall e m, zero_one e -> In m (item (ninf, e) :: map item B) -> zero_one (m_err m)).
  { intros e m Ze [<-|I]; [exact Ze|]. apply in_map_iff in I as (q & <- & I). rewrite (NB q) by now right. split; cbn; auto. }
  assert (Zh : zero_one hit_error) by (split; cbn; auto).
  assert (G0 : Lifted.good (A ++ (ninf, hit_error) :: B)).
  { apply (bottom_good A ((ninf, miss_error) :: B)); [exact G|]. intros q [<-|I]; [split; auto|]. rewrite (NB q) by now right. split; [reflexivity|split; cbn; auto]. }
  assert (ZA : forall m, In m (map item A) -> zero_one (m_err m)) by (intros m I; apply in_map_iff in I as (p & <- & I); apply G, in_or_app; auto).
  assert (BA := collapse_bounded _ ZA).
  assert (PA : Permutation (map norm (A ++ B)) r).
  { rewrite map_app in *. cbn [map] in *. apply Permutation_sym in Pm. apply Permutation_cons_app_inv in Pm. now apply Permutation_sym. }
  assert (Ns : is_nan s = false).
  { apply Lifted.good_norm in G'. apply (proj2 G' (s, hit_error)). apply (Permutation_in _ (Permutation_sym Pm')). now left. }
  assert (Us : Ties.unsigned s = s).
  { assert (K : In (s, hit_error) (map norm ps')) by (apply (Permutation_in _ (Permutation_sym Pm')); now left).
    apply in_map_iff in K as ([x e] & K & _). unfold norm in K. cbn [fst snd] in K. injection K as <- _. destruct x as [[]| | |]; reflexivity. }
  destruct (low s Ns) as [Es|Ls].
  - assert (E0 : Permutation (map norm (A ++ (ninf, hit_error) :: B)) (map norm ps')).
    { rewrite Pm', Es, <- PA, !map_app. cbn [map]. apply Permutation_sym, Permutation_middle. }
    rewrite <- (Lifted.tvalue_perm i t _ _ G0 G' E0).
    unfold Lifted.tvalue. rewrite (bottom_collapse A _ HA HB), (bottom_collapse A _ HA HB'), (ninf_run _ B HB), (ninf_run _ B HB'). apply tail_hit.
    + intros c I. apply in_app_or in I as [I|[<-|[]]]; [auto|]. apply point_bounded. intros m I. now apply (ZB hit_error).
    + intros c [<-|[]]. apply point_misses; [exact MB|]. rewrite app_length in Ln. cbn [length] in Ln. lia.
    + unfold references, total. cbn [map list_sum fold_right]. destruct (point_counts (item (ninf, miss_error)) (map item B)) as [_ C1].
      destruct (point_counts (item (ninf, hit_error)) (map item B)) as [_ C2]. rewrite C1, C2. reflexivity.
  - assert (FA : Lifted.pfalls A) by (destruct G as [F _]; now apply Ties.sorted_app_inv in F as (F & _ & _)).
    assert (NA : forall p, In p A -> is_nan (fst p) = false) by (intros p I; apply G, in_or_app; auto).
    destruct (three s A Ns FA NA) as (a & b & d & EA & Ha & Hb & Hd).
    set (A' := a ++ ((s, hit_error) :: b) ++ d).
    assert (HA' : forall p, In p A' -> f32_lt ninf (fst p) = true).
    { intros p I. unfold A' in I. rewrite !in_app_iff in I. destruct I as [I|[[<-|I]|I]]; [|exact Ls| |]; apply HA; rewrite EA, !in_app_iff; auto. }
    assert (NA' : forall p, In p A' -> is_nan (fst p) = false).
    { intros p I. unfold A' in I. rewrite !in_app_iff in I. destruct I as [I|[[<-|I]|I]]; [|exact Ns| |]; apply NA; rewrite EA, !in_app_iff; auto. }
    assert (HBt : forall q : P, In q B -> fst q = ninf) by (intros q I; apply HB; now right).
    assert (G1 : Lifted.good (A' ++ B)).
    { split.
      - rewrite EA in FA. apply Ties.sorted_app_inv in FA as (Fa & Fbd & Fabd). apply Ties.sorted_app_inv in Fbd as (Fb & Fd & Fbd).
        assert (Ge : forall p q : P, is_nan (fst p) = false -> is_nan (fst q) = false -> emb (fst q) <= emb (fst p) -> f32_lt (fst p) (fst q) = false) by (intros p q N1 N2 K; now apply emb_ge).
        assert (Nx : forall p, In p (a ++ b ++ d) -> is_nan (fst p) = false) by (intros p I; apply NA; now rewrite EA).
        apply Ties.sorted_app.
        + unfold A'. apply Ties.sorted_app; [exact Fa| |].
          * apply Ties.sorted_app; [|exact Fd|].
            -- constructor; [exact Fb|]. apply Forall_forall. intros q I. apply Ge; [exact Ns|apply Nx; rewrite !in_app_iff; auto|]. cbn [fst]. rewrite (Hb q I). apply Rle_refl.
            -- intros p q [<-|I] J; [|now apply Fbd]. apply Ge; [exact Ns|apply Nx; rewrite !in_app_iff; auto|]. cbn [fst]. apply Rlt_le, Hd, J.
          * intros p q I J. apply in_app_or in J as [[<-|J]|J]; [|apply Fabd; rewrite ?in_app_iff; auto|apply Fabd; rewrite ?in_app_iff; auto].
            apply Ge; [apply Nx; rewrite !in_app_iff; auto|exact Ns|]. cbn [fst]. apply Rlt_le, Ha, I.
        + destruct G as [F _]. apply Ties.sorted_app_inv in F as (_ & F & _). now inversion F.
        + intros p q I J. rewrite (HBt q J). specialize (HA' p I). destruct (fst p) as [x|[]| |[] m e B0]; try discriminate; reflexivity.
      - intros p I. apply in_app_or in I as [I|I].
        + split; [auto|]. unfold A' in I. rewrite !in_app_iff in I. destruct I as [I|[[<-|I]|I]]; [|exact Zh| |]; apply G; rewrite EA, !in_app_iff; auto.
        + apply G, in_or_app. right. now right. }
    assert (E0 : Permutation (map norm (A' ++ B)) (map norm ps')).
    { rewrite Pm'. assert (K : (s, hit_error) = norm (s, hit_error)) by (unfold norm; cbn [fst snd]; now rewrite Us). rewrite K, <- PA.
      change (Permutation (map norm (A' ++ B)) (map norm ((s, hit_error) :: A ++ B))). apply Permutation_map. rewrite EA. unfold A'.
      rewrite <- !app_assoc. cbn [app]. apply Permutation_sym, Permutation_middle. }
    rewrite <- (Lifted.tvalue_perm i t _ _ G1 G' E0). clear E0 Pm Pm' PA.
    unfold Lifted.tvalue. rewrite (bottom_collapse A _ HA HB), (bottom_collapse A' _ HA' HBt), (ninf_run _ B HB).
    assert (Bl1 : blank (point (item (ninf, miss_error)) (map item B))) by (apply point_misses; [exact MB|]; rewrite app_length in Ln; cbn [length] in Ln; lia).
    assert (Bl2 : forall c, In c (collapse_matches sc (map item B)) -> blank c).
    { destruct B as [|q B']; [intros c []|]. assert (q = (ninf, miss_error)) as -> by (apply NB; right; now left).
      intros c. rewrite ninf_run by exact HBt. intros [<-|[]]. apply point_misses; [|rewrite app_length in Ln; cbn [length] in Ln; lia].
      intros e I. apply MB. cbn [map]. now right. }
    assert (Bb : blank (point (item (ninf, miss_error)) (map item B)) -> forall c, In c [point (item (ninf, miss_error)) (map item B)] -> blank c) by (intros H c [<-|[]]; exact H).
    assert (ZA' : forall m, In m (map item A') -> zero_one (m_err m)).
    { intros m I. apply in_map_iff in I as (p & <- & I). apply G1, in_or_app. auto. }
    assert (BA' := collapse_bounded _ ZA').
    assert (En : references (collapse_matches sc (map item A) ++ [point (item (ninf, miss_error)) (map item B)]) =
      references (collapse_matches sc (map item A') ++ collapse_matches sc (map item B))).
    { rewrite <- (ninf_run _ B HB), <- (bottom_collapse A _ HA HB), <- (bottom_collapse A' _ HA' HBt).
      assert (Rf : forall l : list M, references (collapse_matches sc l) = refs l) by (intros l; exact (proj2 (collapse_totals sc l))).
      rewrite !Rf. unfold refs. rewrite EA. unfold A'. rewrite !map_app. cbn [map]. rewrite !Matching.total_app, !total_cons. cbn [m_err item snd me_nr hit_error miss_error].
      change (me_nr hit_error) with 1%nat. change (me_nr miss_error) with 1%nat. lia. }
    assert (Hn : (0 < references (collapse_matches sc (map item A') ++ collapse_matches sc (map item B)))%nat).
    { rewrite <- En. destruct Bl1 as (_ & _ & K & _). unfold references. rewrite Matching.total_app. unfold total at 2. cbn [map list_sum fold_right]. lia. }
    rewrite (start_value i t _ _ BA (Bb Bl1)), (start_value i t _ _ BA' Bl2). rewrite En. set (n := references (collapse_matches sc (map item A') ++ collapse_matches sc (map item B))) in *. clearbody n. clear En.
    (* the points above, at and below the score *)
    assert (Sd : forall k k' : list P, (forall p, In p (k ++ k') -> is_nan (fst p) = false) -> (forall p q, In p k -> In q k' -> emb (fst q) < emb (fst p)) ->
      collapse_matches sc (map item (k ++ k')) = collapse_matches sc (map item k) ++ collapse_matches sc (map item k')).
    { intros k k' Nk H. rewrite map_app. apply collapse_app. intros y z Iy Iz. apply in_map_iff in Iy as (p & <- & Ip), Iz as (q & <- & Iq).
      apply not_tie; [apply (Nk p), in_or_app; auto|apply (Nk q), in_or_app; auto|]. exact (H p q Ip Iq). }
    assert (EcA : collapse_matches sc (map item A) = collapse_matches sc (map item a) ++ collapse_matches sc (map item b) ++ collapse_matches sc (map item d)).
    { rewrite EA in NA |- *. rewrite Sd; [f_equal; apply Sd| |]; auto.
      - intros p I. apply NA, in_or_app; auto.
      - intros p q I J. rewrite (Hb p I). auto.
      - intros p q I J. specialize (Ha p I). apply in_app_or in J as [J|J]; [rewrite (Hb q J)|specialize (Hd q J)]; lra. }
    assert (EcA' : collapse_matches sc (map item A') = collapse_matches sc (map item a) ++ collapse_matches sc (map item ((s, hit_error) :: b)) ++ collapse_matches sc (map item d)).
    { unfold A' in *. assert (Hb' : forall p, In p ((s, hit_error) :: b) -> emb (fst p) = emb s) by (intros p [<-|I]; auto).
      rewrite Sd; [f_equal; apply Sd| |]; auto.
      - intros p I. apply NA', in_or_app; auto.
      - intros p q I J. rewrite (Hb' p I). auto.
      - intros p q I J. specialize (Ha p I). apply in_app_or in J as [J|J]; [rewrite (Hb' q J)|specialize (Hd q J)]; lra. }
    rewrite EcA, EcA' in *. clear EcA EcA'.
    assert (Run : forall (p : P) (k : list P), (forall q : P, In q (p :: k) -> is_nan (fst q) = false /\ emb (fst q) = emb s) -> collapse_matches sc (map item (p :: k)) = [point (item p) (map item k)]).
    { intros p k H. cbn [map]. apply collapse_run. intros y I. apply in_map_iff in I as (q & <- & I).
      destruct (H p (or_introl eq_refl)) as [N1 E1], (H q (or_intror I)) as [N2 E2]. apply emb_eq; [exact N1|exact N2|]. etransitivity; [exact E1|symmetry; exact E2]. }
    assert (Nb : forall p, In p b -> is_nan (fst p) = false) by (intros p I; apply NA; rewrite EA, !in_app_iff; auto).
    rewrite (Run (s, hit_error) b) in * by (intros q [<-|I]; auto).
    set (ca := collapse_matches sc (map item a)) in *. set (cd := collapse_matches sc (map item d)) in *.
    destruct b as [|p b].
    + change (collapse_matches sc (map item [])) with (@nil counts) in *. cbn [app] in *. apply start_new; auto.
    + rewrite (Run p b) in * by (intros q I; auto). cbn [app] in *. apply start_hit; auto.
      apply (point_hit (item p) (map item b) (item (s, hit_error))); [reflexivity| |apply Permutation_refl].
      intros m I. change (In m (map item (p :: b))) in I. apply in_map_iff in I as (q & <- & I). apply G, in_or_app. left. rewrite EA. apply in_or_app. right. exact (in_or_app (p :: b) d q (or_introl I)).
Qed.
