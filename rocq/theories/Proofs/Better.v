(** Proofs about better rankings. *)
From Coq Require Import List Bool ZArith Sorted Reals Lra Lia Permutation.
From Flocq Require Import Core BinarySingleNaN.
From Verif.Model Require Import Cpp Floats Events Matches Assessment.
From Verif.Spec Require Import Order Objects Matching Collapse Metrics Better.
From Verif.Proofs Require Import FloatFacts Collapse Metrics.
From Verif.Proofs Require Matching AveragePrecision Ndcg.
Import ListNotations.
Local Open Scope R_scope.

(** ** Areas *)

Notation ple := (Forall2 Rle).

Lemma ple_refl l : ple l l.
Proof. induction l; constructor; auto; lra. Qed.

Lemma last_cons {X} (x : X) l y : last (x :: l) y = last l x.
Proof. revert x y. induction l as [|q l IH]; intros x y; [reflexivity|]. rewrite (IH q x). exact (IH q y). Qed.

Lemma area_app t pa : forall prev s ra pb rb, length pa = length ra ->
  area_rec t prev s (pa ++ pb) (ra ++ rb) =
  area_rec t prev s pa ra + area_rec t (last (map Some pa) prev) (last ra s) pb rb.
Proof.
  induction pa as [|p pa IH]; intros prev s [|r ra] pb rb L; try discriminate; [cbn; lra|].
  cbn [app area_rec]. rewrite IH by (injection L; auto).
  cbn [map]. rewrite !last_cons. lra.
Qed.

Definition ole (a b : option R) : Prop :=
  match a, b with Some x, Some y => x <= y | None, None => True | _, _ => False end.

Lemma area_mono t pr : forall pr' prev prev' s rc, ole prev prev' -> ple pr pr' -> StronglySorted Rle (s :: rc) ->
  area_rec t prev s pr rc <= area_rec t prev' s pr' rc.
Proof.
  induction pr as [|p pr IH]; intros pr' prev prev' s rc O F S; inversion F as [|? p' ? pr2 Lp F']; subst; [cbn; lra|].
  destruct rc as [|r rc]; [cbn; lra|]. cbn [area_rec]. inversion S as [|? ? S' Fs]; subst. inversion Fs; subst.
  assert (H : height RArith t prev p * (r - s) <= height RArith t prev' p' * (r - s)).
  { apply Rmult_le_compat_r; [lra|]. rewrite !height_R. destruct prev, prev'; cbn in O; try tauto; destruct t; lra. }
  assert (K := IH pr2 (Some p) (Some p') r rc Lp F' S'). lra.
Qed.

(** ** Interpolation *)

Lemma max_R a b : a_max RArith a b = Rmax a b.
Proof. unfold a_max. cbn [a_lt RArith]. unfold Rmax. destruct (Rlt_dec a b), (Rle_dec a b); try reflexivity; change (@eq R a b || @eq R b a) || idtac; cbn in *; lra. Qed.

Lemma interp_mono l : forall l', ple l l' -> ple (interp RArith l) (interp RArith l').
Proof.
  induction l as [|p l IH]; intros l' F; inversion F as [|? p' ? l2 Lp F']; subst; [constructor|].
  cbn [interp]. specialize (IH l2 F'). destruct (interp RArith l) as [|q t], (interp RArith l2) as [|q' t']; inversion IH; subst.
  - constructor; auto.
  - constructor; [|constructor; auto]. rewrite !max_R. apply Rmax_lub; [eapply Rle_trans; [exact Lp|apply Rmax_l]|eapply Rle_trans; [eassumption|apply Rmax_r]].
Qed.

Lemma interp_app a b : exists a', interp RArith (a ++ b) = a' ++ interp RArith b /\ length a' = length a.
Proof.
  exists (firstn (length a) (interp RArith (a ++ b))). split.
  - assert (K := firstn_skipn (length a) (interp RArith (a ++ b))).
    rewrite interp_skipn, skipn_app, skipn_all, Nat.sub_diag in K. symmetry. exact K.
  - rewrite firstn_length, interp_length, app_length. lia.
Qed.

Lemma ple_split a b a' b' : length a = length a' -> ple (a ++ b) (a' ++ b') -> ple a a' /\ ple b b'.
Proof.
  revert a'. induction a as [|x a IH]; intros [|x' a'] L F; try discriminate; [split; [constructor|exact F]|].
  inversion F; subst. destruct (IH a' (f_equal Nat.pred L)) as [F1 F2]; [assumption|]. split; [now constructor|exact F2].
Qed.

(** ** Moving a step up *)

Lemma sorted_app_inv {X} (P : X -> X -> Prop) a b : StronglySorted P (a ++ b) -> StronglySorted P a /\ StronglySorted P b /\
  forall x y, In x a -> In y b -> P x y.
Proof.
  induction a as [|x a IH]; cbn; intros S; [split; [constructor|]; split; [exact S|intros ? ? []]|].
  inversion S as [|? ? S' F]; subst. destruct (IH S') as (S1 & S2 & K). rewrite Forall_forall in F. split; [|split; [exact S2|]].
  - constructor; [exact S1|]. apply Forall_forall. intros y I. apply F, in_or_app. auto.
  - intros u v [<-|I] J; [apply F, in_or_app; auto|auto].
Qed.

(** The step up moves from the second of two points to the first. *)
Lemma step_up t x x' p p' q y ra r rb : length x = length ra -> ple x x' ->
  p <= p' -> q <= p' -> (forall z, last (map Some x') None = Some z -> p <= z) ->
  StronglySorted Rle (0 :: ra) -> last ra 0 <= r ->
  area_rec t None 0 (x ++ p :: q :: y) (ra ++ last ra 0 :: r :: rb) <=
  area_rec t None 0 (x' ++ p' :: q :: y) (ra ++ r :: r :: rb).
Proof.
  intros L F Lp Lq Z S Lr. assert (L' : length x' = length ra) by (rewrite <- L; clear - F; induction F; cbn; auto).
  rewrite !area_app by auto. cbn [area_rec].
  assert (K := area_mono t x x' None None 0 ra I F S).
  set (s := last ra 0) in *.
  assert (H : height RArith t (Some p) q * (r - s) <= height RArith t (last (map Some x') None) p' * (r - s)).
  { apply Rmult_le_compat_r; [lra|]. rewrite !height_R. destruct (last (map Some x') None) as [z|].
    - specialize (Z z eq_refl). destruct t; lra.
    - destruct t; lra. }
  lra.
Qed.

(** ** Precision and recall *)

Lemma pr_loop_app t a : forall nr nh fp fn b, exists nr' nh' fp' fn',
  pr_loop RArith t nr nh fp fn (a ++ b) = pr_loop RArith t nr nh fp fn a ++ pr_loop RArith t nr' nh' fp' fn' b /\
  nr' = (nr + references a)%nat /\ nh' = (nh + hypotheses a)%nat /\ fp' = fp + false_positives a /\ fn' = fn + misses a.
Proof.
  induction a as [|e a IH]; intros nr nh fp fn b.
  - exists nr, nh, fp, fn. unfold references, hypotheses, false_positives, misses, total. cbn. change (num RArith) with R in *.
    rewrite !Nat.add_0_r, !Rplus_0_r. auto.
  - destruct (IH (nr + ec_nr e)%nat (nh + ec_nh e)%nat (fp + B2R (ec_fp e)) (fn + B2R (ec_fn e)) b) as (nr' & nh' & fp' & fn' & E & -> & -> & -> & ->).
    eexists _, _, _, _. cbn [app pr_loop]. split; [f_equal; exact E|].
    unfold references, hypotheses, false_positives, misses, total. cbn. change (num RArith) with R in *. rewrite <- !Nat.add_assoc, !Rplus_assoc. auto.
Qed.


Lemma pr_loop_last t u e d : last (pr_loop RArith t 0 0 0 0 (u ++ [e])) d =
  (precision_of RArith (hypotheses (u ++ [e])) (false_positives (u ++ [e])), recall_of RArith t (references (u ++ [e])) (misses (u ++ [e]))).
Proof.
  destruct (pr_loop_app t u 0 0 0 0 [e]) as (nr & nh & fp & fn & E & -> & -> & -> & ->). rewrite E. cbn [pr_loop]. rewrite last_last.
  assert (S : forall f, sum_of f (u ++ [e]) = sum_of f u + f e) by (intros f; rewrite sum_of_app; cbn; lra).
  assert (N : forall f, total f (u ++ [e]) = (total f u + f e)%nat) by (intros f; rewrite Matching.total_app; cbn; unfold total; cbn; lia).
  unfold hypotheses, references, false_positives, misses. rewrite !S, !N. cbn [a_add a_f32 RArith].
  f_equal; f_equal; try lia; change (num RArith) with R; lra.
Qed.

Section Swap.
  Variables u v : list counts.
  Hypothesis Bu : forall c, In c (u ++ v) -> bounded c.
  Notation hit := (Counts f32_0 f32_0 1 1).
  Notation alarm := (Counts f32_1 f32_0 1 0).
  Notation before := (u ++ alarm :: hit :: v).
  Notation after := (u ++ hit :: alarm :: v).

  Lemma bounded_before c : In c before -> bounded c.
  Proof.
    destruct f32_1_R as [O O']. assert (Z := f32_0_R).
    intros I. apply in_app_or in I as [I|[<-|[<-|I]]]; [apply Bu, in_or_app; auto| | |apply Bu, in_or_app; auto]; unfold bounded; cbn [ec_fp ec_fn ec_nh ec_nr INR]; rewrite ?O, ?O', ?Z; repeat split; auto; lra.
  Qed.

  (** The curves before and after. *)
  Lemma swap_curves : exists x p p' q y ra r rb,
    map fst (pr_loop RArith (num_total_refs before) 0 0 0 0 before) = x ++ p :: q :: y /\
    map snd (pr_loop RArith (num_total_refs before) 0 0 0 0 before) = ra ++ last ra 0 :: r :: rb /\
    map fst (pr_loop RArith (num_total_refs after) 0 0 0 0 after) = x ++ p' :: q :: y /\
    map snd (pr_loop RArith (num_total_refs after) 0 0 0 0 after) = ra ++ r :: r :: rb /\
    length x = length ra /\ p <= p' /\ q < p' /\ (forall z, last (map Some x) None = Some z -> p <= z) /\
    StronglySorted Rle (0 :: ra) /\ last ra 0 < r.
  Proof.
    destruct f32_1_R as [O _]. assert (Z := f32_0_R).
    rewrite !total_refs.
    assert (Et : references after = references before) by (unfold references; rewrite !Matching.total_app; unfold total; cbn; lia).
    rewrite Et. set (t := references before).
    assert (Ht : (0 < t)%nat) by (unfold t, references; rewrite Matching.total_app; unfold total; cbn; lia).
    assert (Tp : 0 < INR t) by (now apply lt_0_INR).
    destruct (pr_loop_app t u 0 0 0 0 (alarm :: hit :: v)) as (nr & nh & fp & fn & E & Er & Eh & Ef & Em).
    destruct (pr_loop_app t u 0 0 0 0 (hit :: alarm :: v)) as (nr' & nh' & fp' & fn' & E' & Er' & Eh' & Ef' & Em').
    rewrite E, E'. subst nr' nh' fp' fn'. rewrite <- Er, <- Eh, <- Ef, <- Em. clear E'.
    set (L := pr_loop RArith t 0 0 0 0 u) in *.
    cbn [pr_loop ec_nr ec_nh ec_fp ec_fn a_add a_f32 RArith] in *. rewrite !map_app. cbn [map fst snd]. rewrite O, Z.
    replace (nr + 1 + 0)%nat with (nr + 0 + 1)%nat by lia. replace (fp + 0 + 1) with (fp + 1 + 0) by lra.
    assert (Bd : 0 <= fp <= INR nh).
    { assert (K := fp_le_nh (u ++ v) Bu u (fun c I => in_or_app _ _ _ (or_introl I))). subst fp nh. cbn. lra. }
    assert (Bn : 0 <= fn <= INR nr).
    { assert (K := fn_le_nr (u ++ v) Bu u (fun c I => in_or_app _ _ _ (or_introl I))). subst fn nr. cbn. lra. }
    assert (Rc : forall n x, recall_of RArith t n x = (INR n - x) / INR t).
    { intros n x. unfold recall_of. destruct (Nat.ltb_spec 0 t); [reflexivity|lia]. }
    assert (Ls : last (map snd L) 0 = (INR nr - fn) / INR t).
    { unfold L. destruct u as [|e u' _] using rev_ind.
      - subst nr fn. unfold references, misses, total. cbn. unfold Rdiv. rewrite !Rplus_0_r, Rminus_0_r, Rmult_0_l. reflexivity.
      - assert (K : last (map snd (pr_loop RArith t 0 0 0 0 (u' ++ [e]))) 0 = snd (last (pr_loop RArith t 0 0 0 0 (u' ++ [e])) (0, 0))).
        { generalize (pr_loop RArith t 0 0 0 0 (u' ++ [e])). clear. intros l. change 0 with (snd (0, 0)) at 1. generalize (0, 0).
          induction l as [|x l IH]; intros d; [reflexivity|]. cbn [map]. rewrite !last_cons. apply IH. }
        rewrite K, pr_loop_last. cbn [snd]. rewrite Rc. subst nr fn. cbn [Nat.add]. rewrite Rplus_0_l. reflexivity. }
    assert (Zp : forall z, last (map Some (map fst L)) None = Some z -> z = precision_of RArith nh fp).
    { unfold L. intros z. destruct u as [|e u' _] using rev_ind; [discriminate|].
      assert (K : forall d, last (map Some (map fst (pr_loop RArith t 0 0 0 0 (u' ++ [e])))) None = Some (fst (last (pr_loop RArith t 0 0 0 0 (u' ++ [e])) d))).
      { assert (N : pr_loop RArith t 0 0 0 0 (u' ++ [e]) <> []) by (destruct u'; discriminate).
        revert N. generalize (pr_loop RArith t 0 0 0 0 (u' ++ [e])). clear. intros [|x l] N d; [congruence|].
        cbn [map]. rewrite !last_cons. clear. revert x. induction l as [|y l IH]; intros x; [reflexivity|]. cbn [map]. rewrite !last_cons. apply IH. }
      rewrite (K (0, 0)), pr_loop_last. cbn [fst]. intros [= <-]. subst nh fp. cbn [Nat.add]. rewrite Rplus_0_l. reflexivity. }
    eexists (map fst L), _, _, _, _, (map snd L), _, _. change (num RArith) with R in *. rewrite Ls, !Rc.
    split; [reflexivity|]. split; [f_equal; f_equal; rewrite Nat.add_0_r, Rplus_0_r; reflexivity|]. split; [reflexivity|].
    split; [rewrite !Rplus_0_r, !Nat.add_0_r; reflexivity|]. split; [now rewrite !map_length|].
    assert (Hp : forall n x, (0 < n)%nat -> precision_of RArith n x = 1 - x / INR n).
    { intros n x H. unfold precision_of. destruct (Nat.ltb_spec 0 n); [reflexivity|lia]. }
    rewrite !Hp by lia. rewrite !plus_INR. change (INR 1) with 1.
    assert (Hn : 0 <= INR nh) by apply pos_INR.
    assert (Dv : forall a b c d, 0 < b -> 0 < d -> a * d <= c * b -> a / b <= c / d).
    { intros a b c d Hb Hd H. apply Rmult_le_reg_r with (b * d); [nra|]. replace (a / b * (b * d)) with (a * d) by (field; lra).
      replace (c / d * (b * d)) with (c * b) by (field; lra). exact H. }
    split; [|split; [|split; [|split]]].
    - enough (fp / (INR nh + 1) <= (fp + 1) / (INR nh + 1)) by lra. apply Dv; nra.
    - enough (fp / (INR nh + 1) < (fp + 1 + 0) / (INR nh + 1 + 1)) by lra.
      apply Rmult_lt_reg_r with ((INR nh + 1) * (INR nh + 1 + 1)); [nra|]. replace (fp / (INR nh + 1) * ((INR nh + 1) * (INR nh + 1 + 1))) with (fp * (INR nh + 1 + 1)) by (field; lra).
      replace ((fp + 1 + 0) / (INR nh + 1 + 1) * ((INR nh + 1) * (INR nh + 1 + 1))) with ((fp + 1) * (INR nh + 1)) by (field; lra). nra.
    - intros z Hz. rewrite (Zp z Hz). unfold precision_of. destruct (Nat.ltb_spec 0 nh) as [H|H].
      + apply lt_0_INR in H. change (1 - (fp + 1) / (INR nh + 1) <= 1 - fp / INR nh).
        enough (fp / INR nh <= (fp + 1) / (INR nh + 1)) by lra. apply Dv; nra.
      + change (1 - (fp + 1) / (INR nh + 1) <= 1). enough (0 / 1 <= (fp + 1) / (INR nh + 1)) by lra. apply Dv; nra.
    - destruct (curve_spec before) as (pr & rc & Ep & C). destruct (curve_bounds before pr rc bounded_before C) as (_ & B1 & B2).
      assert (Erc : rc = map snd L ++ map snd (pr_loop RArith t nr nh fp fn (alarm :: hit :: v))).
      { unfold precision_recall in Ep. rewrite total_refs in Ep. injection Ep as _ <-. change (a0 RArith) with 0. fold t.
        rewrite <- map_app. exact (f_equal (map snd) E). }
      rewrite Erc in B1, B2. apply sorted_app_inv in B2 as (B2 & _). constructor; [exact B2|].
      apply Forall_forall. intros r I. apply (B1 r), in_or_app. auto.
    - apply Rmult_lt_compat_r; [now apply Rinv_0_lt_compat|]. change (INR 0) with 0. lra.
  Qed.

  Lemma swap_ap i t : exists a b, (let (pr, rc) := precision_recall RArith before i in ap_curves RArith pr rc t) = Ok a /\
    (let (pr, rc) := precision_recall RArith after i in ap_curves RArith pr rc t) = Ok b /\ a <= b.
  Proof.
    destruct swap_curves as (x & p & p' & q & y & ra & r & rb & E1 & E2 & E3 & E4 & L & Lp & Lq' & Z & S & Lr').
    assert (Lq := Rlt_le _ _ Lq'). assert (Lr := Rlt_le _ _ Lr').
    unfold precision_recall. change (a0 RArith) with 0. rewrite E1, E2, E3, E4.
    assert (Lb : length y = length rb).
    { assert (K : length (x ++ p :: q :: y) = length (ra ++ last ra 0 :: r :: rb)) by (rewrite <- E1, <- E2, !map_length; reflexivity).
      rewrite !app_length in K. cbn in K. change (num RArith) with R in *. lia. }
    change (num RArith) with R in *. destruct i.
    - destruct (interp_app x (p :: q :: y)) as (X & Ex & Lx). destruct (interp_app x (p' :: q :: y)) as (X' & Ex' & Lx'). change (num RArith) with R in *.
      assert (M : ple (X ++ interp RArith (p :: q :: y)) (X' ++ interp RArith (p' :: q :: y))).
      { rewrite <- Ex, <- Ex'. apply interp_mono. apply Forall2_app; [apply ple_refl|]. constructor; [exact Lp|apply ple_refl]. }
      apply ple_split in M as [M _]; [|change (num RArith) with R in *; congruence].
      rewrite Ex, Ex'.
      assert (exists Q Y, (forall w, interp RArith (w :: q :: y) = Rmax w Q :: Q :: Y) /\ q <= Q /\ length Y = length y) as (Q & Y & EQ & LQ & LY).
      { assert (K := interp_length RArith y). cbn [interp].
        destruct (interp RArith y) as [|q0 t']; eexists _, _; (split; [intros w; rewrite <- max_R; reflexivity|]); split; auto; [lra|rewrite max_R; apply Rmax_l]. }
      assert (Ehd := EQ p'). assert (Ehd0 := EQ p).
      rewrite Ehd, Ehd0.
      eexists _, _. split; [apply ap_curves_rec; rewrite !app_length; cbn; rewrite Lx, LY, Lb, L; reflexivity|].
      split; [apply ap_curves_rec; rewrite !app_length; cbn; rewrite Lx', LY, Lb, L; reflexivity|].
      apply step_up; auto; [congruence| |apply Rmax_r|].
      + apply Rle_max_compat_r. exact Lp.
      + intros z Hz. apply Rle_trans with (Rmax p' Q); [apply Rle_max_compat_r; exact Lp|].
        assert (So := interp_sorted RArith (fun _ => True) (fun x => x) R_lt_v (x ++ p' :: q :: y) (all_true _)).
        rewrite Ex' in So. apply sorted_app_inv in So as (_ & _ & So). apply (So z (Rmax p' Q)).
        * clear - Hz. destruct X' as [|w X'] using rev_ind; [discriminate|]. rewrite map_app in Hz. cbn [map] in Hz. rewrite last_last in Hz. injection Hz as ->. apply in_elt.
        * rewrite Ehd. left. reflexivity.
    - eexists _, _. split; [apply ap_curves_rec; rewrite !app_length; cbn; change (num RArith) with R; rewrite Lb, L; reflexivity|].
      split; [apply ap_curves_rec; rewrite !app_length; cbn; change (num RArith) with R; rewrite Lb, L; reflexivity|].
      apply step_up; auto using ple_refl.
  Qed.

  Lemma swap_ap_strict t a b : (let (pr, rc) := precision_recall RArith before false in ap_curves RArith pr rc t) = Ok a ->
    (let (pr, rc) := precision_recall RArith after false in ap_curves RArith pr rc t) = Ok b -> a < b.
  Proof.
    destruct swap_curves as (x & p & p' & q & y & ra & r & rb & E1 & E2 & E3 & E4 & L & Lp & Lq & Z & S & Lr).
    unfold precision_recall. change (a0 RArith) with 0. rewrite E1, E2, E3, E4.
    assert (Lb : length y = length rb).
    { assert (K : length (x ++ p :: q :: y) = length (ra ++ last ra 0 :: r :: rb)) by (rewrite <- E1, <- E2, !map_length; reflexivity).
      rewrite !app_length in K. cbn in K. change (num RArith) with R in *. lia. }
    change (num RArith) with R in *.
    rewrite !ap_curves_rec by (rewrite !app_length; cbn; change (num RArith) with R; rewrite Lb, L; reflexivity).
    intros [= <-] [= <-]. rewrite !area_app by auto. cbn [area_rec]. set (s := last ra 0) in *.
    assert (H : height RArith t (Some p) q * (r - s) < height RArith t (last (map Some x) None) p' * (r - s)).
    { apply Rmult_lt_compat_r; [lra|]. rewrite !height_R. destruct (last (map Some x) None) as [z|].
      - specialize (Z z eq_refl). destruct t; lra.
      - destruct t; lra. }
    lra.
  Qed.
End Swap.

(** ** Lists of matches *)

Lemma better_perm a b : better a b -> Permutation a b.
Proof. induction 1 as [l|u v|a b c _ IH1 _ IH2]; [reflexivity| |now rewrite IH1]. apply Permutation_app_head. constructor. Qed.

Lemma better_in a b : better a b -> forall x y, better (x ++ a ++ y) (x ++ b ++ y).
Proof.
  induction 1 as [l|u v|a b c _ IH1 _ IH2]; intros x y; [constructor| |eapply better_trans; auto].
  rewrite <- !app_assoc. cbn [app]. rewrite !(app_assoc x u). constructor.
Qed.

Lemma better_app a b c : better b c -> better (a ++ b) (a ++ c).
Proof. intros H. assert (K := better_in b c H a []). now rewrite !app_nil_r in K. Qed.

Definition raw_ap (es : list match_error) (i t : bool) : outcome R :=
  let (pr, rc) := precision_recall RArith (map counts_of es) i in ap_curves RArith pr rc t.
Definition raw_ndcg (es : list match_error) : R := ndcg RArith RTrans (map counts_of es).

Lemma raw_ap_ok {RE HE} (score : HE -> f32) (l : list (match_t RE HE)) i t : global_ap RArith score l false i t = raw_ap (map m_err l) i t.
Proof. unfold global_ap, precision_recall_matches, raw_ap. rewrite AveragePrecision.raw_points. rewrite map_map. reflexivity. Qed.

Lemma raw_ndcg_ok {RE HE} (score : HE -> f32) (l : list (match_t RE HE)) : global_ndcg RArith RTrans score l false = raw_ndcg (map m_err l).
Proof. unfold global_ndcg, raw_ndcg. rewrite AveragePrecision.raw_points. rewrite map_map. reflexivity. Qed.

Lemma raw_bounded es : (forall e, In e es -> zero_one e) -> forall c, In c (map counts_of es) -> bounded c.
Proof.
  intros H c I. apply in_map_iff in I as (e & <- & I).
  apply AveragePrecision.balanced_raw. exact (H e I).
Qed.

Lemma raw_ap_defined es i t : exists a, raw_ap es i t = Ok a.
Proof.
  unfold raw_ap. destruct (precision_recall RArith (map counts_of es) i) as [pr rc] eqn:E. eexists. apply ap_curves_rec.
  unfold precision_recall in E. injection E as <- <-. destruct i; rewrite ?interp_length, !map_length; reflexivity.
Qed.

Lemma better_ap es es' i t : better es es' -> (forall e, In e es -> zero_one e) -> exists a b, raw_ap es i t = Ok a /\ raw_ap es' i t = Ok b /\ a <= b.
Proof.
  induction 1 as [l|u v|l1 l2 l3 H1 IH1 _ IH2]; intros Z.
  - destruct (raw_ap_defined l i t) as [a E]. exists a, a. split; [exact E|]. split; [exact E|lra].
  - unfold raw_ap. rewrite !map_app. cbn [map]. apply swap_ap. rewrite <- map_app. apply raw_bounded.
    intros e I. apply Z. apply in_app_or in I. apply in_or_app. simpl. tauto.
  - destruct (IH1 Z) as (a & b & E1 & E2 & L1).
    destruct IH2 as (b' & c & E3 & E4 & L2).
    { intros e I. apply Z. eapply Permutation_in; [apply Permutation_sym, better_perm; exact H1|exact I]. }
    rewrite E2 in E3. injection E3 as <-. exists a, c. split; [exact E1|]. split; [exact E4|lra].
Qed.

Lemma swap_ndcg u v : raw_ndcg (u ++ alarm_error :: hit_error :: v) < raw_ndcg (u ++ hit_error :: alarm_error :: v).
Proof.
  unfold raw_ndcg. rewrite !map_app. cbn [map].
  set (U := map counts_of u). set (V := map counts_of v). set (h := counts_of hit_error). set (a := counts_of alarm_error).
  rewrite !Ndcg.ndcg_sum.
  assert (Er : references (U ++ a :: h :: V) = references (U ++ h :: a :: V)) by (unfold references; rewrite !Matching.total_app; unfold total; cbn; lia).
  rewrite Er. destruct (Nat.ltb_spec 0 (references (U ++ h :: a :: V))) as [P|P];
    [|unfold references in P; rewrite Matching.total_app in P; unfold total in P; cbn in P; lia].
  apply Rmult_lt_compat_r; [apply Rinv_0_lt_compat, Ndcg.z_pos, P|].
  assert (G : forall x y, Ndcg.gains (x ++ y) = Ndcg.gains x ++ Ndcg.gains y) by apply Ndcg.gains_app.
  rewrite !G, !Ndcg.dsum_app. apply Rplus_lt_compat_l. set (k := (1 + length (Ndcg.gains U))%nat).
  destruct f32_1_R as [O O'].
  assert (Gh : Ndcg.gains (a :: h :: V) = 0 :: 1 :: Ndcg.gains V /\ Ndcg.gains (h :: a :: V) = 1 :: 0 :: Ndcg.gains V).
  { assert (E1 : Ndcg.gain2 h = 1).
    { unfold Ndcg.gain2. rewrite Ndcg.rel32_all_right; [rewrite Ndcg.pow_1; lra|cbn; lia|cbn; lia|reflexivity|exact f32_0_R]. }
    assert (E0 : Ndcg.gain2 a = 0).
    { unfold Ndcg.gain2. rewrite Ndcg.rel32_all_wrong; [rewrite Ndcg.pow_0; lra|cbn; lia|cbn; lia|reflexivity|exact O]. }
    unfold Ndcg.gains. cbn [map concat]. rewrite E1, E0. split; reflexivity. }
  destruct Gh as [-> ->]. cbn [Ndcg.dsum]. assert (D := Ndcg.discount_lt k (S k) ltac:(unfold k; lia)). lra.
Qed.

Lemma better_ndcg es es' : better es es' -> raw_ndcg es <= raw_ndcg es'.
Proof. induction 1 as [l|u v|l1 l2 l3 _ IH1 _ IH2]; [lra|left; apply swap_ndcg|lra]. Qed.

Lemma strictly_ndcg es es' : strictly_better es es' -> raw_ndcg es < raw_ndcg es'.
Proof.
  intros (a & u & v & b & B1 & -> & -> & B2). apply better_ndcg in B1, B2. assert (K := swap_ndcg u v). lra.
Qed.

Lemma strictly_ap es es' t : strictly_better es es' -> (forall e, In e es -> zero_one e) ->
  exists x y, raw_ap es false t = Ok x /\ raw_ap es' false t = Ok y /\ x < y.
Proof.
  intros (a & u & v & b & B1 & -> & -> & B2) Z.
  destruct (better_ap _ _ false t B1 Z) as (x & x' & E1 & E2 & L1).
  assert (Z2 : forall e, In e (u ++ alarm_error :: hit_error :: v) -> zero_one e).
  { intros e I. apply Z. eapply Permutation_in; [apply Permutation_sym, better_perm; exact B1|exact I]. }
  assert (Z3 : forall e, In e (u ++ hit_error :: alarm_error :: v) -> zero_one e).
  { intros e I. apply Z2. eapply Permutation_in; [apply Permutation_sym, better_perm, better_swap|exact I]. }
  destruct (better_ap _ _ false t B2 Z3) as (y & y' & E3 & E4 & L2).
  exists x, y'. split; [exact E1|]. split; [exact E4|].
  assert (K : x' < y).
  { unfold raw_ap in E2, E3. rewrite !map_app in E2, E3. cbn [map] in E2, E3.
    refine (swap_ap_strict (map counts_of u) (map counts_of v) _ t x' y E2 E3). rewrite <- map_app. apply raw_bounded.
    intros e I. apply Z2. apply in_app_or in I. apply in_or_app. simpl. tauto. }
  lra.
Qed.
