(** Proofs about collapsed rankings in which one match has a higher score. *)
From Coq Require Import List Bool ZArith Sorted Reals Lra Lia Permutation.
From Flocq Require Import Core BinarySingleNaN.
From Verif.Model Require Import Cpp Floats Events Matches Assessment.
From Verif.Spec Require Import Order Objects Matching Collapse Metrics Better.
From Verif.Proofs Require Import FloatFacts Collapse Metrics Better.
From Verif.Proofs Require Matching AveragePrecision Order Ties Curves.
Import ListNotations.
Local Open Scope R_scope.

(** ** Interpolation *)

Lemma interp_cons p b : b <> [] -> interp RArith (p :: b) = Rmax p (hd 0 (interp RArith b)) :: interp RArith b.
Proof.
  intros N. cbn [interp]. assert (L := interp_length RArith b). destruct (interp RArith b) as [|q t].
  - destruct b; [congruence|discriminate].
  - now rewrite max_R.
Qed.

Lemma interp_some b : b <> [] -> interp RArith b <> [].
Proof. intros N E. assert (L := interp_length RArith b). rewrite E in L. destruct b; [congruence|discriminate]. Qed.

Lemma interp_heads a b b' : b <> [] -> b' <> [] -> hd 0 (interp RArith b) <= hd 0 (interp RArith b') ->
  exists X X', interp RArith (a ++ b) = X ++ interp RArith b /\ interp RArith (a ++ b') = X' ++ interp RArith b' /\
    length X = length a /\ length X' = length a /\ ple X X' /\
    hd 0 (interp RArith (a ++ b)) <= hd 0 (interp RArith (a ++ b')).
Proof.
  intros N N' H. induction a as [|p a (X & X' & E & E' & L & L' & F & Hd)]; cbn [app].
  - exists [], []. repeat split; auto.
  - rewrite !interp_cons by (destruct a; cbn; [assumption|discriminate]). 
    exists (Rmax p (hd 0 (interp RArith (a ++ b))) :: X), (Rmax p (hd 0 (interp RArith (a ++ b'))) :: X').
    rewrite E, E' in *. cbn [hd app length]. split; [reflexivity|]. split; [reflexivity|]. split; [congruence|]. split; [congruence|].
    assert (K := Rle_max_compat_l _ _ p Hd). split; [constructor; assumption|exact K].
Qed.

Lemma interp_same a b b' : b <> [] -> b' <> [] -> hd 0 (interp RArith b) = hd 0 (interp RArith b') ->
  exists X, interp RArith (a ++ b) = X ++ interp RArith b /\ interp RArith (a ++ b') = X ++ interp RArith b' /\ length X = length a /\
    hd 0 (interp RArith (a ++ b)) = hd 0 (interp RArith (a ++ b')).
Proof.
  intros N N' H. induction a as [|p a (X & E & E' & L & Hd)]; cbn [app].
  - exists []. repeat split; auto.
  - rewrite !interp_cons by (destruct a; cbn; [assumption|discriminate]).
    exists (Rmax p (hd 0 (interp RArith (a ++ b))) :: X). rewrite E, E' in *. cbn [hd app length]. rewrite Hd.
    split; [reflexivity|]. split; [reflexivity|]. split; [congruence|reflexivity].
Qed.

(** The interpolated precision at the end of the first part. *)
Lemma interp_last a b X : b <> [] -> interp RArith (a ++ b) = X ++ interp RArith b -> length X = length a ->
  last (map Some X) None = match rev a with [] => None | z :: _ => Some (Rmax z (hd 0 (interp RArith b))) end.
Proof.
  intros N E L. destruct a as [|z a _] using rev_ind; [destruct X; [reflexivity|discriminate]|].
  rewrite rev_app_distr. cbn [rev app]. rewrite <- app_assoc in E. cbn [app] in E.
  destruct (interp_app a (z :: b)) as (Y & E' & L'). rewrite (interp_cons z b N) in E'. change (num RArith) with R in *.
  assert (K : X = Y ++ [Rmax z (hd 0 (interp RArith b))]).
  { rewrite E' in E. change (Rmax z (hd 0 (interp RArith b)) :: interp RArith b) with ([Rmax z (hd 0 (interp RArith b))] ++ interp RArith b) in E.
    rewrite app_assoc in E. apply app_inv_tail in E. congruence. }
  rewrite K, map_app. cbn [map]. now rewrite last_last.
Qed.

Lemma head_ge b : b <> [] -> forall z, In z b -> z <= hd 0 (interp RArith b).
Proof.
  induction b as [|p b IH]; intros N z I; [congruence|]. destruct b as [|q b]; [destruct I as [<-|[]]; cbn; lra|].
  rewrite interp_cons by discriminate. cbn [hd]. destruct I as [<-|I]; [apply Rmax_l|].
  eapply Rle_trans; [apply IH; [discriminate|exact I]|apply Rmax_r].
Qed.

(** ** Adding and removing points *)

(** A point no better than the next one goes. *)
Lemma drop_point t x p q y ra r r' rb : length x = length ra -> p <= q -> r <= r' ->
  area_rec t None 0 (interp RArith (x ++ p :: q :: y)) (ra ++ r :: r' :: rb) <=
  area_rec t None 0 (interp RArith (x ++ q :: y)) (ra ++ r' :: rb).
Proof.
  intros L Lp Lr. set (Q := hd 0 (interp RArith (q :: y))).
  assert (HQ : p <= Q) by (eapply Rle_trans; [exact Lp|]; apply head_ge; [discriminate|now left]).
  assert (E1 : interp RArith (p :: q :: y) = Q :: interp RArith (q :: y)).
  { rewrite interp_cons by discriminate. fold Q. now rewrite Rmax_right. }
  destruct (interp_same x (p :: q :: y) (q :: y)) as (X & E & E' & LX & _); [discriminate|discriminate|now rewrite E1|].
  assert (Hl := interp_last x (q :: y) X ltac:(discriminate) E' LX). fold Q in Hl.
  change (num RArith) with R in *. rewrite E, E', E1. rewrite !area_app by congruence.
  assert (Eq : exists Y, interp RArith (q :: y) = Q :: Y).
  { unfold Q. destruct (interp RArith (q :: y)) eqn:K; [apply interp_some in K; [destruct K|discriminate]|]. cbn [hd]. eauto. }
  destruct Eq as [Y ->]. cbn [area_rec]. rewrite Hl. clear Hl.
  match goal with |- area_rec _ _ _ _ _ + (height RArith t ?o Q * _ + _) <= _ =>
    enough (height RArith t (Some Q) Q * (r' - r) <= height RArith t o Q * (r' - r)) by (cbn [num RArith] in *; nra) end.
  apply Rmult_le_compat_r; [lra|]. rewrite !height_R. destruct (rev x) as [|z ?]; [destruct t; lra|].
  assert (K := Rmax_r z Q). destruct t; lra.
Qed.

(** A point no worse than the one before is new. *)
Lemma new_point t x w q y ra r r' rb : length x = length ra -> (forall z, last (map Some x) None = Some z -> z <= w) ->
  StronglySorted Rle (0 :: ra) -> last ra 0 <= r -> r <= r' ->
  area_rec t None 0 (interp RArith (x ++ q :: y)) (ra ++ r' :: rb) <=
  area_rec t None 0 (interp RArith (x ++ w :: q :: y)) (ra ++ r :: r' :: rb).
Proof.
  intros L Lw So L1 L2. set (Q := hd 0 (interp RArith (q :: y))).
  assert (E1 : interp RArith (w :: q :: y) = Rmax w Q :: interp RArith (q :: y)) by (rewrite interp_cons by discriminate; reflexivity).
  set (W := Rmax w Q) in *. assert (HW : Q <= W) by apply Rmax_r.
  destruct (interp_heads x (q :: y) (w :: q :: y)) as (X & X' & E & E' & LX & LX' & F & _); [discriminate|discriminate|rewrite E1; exact HW|].
  assert (Hl := interp_last x (q :: y) X ltac:(discriminate) E LX). assert (Hl' := interp_last x (w :: q :: y) X' ltac:(discriminate) E' LX').
  fold Q in Hl. rewrite E1 in Hl'. cbn [hd] in Hl'.
  change (num RArith) with R in *. rewrite E, E', E1. rewrite !area_app by congruence.
  assert (Eq : exists Y, interp RArith (q :: y) = Q :: Y).
  { unfold Q. destruct (interp RArith (q :: y)) eqn:K; [apply interp_some in K; [destruct K|discriminate]|]. cbn [hd]. eauto. }
  destruct Eq as [Y ->]. cbn [area_rec]. rewrite Hl, Hl'. clear Hl Hl'.
  assert (M := area_mono t X X' None None 0 ra I F So). set (s := last ra 0) in *.
  assert (Lz : forall z l, rev x = z :: l -> z <= w).
  { intros z l K. apply Lw. rewrite <- (rev_involutive x), K. cbn [rev]. rewrite map_app. cbn [map]. apply last_last. }
  set (o := match rev x with [] => None | z :: _ => Some (Rmax z Q) end). set (o' := match rev x with [] => None | z :: _ => Some (Rmax z W) end).
  assert (H1 : height RArith t o Q * (r - s) <= height RArith t o' W * (r - s)).
  { apply Rmult_le_compat_r; [lra|]. rewrite !height_R. unfold o, o'. destruct (rev x) as [|z ?]; [lra|].
    assert (K := Rle_max_compat_l _ _ z HW). destruct t; lra. }
  assert (H2 : height RArith t o Q * (r' - r) <= height RArith t (Some W) Q * (r' - r)).
  { apply Rmult_le_compat_r; [lra|]. rewrite !height_R. unfold o. destruct (rev x) as [|z l] eqn:Er; [destruct t; lra|].
    assert (K : Rmax z Q <= W) by (apply Rle_max_compat_r; exact (Lz z l eq_refl)). destruct t; lra. }
  lra.
Qed.

Definition inter (i : bool) (pr : list R) : list R := if i then interp RArith pr else pr.

(** A better point with the recall of the next one is new. *)
Lemma new_step i t x w q y ra r rb : length x = length ra -> StronglySorted Rle (0 :: ra) -> last ra 0 <= r -> q <= w ->
  area_rec t None 0 (inter i (x ++ q :: y)) (ra ++ r :: rb) <=
  area_rec t None 0 (inter i (x ++ w :: q :: y)) (ra ++ r :: r :: rb).
Proof.
  intros L So L1 Lq. unfold inter. destruct i.
  - set (Q := hd 0 (interp RArith (q :: y))).
    assert (E1 : interp RArith (w :: q :: y) = Rmax w Q :: interp RArith (q :: y)) by (rewrite interp_cons by discriminate; reflexivity).
    set (W := Rmax w Q) in *. assert (HW : Q <= W) by apply Rmax_r.
    destruct (interp_heads x (q :: y) (w :: q :: y)) as (X & X' & E & E' & LX & LX' & F & _); [discriminate|discriminate|rewrite E1; exact HW|].
    assert (Hl := interp_last x (q :: y) X ltac:(discriminate) E LX). assert (Hl' := interp_last x (w :: q :: y) X' ltac:(discriminate) E' LX').
    fold Q in Hl. rewrite E1 in Hl'. cbn [hd] in Hl'.
    change (num RArith) with R in *. rewrite E, E', E1. rewrite !area_app by congruence.
    assert (Eq : exists Y, interp RArith (q :: y) = Q :: Y).
    { unfold Q. destruct (interp RArith (q :: y)) eqn:K; [apply interp_some in K; [destruct K|discriminate]|]. cbn [hd]. eauto. }
    destruct Eq as [Y ->]. cbn [area_rec]. rewrite Hl, Hl'. clear Hl Hl'.
    assert (M := area_mono t X X' None None 0 ra I F So). set (s := last ra 0) in *.
    set (o := match rev x with [] => None | z :: _ => Some (Rmax z Q) end). set (o' := match rev x with [] => None | z :: _ => Some (Rmax z W) end).
    assert (H1 : height RArith t o Q * (r - s) <= height RArith t o' W * (r - s)).
    { apply Rmult_le_compat_r; [lra|]. rewrite !height_R. unfold o, o'. destruct (rev x) as [|z ?]; [lra|].
      assert (K := Rle_max_compat_l _ _ z HW). destruct t; lra. }
    replace (r - r) with 0 by lra. lra.
  - change (num RArith) with R in *. rewrite !area_app by congruence. cbn [area_rec]. replace (r - r) with 0 by lra.
    assert (H1 : height RArith t (last (map Some x) None) q * (r - last ra 0) <= height RArith t (last (map Some x) None) w * (r - last ra 0)).
    { apply Rmult_le_compat_r; [lra|]. rewrite !height_R. destruct (last (map Some x) None); destruct t; lra. }
    lra.
Qed.

(** A point no better than the one before, with its recall, can go. *)
Lemma drop_step i t x w z q y ra r' rb : length (x ++ [z]) = length ra -> w <= z -> last ra 0 <= r' ->
  area_rec t None 0 (inter i ((x ++ [z]) ++ w :: q :: y)) (ra ++ last ra 0 :: r' :: rb) <=
  area_rec t None 0 (inter i ((x ++ [z]) ++ q :: y)) (ra ++ r' :: rb).
Proof.
  intros L Lw Lr. unfold inter. destruct i.
  - set (Q := hd 0 (interp RArith (q :: y))).
    assert (E1 : interp RArith (w :: q :: y) = Rmax w Q :: interp RArith (q :: y)) by (rewrite interp_cons by discriminate; reflexivity).
    assert (E2 : interp RArith (z :: w :: q :: y) = Rmax z Q :: Rmax w Q :: interp RArith (q :: y)).
    { rewrite interp_cons by discriminate. rewrite E1. cbn [hd]. f_equal. rewrite Rmax_assoc, (Rmax_left z w) by exact Lw. reflexivity. }
    assert (E3 : interp RArith (z :: q :: y) = Rmax z Q :: interp RArith (q :: y)) by (rewrite interp_cons by discriminate; reflexivity).
    rewrite <- !app_assoc. cbn [app].
    destruct (interp_same x (z :: w :: q :: y) (z :: q :: y)) as (X & E & E' & LX & _); [discriminate|discriminate|now rewrite E2, E3|].
    change (num RArith) with R in *. rewrite E, E', E2, E3.
    change (Rmax z Q :: Rmax w Q :: interp RArith (q :: y)) with ([Rmax z Q] ++ Rmax w Q :: interp RArith (q :: y)).
    change (Rmax z Q :: interp RArith (q :: y)) with ([Rmax z Q] ++ interp RArith (q :: y)). rewrite !app_assoc.
    rewrite app_length in L. rewrite !area_app by (rewrite app_length; cbn [length] in *; congruence).
    assert (Eq : exists Y, interp RArith (q :: y) = Q :: Y).
    { unfold Q. destruct (interp RArith (q :: y)) eqn:K; [apply interp_some in K; [destruct K|discriminate]|]. cbn [hd]. eauto. }
    destruct Eq as [Y ->]. cbn [area_rec]. rewrite !map_app. cbn [map]. rewrite !last_last, !height_R.
    assert (K := Rle_max_compat_r _ _ Q Lw). destruct t; nra.
  - change (num RArith) with R in *. rewrite !area_app by congruence. cbn [area_rec]. rewrite !map_app. cbn [map]. rewrite !last_last, !height_R.
    destruct t; nra.
Qed.

(** The first point, no better than the next one, goes. *)
Lemma drop_first i t p q y r r' rb : p <= q -> 0 <= r <= r' ->
  area_rec t None 0 (inter i (p :: q :: y)) (r :: r' :: rb) <= area_rec t None 0 (inter i (q :: y)) (r' :: rb).
Proof.
  intros Lp Lr. unfold inter. destruct i; [apply (drop_point t [] p q y [] r r' rb); [reflexivity|exact Lp|lra]|].
  cbn [area_rec]. rewrite !height_R. destruct t; nra.
Qed.

(** ** Points *)

Definition curve (cs : list counts) := pr_loop RArith (num_total_refs cs) 0 0 0 0 cs.

Definition value (i t : bool) (cs : list counts) : R := area_rec t None 0 (inter i (map fst (curve cs))) (map snd (curve cs)).

Lemma value_ok i t cs : (let (pr, rc) := precision_recall RArith cs i in ap_curves RArith pr rc t) = Ok (value i t cs).
Proof.
  unfold precision_recall. change (a0 RArith) with 0. apply ap_curves_rec. destruct i; [now rewrite interp_length, !map_length|now rewrite !map_length].
Qed.

Notation hit := (Counts f32_0 f32_0 1 1).
Notation alarm := (Counts f32_1 f32_0 1 0).

(** One more hit, one more false alarm. *)
Definition plus_hit (c c' : counts) : Prop :=
  ec_nh c' = S (ec_nh c) /\ ec_nr c' = S (ec_nr c) /\ B2R (ec_fp c') = B2R (ec_fp c) /\ B2R (ec_fn c') = B2R (ec_fn c).

Definition plus_alarm (c c' : counts) : Prop :=
  ec_nh c' = S (ec_nh c) /\ ec_nr c' = ec_nr c /\ B2R (ec_fp c') = B2R (ec_fp c) + 1 /\ B2R (ec_fn c') = B2R (ec_fn c).

Lemma recall_R t n x : (0 < t)%nat -> recall_of RArith t n x = (INR n - x) / INR t.
Proof. intros H. unfold recall_of. destruct (Nat.ltb_spec 0 t); [reflexivity|lia]. Qed.

Lemma precision_R n x : (0 < n)%nat -> precision_of RArith n x = 1 - x / INR n.
Proof. intros H. unfold precision_of. destruct (Nat.ltb_spec 0 n); [reflexivity|lia]. Qed.

Lemma div_le a b c d : 0 < b -> 0 < d -> a * d <= c * b -> a / b <= c / d.
Proof.
  intros Hb Hd H. apply Rmult_le_reg_r with (b * d); [nra|]. replace (a / b * (b * d)) with (a * d) by (field; lra).
  replace (c / d * (b * d)) with (c * b) by (field; lra). exact H.
Qed.

Lemma div_mono a b c : 0 < c -> a <= b -> a / c <= b / c.
Proof. intros H L. apply div_le; nra. Qed.

(** The last point of a part of the curve. *)
Lemma pr_last_recall t u : (0 < t)%nat -> last (map snd (pr_loop RArith t 0 0 0 0 u)) 0 = (INR (references u) - misses u) / INR t.
Proof.
  intros Ht. destruct u as [|e u' _] using rev_ind.
  - unfold references, misses, total. cbn. unfold Rdiv. rewrite Rminus_0_r, Rmult_0_l. reflexivity.
  - assert (K : last (map snd (pr_loop RArith t 0 0 0 0 (u' ++ [e]))) 0 = snd (last (pr_loop RArith t 0 0 0 0 (u' ++ [e])) (0, 0))).
    { generalize (pr_loop RArith t 0 0 0 0 (u' ++ [e])). clear. intros l. change 0 with (snd (0, 0)) at 1. generalize (0, 0).
      induction l as [|x l IH]; intros d; [reflexivity|]. cbn [map]. rewrite !last_cons. apply IH. }
    rewrite K, pr_loop_last. cbn [snd]. now apply recall_R.
Qed.

Lemma pr_last_precision t u z : last (map Some (map fst (pr_loop RArith t 0 0 0 0 u))) None = Some z ->
  z = precision_of RArith (hypotheses u) (false_positives u).
Proof.
  destruct u as [|e u' _] using rev_ind; [discriminate|].
  assert (K : forall d, last (map Some (map fst (pr_loop RArith t 0 0 0 0 (u' ++ [e])))) None = Some (fst (last (pr_loop RArith t 0 0 0 0 (u' ++ [e])) d))).
  { assert (N : pr_loop RArith t 0 0 0 0 (u' ++ [e]) <> []) by (destruct u'; discriminate).
    revert N. generalize (pr_loop RArith t 0 0 0 0 (u' ++ [e])). clear. intros [|x l] N d; [congruence|].
    cbn [map]. rewrite !last_cons. clear. revert x. induction l as [|y l IH]; intros x; [reflexivity|]. cbn [map]. rewrite !last_cons. apply IH. }
  rewrite (K (0, 0)), pr_loop_last. cbn [fst]. now intros [= <-].
Qed.

Section Moves.
  Variables u v : list counts.
  Hypothesis Bu : forall c, In c (u ++ v) -> bounded c.
  Variables c c' : counts.
  Hypothesis Bc : bounded c.

  Lemma bu : forall x, In x u -> bounded x.
  Proof. intros x I. apply Bu, in_or_app. auto. Qed.

  Lemma recalls_sorted w t : (forall x, In x w -> bounded x) -> (references w <= t)%nat -> (0 < t)%nat ->
    StronglySorted Rle (0 :: map snd (pr_loop RArith t 0 0 0 0 w)).
  Proof.
    intros Bw Lt Ht.
    enough (G : forall nr nh fp fn, fn <= INR nr -> StronglySorted Rle ((INR nr - fn) / INR t :: map snd (pr_loop RArith t nr nh fp fn w))).
    { specialize (G 0%nat 0%nat 0 0 (Rle_refl _)). cbn [INR] in G. unfold Rdiv in G at 1. rewrite Rminus_0_r, Rmult_0_l in G. exact G. }
    clear Lt. assert (Tp : 0 < INR t) by now apply lt_0_INR.
    induction w as [|e w IH]; intros nr nh fp fn L; cbn [pr_loop map snd]; [constructor; constructor|].
    destruct (Bw e (or_introl eq_refl)) as (_ & _ & _ & B1 & B2).
    rewrite recall_R by assumption. cbn [a_add a_f32 RArith].
    assert (S := IH (fun x J => Bw x (or_intror J)) (nr + ec_nr e)%nat (nh + ec_nh e)%nat (fp + B2R (ec_fp e)) (fn + B2R (ec_fn e))
      ltac:(rewrite plus_INR; lra)).
    assert (H : (INR nr - fn) / INR t <= (INR (nr + ec_nr e) - (fn + B2R (ec_fn e))) / INR t).
    { apply div_mono; [assumption|]. rewrite plus_INR. lra. }
    constructor; [exact S|]. inversion S as [|? ? S' F]; subst. constructor; [exact H|]. rewrite Forall_forall in *.
    intros y J. eapply Rle_trans; [exact H|apply F, J].
  Qed.

  (** A hit joins the run above. *)
  Lemma merge_hit t : plus_hit c c' -> value true t (u ++ c :: hit :: v) <= value true t (u ++ c' :: v).
  Proof.
    intros (Eh & Er & Ef & Em). destruct f32_1_R as [O _]. assert (Z := f32_0_R).
    unfold value, curve, inter. rewrite !total_refs.
    assert (Et : references (u ++ c' :: v) = references (u ++ c :: hit :: v)) by (unfold references; rewrite !Matching.total_app; unfold total; cbn; lia).
    rewrite Et. set (n := references (u ++ c :: hit :: v)).
    assert (Hn : (0 < n)%nat) by (unfold n, references; rewrite Matching.total_app; unfold total; cbn; lia).
    assert (Tp : 0 < INR n) by (now apply lt_0_INR).
    destruct (pr_loop_app n u 0 0 0 0 (c :: hit :: v)) as (nr & nh & fp & fn & -> & -> & -> & -> & ->).
    destruct (pr_loop_app n u 0 0 0 0 (c' :: v)) as (nr & nh & fp & fn & -> & -> & -> & -> & ->).
    set (L := pr_loop RArith n 0 0 0 0 u).
    cbn [pr_loop ec_nr ec_nh ec_fp ec_fn a_add a_f32 RArith]. rewrite !map_app. cbn [map fst snd]. rewrite Z, Eh, Er, Ef, Em.
    rewrite !Nat.add_0_l, !Rplus_0_l, !Rplus_0_r.
    replace (references u + ec_nr c + 1)%nat with (references u + S (ec_nr c))%nat by lia.
    replace (hypotheses u + ec_nh c + 1)%nat with (hypotheses u + S (ec_nh c))%nat by lia.
    destruct Bc as (_ & _ & [B1 B2] & B3 & B4). assert (K := fp_le_nh u bu u (fun c I => I)).
    apply drop_point; [now rewrite !map_length| |].
    - rewrite (precision_R (_ + S _)) by lia. set (fp := false_positives u + B2R (ec_fp c)).
      assert (Bf : 0 <= fp <= INR (hypotheses u + ec_nh c)) by (unfold fp; rewrite plus_INR; lra).
      rewrite <- plus_n_Sm, S_INR. unfold precision_of. destruct (Nat.ltb_spec 0 (hypotheses u + ec_nh c)) as [H|H].
      + apply lt_0_INR in H. change (1 - fp / INR (hypotheses u + ec_nh c) <= 1 - fp / (INR (hypotheses u + ec_nh c) + 1)).
        enough (fp / (INR (hypotheses u + ec_nh c) + 1) <= fp / INR (hypotheses u + ec_nh c)) by lra. apply div_le; nra.
      + replace (hypotheses u + ec_nh c)%nat with 0%nat in * by lia. cbn [INR] in *. replace fp with 0 by lra.
        change (1 <= 1 - 0 / (0 + 1)). unfold Rdiv. rewrite Rmult_0_l. lra.
    - rewrite !recall_R by assumption. apply div_mono; [assumption|]. rewrite <- plus_n_Sm, S_INR. lra.
  Qed.

  (** A hit leaves its run. *)
  Lemma split_hit t : plus_hit c c' -> value true t (u ++ c' :: v) <= value true t (u ++ hit :: c :: v).
  Proof.
    intros (Eh & Er & Ef & Em). destruct f32_1_R as [O _]. assert (Z := f32_0_R).
    unfold value, curve, inter. rewrite !total_refs.
    assert (Et : references (u ++ c' :: v) = references (u ++ hit :: c :: v)) by (unfold references; rewrite !Matching.total_app; unfold total; cbn; lia).
    rewrite Et. set (n := references (u ++ hit :: c :: v)).
    assert (Hn : (0 < n)%nat) by (unfold n, references; rewrite Matching.total_app; unfold total; cbn; lia).
    assert (Ln : (references u <= n)%nat) by (unfold n, references; rewrite Matching.total_app; lia).
    assert (Tp : 0 < INR n) by (now apply lt_0_INR).
    destruct (pr_loop_app n u 0 0 0 0 (hit :: c :: v)) as (nr & nh & fp & fn & -> & -> & -> & -> & ->).
    destruct (pr_loop_app n u 0 0 0 0 (c' :: v)) as (nr & nh & fp & fn & -> & -> & -> & -> & ->).
    cbn [pr_loop ec_nr ec_nh ec_fp ec_fn a_add a_f32 RArith]. rewrite !map_app. cbn [map fst snd]. rewrite Z, Eh, Er, Ef, Em.
    rewrite !Nat.add_0_l, !Rplus_0_l, !Rplus_0_r.
    replace (references u + 1 + ec_nr c)%nat with (references u + S (ec_nr c))%nat by lia.
    replace (hypotheses u + 1 + ec_nh c)%nat with (hypotheses u + S (ec_nh c))%nat by lia.
    destruct Bc as (_ & _ & [B1 B2] & B3 & B4). assert (K := fp_le_nh u bu u (fun c I => I)).
    apply new_point; [now rewrite !map_length| | | |].
    - intros z Hz. rewrite (pr_last_precision _ _ _ Hz). rewrite (precision_R (_ + 1)) by lia. rewrite plus_INR. cbn [INR].
      unfold precision_of. destruct (Nat.ltb_spec 0 (hypotheses u)) as [H|H].
      + apply lt_0_INR in H. change (1 - false_positives u / INR (hypotheses u) <= 1 - false_positives u / (INR (hypotheses u) + 1)).
        enough (false_positives u / (INR (hypotheses u) + 1) <= false_positives u / INR (hypotheses u)) by lra. apply div_le; nra.
      + replace (hypotheses u) with 0%nat in * by lia. cbn [INR] in *. replace (false_positives u) with 0 by lra.
        change (1 <= 1 - 0 / (0 + 1)). unfold Rdiv. rewrite Rmult_0_l. lra.
    - apply recalls_sorted; auto using bu.
    - rewrite pr_last_recall, recall_R by assumption. apply div_mono; [assumption|]. rewrite plus_INR. cbn [INR]. lra.
    - rewrite !recall_R by assumption. apply div_mono; [assumption|]. rewrite !plus_INR, !S_INR. cbn [INR]. lra.
  Qed.

  Lemma recall_mono n a x b y : (0 < n)%nat -> INR a - x <= INR b - y -> recall_of RArith n a x <= recall_of RArith n b y.
  Proof. intros H L. rewrite !recall_R by assumption. apply div_mono; [now apply lt_0_INR|exact L]. Qed.

  Lemma precision_alarm n f : 0 <= f <= INR n -> precision_of RArith (S n) (f + 1) <= precision_of RArith n f.
  Proof.
    intros B. rewrite (precision_R (S n)) by lia. rewrite S_INR. unfold precision_of. destruct (Nat.ltb_spec 0 n) as [H|H].
    - apply lt_0_INR in H. change (1 - (f + 1) / (INR n + 1) <= 1 - f / INR n).
      enough (f / INR n <= (f + 1) / (INR n + 1)) by lra. apply div_le; nra.
    - change (1 - (f + 1) / (INR n + 1) <= 1).
      enough (0 / 1 <= (f + 1) / (INR n + 1)) by lra. pose proof (pos_INR n). apply div_le; lra.
  Qed.

  (** A false alarm leaves its run. *)
  Lemma split_alarm i t : plus_alarm c c' -> value i t (u ++ c' :: v) <= value i t (u ++ c :: alarm :: v).
  Proof.
    intros (Eh & Er & Ef & Em). destruct f32_1_R as [O _]. assert (Z := f32_0_R).
    unfold value, curve. rewrite !total_refs.
    assert (Et : references (u ++ c' :: v) = references (u ++ c :: alarm :: v)) by (unfold references; rewrite !Matching.total_app; unfold total; cbn; lia).
    rewrite Et. set (n := references (u ++ c :: alarm :: v)).
    assert (Ln : (references u <= n)%nat) by (unfold n, references; rewrite Matching.total_app; lia).
    destruct (pr_loop_app n u 0 0 0 0 (c :: alarm :: v)) as (nr & nh & fp & fn & -> & -> & -> & -> & ->).
    destruct (pr_loop_app n u 0 0 0 0 (c' :: v)) as (nr & nh & fp & fn & -> & -> & -> & -> & ->).
    cbn [pr_loop ec_nr ec_nh ec_fp ec_fn a_add a_f32 RArith]. rewrite !map_app. cbn [map fst snd]. rewrite Z, O, Eh, Er, Ef, Em.
    rewrite !Nat.add_0_l, !Rplus_0_l, !Rplus_0_r, !Nat.add_0_r.
    replace (hypotheses u + ec_nh c + 1)%nat with (hypotheses u + S (ec_nh c))%nat by lia.
    rewrite <- Rplus_assoc.
    destruct Bc as (_ & _ & [B1 B2] & B3 & B4). assert (K := fp_le_nh u bu u (fun c I => I)).
    assert (Pa : precision_of RArith (hypotheses u + S (ec_nh c)) (false_positives u + B2R (ec_fp c) + 1) <=
      precision_of RArith (hypotheses u + ec_nh c) (false_positives u + B2R (ec_fp c))).
    { rewrite <- plus_n_Sm. apply precision_alarm. rewrite plus_INR. lra. }
    destruct (Nat.eq_dec n 0) as [Hn|Hn].
    - assert (R1 : forall w k h f m, Forall (eq 1) (map snd (pr_loop RArith n k h f m w))).
      { rewrite Hn. clear. induction w as [|e w IH]; intros k h f m; cbn; constructor; auto. }
      assert (R1' : forall k x, recall_of RArith n k x = 1) by (rewrite Hn; reflexivity). rewrite !R1'.
      apply new_step; [now rewrite !map_length| | |exact Pa].
      + specialize (R1 u 0%nat 0%nat 0 0). revert R1. clear. generalize (map snd (pr_loop RArith n 0 0 0 0 u)). intros l F.
        assert (S : StronglySorted Rle l).
        { induction F as [|x l <- F IH]; constructor; auto. eapply Forall_impl; [|exact F]. intros a <-. lra. }
        constructor; [exact S|]. eapply Forall_impl; [|exact F]. intros a <-. lra.
      + specialize (R1 u 0%nat 0%nat 0 0). revert R1. clear. generalize (map snd (pr_loop RArith n 0 0 0 0 u)). intros l F.
        assert (G : forall d, d <= 1 -> last l d <= 1); [|apply G; lra].
        induction F as [|x l <- F IH]; intros d Hd; [exact Hd|]. rewrite last_cons. apply IH. lra.
    - assert (Hn' : (0 < n)%nat) by lia. apply new_step; [now rewrite !map_length|apply recalls_sorted; auto using bu| |exact Pa].
      rewrite pr_last_recall, recall_R by assumption. apply div_mono; [now apply lt_0_INR|]. rewrite plus_INR. lra.
  Qed.

  (** A false alarm joins the run below. *)
  Lemma merge_alarm i t : bounded c' -> plus_alarm c c' -> value i t (u ++ alarm :: c :: v) <= value i t (u ++ c' :: v).
  Proof.
    intros Bc' (Eh & Er & Ef & Em). destruct f32_1_R as [O _]. assert (Z := f32_0_R).
    unfold value, curve. rewrite !total_refs.
    assert (Et : references (u ++ c' :: v) = references (u ++ alarm :: c :: v)) by (unfold references; rewrite !Matching.total_app; unfold total; cbn; lia).
    rewrite Et. set (n := references (u ++ alarm :: c :: v)).
    assert (Ln : (references u + ec_nr c <= n)%nat) by (unfold n, references; rewrite Matching.total_app; unfold total; cbn; lia).
    destruct (pr_loop_app n u 0 0 0 0 (alarm :: c :: v)) as (nr & nh & fp & fn & -> & -> & -> & -> & ->).
    destruct (pr_loop_app n u 0 0 0 0 (c' :: v)) as (nr & nh & fp & fn & -> & -> & -> & -> & ->).
    cbn [pr_loop ec_nr ec_nh ec_fp ec_fn a_add a_f32 RArith]. rewrite !map_app. cbn [map fst snd]. rewrite Z, O, Eh, Er, Ef, Em.
    rewrite !Nat.add_0_l, !Rplus_0_l, !Rplus_0_r, !Nat.add_0_r.
    replace (hypotheses u + 1 + ec_nh c)%nat with (hypotheses u + S (ec_nh c))%nat by lia.
    replace (false_positives u + 1 + B2R (ec_fp c)) with (false_positives u + (B2R (ec_fp c) + 1)) by lra.
    destruct Bc as (_ & _ & [B1 B2] & B3 & B4). assert (K := fp_le_nh u bu u (fun c I => I)).
    destruct u as [|e u' _] using rev_ind.
    - cbn [pr_loop map app]. apply drop_first.
      + unfold hypotheses, false_positives, total. cbn [map list_sum fold_right sum_of]. rewrite !precision_R by lia. rewrite !Nat.add_0_l, !S_INR, ?Rplus_0_l.
        cbn [INR]. rewrite ?Rplus_0_l. replace (1 - 1 / 1) with 0 by field.
        enough ((B2R (ec_fp c) + 1) / (INR (ec_nh c) + 1) <= 1 / 1) by lra. apply div_le; try lra; pose proof (pos_INR (ec_nh c)); lra.
      + unfold references, misses, total. cbn [map list_sum fold_right sum_of]. rewrite ?Nat.add_0_l, ?Rplus_0_l.
        destruct (Nat.eq_dec n 0) as [Hn|Hn]; [rewrite Hn; unfold recall_of; cbn; lra|]. split; [|apply recall_mono; [lia|]; cbn [INR]; lra].
        rewrite recall_R by lia. unfold Rdiv. cbn [INR]. rewrite Rminus_0_r, Rmult_0_l. lra.
    - set (w := u' ++ [e]) in *.
      destruct (pr_loop_app n u' 0 0 0 0 [e]) as (nr & nh & fp & fn & E & -> & -> & -> & ->).
      assert (Ep : exists x z, map fst (pr_loop RArith n 0 0 0 0 w) = x ++ [z] /\ length (x ++ [z]) = length (map snd (pr_loop RArith n 0 0 0 0 w)) /\
        z = precision_of RArith (hypotheses w) (false_positives w)).
      { eexists _, _. split; [unfold w; rewrite E, map_app; reflexivity|]. split.
        - unfold w. rewrite E, map_app, !app_length, !map_length. reflexivity.
        - apply (pr_last_precision n). unfold w. rewrite E, !map_app. cbn [pr_loop map fst]. apply last_last. }
      destruct Ep as (x & z & -> & Lx & ->).
      assert (El : recall_of RArith n (references w) (misses w) = last (map snd (pr_loop RArith n 0 0 0 0 w)) 0).
      { destruct (Nat.eq_dec n 0) as [Hn|Hn].
        - unfold w. rewrite E, map_app. cbn [pr_loop map snd]. rewrite last_last. rewrite Hn. reflexivity.
        - now rewrite pr_last_recall, recall_R by lia. }
      rewrite El. change (num RArith) with R in *. apply drop_step; [exact Lx| |].
      + rewrite Nat.add_1_r. apply precision_alarm. split; [apply K|apply K].
      + rewrite <- El. destruct (Nat.eq_dec n 0) as [Hn|Hn]; [rewrite Hn; unfold recall_of; cbn; lra|]. apply recall_mono; [lia|]. rewrite plus_INR. lra.
  Qed.
End Moves.

(** ** Matches as scores and errors *)

Notation P := (f32 * match_error)%type.
Notation M := (match_t unit f32).

Definition item (p : P) : M := Match None (Some (fst p)) (snd p).
Notation sc := (fun x : f32 => x).

(** Scores up to the sign of zero. *)
Definition norm (p : P) : P := (Ties.unsigned (fst p), snd p).
Definition scored_error {RE HE} (score : HE -> f32) (m : match_t RE HE) : P := (rank score m, m_err m).

Lemma unsigned_ne x y : f32_ne (Ties.unsigned x) (Ties.unsigned y) = f32_ne x y.
Proof. destruct x as [s|s| |[] m e B], y as [s'|s'| |[] m' e' B']; reflexivity. Qed.

Lemma unsigned_nan x : is_nan (Ties.unsigned x) = is_nan x.
Proof. destruct x as [s|s| |[] m e B]; reflexivity. Qed.

Lemma collapse_items {RE HE} (score : HE -> f32) (l : list (match_t RE HE)) :
  collapse_matches score l = collapse_matches sc (map item (map norm (map (scored_error score) l))).
Proof.
  destruct l as [|m l]; [reflexivity|]. cbn [map collapse_matches m_err item norm scored_error snd].
  assert (G : forall c s, collapse_loop score c s l = collapse_loop sc c (Ties.unsigned s) (map item (map norm (map (scored_error score) l)))).
  { induction l as [|x l IH]; intros c s; [reflexivity|]. cbn [map collapse_loop].
    change (match_score sc (item (norm (scored_error score x)))) with (Ties.unsigned (match_score score x)).
    rewrite unsigned_ne. cbn [m_err item norm scored_error snd]. destruct (f32_ne (match_score score x) s); [f_equal|]; apply IH. }
  apply G.
Qed.

(** ** Collapsing in parts *)

Lemma same_app (m : M) l l' : (forall y, In y l' -> ~ tie sc m y) -> same sc m (l ++ l') = same sc m l /\ rest sc m (l ++ l') = rest sc m l ++ l'.
Proof.
  intros H. induction l as [|x l [IH IH']]; cbn [app same rest].
  - destruct l' as [|y l']; [auto|]. cbn [same rest]. unfold tieb. assert (K := H y (or_introl eq_refl)). unfold tie in K.
    destruct (f32_eq (rank sc m) (rank sc y)); [congruence|auto].
  - destruct (tieb sc m x); [rewrite IH, IH'; auto|auto].
Qed.

Lemma collapse_app (l l' : list M) : (forall x y, In x l -> In y l' -> ~ tie sc x y) ->
  collapse_matches sc (l ++ l') = collapse_matches sc l ++ collapse_matches sc l'.
Proof.
  remember (length l) as n eqn:En. assert (Hn : (length l <= n)%nat) by lia. clear En. revert l Hn.
  induction n as [|n IH]; intros [|m l] Hn H; try reflexivity; [cbn in Hn; lia|].
  cbn [app]. rewrite !collapse_cons. destruct (same_app m l l') as [-> ->]; [intros y I; apply H; [now left|exact I]|].
  cbn [app]. f_equal. apply IH.
  - assert (K := rest_length sc m l). cbn in Hn. lia.
  - intros x y Ix. apply H. right. exact (rest_in sc m l x Ix).
Qed.

Lemma collapse_run (m : M) l : (forall x, In x l -> tie sc m x) -> collapse_matches sc (m :: l) = [point m l].
Proof.
  intros H. rewrite collapse_cons. enough (same sc m l = l /\ rest sc m l = []) as [-> ->] by reflexivity.
  induction l as [|x l IH]; [auto|]. cbn [same rest]. unfold tieb. assert (K := H x (or_introl eq_refl)). unfold tie in K. rewrite K.
  destruct IH as [-> ->]; [intros y I; apply H; now right|auto].
Qed.

Lemma zero_one_fractions e : zero_one e -> fractions e.
Proof.
  destruct f32_1_R as [O O']. assert (Z := f32_0_R).
  intros [H H']. split; [destruct H as [-> | ->]|destruct H' as [-> | ->]]; split; auto; rewrite ?O, ?Z; lra.
Qed.

Lemma collapse_bounded (l : list M) : (forall m, In m l -> zero_one (m_err m)) -> forall c, In c (collapse_matches sc l) -> bounded c.
Proof.
  remember (length l) as n eqn:En. assert (Hn : (length l <= n)%nat) by lia. clear En. revert l Hn.
  induction n as [|n IH]; intros [|m l] Hn H c; try (intros []; fail); [cbn in Hn; lia|].
  rewrite collapse_cons. intros [<-|I].
  - apply capped_bounded, point_capped. intros x [<-|I]; apply zero_one_fractions, H; [now left|right]. exact (same_in sc m l x I).
  - apply (IH (rest sc m l)); [assert (K := rest_length sc m l); cbn in Hn; lia| |exact I]. intros x J. apply H. right. exact (rest_in sc m l x J).
Qed.

Lemma point_hit (m : M) (l : list M) (x : M) y k : m_err x = hit_error -> (forall m', In m' (m :: l) -> zero_one (m_err m')) ->
  Permutation (y :: k) (x :: m :: l) -> plus_hit (point m l) (point y k).
Proof.
  intros Ex Zo Pm. assert (Zo' : forall m', In m' (y :: k) -> zero_one (m_err m')).
  { intros m' I. apply (Permutation_in _ Pm) in I as [<-|I]; [rewrite Ex; split; cbn; auto|auto]. }
  rewrite !point_zero_one by assumption. rewrite (ones_perm me_fp _ _ Pm), (ones_perm me_fn _ _ Pm), !(total_perm _ _ _ Pm).
  unfold plus_hit. cbn [ec_nh ec_nr ec_fp ec_fn]. rewrite !(total_cons _ x). rewrite Ex. unfold ones. cbn [fold_right].
  fold (ones me_fp (m :: l)). rewrite Ex. split; [reflexivity|]. split; [reflexivity|]. split; reflexivity.
Qed.

Lemma point_alarm (m : M) (l : list M) (x : M) y k : m_err x = alarm_error -> (forall m', In m' (m :: l) -> zero_one (m_err m')) ->
  Permutation (y :: k) (x :: m :: l) -> (Z.of_nat (length (y :: k)) <= 2 ^ 24)%Z -> plus_alarm (point m l) (point y k).
Proof.
  intros Ex Zo Pm Ln. assert (Zo' : forall m', In m' (y :: k) -> zero_one (m_err m')).
  { intros m' I. apply (Permutation_in _ Pm) in I as [<-|I]; [rewrite Ex; split; cbn; auto|auto]. }
  assert (Ln' : (Z.of_nat (length (m :: l)) <= 2 ^ 24)%Z) by (rewrite (Permutation_length Pm) in Ln; cbn [length] in *; lia).
  destruct (point_summed y k Zo' Ln) as [S1 S2]. destruct (point_summed m l Zo Ln') as [S3 S4].
  destruct (point_counts y k) as [C1 C2]. destruct (point_counts m l) as [C3 C4].
  unfold plus_alarm. rewrite S1, S2, S3, S4, C1, C2, C3, C4, !(total_perm _ _ _ Pm), !(total_cons _ x), Ex.
  rewrite !(Curves.sum_of_perm _ _ _ Pm). unfold sum_of. cbn [fold_right]. rewrite Ex. destruct f32_1_R as [O _]. assert (Z := f32_0_R).
  cbn [me_fp me_fn alarm_error]. rewrite O, Z. split; [reflexivity|]. split; [reflexivity|]. split; lra.
Qed.

(** ** Scores as numbers *)

Definition emb (x : f32) : R :=
  match x with B754_infinity true => - bpow radix2 128 | B754_infinity false => bpow radix2 128 | _ => B2R x end.

Lemma emb_finite x : is_finite x = true -> emb x = B2R x /\ - bpow radix2 128 < emb x < bpow radix2 128.
Proof.
  intros F. assert (K : emb x = B2R x) by (destruct x; try discriminate; reflexivity). split; [exact K|]. rewrite K.
  assert (L := abs_B2R_lt_emax 24 128 x). apply Rabs_lt_inv in L. exact L.
Qed.

Lemma emb_lt x y : is_nan x = false -> is_nan y = false -> (f32_lt x y = true <-> emb x < emb y).
Proof.
  intros Nx Ny. assert (B := bpow_gt_0 radix2 128).
  destruct (is_finite x) eqn:Fx, (is_finite y) eqn:Fy.
  - destruct (emb_finite x Fx) as [-> _]. destruct (emb_finite y Fy) as [-> _]. unfold f32_lt. rewrite Bltb_correct by assumption.
    destruct (Rlt_bool_spec (B2R x) (B2R y)); split; auto; try discriminate; lra.
  - destruct (emb_finite x Fx) as [_ K]. destruct y as [s|[]| |s m e H]; try discriminate;
      destruct x as [s'|[]| |s' m' e' H']; try discriminate; change (emb (B754_infinity false)) with (bpow radix2 128) in *; change (emb (B754_infinity true)) with (- bpow radix2 128) in *;
      (split; [intros E; try discriminate E; lra|intros L; try reflexivity; lra]).
  - destruct (emb_finite y Fy) as [_ K]. destruct x as [s|[]| |s m e H]; try discriminate;
      destruct y as [s'|[]| |s' m' e' H']; try discriminate; change (emb (B754_infinity false)) with (bpow radix2 128) in *; change (emb (B754_infinity true)) with (- bpow radix2 128) in *;
      (split; [intros E; try discriminate E; lra|intros L; try reflexivity; lra]).
  - destruct x as [s|[]| |s m e H], y as [s'|[]| |s' m' e' H']; try discriminate;
      change (emb (B754_infinity false)) with (bpow radix2 128); change (emb (B754_infinity true)) with (- bpow radix2 128);
      (split; [intros E; try discriminate E; lra|intros L; try reflexivity; lra]).
Qed.

Lemma emb_eq x y : is_nan x = false -> is_nan y = false -> (f32_eq x y = true <-> emb x = emb y).
Proof.
  intros Nx Ny. assert (H := emb_lt x y Nx Ny). assert (H' := emb_lt y x Ny Nx).
  destruct (Order.f32_total x y Nx Ny) as [K|[K|K]].
  - split; [|intros E; apply H in K; lra]. intros E. rewrite (Order.f32_lt_eq_l _ _ y E), Order.f32_lt_irrefl in K. discriminate.
  - split; [intros _|auto]. destruct (Rtotal_order (emb x) (emb y)) as [L|[L|L]]; [apply H in L|exact L|apply H' in L].
    + rewrite (Order.f32_lt_eq_l _ _ y K), Order.f32_lt_irrefl in L. discriminate.
    + rewrite (Order.f32_lt_eq_r _ _ y K), Order.f32_lt_irrefl in L. discriminate.
  - split; [|intros E; apply H' in K; lra]. intros E. rewrite (Order.f32_lt_eq_r _ _ y E), Order.f32_lt_irrefl in K. discriminate.
Qed.

Lemma emb_ge x y : is_nan x = false -> is_nan y = false -> (f32_lt x y = false <-> emb y <= emb x).
Proof.
  intros Nx Ny. assert (H := emb_lt x y Nx Ny). destruct (f32_lt x y).
  - split; [discriminate|]. intros L. assert (K := proj1 H eq_refl). lra.
  - split; [|reflexivity]. intros _. destruct (Rle_lt_dec (emb y) (emb x)) as [L|L]; [exact L|]. apply H in L. discriminate.
Qed.

(** ** One higher score *)

Section Raise.
  Variables (x : match_error) (Rl : list counts -> list counts -> Prop) (Lim : nat -> Prop).
  Hypothesis Zx : zero_one x.
  Hypothesis Rl_refl : forall a, Rl a a.
  Hypothesis Rl_trans : forall a b c, Rl a b -> Rl b c -> Rl a c.
  Hypothesis Lim_le : forall n m, Lim n -> (m <= n)%nat -> Lim m.
  Notation X s := (item (s, x)).
  Notation X0 := (counts_of x).
  Notation okay l := (forall m, In m l -> zero_one (m_err m)).
  Hypothesis Hsplit : forall u v m l s y k, (forall c, In c (u ++ v) -> bounded c) -> okay (m :: l) ->
    Permutation (y :: k) (X s :: m :: l) -> Lim (length (y :: k)) -> Rl (u ++ point y k :: v) (u ++ X0 :: point m l :: v).
  Hypothesis Hmerge : forall u v m l s y k, (forall c, In c (u ++ v) -> bounded c) -> okay (m :: l) ->
    Permutation (y :: k) (X s :: m :: l) -> Lim (length (y :: k)) -> Rl (u ++ point m l :: X0 :: v) (u ++ point y k :: v).

  Notation sk m := (emb (rank sc m)).

  Lemma four (s s' : f32) (l : list M) : ranked sc l -> is_nan s = false -> is_nan s' = false -> f32_lt s s' = true ->
    (forall y, In y l -> ~ (emb s < sk y < emb s')) -> descending sc l ->
    exists a b c d, Permutation l (a ++ b ++ c ++ d) /\ (forall y, In y a -> emb s' < sk y) /\ (forall y, In y b -> sk y = emb s') /\
      (forall y, In y c -> sk y = emb s) /\ (forall y, In y d -> sk y < emb s) /\ descending sc a /\ descending sc d.
  Proof.
    intros Rk N N' Lt Gap D. apply emb_lt in Lt; [|assumption|assumption].
    induction D as [|y l D IH F]; [exists [], [], [], []; repeat split; try (intros ? []); constructor|].
    destruct IH as (a & b & c & d & Pm & Ha & Hb & Hc & Hd & Da & Dd); [intros z I; apply Rk; now right|intros z I; apply Gap; now right|].
    rewrite Forall_forall in F.
    assert (Ny : is_nan (rank sc y) = false) by (apply Rk; now left).
    destruct (Rlt_le_dec (emb s') (sk y)) as [L1|L1]; [|destruct (Req_dec (sk y) (emb s')) as [L2|L2];
      [|destruct (Req_dec (sk y) (emb s)) as [L3|L3]; [|assert (L4 : sk y < emb s) by (specialize (Gap y (or_introl eq_refl)); lra)]]].
    - exists (y :: a), b, c, d. split; [now constructor|]. repeat split; auto; [intros z [<-|I]; auto|].
      constructor; [exact Da|]. apply Forall_forall. intros z I. apply F. apply (Permutation_in _ (Permutation_sym Pm)), in_or_app. auto.
    - exists a, (y :: b), c, d. split; [rewrite Pm; apply Permutation_middle|]. repeat split; auto. intros z [<-|I]; auto.
    - exists a, b, (y :: c), d. split; [rewrite Pm; cbn [app]; rewrite !(app_assoc a b); apply Permutation_middle|]. repeat split; auto. intros z [<-|I]; auto.
    - exists a, b, c, (y :: d). split; [rewrite Pm, !app_assoc; apply Permutation_middle|]. repeat split; auto; [intros z [<-|I]; auto|].
      constructor; [exact Dd|]. apply Forall_forall. intros z I. apply F. apply (Permutation_in _ (Permutation_sym Pm)). rewrite !in_app_iff. auto.
  Qed.

  Lemma flat_descending (l : list M) v : ranked sc l -> (forall y, In y l -> sk y = v) -> descending sc l.
  Proof.
    intros Rk H. induction l as [|y l IH]; constructor.
    - apply IH; intros z I; [apply Rk|apply H]; now right.
    - apply Forall_forall. intros z I. apply emb_ge; [apply Rk; now left|apply Rk; now right|]. rewrite (H y), (H z) by (simpl; auto). lra.
  Qed.

  Lemma descending_app (a b : list M) : ranked sc (a ++ b) -> descending sc a -> descending sc b ->
    (forall y z, In y a -> In z b -> sk z <= sk y) -> descending sc (a ++ b).
  Proof.
    intros Rk Da Db H. apply Ties.sorted_app; auto. intros y z Iy Iz. apply emb_ge; [apply Rk, in_or_app; auto|apply Rk, in_or_app; auto|auto].
  Qed.

  Lemma ranked_sub (a b : list M) : ranked sc b -> (forall y, In y a -> In y b) -> ranked sc a.
  Proof. intros Rk H y I. apply Rk, H, I. Qed.

  Lemma not_tie (y z : M) : is_nan (rank sc y) = false -> is_nan (rank sc z) = false -> sk z < sk y -> ~ tie sc y z.
  Proof. intros Ny Nz L E. apply emb_eq in E; [lra|assumption|assumption]. Qed.

  (** No score in between. *)
  Lemma adjacent (s s' : f32) l l' S : is_nan s = false -> is_nan s' = false -> f32_lt s s' = true ->
    descending sc l -> descending sc l' -> Permutation l (X s :: S) -> Permutation l' (X s' :: S) -> ranked sc S -> okay S -> Lim (length l) ->
    (forall y, In y S -> ~ (emb s < sk y < emb s')) -> Rl (collapse_matches sc l) (collapse_matches sc l').
  Proof.
    intros N N' Lt D D' Pm Pm' Rk Zo Lm Gap.
    assert (Lt' : emb s < emb s') by (now apply emb_lt).
    assert (HR : forall t, is_nan t = false -> ranked sc (X t :: S)) by (intros t Nt y [<-|I]; [exact Nt|auto]).
    assert (HZ : forall t, okay (X t :: S)) by (intros t y [<-|I]; [exact Zx|auto]).
    destruct (in_split (X s) l) as (p & q & Ep); [apply (Permutation_in _ (Permutation_sym Pm)); now left|].
    assert (PS : Permutation (p ++ q) S) by (rewrite Ep in Pm; apply Permutation_sym, Permutation_cons_app_inv in Pm; now apply Permutation_sym).
    assert (DS : descending sc (p ++ q)).
    { rewrite Ep in D. apply Ties.sorted_app_inv in D as (D1 & D2 & D3). inversion D2; subst. apply Ties.sorted_app; auto. intros y z Iy Iz. apply D3; [exact Iy|now right]. }
    destruct (four s s' (p ++ q)) as (a & b & c & d & Pq & Ha & Hb & Hc & Hd & Da & Dd); auto.
    { apply (ranked_sub _ S Rk). intros y. apply Permutation_in, PS. }
    { intros y I. apply Gap, (Permutation_in _ PS), I. }
    assert (PA : Permutation S (a ++ b ++ c ++ d)) by (rewrite <- Pq; now apply Permutation_sym).
    assert (RA : ranked sc (a ++ b ++ c ++ d)) by (apply (ranked_sub _ S Rk); intros y; apply Permutation_in, Permutation_sym, PA).
    assert (ZA : okay (a ++ b ++ c ++ d)) by (intros y I; apply Zo, (Permutation_in _ (Permutation_sym PA)), I).
    clear p q Ep PS DS Pq.
    assert (Ra : ranked sc a) by (apply (ranked_sub _ _ RA); intros y I; rewrite !in_app_iff; auto).
    assert (Rb : ranked sc b) by (apply (ranked_sub _ _ RA); intros y I; rewrite !in_app_iff; auto).
    assert (Rc : ranked sc c) by (apply (ranked_sub _ _ RA); intros y I; rewrite !in_app_iff; auto).
    assert (Rd : ranked sc d) by (apply (ranked_sub _ _ RA); intros y I; rewrite !in_app_iff; auto).
    assert (Za : okay a) by (intros y I; apply ZA; rewrite !in_app_iff; auto).
    assert (Zb : okay b) by (intros y I; apply ZA; rewrite !in_app_iff; auto).
    assert (Zc : okay c) by (intros y I; apply ZA; rewrite !in_app_iff; auto).
    assert (Zd : okay d) by (intros y I; apply ZA; rewrite !in_app_iff; auto).
    assert (Eq : forall t, is_nan t = false -> (t = s \/ t = s') -> forall k, descending sc k -> Permutation k (X t :: S) ->
      collapse_matches sc k = collapse_matches sc (a ++ b ++ X t :: c ++ d)).
    { intros t Nt Ht k Dk Pk.
      assert (P2 : Permutation k (a ++ b ++ X t :: c ++ d)).
      { rewrite Pk, PA. rewrite !app_assoc. rewrite <- (app_assoc (a ++ b) c d). apply Permutation_middle. }
      apply collapse_ties; auto.
      - apply (ranked_sub _ _ (HR t Nt)). intros y. apply Permutation_in, Pk.
      - assert (Rt : ranked sc (X t :: c ++ d)).
        { intros y [<-|I]; [exact Nt|]. apply in_app_or in I as [I|I]; [apply Rc|apply Rd]; exact I. }
        assert (Dt : descending sc (X t :: c ++ d)).
        { change (X t :: c ++ d) with ([X t] ++ c ++ d). apply descending_app; auto; [constructor; constructor| |].
          - apply descending_app; auto; [intros y I; apply in_app_or in I as [I|I]; auto|exact (flat_descending c _ Rc Hc)|].
            intros y z Iy Iz. rewrite (Hc y Iy). specialize (Hd z Iz). lra.
          - intros y z [<-|[]] I. change (sk (X t)) with (emb t). apply in_app_or in I as [I|I]; [rewrite (Hc z I)|specialize (Hd z I)]; destruct Ht as [-> | ->]; lra. }
        assert (Ht' : emb t <= emb s') by (destruct Ht as [-> | ->]; lra).
        assert (Hz : forall z, In z (X t :: c ++ d) -> sk z <= emb s').
        { intros z [<-|I]; [exact Ht'|]. apply in_app_or in I as [I|I]; [rewrite (Hc z I); lra|specialize (Hd z I); lra]. }
        assert (Rbt : ranked sc (b ++ X t :: c ++ d)) by (intros y I; apply in_app_or in I as [I|I]; auto).
        apply descending_app; auto.
        + intros y I. apply in_app_or in I as [I|I]; auto.
        + apply descending_app; auto; [exact (flat_descending b _ Rb Hb)|]. intros y z Iy Iz. rewrite (Hb y Iy). auto.
        + intros y z Iy Iz. specialize (Ha y Iy). apply in_app_or in Iz as [Iz|Iz]; [rewrite (Hb z Iz); lra|specialize (Hz z Iz); lra].
      - intros y I. apply (HZ t), (Permutation_in _ Pk), I. }
    rewrite (Eq s N (or_introl eq_refl) l D Pm), (Eq s' N' (or_intror eq_refl) l' D' Pm'). clear Eq.
    assert (Sd : forall k k' : list M, ranked sc k -> ranked sc k' -> (forall y z, In y k -> In z k' -> sk z < sk y) ->
      collapse_matches sc (k ++ k') = collapse_matches sc k ++ collapse_matches sc k').
    { intros k k' R1 R2 H. apply collapse_app. intros y z Iy Iz. apply not_tie; auto. }
    assert (Run : forall (m : M) k, ranked sc (m :: k) -> (forall y, In y k -> sk y = sk m) -> collapse_matches sc (m :: k) = [point m k]).
    { intros m k Rm H. apply collapse_run. intros y I. apply emb_eq; [apply Rm; now left|apply Rm; now right|]. now rewrite (H y I). }
    assert (RX : forall t, is_nan t = false -> ranked sc (X t :: c)) by (intros t Nt y [<-|I]; auto).
    assert (RB : forall t, is_nan t = false -> ranked sc (b ++ [X t])) by (intros t Nt y I; apply in_app_or in I as [I|[<-|[]]]; auto).
    (* before *)
    assert (E1 : collapse_matches sc (a ++ b ++ X s :: c ++ d) =
      collapse_matches sc a ++ collapse_matches sc b ++ point (X s) c :: collapse_matches sc d).
    { rewrite Sd; [|assumption| |].
      - f_equal. rewrite Sd; [|assumption| |].
        + f_equal. change (X s :: c ++ d) with ((X s :: c) ++ d). rewrite Sd; auto; [now rewrite (Run (X s) c (RX s N) Hc)|].
          intros y z [<-|Iy] Iz; [exact (Hd z Iz)|rewrite (Hc y Iy); auto].
        + intros y [<-|I]; [exact N|]. apply in_app_or in I as [I|I]; auto.
        + intros y z Iy [<-|Iz]; [rewrite (Hb y Iy); exact Lt'|]. rewrite (Hb y Iy). apply in_app_or in Iz as [Iz|Iz]; [rewrite (Hc z Iz); exact Lt'|specialize (Hd z Iz); lra].
      - intros y I. apply in_app_or in I as [I|[<-|I]]; [auto|exact N|]. apply in_app_or in I as [I|I]; auto.
      - intros y z Iy Iz. specialize (Ha y Iy). apply in_app_or in Iz as [Iz|[<-|Iz]]; [rewrite (Hb z Iz); exact Ha|change (emb s < sk y); lra|].
        apply in_app_or in Iz as [Iz|Iz]; [rewrite (Hc z Iz); lra|specialize (Hd z Iz); lra]. }
    assert (E2 : collapse_matches sc (a ++ b ++ X s' :: c ++ d) =
      collapse_matches sc a ++ collapse_matches sc (b ++ [X s']) ++ collapse_matches sc c ++ collapse_matches sc d).
    { rewrite Sd; [|assumption| |].
      - f_equal. change (b ++ X s' :: c ++ d) with (b ++ [X s'] ++ (c ++ d)). rewrite app_assoc. rewrite Sd; auto.
        + f_equal. apply Sd; auto. intros y z Iy Iz. rewrite (Hc y Iy). auto.
        + intros y I. apply in_app_or in I as [I|I]; auto.
        + intros y z Iy Iz. assert (Ey : sk y = emb s') by (apply in_app_or in Iy as [Iy|[<-|[]]]; [auto|reflexivity]). rewrite Ey.
          apply in_app_or in Iz as [Iz|Iz]; [rewrite (Hc z Iz); exact Lt'|specialize (Hd z Iz); lra].
      - intros y I. apply in_app_or in I as [I|[<-|I]]; [auto|exact N'|]. apply in_app_or in I as [I|I]; auto.
      - intros y z Iy Iz. specialize (Ha y Iy). apply in_app_or in Iz as [Iz|[<-|Iz]]; [rewrite (Hb z Iz); exact Ha|exact Ha|].
        apply in_app_or in Iz as [Iz|Iz]; [rewrite (Hc z Iz); lra|specialize (Hd z Iz); lra]. }
    refine (eq_ind_r (fun z => Rl z _) _ E1). refine (eq_ind_r (fun z => Rl _ z) _ E2). clear E1 E2.
    assert (Ll : length l = (length a + (length b + (1 + (length c + length d))))%nat).
    { rewrite (Permutation_length Pm). cbn [length]. rewrite (Permutation_length PA), !app_length. lia. }
    assert (Bd : forall k : list M, okay k -> forall c, In c (collapse_matches sc k) -> bounded c) by (intros k Zk; apply collapse_bounded, Zk).
    destruct b as [|b0 b].
    - cbn [app]. rewrite (Run (X s') [] (RB s' N') (fun y F => match F with end)). cbn [collapse_matches app].
      change (point (X s') []) with X0. destruct c as [|c0 c].
      + change (point (X s) []) with X0. cbn [collapse_matches app]. apply Rl_refl.
      + rewrite (Run c0 c Rc) by (intros y I; rewrite (Hc y), (Hc c0) by (simpl; auto); reflexivity). cbn [app].
        apply (Hsplit _ _ c0 c s (X s) (c0 :: c)); auto.
        * intros z I. apply in_app_or in I as [I|I]; eapply Bd; [|exact I| |exact I]; assumption.
        * apply (Lim_le _ _ Lm). cbn [length] in *. lia.
    - rewrite (Run b0 b Rb) by (intros y I; rewrite (Hb y), (Hb b0) by (simpl; auto); reflexivity).
      change ((b0 :: b) ++ [X s']) with (b0 :: b ++ [X s']). rewrite (Run b0 (b ++ [X s'])).
      2:{ apply (RB s' N'). }
      2:{ intros y I. rewrite (Hb b0) by (simpl; auto). apply in_app_or in I as [I|[<-|[]]]; [apply Hb; now right|reflexivity]. }
      cbn [app].
      assert (Pb : Permutation (b0 :: b ++ [X s']) (X s' :: b0 :: b)) by (change (b0 :: b ++ [X s']) with ((b0 :: b) ++ [X s']); apply Permutation_sym, Permutation_cons_append).
      destruct c as [|c0 c].
      + cbn [collapse_matches app]. change (point (X s) []) with X0. apply (Hmerge _ _ b0 b s'); auto.
        * intros z I. apply in_app_or in I as [I|I]; eapply Bd; [|exact I| |exact I]; assumption.
        * apply (Lim_le _ _ Lm). rewrite (Permutation_length Pb). cbn [length] in *. lia.
      + rewrite (Run c0 c Rc) by (intros y I; rewrite (Hc y), (Hc c0) by (simpl; auto); reflexivity). cbn [app].
        assert (Bp : forall (m : M) k, okay (m :: k) -> bounded (point m k)).
        { intros m k Zk. apply capped_bounded, point_capped. intros y I. apply zero_one_fractions; auto. }
        eapply Rl_trans.
        * change (collapse_matches sc a ++ point b0 b :: point (X s) (c0 :: c) :: collapse_matches sc d) with
            (collapse_matches sc a ++ [point b0 b] ++ point (X s) (c0 :: c) :: collapse_matches sc d). rewrite app_assoc.
          apply (Hsplit _ _ c0 c s (X s) (c0 :: c)); auto.
          -- intros z I. apply in_app_or in I as [I|I]; [apply in_app_or in I as [I|[<-|[]]]|]; [eapply Bd; [|exact I]; assumption|auto|eapply Bd; [|exact I]; assumption].
          -- apply (Lim_le _ _ Lm). cbn [length] in *. lia.
        * rewrite <- app_assoc. cbn [app]. apply (Hmerge _ _ b0 b s'); auto.
          -- intros z I. apply in_app_or in I as [I|[<-|I]]; [eapply Bd; [|exact I]; assumption|auto|eapply Bd; [|exact I]; assumption].
          -- apply (Lim_le _ _ Lm). rewrite (Permutation_length Pb). cbn [length] in *. lia.
  Qed.

  Lemma sorted_exists (l : list M) : ranked sc l -> exists k, Permutation l k /\ descending sc k.
  Proof.
    induction l as [|y l IH]; intros Rk; [exists []; split; constructor|].
    destruct IH as (k & Pk & Dk); [intros z I; apply Rk; now right|].
    assert (Rk' : ranked sc k) by (intros z I; apply Rk; right; apply (Permutation_in _ (Permutation_sym Pk)), I).
    assert (Ny : is_nan (rank sc y) = false) by (apply Rk; now left).
    assert (exists p q, k = p ++ q /\ (forall z, In z p -> sk y <= sk z) /\ (forall z, In z q -> sk z <= sk y)) as (p & q & -> & Hp & Hq).
    { clear - Dk Rk' Ny. induction Dk as [|z k D IH F]; [exists [], []; repeat split; intros ? []|].
      destruct (Rle_lt_dec (sk z) (sk y)) as [L|L].
      - exists [], (z :: k). split; [reflexivity|]. split; [intros ? []|]. intros w [<-|I]; [exact L|].
        rewrite Forall_forall in F. specialize (F w I). apply emb_ge in F; [lra|apply Rk'; now left|apply Rk'; now right].
      - destruct IH as (p & q & -> & Hp & Hq); [intros w I; apply Rk'; now right|]. exists (z :: p), q. split; [reflexivity|].
        split; [intros w [<-|I]; [lra|auto]|exact Hq]. }
    exists (p ++ y :: q). split; [rewrite Pk; apply Permutation_middle|]. apply Ties.sorted_app_inv in Dk as (D1 & D2 & D3).
    apply Ties.sorted_app; [exact D1| |].
    - constructor; [exact D2|]. apply Forall_forall. intros z I. apply emb_ge; [exact Ny|apply Rk', in_or_app; auto|auto].
    - intros z w I [<-|J]; [|auto]. apply emb_ge; [apply Rk', in_or_app; auto|exact Ny|auto].
  Qed.

  Definition between (s s' : f32) (y : M) : bool := if Rlt_dec (emb s) (sk y) then if Rlt_dec (sk y) (emb s') then true else false else false.

  Lemma between_iff s s' y : between s s' y = true <-> emb s < sk y < emb s'.
  Proof. unfold between. destruct (Rlt_dec (emb s) (sk y)), (Rlt_dec (sk y) (emb s')); split; intros; try discriminate; try lra; auto. Qed.

  Lemma filter_less {X} (f g : X -> bool) l y : (forall z, f z = true -> g z = true) -> In y l -> g y = true -> f y = false ->
    (length (filter f l) < length (filter g l))%nat.
  Proof.
    intros H I Gy Fy.
    assert (Le : forall k, (length (filter f k) <= length (filter g k))%nat).
    { induction k as [|z k IH]; cbn; [lia|]. specialize (H z). destruct (f z); [rewrite H by reflexivity; cbn; lia|]. destruct (g z); cbn; lia. }
    induction l as [|z l IH]; [destruct I|]. cbn. destruct I as [->|I].
    - rewrite Gy, Fy. cbn. specialize (Le l). lia.
    - specialize (IH I). specialize (H z). destruct (f z); [rewrite H by reflexivity; cbn; lia|]. destruct (g z); cbn; lia.
  Qed.

  Lemma raise_score S : ranked sc S -> okay S -> forall n s s' l l', (length (filter (between s s') S) <= n)%nat ->
    is_nan s = false -> is_nan s' = false -> f32_lt s s' = true ->
    descending sc l -> descending sc l' -> Permutation l (X s :: S) -> Permutation l' (X s' :: S) -> Lim (length l) ->
    Rl (collapse_matches sc l) (collapse_matches sc l').
  Proof.
    intros Rk Zo. induction n as [|n IH]; intros s s' l l' Hn N N' Lt D D' Pm Pm' Lm.
    - apply (adjacent s s' l l' S); auto. intros y I B. apply between_iff in B.
      assert (In y (filter (between s s') S)) by (apply filter_In; auto). destruct (filter (between s s') S); [assumption|cbn in Hn; lia].
    - destruct (filter (between s s') S) as [|y f] eqn:Ef.
      + apply (adjacent s s' l l' S); auto. intros y I B. apply between_iff in B.
        assert (K : In y (filter (between s s') S)) by (apply filter_In; auto). rewrite Ef in K. destruct K.
      + assert (K : In y (filter (between s s') S)) by (rewrite Ef; now left). apply filter_In in K as [I B]. apply between_iff in B.
        set (m := rank sc y) in *. assert (Nm : is_nan m = false) by (apply Rk, I).
        destruct (sorted_exists (X m :: S)) as (k & Pk & Dk); [intros z [<-|J]; [exact Nm|auto]|].
        assert (Lk : length k = length l) by (rewrite <- (Permutation_length Pk), (Permutation_length Pm); reflexivity).
        rewrite <- Ef in Hn.
        apply (Rl_trans _ (collapse_matches sc k)).
        * apply (IH s m l k); auto; [|apply emb_lt; auto; lra|now apply Permutation_sym].
          enough (length (filter (between s m) S) < length (filter (between s s') S))%nat by lia.
          apply (filter_less _ _ _ y); auto; [|now apply between_iff|].
          -- intros z Hz. apply between_iff in Hz. apply between_iff. lra.
          -- destruct (between s m y) eqn:E; [|reflexivity]. apply between_iff in E as [_ E]. destruct (Rlt_irrefl _ E).
        * apply (IH m s' k l'); auto; [|apply emb_lt; auto; lra|now apply Permutation_sym|now rewrite Lk].
          enough (length (filter (between m s') S) < length (filter (between s s') S))%nat by lia.
          apply (filter_less _ _ _ y); auto; [|now apply between_iff|].
          -- intros z Hz. apply between_iff in Hz. apply between_iff. lra.
          -- destruct (between m s' y) eqn:E; [|reflexivity]. apply between_iff in E as [E _]. destruct (Rlt_irrefl _ E).
  Qed.

  (** The same for any matches. *)
  Lemma raise_matches {RE HE RE' HE'} (score : HE -> f32) (score' : HE' -> f32) (l : list (match_t RE HE)) (l' : list (match_t RE' HE')) s s' ps :
    ranked score l -> descending score l -> descending score' l' -> is_nan s' = false -> f32_lt s s' = true -> (forall m, In m l -> zero_one (m_err m)) ->
    Permutation (map norm (map (scored_error score) l)) ((s, x) :: ps) -> Permutation (map norm (map (scored_error score') l')) ((s', x) :: ps) ->
    Lim (length l) -> Rl (collapse_matches score l) (collapse_matches score' l').
  Proof.
    intros Rk D D' N' Lt Zo Pm Pm' Lm. rewrite (collapse_items score l), (collapse_items score' l').
    assert (Hp : forall p, In p ((s, x) :: ps) -> is_nan (fst p) = false /\ zero_one (snd p)).
    { intros p I. apply (Permutation_in _ (Permutation_sym Pm)) in I. rewrite map_map in I. apply in_map_iff in I as (m & <- & I).
      cbn [fst snd norm scored_error]. rewrite unsigned_nan. auto. }
    assert (Dn : forall {RE HE} (score : HE -> f32) (k : list (match_t RE HE)), descending score k ->
      descending sc (map item (map norm (map (scored_error score) k)))).
    { clear. intros RE HE score k D. rewrite !map_map. apply Ties.sorted_map. revert D. apply Ties.sorted_weaken. intros a b _ _ H.
      cbn [rank item m_hyp fst norm scored_error]. rewrite Ties.unsigned_lt. exact H. }
    apply (raise_score (map item ps)) with (n := length (filter (between s s') (map item ps))) (s := s) (s' := s'); auto.
    - intros m I. apply in_map_iff in I as (p & <- & I). apply (Hp p). now right.
    - intros m I. apply in_map_iff in I as (p & <- & I). apply (Hp p). now right.
    - apply (Hp (s, x)). now left.
    - change (X s :: map item ps) with (map item ((s, x) :: ps)). now apply Permutation_map.
    - change (X s' :: map item ps) with (map item ((s', x) :: ps)). now apply Permutation_map.
    - now rewrite !map_length.
  Qed.
End Raise.

(** ** Hits and false alarms *)

Lemma counts_hit : counts_of hit_error = hit.
Proof. reflexivity. Qed.

Lemma counts_alarm : counts_of alarm_error = alarm.
Proof. reflexivity. Qed.

Lemma raise_hit {RE HE RE' HE'} (score : HE -> f32) (score' : HE' -> f32) (l : list (match_t RE HE)) (l' : list (match_t RE' HE')) s s' ps t :
  ranked score l -> descending score l -> descending score' l' -> is_nan s' = false -> f32_lt s s' = true -> (forall m, In m l -> zero_one (m_err m)) ->
  Permutation (map norm (map (scored_error score) l)) ((s, hit_error) :: ps) -> Permutation (map norm (map (scored_error score') l')) ((s', hit_error) :: ps) ->
  value true t (collapse_matches score l) <= value true t (collapse_matches score' l').
Proof.
  intros Rk D D' N' Lt Zo Pm Pm'.
  assert (Bp : forall (m : M) k, (forall x, In x (m :: k) -> zero_one (m_err x)) -> bounded (point m k)).
  { intros m k Zk. apply capped_bounded, point_capped. intros y I. apply zero_one_fractions; auto. }
  apply (raise_matches hit_error (fun a b => value true t a <= value true t b) (fun _ => True)) with (s := s) (s' := s') (ps := ps); auto.
  - split; cbn; auto.
  - intros; lra.
  - intros; lra.
  - intros u v m k s0 y k' Bd Zk Pk _. rewrite counts_hit. apply split_hit; auto. apply (point_hit m k (item (s0, hit_error))); auto.
  - intros u v m k s0 y k' Bd Zk Pk _. rewrite counts_hit. apply merge_hit; auto. apply (point_hit m k (item (s0, hit_error))); auto.
Qed.

Lemma raise_alarm {RE HE RE' HE'} (score : HE -> f32) (score' : HE' -> f32) (l : list (match_t RE HE)) (l' : list (match_t RE' HE')) s s' ps i t :
  ranked score l -> descending score l -> descending score' l' -> is_nan s' = false -> f32_lt s s' = true -> (forall m, In m l -> zero_one (m_err m)) ->
  Permutation (map norm (map (scored_error score) l)) ((s, alarm_error) :: ps) -> Permutation (map norm (map (scored_error score') l')) ((s', alarm_error) :: ps) ->
  (Z.of_nat (length l) <= 2 ^ 24)%Z ->
  value i t (collapse_matches score' l') <= value i t (collapse_matches score l).
Proof.
  intros Rk D D' N' Lt Zo Pm Pm' Ln.
  assert (Bp : forall (m : M) k, (forall x, In x (m :: k) -> zero_one (m_err x)) -> bounded (point m k)).
  { intros m k Zk. apply capped_bounded, point_capped. intros y I. apply zero_one_fractions; auto. }
  assert (Zk' : forall s0 (m : M) k y k', (forall x, In x (m :: k) -> zero_one (m_err x)) -> Permutation (y :: k') (item (s0, alarm_error) :: m :: k) ->
    forall x, In x (y :: k') -> zero_one (m_err x)).
  { intros s0 m k y k' Zk Pk x I. apply (Permutation_in _ Pk) in I as [<-|I]; [split; cbn; auto|auto]. }
  apply (raise_matches alarm_error (fun a b => value i t b <= value i t a) (fun n => (Z.of_nat n <= 2 ^ 24)%Z)) with (s := s) (s' := s') (ps := ps); auto.
  - split; cbn; auto.
  - intros; lra.
  - intros a b c H H'. lra.
  - intros; lia.
  - intros u v m k s0 y k' Bd Zk Pk Lk. rewrite counts_alarm. apply merge_alarm; auto; [apply Bp; eapply Zk'; eauto|]. apply (point_alarm m k (item (s0, alarm_error))); auto.
  - intros u v m k s0 y k' Bd Zk Pk Lk. rewrite counts_alarm. apply split_alarm; auto. apply (point_alarm m k (item (s0, alarm_error))); auto.
Qed.
