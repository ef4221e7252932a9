(** Proofs about collapsing. *)
From Coq Require Import List Bool ZArith Sorted Reals Lra Lia Permutation.
Import ListNotations.
From Flocq Require Import Core BinarySingleNaN.
From Verif.Model Require Import Cpp Floats Events Matches Assessment.
From Verif.Spec Require Import Order Objects Matching Collapse.
From Verif.Proofs Require Import Order FloatFacts Matching.
From Verif.Proofs Require Objects.
Local Open Scope R_scope.

(** ** Sums of floats *)

Lemma Forall2_weaken {A B} (P Q : A -> B -> Prop) l l' :
  (forall a b, P a b -> Q a b) -> Forall2 P l l' -> Forall2 Q l l'.
Proof. intros H. induction 1; auto. Qed.

Definition cap : Z := 16777216.

Lemma cap_plus_one : rnd32 (IZR (cap + 1)) = IZR cap.
Proof.
  destruct (f32_of_Z_correct (cap + 1)) as [E F]; [unfold cap; lia|].
  destruct (f32_of_Z_exact cap) as [E' F']; [unfold cap; lia|].
  rewrite <- E, <- E'. apply (eqb_R 24 128 _ _ F F'). vm_compute. reflexivity.
Qed.

(** Adding at most one to a value within [n] and the cap stays so. *)
Lemma capped_sum a b (n k : nat) : 0 <= a <= Rmin (INR n) (IZR cap) -> 0 <= b <= INR k -> (k <= 1)%nat ->
  0 <= rnd32 (a + b) <= Rmin (INR (n + k)) (IZR cap).
Proof.
  intros [A1 A2] [B1 B2] K.
  assert (A3 : a <= INR n) by (eapply Rle_trans; [exact A2|apply Rmin_l]).
  assert (A4 : a <= IZR cap) by (eapply Rle_trans; [exact A2|apply Rmin_r]).
  assert (B3 : b <= 1) by (eapply Rle_trans; [exact B2|]; replace 1 with (INR 1) by reflexivity; apply le_INR; lia).
  split; [apply rnd32_nonneg; lra|].
  assert (C : rnd32 (a + b) <= IZR cap).
  { rewrite <- cap_plus_one. apply rnd32_le. rewrite plus_IZR. lra. }
  apply Rmin_glb; auto.
  destruct (le_lt_dec (n + k) (Z.to_nat cap)) as [L|L].
  - apply rnd32_le_fmt32.
    + rewrite INR_IZR_INZ. apply fmt32_Z. unfold cap in L. lia.
    + rewrite plus_INR. lra.
  - eapply Rle_trans; [exact C|]. rewrite INR_IZR_INZ. apply IZR_le. lia.
Qed.

Lemma capped_add x y (n k : nat) : is_finite x = true -> is_finite y = true ->
  0 <= B2R x <= Rmin (INR n) (IZR cap) -> 0 <= B2R y <= INR k -> (k <= 1)%nat ->
  is_finite (f32_add x y) = true /\ 0 <= B2R (f32_add x y) <= Rmin (INR (n + k)) (IZR cap).
Proof.
  intros Fx Fy X Y K.
  assert (Bx : B2R x <= IZR cap) by (destruct X as [_ X]; eapply Rle_trans; [exact X|apply Rmin_r]).
  assert (By : B2R y <= 1).
  { destruct Y as [_ Y]. eapply Rle_trans; [exact Y|]. replace 1 with (INR 1) by reflexivity. apply le_INR; lia. }
  destruct (f32_plus_correct x y 25 Fx Fy) as [E F]; [easy| |].
  - rewrite Rabs_pos_eq by lra. unfold cap in Bx. simpl. lra.
  - unfold f32_add. rewrite E. split; auto. apply capped_sum; auto.
Qed.

(** The errors of one match are within its counts. *)
Lemma fractions_bounded e : fractions e ->
  0 <= B2R (me_fp e) <= INR (me_nh e) /\ 0 <= B2R (me_fn e) <= INR (me_nr e).
Proof.
  intros [[F1 U1] [F2 U2]]. unfold me_nh, me_nr. destruct f32_1_R as [O1 O2].
  split.
  - split; [lra|]. destruct (f32_lt f32_0 (me_fp e)) eqn:E; simpl; [lra|].
    destruct (f32_lt (me_fn e) f32_1) eqn:E'; simpl; [lra|].
    assert (~ (0 < B2R (me_fp e))); [|lra]. intros K.
    assert (f32_lt f32_0 (me_fp e) = true); [|congruence].
    apply f32_lt_R; auto.
  - split; [lra|]. destruct (f32_lt (me_fp e) f32_1) eqn:E; simpl; [lra|].
    destruct (f32_lt f32_0 (me_fn e)) eqn:E'; simpl; [lra|].
    assert (~ (0 < B2R (me_fn e))); [|lra]. intros K.
    assert (f32_lt f32_0 (me_fn e) = true); [|congruence].
    apply f32_lt_R; auto.
Qed.

Definition capped (c : counts) : Prop :=
  is_finite (ec_fp c) = true /\ is_finite (ec_fn c) = true /\
  0 <= B2R (ec_fp c) <= Rmin (INR (ec_nh c)) (IZR cap) /\
  0 <= B2R (ec_fn c) <= Rmin (INR (ec_nr c)) (IZR cap).

Lemma capped_bounded c : capped c -> bounded c.
Proof.
  intros [A [B [[C1 C2] [D1 D2]]]]. repeat split; auto.
  - eapply Rle_trans; [exact C2|apply Rmin_l].
  - eapply Rle_trans; [exact D2|apply Rmin_l].
Qed.

Lemma capped_of e : fractions e -> capped (counts_of e).
Proof.
  intros Hf. destruct (fractions_bounded e Hf) as [B1 B2]. destruct Hf as [[F1 U1] [F2 U2]].
  unfold capped, counts_of. simpl. unfold cap.
  repeat split; auto; try lra; apply Rmin_glb; lra.
Qed.

Lemma capped_counts_add c e : capped c -> fractions e -> capped (counts_add c (counts_of e)).
Proof.
  intros [C1 [C2 [C3 C4]]] He. assert (He' := He). destruct (fractions_bounded e He) as [B1 B2].
  destruct He as [[F1 _] [F2 _]].
  destruct (capped_add (ec_fp c) (me_fp e) (ec_nh c) (me_nh e)) as [X1 X2]; auto; [apply Objects.nh_le_1|].
  destruct (capped_add (ec_fn c) (me_fn e) (ec_nr c) (me_nr e)) as [Y1 Y2]; auto; [apply Objects.nr_le_1|].
  unfold capped, counts_add, counts_of. simpl. auto.
Qed.

(** ** Sums of zeros and ones *)

Lemma pos_sign (x : f32) : 0 < B2R x -> Bsign x = false.
Proof.
  destruct x as [s| | |s m e H]; simpl; try lra.
  intros K. destruct s; auto. exfalso. unfold F2R in K. simpl in K.
  assert (L : IZR (Zneg m) < 0) by (apply (IZR_lt _ 0); lia).
  assert (0 < bpow radix2 e) by apply bpow_gt_0. nra.
Qed.

Lemma f32_of_Z_0 : f32_of_Z 0 = f32_0.
Proof. reflexivity. Qed.

Lemma f32_add_count z b : (0 <= z <= cap)%Z -> (0 <= b <= 1)%Z ->
  f32_add (f32_of_Z z) (f32_of_Z b) = f32_of_Z (Z.min (z + b) cap).
Proof.
  intros Hz Hb.
  destruct (f32_of_Z_exact z) as [Z1 Z2]; [unfold cap in *; lia|].
  destruct (f32_of_Z_exact b) as [B1 B2]; [lia|].
  destruct (f32_of_Z_exact (Z.min (z + b) cap)) as [M1 M2]; [unfold cap in *; lia|].
  assert (R : rnd32 (IZR z + IZR b) = IZR (Z.min (z + b) cap)).
  { rewrite <- plus_IZR. destruct (Z.le_gt_cases (z + b) cap) as [L|L].
    - rewrite Z.min_l by lia. apply rnd32_id, fmt32_Z. unfold cap in L. lia.
    - rewrite Z.min_r by lia. replace (z + b)%Z with (cap + 1)%Z by lia. apply cap_plus_one. }
  destruct (f32_plus_correct (f32_of_Z z) (f32_of_Z b) 25 Z2 B2) as [E F]; [easy| |].
  - rewrite Z1, B1, <- plus_IZR, Rabs_pos_eq by (apply (IZR_le 0); lia).
    change (bpow radix2 25) with (IZR 33554432). apply IZR_le. unfold cap in *. lia.
  - destruct (Z.eq_dec (Z.min (z + b) cap) 0) as [N|N].
    + assert (z = 0%Z) as -> by (unfold cap in *; lia). assert (b = 0%Z) as -> by (unfold cap in *; lia).
      reflexivity.
    + assert (V : B2R (f32_add (f32_of_Z z) (f32_of_Z b)) = IZR (Z.min (z + b) cap)).
      { unfold f32_add. rewrite E, Z1, B1. exact R. }
      assert (P : 0 < IZR (Z.min (z + b) cap)) by (apply (IZR_lt 0); unfold cap in *; lia).
      apply B2R_Bsign_inj; auto.
      * rewrite V, M1. reflexivity.
      * rewrite !pos_sign; auto; [rewrite M1|rewrite V]; auto.
Qed.

(** ** Points *)

Section Coll.
  Context {RE HE : Type} (score : HE -> f32).
  Notation M := (match_t RE HE).
  Notation rnk := (rank score).

  Lemma match_score_rank (m : M) : match_score score m = rnk m.
  Proof. reflexivity. Qed.

  Lemma total_cons (f : M -> nat) x l : total f (x :: l) = (f x + total f l)%nat.
  Proof. reflexivity. Qed.

  (** The point of a non-empty run. *)
  Definition point (m : M) (t : list M) : counts :=
    fold_left (fun c x => counts_add c (counts_of (m_err x))) t (counts_of (m_err m)).

  Lemma point_counts m t : counted_as (m :: t) (point m t).
  Proof.
    unfold point, counted_as.
    enough (G : forall c, ec_nh (fold_left (fun c x => counts_add c (counts_of (m_err x))) t c) =
                  (ec_nh c + total (fun x : M => me_nh (m_err x)) t)%nat /\
                ec_nr (fold_left (fun c x => counts_add c (counts_of (m_err x))) t c) =
                  (ec_nr c + total (fun x : M => me_nr (m_err x)) t)%nat).
    { destruct (G (counts_of (m_err m))) as [G1 G2]. auto. }
    induction t as [|x t IH]; intros c; simpl; [unfold total; simpl; lia|].
    destruct (IH (counts_add c (counts_of (m_err x)))) as [G1 G2]. rewrite G1, G2. unfold total. simpl. lia.
  Qed.

  Lemma point_capped m t : (forall x, In x (m :: t) -> fractions (m_err x)) -> capped (point m t).
  Proof.
    intros H. unfold point.
    assert (G : forall c, capped c -> (forall x, In x t -> fractions (m_err x)) ->
              capped (fold_left (fun c x => counts_add c (counts_of (m_err x))) t c)).
    { induction t as [|x t IH]; intros c Hc Hx; simpl; auto. apply IH.
      - intros y [K|K]; apply H; [left|right; right]; auto.
      - apply capped_counts_add; auto. apply Hx. left. reflexivity.
      - intros y K. apply Hx. right. exact K. }
    apply G; [apply capped_of, H; left; reflexivity|]. intros x K. apply H. right. exact K.
  Qed.

  Definition is_one (x : f32) : Z := if f32_eq x f32_1 then 1 else 0.

  Lemma is_one_0 : is_one f32_0 = 0%Z.
  Proof. reflexivity. Qed.

  Lemma is_one_1 : is_one f32_1 = 1%Z.
  Proof. reflexivity. Qed.

  Lemma zero_one_of x : x = f32_0 \/ x = f32_1 -> x = f32_of_Z (is_one x) /\ (0 <= is_one x <= 1)%Z.
  Proof. intros [->| ->]; [rewrite is_one_0|rewrite is_one_1]; split; auto; lia. Qed.

  Definition ones (f : match_error -> f32) (l : list M) : Z :=
    fold_right (fun m s => is_one (f (m_err m)) + s)%Z 0%Z l.

  Lemma ones_range f l : (0 <= ones f l <= Z.of_nat (length l))%Z.
  Proof.
    induction l as [|x l IH]; simpl; [lia|]. unfold is_one at 1 2. destruct (f32_eq _ _); lia.
  Qed.

  Lemma ones_perm f l l' : Permutation l l' -> ones f l = ones f l'.
  Proof. induction 1; simpl; lia. Qed.

  (** With 0/1 errors the point of a run depends on numbers only. *)
  Lemma point_zero_one m t : (forall x, In x (m :: t) -> zero_one (m_err x)) ->
    point m t = Counts (f32_of_Z (Z.min (ones me_fp (m :: t)) cap))
                  (f32_of_Z (Z.min (ones me_fn (m :: t)) cap))
                  (total (fun x => me_nh (m_err x)) (m :: t)) (total (fun x => me_nr (m_err x)) (m :: t)).
  Proof.
    intros H. unfold point.
    assert (G : forall l p q a b, (forall x, In x l -> zero_one (m_err x)) -> (0 <= p <= cap)%Z -> (0 <= q <= cap)%Z ->
              fold_left (fun c x => counts_add c (counts_of (m_err x))) l
                (Counts (f32_of_Z p) (f32_of_Z q) a b) =
              Counts (f32_of_Z (Z.min (p + ones me_fp l) cap)) (f32_of_Z (Z.min (q + ones me_fn l) cap))
                (a + total (fun x : M => me_nh (m_err x)) l) (b + total (fun x : M => me_nr (m_err x)) l)).
    { clear. induction l as [|x l IH]; intros p q a b H Hp Hq.
      - simpl. unfold total. simpl. rewrite !Z.add_0_r, !Z.min_l, !Nat.add_0_r by lia. reflexivity.
      - cbn [fold_left].
        change (counts_add (Counts (f32_of_Z p) (f32_of_Z q) a b) (counts_of (m_err x))) with
          (Counts (f32_add (f32_of_Z p) (me_fp (m_err x))) (f32_add (f32_of_Z q) (me_fn (m_err x)))
             (a + me_nh (m_err x)) (b + me_nr (m_err x))).
        destruct (H x (or_introl eq_refl)) as [X1 X2].
        destruct (zero_one_of _ X1) as [E1 R1]. destruct (zero_one_of _ X2) as [E2 R2].
        assert (A1 : f32_add (f32_of_Z p) (me_fp (m_err x)) = f32_of_Z (Z.min (p + is_one (me_fp (m_err x))) cap)).
        { rewrite E1 at 1. apply f32_add_count; auto. }
        assert (A2 : f32_add (f32_of_Z q) (me_fn (m_err x)) = f32_of_Z (Z.min (q + is_one (me_fn (m_err x))) cap)).
        { rewrite E2 at 1. apply f32_add_count; auto. }
        rewrite A1, A2, IH.
        + unfold ones. cbn [fold_right]. fold (ones me_fp l). fold (ones me_fn l).
          assert (P1 := ones_range me_fp l). assert (P2 := ones_range me_fn l).
          rewrite !total_cons. f_equal; try lia; f_equal; lia.
        + intros y K. apply H. right. exact K.
        + lia.
        + lia. }
    destruct (H m (or_introl eq_refl)) as [X1 X2].
    destruct (zero_one_of _ X1) as [E1 R1]. destruct (zero_one_of _ X2) as [E2 R2].
    assert (C : counts_of (m_err m) = Counts (f32_of_Z (is_one (me_fp (m_err m))))
                  (f32_of_Z (is_one (me_fn (m_err m)))) (me_nh (m_err m)) (me_nr (m_err m))).
    { rewrite <- E1, <- E2. reflexivity. }
    rewrite C, (G t).
    - reflexivity.
    - intros x K. apply H. right. exact K.
    - unfold cap. lia.
    - unfold cap. lia.
  Qed.

  (** ** Ties *)

  Definition tieb (a b : M) : bool := f32_eq (rnk a) (rnk b).

  (** The list up to the first score different from that of [m]. *)
  Fixpoint same (m : M) (l : list M) : list M :=
    match l with
    | [] => []
    | x :: t => if tieb m x then x :: same m t else []
    end.

  Fixpoint rest (m : M) (l : list M) : list M :=
    match l with
    | [] => []
    | x :: t => if tieb m x then rest m t else l
    end.

  Lemma same_rest m l : same m l ++ rest m l = l.
  Proof. induction l as [|x l IH]; simpl; auto. destruct (tieb m x); simpl; congruence. Qed.

  Lemma rest_length m l : (length (rest m l) <= length l)%nat.
  Proof. rewrite <- (same_rest m l) at 2. rewrite app_length. lia. Qed.

  Lemma collapse_loop_spec m l c :
    collapse_loop score c (rnk m) l =
      fold_left (fun c x => counts_add c (counts_of (m_err x))) (same m l) c :: collapse_matches score (rest m l).
  Proof.
    revert c. induction l as [|x l IH]; intros c; cbn [collapse_loop same rest]; auto.
    rewrite match_score_rank. unfold f32_ne, tieb. fold (f32_eq (rnk x) (rnk m)). rewrite (f32_eq_sym (rnk x) (rnk m)).
    destruct (f32_eq (rnk m) (rnk x)); simpl; auto.
  Qed.

  Lemma collapse_cons m l :
    collapse_matches score (m :: l) = point m (same m l) :: collapse_matches score (rest m l).
  Proof. exact (collapse_loop_spec m l _). Qed.

  (** A run and the following list. *)
  Lemma same_tie m l x : In x (same m l) -> tie score m x.
  Proof.
    induction l as [|y l IH]; simpl; [tauto|]. destruct (tieb m y) eqn:E; simpl; [|tauto].
    intros [->|K]; auto.
  Qed.

  Lemma rest_head m l x t : rest m l = x :: t -> ~ tie score m x.
  Proof.
    induction l as [|y l IH]; simpl; [discriminate|]. destruct (tieb m y) eqn:E; auto.
    intros [= -> ->] K. unfold tie in K. unfold tieb in E. congruence.
  Qed.

  Lemma rest_in m l x : In x (rest m l) -> In x l.
  Proof. intros H. rewrite <- (same_rest m l). apply in_or_app. auto. Qed.

  Lemma same_in m l x : In x (same m l) -> In x l.
  Proof. intros H. rewrite <- (same_rest m l). apply in_or_app. auto. Qed.

  Lemma tie_sym (a b : M) : tie score a b -> tie score b a.
  Proof. unfold tie. rewrite f32_eq_sym. auto. Qed.

  Lemma tie_trans (a b c : M) : tie score a b -> tie score b c -> tie score a c.
  Proof. apply f32_eq_trans. Qed.

  (** The runs and points of a list. *)
  Lemma runs_exist (l : list M) : ranked score l ->
    exists rs, are_runs score l rs /\
      Forall2 (fun r c => exists m t, r = m :: t /\ c = point m t) rs (collapse_matches score l).
  Proof.
    remember (length l) as n eqn:En. assert (Hn : (length l <= n)%nat) by lia. clear En.
    revert l Hn. induction n as [|n IH]; intros l Hn Hr.
    - destruct l; [|simpl in Hn; lia]. exists []. split; [|constructor].
      split; simpl; auto; try tauto. intros [|? ?]; discriminate.
    - destruct l as [|m l].
      { exists []. split; [|constructor].
        split; simpl; auto; try tauto. intros [|? ?]; discriminate. }
      assert (Hl := rest_length m l). simpl in Hn.
      destruct (IH (rest m l)) as [rs [[A1 A2 A3 A4] B]]; [lia| |].
      { intros x K. apply Hr. right. apply (rest_in m). exact K. }
      exists ((m :: same m l) :: rs). split.
      + assert (T : forall a, In a (m :: same m l) -> tie score m a).
        { intros a [<-|K]; [apply f32_eq_refl, Hr; left; reflexivity|]. eapply same_tie, K. }
        split.
        * simpl. rewrite A1, same_rest. reflexivity.
        * intros r [<-|K]; [discriminate|]. auto.
        * intros r a b [<-|K] Ha Hb; [|eapply A3; eauto].
          eapply tie_trans; [apply tie_sym, T; exact Ha|apply T; exact Hb].
        * intros u r r' v a b E Ha Hb K. destruct u as [|u1 u]; simpl in E.
          -- injection E as <- E. destruct r' as [|b1 r'].
             ++ destruct Hb.
             ++ assert (R : rest m l = b1 :: r' ++ concat v) by (rewrite <- A1, E; reflexivity).
                apply (rest_head _ _ _ _ R).
                eapply tie_trans; [apply T; exact Ha|].
                eapply tie_trans; [exact K|].
                apply (A3 (b1 :: r')); auto; [rewrite E|]; left; reflexivity.
          -- injection E as <- E. apply (A4 _ _ _ _ _ _ E Ha Hb K).
      + rewrite collapse_cons. constructor; eauto.
  Qed.

  (** On descending lists. *)
  Lemma same_filter (m : M) l : ranked score (m :: l) -> descending score (m :: l) ->
    same m l = filter (tieb m) l /\ rest m l = filter (fun x => negb (tieb m x)) l.
  Proof.
    revert m. induction l as [|x l IH]; intros m Hr Hd; simpl; auto.
    inversion Hd as [|? ? D1 D2]; subst. inversion D1 as [|? ? D3 D4]; subst.
    inversion D2 as [|? ? D5 D6]; subst.
    destruct (IH m) as [I1 I2].
    { intros y [<-|K]; apply Hr; [left|right; right]; auto. }
    { constructor; auto. }
    destruct (tieb m x) eqn:E; simpl.
    - rewrite I1, I2. auto.
    - assert (Lx : f32_lt (rnk x) (rnk m) = true).
      { destruct (f32_total (rnk m) (rnk x)) as [K|[K|K]]; auto.
        - apply Hr; left; reflexivity.
        - apply Hr; right; left; reflexivity.
        - congruence.
        - unfold tieb in E. congruence. }
      assert (N : forall y, In y l -> tieb m y = false).
      { intros y Ky. unfold tieb. destruct (f32_eq (rnk m) (rnk y)) eqn:Ey; auto. exfalso.
        rewrite Forall_forall in D4. specialize (D4 y Ky). simpl in D4.
        rewrite (f32_lt_eq_r _ _ _ Ey) in Lx. congruence. }
      assert (G : filter (tieb m) l = [] /\ filter (fun y => negb (tieb m y)) l = l).
      { clear -N. induction l as [|y l IH]; simpl; auto.
        destruct IH as [G1 G2]; [intros z K; apply N; right; exact K|].
        rewrite (N y) by (left; reflexivity). simpl. rewrite G1, G2. auto. }
      destruct G as [-> ->]. auto.
  Qed.

  Lemma descending_filter f (l : list M) : descending score l -> descending score (filter f l).
  Proof.
    unfold descending. induction 1 as [|x l H IH Hx]; simpl; [constructor|].
    destruct (f x); auto. constructor; auto.
    rewrite Forall_forall in *. intros y K. apply filter_In in K. apply Hx. tauto.
  Qed.

  Lemma ranked_filter f (l : list M) : ranked score l -> ranked score (filter f l).
  Proof. intros H x K. apply filter_In in K. apply H. tauto. Qed.

  Lemma total_perm (f : M -> nat) l l' : Permutation l l' -> total f l = total f l'.
  Proof. unfold total. induction 1; simpl in *; lia. Qed.

  Lemma perm_filter {A} (f : A -> bool) l l' : Permutation l l' -> Permutation (filter f l) (filter f l').
  Proof.
    induction 1; simpl; auto.
    - destruct (f x); auto.
    - destruct (f x), (f y); auto. constructor.
    - eapply Permutation_trans; eauto.
  Qed.

  Lemma descending_head (m : M) l x : ranked score (m :: l) -> descending score (m :: l) ->
    In x (m :: l) -> f32_lt (rnk m) (rnk x) = false.
  Proof.
    intros Hr Hd [<-|K]; [apply f32_lt_irrefl|].
    inversion Hd as [|? ? D1 D2]; subst. rewrite Forall_forall in D2. auto.
  Qed.

  Lemma heads_tie (m : M) l m' l' : ranked score (m :: l) -> descending score (m :: l) ->
    descending score (m' :: l') -> Permutation (m :: l) (m' :: l') -> tie score m m'.
  Proof.
    intros Hr Hd Hd' P.
    assert (Hr' : ranked score (m' :: l')).
    { intros x K. apply Hr. eapply Permutation_in; [apply Permutation_sym, P|exact K]. }
    assert (A : f32_lt (rnk m) (rnk m') = false).
    { apply (descending_head m l); auto. eapply Permutation_in; [apply Permutation_sym, P|left; reflexivity]. }
    assert (B : f32_lt (rnk m') (rnk m) = false).
    { apply (descending_head m' l'); auto. eapply Permutation_in; [apply P|left; reflexivity]. }
    destruct (f32_total (rnk m) (rnk m')) as [K|[K|K]]; auto.
    - apply Hr; left; reflexivity.
    - apply Hr'; left; reflexivity.
    - congruence.
    - congruence.
  Qed.

  (** Collapsed points do not depend on how ties are broken. *)
  Lemma collapse_ties (l l' : list M) : ranked score l -> descending score l -> descending score l' ->
    (forall m, In m l -> zero_one (m_err m)) -> Permutation l l' ->
    collapse_matches score l = collapse_matches score l'.
  Proof.
    remember (length l) as n eqn:En. assert (Hn : (length l <= n)%nat) by lia. clear En.
    revert l l' Hn. induction n as [|n IH]; intros l l' Hn Hr Hd Hd' Hz P.
    - destruct l; [|simpl in Hn; lia]. apply Permutation_nil in P. subst. reflexivity.
    - destruct l as [|m l]; [apply Permutation_nil in P; subst; reflexivity|].
      destruct l' as [|m' l']; [apply Permutation_sym, Permutation_nil in P; discriminate|].
      assert (Hr' : ranked score (m' :: l')).
      { intros x K. apply Hr. eapply Permutation_in; [apply Permutation_sym, P|exact K]. }
      assert (T := heads_tie _ _ _ _ Hr Hd Hd' P).
      rewrite !collapse_cons.
      destruct (same_filter m l Hr Hd) as [S1 S2]. destruct (same_filter m' l' Hr' Hd') as [S3 S4].
      assert (Eb : forall x, tieb m' x = tieb m x).
      { intros x. unfold tieb. destruct (f32_eq (rnk m) (rnk x)) eqn:E.
        - eapply f32_eq_trans; [apply tie_sym, T|exact E].
        - destruct (f32_eq (rnk m') (rnk x)) eqn:E'; auto.
          assert (f32_eq (rnk m) (rnk x) = true) by (eapply f32_eq_trans; [exact T|exact E']). congruence. }
      assert (Tm : tieb m m = true) by (apply f32_eq_refl, Hr; left; reflexivity).
      assert (Tm' : tieb m m' = true) by exact T.
      assert (F1 : m :: same m l = filter (tieb m) (m :: l)) by (simpl; rewrite Tm, S1; reflexivity).
      assert (F2 : m' :: same m' l' = filter (tieb m) (m' :: l')).
      { simpl. rewrite Tm', S3. f_equal. apply filter_ext. exact Eb. }
      assert (F3 : rest m l = filter (fun x => negb (tieb m x)) (m :: l)) by (simpl; rewrite Tm, S2; reflexivity).
      assert (F4 : rest m' l' = filter (fun x => negb (tieb m x)) (m' :: l')).
      { simpl. rewrite Tm', S4. simpl. apply filter_ext. intros x. rewrite Eb. reflexivity. }
      assert (Pf : Permutation (m :: same m l) (m' :: same m' l')) by (rewrite F1, F2; apply perm_filter, P).
      f_equal.
      + assert (Z1 : forall x, In x (m :: same m l) -> zero_one (m_err x)).
        { intros x K. apply Hz. rewrite F1 in K. apply filter_In in K. tauto. }
        rewrite !point_zero_one; auto.
        * rewrite (ones_perm me_fp _ _ Pf), (ones_perm me_fn _ _ Pf).
          f_equal; apply total_perm, Pf.
        * intros x K. apply Z1. eapply Permutation_in; [apply Permutation_sym, Pf|exact K].
      + apply IH.
        * assert (L := rest_length m l). simpl in Hn. lia.
        * rewrite F3. apply ranked_filter, Hr.
        * rewrite F3. apply descending_filter, Hd.
        * rewrite F4. apply descending_filter, Hd'.
        * intros x K. apply Hz. right. apply (rest_in m). exact K.
        * rewrite F3, F4. apply perm_filter, P.
  Qed.

  (** Runs of a descending list have strictly decreasing scores. *)
  Lemma runs_decrease (l : list M) rs : ranked score l -> descending score l -> are_runs score l rs ->
    forall u r v r' w a b, rs = u ++ r :: v ++ r' :: w -> In a r -> In b r' ->
    f32_lt (rnk b) (rnk a) = true.
  Proof.
    intros Hr Hd [A1 A2 A3 A4] u r v r' w a b E Ha Hb.
    assert (Ord : forall p q x y, l = p ++ q -> In x p -> In y q -> f32_lt (rnk x) (rnk y) = false).
    { intros p q x y -> Hx Hy. unfold descending in Hd. clear -Hd Hx Hy.
      induction p as [|z p IH]; [destruct Hx|]. simpl in Hd. inversion Hd as [|? ? D1 D2]; subst.
      destruct Hx as [->|Hx]; auto. rewrite Forall_forall in D2. apply D2, in_or_app. auto. }
    (* next run *)
    assert (In_l : forall x s, In s rs -> In x s -> In x l).
    { intros x s Hs Hx. rewrite <- A1. apply in_concat. eauto. }
    assert (Nxt : forall u s s' w x y, rs = u ++ s :: s' :: w -> In x s -> In y s' -> f32_lt (rnk y) (rnk x) = true).
    { intros u0 s s' w0 x y E0 Hx Hy.
      assert (O : f32_lt (rnk x) (rnk y) = false).
      { apply (Ord (concat u0 ++ s) (s' ++ concat w0)).
        - rewrite <- A1, E0, concat_app. simpl. rewrite <- app_assoc. reflexivity.
        - apply in_or_app. auto.
        - apply in_or_app. auto. }
      assert (T := A4 _ _ _ _ _ _ E0 Hx Hy).
      destruct (f32_total (rnk x) (rnk y)) as [K|[K|K]]; auto.
      - apply Hr, (In_l x s); auto. rewrite E0. apply in_or_app. simpl. auto.
      - apply Hr, (In_l y s'); auto. rewrite E0. apply in_or_app. simpl. auto.
      - congruence.
      }
    revert u r a E Ha. induction v as [|s v IH]; intros u r a E Ha.
    - eapply Nxt; eauto.
    - destruct s as [|x s].
      { exfalso. apply (A2 []); auto. rewrite E. apply in_or_app. right. right. left. reflexivity. }
      assert (Hx : f32_lt (rnk b) (rnk x) = true).
      { apply (IH (u ++ [r]) (x :: s)); [rewrite E, <- app_assoc; reflexivity|left; reflexivity]. }
      eapply f32_lt_trans; [exact Hx|].
      eapply (Nxt u r (x :: s)); [exact E|exact Ha|left; reflexivity].
  Qed.

  (** ** Summary *)

  Lemma total_concat (f : M -> nat) rs : total f (concat rs) = list_sum (map (total f) rs).
  Proof. induction rs as [|r rs IH]; simpl; auto. rewrite total_app, IH. reflexivity. Qed.

  Lemma ones_sum f l : (forall m, In m l -> f (m_err m) = f32_0 \/ f (m_err m) = f32_1) ->
    IZR (ones f l) = sum_of (fun m => B2R (f (m_err m))) l.
  Proof.
    intros H. induction l as [|x l IH]; simpl; auto. rewrite plus_IZR, IH by (intros m K; apply H; right; exact K).
    f_equal. destruct (H x (or_introl eq_refl)) as [->| ->].
    - rewrite is_one_0. reflexivity.
    - rewrite is_one_1. symmetry. apply f32_1_R.
  Qed.

  Lemma point_summed m t : (forall x, In x (m :: t) -> zero_one (m_err x)) ->
    (Z.of_nat (length (m :: t)) <= 2 ^ 24)%Z -> summed_as (m :: t) (point m t).
  Proof.
    intros H L. rewrite point_zero_one by exact H. unfold summed_as. cbn [ec_fp ec_fn].
    assert (R1 := ones_range me_fp (m :: t)). assert (R2 := ones_range me_fn (m :: t)).
    rewrite !Z.min_l by (unfold cap; lia).
    rewrite <- !ones_sum.
    - split; apply f32_of_Z_exact; lia.
    - intros x K. apply H, K.
    - intros x K. apply H, K.
  Qed.

  Lemma collapse_spec (l : list M) : ranked score l ->
    exists rs, are_runs score l rs /\
      Forall2 (fun r c => counted_as r c /\
        ((forall m, In m r -> fractions (m_err m)) -> bounded c) /\
        ((forall m, In m r -> zero_one (m_err m)) -> (Z.of_nat (length r) <= 2 ^ 24)%Z -> summed_as r c))
        rs (collapse_matches score l).
  Proof.
    intros H. destruct (runs_exist l H) as [rs [A B]]. exists rs. split; auto.
    eapply Forall2_weaken; [|exact B].
    intros r c [m [t [-> ->]]]. split; [apply point_counts|]. split.
    - intros K. apply capped_bounded, point_capped, K.
    - intros K L. apply point_summed; auto.
  Qed.

  Lemma collapse_totals (l : list M) :
    list_sum (map ec_nh (collapse_matches score l)) = total (fun m => me_nh (m_err m)) l /\
    list_sum (map ec_nr (collapse_matches score l)) = total (fun m => me_nr (m_err m)) l.
  Proof.
    remember (length l) as n eqn:En. assert (Hn : (length l <= n)%nat) by lia. clear En.
    revert l Hn. induction n as [|n IH]; intros l Hn; destruct l as [|m l]; auto; simpl in Hn; [lia|].
    assert (L := rest_length m l).
    rewrite collapse_cons. cbn [map list_sum fold_right].
    destruct (IH (rest m l)) as [I1 I2]; [lia|].
    destruct (point_counts m (same m l)) as [P1 P2].
    unfold list_sum in *. cbn [fold_right].
    rewrite I1, I2, P1, P2.
    assert (Sp : m :: l = (m :: same m l) ++ rest m l) by (simpl; rewrite same_rest; reflexivity).
    rewrite Sp, !total_app. auto.
  Qed.
End Coll.

(** ** Consequences for the metrics *)

Lemma metrics_ties RE HE (score : HE -> f32) (A : Arith) (T : Trans A) (l l' : list (match_t RE HE)) :
  ranked score l -> descending score l -> descending score l' ->
  (forall m, In m l -> zero_one (m_err m)) -> Permutation l l' ->
  (forall interpolate trapezoid,
     global_ap A score l true interpolate trapezoid = global_ap A score l' true interpolate trapezoid) /\
  global_ndcg A T score l true = global_ndcg A T score l' true.
Proof.
  intros H1 H2 H3 H4 H5. assert (E := collapse_ties score l l' H1 H2 H3 H4 H5).
  unfold global_ap, precision_recall_matches, global_ndcg, points. rewrite E. auto.
Qed.

(** Two matches of equal score. *)
Definition tied : unit -> f32 := fun _ => f32_0.
Definition hit : match_t unit unit := match_pair tt tt (MatchError f32_0 f32_0).
Definition miss : match_t unit unit := Match None (Some tt) (MatchError f32_1 f32_0).

Lemma hit_counts : counts_of (m_err hit) = Counts f32_0 f32_0 1 1.
Proof. reflexivity. Qed.

Lemma miss_counts : counts_of (m_err miss) = Counts f32_1 f32_0 1 0.
Proof. reflexivity. Qed.

Lemma f32_0_R : B2R f32_0 = 0.
Proof. reflexivity. Qed.

Lemma ndcg_hit : B2R (f32_sub f32_1 (f32_div f32_0 (f32_of_Z (Z.of_nat 1)))) = 1.
Proof.
  rewrite <- (proj1 f32_1_R). apply (eqb_R 24 128); [vm_compute; reflexivity|apply f32_1_R|].
  vm_compute. reflexivity.
Qed.

Lemma ndcg_miss : B2R (f32_sub f32_1 (f32_div f32_1 (f32_of_Z (Z.of_nat 1)))) = 0.
Proof.
  rewrite <- f32_0_R. apply (eqb_R 24 128); [vm_compute; reflexivity|reflexivity|].
  vm_compute. reflexivity.
Qed.

Lemma ln_2_pos : 0 < ln 2.
Proof. rewrite <- ln_1. apply ln_increasing; lra. Qed.

Lemma no_collapse_refuted :
  exists l l' : list (match_t unit unit),
    ranked tied l /\ descending tied l /\ descending tied l' /\
    (forall m, In m l -> zero_one (m_err m)) /\ Permutation l l' /\
    global_ap RArith tied l false false false = Ok 1 /\
    global_ap RArith tied l' false false false = Ok (/ 2) /\
    global_ndcg RArith RTrans tied l false = 1 /\
    global_ndcg RArith RTrans tied l' false < 1.
Proof.
  exists [hit; miss], [miss; hit].
  assert (D : forall a b : match_t unit unit, f32_lt (rank tied a) (rank tied b) = false -> descending tied [a; b]).
  { intros a b H. repeat constructor. exact H. }
  assert (O1 := proj1 f32_1_R).
  repeat split.
  - intros m [<-|[<-|[]]]; reflexivity.
  - apply D. reflexivity.
  - apply D. reflexivity.
  - destruct H as [<-|[<-|[]]]; simpl; auto.
  - destruct H as [<-|[<-|[]]]; simpl; auto.
  - constructor.
  - unfold global_ap, precision_recall_matches, precision_recall, points, get_match_errors.
    cbn [map]. rewrite hit_counts, miss_counts. unfold ap_curves, precision_of, recall_of, a0, a1.
    cbn -[f32_0 f32_1 B2R INR]. unfold precision_of, recall_of. cbn -[f32_0 f32_1 B2R INR].
    rewrite f32_0_R, O1. unfold a1. cbn. f_equal. lra.
  - unfold global_ap, precision_recall_matches, precision_recall, points, get_match_errors.
    cbn [map]. rewrite hit_counts, miss_counts. unfold ap_curves, precision_of, recall_of, a0, a1.
    cbn -[f32_0 f32_1 B2R INR]. unfold precision_of, recall_of. cbn -[f32_0 f32_1 B2R INR].
    rewrite f32_0_R, O1. unfold a1. cbn. f_equal. lra.
  - unfold global_ndcg, points, get_match_errors.
    cbn [map]. rewrite hit_counts, miss_counts. unfold ndcg, a0.
    cbn -[f32_0 f32_1 f32_sub f32_div f32_of_Z B2R INR Z.of_nat]. rewrite ndcg_hit, ndcg_miss.
    assert (L := ln_2_pos). unfold a1. cbn. rewrite Rpower_1, Rpower_O by lra.
    assert (L3 : 0 < ln (1 + 1 + 1)) by (rewrite <- ln_1; apply ln_increasing; lra).
    replace (1 + 1) with 2 in * by lra. field. lra.
  - unfold global_ndcg, points, get_match_errors.
    cbn [map]. rewrite hit_counts, miss_counts. unfold ndcg, a0.
    cbn -[f32_0 f32_1 f32_sub f32_div f32_of_Z B2R INR Z.of_nat]. rewrite ndcg_hit, ndcg_miss.
    assert (L := ln_2_pos). unfold a1. cbn. rewrite Rpower_1, Rpower_O by lra.
    assert (L3 : ln 2 < ln (1 + 1 + 1)) by (apply ln_increasing; lra).
    replace (1 + 1) with 2 in * by lra.
    replace ((0 + (1 - 1) / (ln 2 / ln 2) + (2 - 1) / (ln (2 + 1) / ln 2)) / (0 + 1 / (ln 2 / ln 2)))
      with (ln 2 / ln (2 + 1)) by (field; lra).
    apply Rmult_lt_reg_r with (ln (2 + 1)); [lra|]. unfold Rdiv. rewrite Rmult_assoc, Rinv_l; lra.
Qed.
