(** The random engine. *)
From Coq Require Import List Bool ZArith Znumtheory Zpow_facts Lia.
From Verif.Model Require Import Cpp Bootstrap Engine.
From Verif.Spec Require Import Engine.
Import ListNotations.
Local Open Scope Z_scope.

(** ** Primes *)

(** No divisor among [d], ..., [d + n - 1]. *)
Fixpoint no_divisor (m d : Z) (n : nat) : bool :=
  match n with
  | O => true
  | S n' => negb (m mod d =? 0) && no_divisor m (d + 1) n'
  end.

Lemma no_divisor_ok m n : forall d, no_divisor m d n = true -> forall e, d <= e < d + Z.of_nat n -> 0 < d -> ~ (e | m).
Proof.
  induction n as [|n IH]; intros d H e L P K; [lia|]. cbn [no_divisor] in H. apply andb_true_iff in H as [H1 H2].
  destruct (Z.eq_dec e d) as [->|N].
  - apply Zdivide_mod in K. rewrite K in H1. discriminate.
  - apply (IH (d + 1) H2 e); try lia. exact K.
Qed.

Lemma prime_trial m n : 1 < m -> m < (2 + Z.of_nat n) * (2 + Z.of_nat n) -> no_divisor m 2 n = true -> prime m.
Proof.
  intros M B H. apply prime_alt. split; [exact M|]. intros d L K.
  destruct K as [q E].
  assert (Q : 1 < q < m) by nia.
  destruct (Z_lt_le_dec d (2 + Z.of_nat n)) as [A|A].
  - apply (no_divisor_ok m n 2 H d); [lia|lia|]. exists q. exact E.
  - destruct (Z_lt_le_dec q (2 + Z.of_nat n)) as [A'|A']; [|nia].
    apply (no_divisor_ok m n 2 H q); [lia|lia|]. exists d. lia.
Qed.

Lemma prime_m : prime minstd_m.
Proof. apply (prime_trial _ (Z.to_nat 46340)); vm_compute; reflexivity. Qed.

Definition factors : list Z := [2; 3; 7; 11; 31; 151; 331].

Lemma factors_prime : forall q, In q factors -> prime q.
Proof.
  intros q H. destruct H as [<-|[<-|[<-|[<-|[<-|[<-|[<-|[]]]]]]]].
  - apply (prime_trial _ 0); vm_compute; reflexivity.
  - apply (prime_trial _ 0); vm_compute; reflexivity.
  - apply (prime_trial _ 1); vm_compute; reflexivity.
  - apply (prime_trial _ 2); vm_compute; reflexivity.
  - apply (prime_trial _ 4); vm_compute; reflexivity.
  - apply (prime_trial _ 11); vm_compute; reflexivity.
  - apply (prime_trial _ 17); vm_compute; reflexivity.
Qed.

Lemma factors_all k : 1 < k -> (k | minstd_m - 1) -> exists q, In q factors /\ (q | k).
Proof.
  intros K D.
  assert (H : forall q, In q factors -> (exists q, In q factors /\ (q | k)) \/ rel_prime k q).
  { intros q I. destruct (Zdivide_dec q k) as [Y|N]; [left; eauto|right].
    apply rel_prime_sym, prime_rel_prime; [apply factors_prime, I|exact N]. }
  change (minstd_m - 1) with (2 * (3 * (3 * (7 * (11 * (31 * (151 * (331 * 1)))))))) in D.
  destruct (H 2) as [?|R2]; [simpl; auto 12|assumption|]. apply Gauss in D; [|exact R2].
  destruct (H 3) as [?|R3]; [simpl; auto 12|assumption|]. apply Gauss in D; [|exact R3]. apply Gauss in D; [|exact R3].
  destruct (H 7) as [?|R7]; [simpl; auto 12|assumption|]. apply Gauss in D; [|exact R7].
  destruct (H 11) as [?|R11]; [simpl; auto 12|assumption|]. apply Gauss in D; [|exact R11].
  destruct (H 31) as [?|R31]; [simpl; auto 12|assumption|]. apply Gauss in D; [|exact R31].
  destruct (H 151) as [?|R151]; [simpl; auto 12|assumption|]. apply Gauss in D; [|exact R151].
  destruct (H 331) as [?|R331]; [simpl; auto 12|assumption|]. apply Gauss in D; [|exact R331].
  apply Zdivide_le in D; lia.
Qed.

(** ** The order of the multiplier *)

Notation a := 16807.
Notation m := minstd_m.

Lemma pow_ones b d : 0 <= d -> b mod m = 1 -> b ^ d mod m = 1.
Proof.
  intros D H. rewrite Zpower_mod by reflexivity. rewrite H, Z.pow_1_l by exact D. reflexivity.
Qed.

Lemma pow_full : a ^ (m - 1) mod m = 1.
Proof. rewrite <- (Zpow_mod_correct a (m - 1) m); [vm_compute; reflexivity|discriminate]. Qed.

Lemma pow_parts q : In q factors -> a ^ ((m - 1) / q) mod m <> 1.
Proof.
  intros H. destruct H as [<-|[<-|[<-|[<-|[<-|[<-|[<-|[]]]]]]]];
  (rewrite <- (Zpow_mod_correct a _ m); [vm_compute; discriminate|discriminate]).
Qed.

(** Ones at two exponents are ones at their greatest common divisor. *)
Lemma pow_gcd d : 0 < d -> a ^ d mod m = 1 -> a ^ (Z.gcd d (m - 1)) mod m = 1.
Proof.
  intros D H. destruct (Z.gcd_bezout d (m - 1) _ eq_refl) as (u & v & E).
  set (g := Z.gcd d (m - 1)) in *. assert (G : 0 <= g) by apply Z.gcd_nonneg.
  (* move both coefficients up by multiples of the other exponent *)
  set (w := Z.abs u + Z.abs v).
  assert (X : g + (w * (m - 1)) * d + (w * d) * (m - 1) = (u + w * (m - 1)) * d + (v + w * d) * (m - 1)) by lia.
  assert (M : 1 < m - 1) by reflexivity.
  assert (A : 0 <= u + w * (m - 1)) by nia. assert (B : 0 <= v + w * d) by nia.
  assert (W1 : 0 <= w * (m - 1)) by nia. assert (W2 : 0 <= w * d) by nia.
  assert (L : (a ^ (g + (w * (m - 1)) * d + (w * d) * (m - 1))) mod m = a ^ g mod m).
  { rewrite !Z.pow_add_r by nia. rewrite (Z.mul_comm (w * (m - 1)) d), (Z.mul_comm (w * d) (m - 1)).
    rewrite (Z.pow_mul_r a d), (Z.pow_mul_r a (m - 1)) by (assumption || lia).
    rewrite Z.mul_mod, (pow_ones _ _ W2 pow_full), Z.mul_1_r, Z.mod_mod by discriminate.
    rewrite Z.mul_mod, (pow_ones _ _ W1 H), Z.mul_1_r, Z.mod_mod by discriminate. reflexivity. }
  rewrite <- L, X. rewrite Z.pow_add_r by nia.
  rewrite (Z.mul_comm (u + w * (m - 1)) d), (Z.mul_comm (v + w * d) (m - 1)), (Z.pow_mul_r a d), (Z.pow_mul_r a (m - 1)) by (assumption || lia).
  rewrite Z.mul_mod by discriminate. rewrite (pow_ones _ _ A H), (pow_ones _ _ B pow_full). reflexivity.
Qed.

Lemma pow_order d : 0 < d < m - 1 -> a ^ d mod m <> 1.
Proof.
  intros D H. assert (G := pow_gcd d (proj1 D) H). set (g := Z.gcd d (m - 1)) in *.
  assert (Gd : (g | d)) by apply Z.gcd_divide_l. assert (Gm : (g | m - 1)) by apply Z.gcd_divide_r.
  assert (G0 : 0 < g). { assert (0 <= g) by apply Z.gcd_nonneg. destruct (Z.eq_dec g 0) as [E|E]; [|lia]. rewrite E in Gd. destruct Gd. lia. }
  assert (Gl : g <= d) by (apply Zdivide_le; lia || assumption).
  destruct Gm as [k Ek].
  destruct (factors_all k) as (q & Iq & [j Ej]).
  - nia.
  - exists g. lia.
  - apply (pow_parts q Iq). assert (Pq := prime_ge_2 q (factors_prime q Iq)).
    assert (E : (m - 1) / q = g * j).
    { rewrite Ek, Ej. replace (j * q * g) with (g * j * q) by ring. apply Z.div_mul. lia. }
    rewrite E, Z.pow_mul_r by nia. apply pow_ones; [nia|exact G].
Qed.

(** ** The values *)

Notation valid x := (1 <= x < m).

Lemma after_0 x : valid x -> engine_after x 0 = x.
Proof. intros H. unfold engine_after. change engine_prime with m. rewrite Z.pow_0_r, Z.mul_1_l. apply Z.mod_small. lia. Qed.

Lemma after_next x k : 0 <= k -> minstd_next (engine_after x k) = engine_after x (k + 1).
Proof.
  intros K. unfold minstd_next, engine_after. change engine_prime with m. change (7 ^ 5) with a.
  rewrite Z.mul_mod_idemp_r by discriminate. f_equal. rewrite Z.pow_add_r by lia. ring.
Qed.

Lemma next_after x k : 0 <= k -> engine_after (minstd_next x) k = engine_after x (k + 1).
Proof.
  intros K. unfold minstd_next, engine_after. change engine_prime with m. change (7 ^ 5) with a.
  rewrite Z.mul_mod_idemp_r by discriminate. f_equal. rewrite Z.pow_add_r by lia. ring.
Qed.

Lemma next_1 x : minstd_next x = engine_after x 1.
Proof. reflexivity. Qed.

Lemma after_after x j k : 0 <= j -> 0 <= k -> engine_after (engine_after x j) k = engine_after x (j + k).
Proof.
  intros J K. unfold engine_after. change engine_prime with m. change (7 ^ 5) with a.
  rewrite Z.mul_mod_idemp_r by discriminate. f_equal. rewrite Z.pow_add_r by lia. ring.
Qed.

Lemma not_div x : valid x -> ~ (m | x).
Proof. intros H D. apply Zdivide_le in D; lia. Qed.

Lemma a_not_div : ~ (m | a).
Proof. apply not_div. split; [discriminate|reflexivity]. Qed.

Lemma after_valid x k : valid x -> 0 <= k -> valid (engine_after x k).
Proof.
  intros H K. unfold engine_after. change engine_prime with m. change (7 ^ 5) with a.
  assert (B := Z.mod_pos_bound (a ^ k * x) m eq_refl).
  assert (N : (a ^ k * x) mod m <> 0); [|lia]. intros E. apply Zmod_divide in E; [|discriminate].
  apply prime_mult in E; [|apply prime_m]. destruct E as [E|E]; [|exact (not_div x H E)].
  apply (not_div 1); [split; [discriminate|reflexivity]|]. apply (Gauss m (a ^ k) 1); [now rewrite Z.mul_1_r|].
  apply rel_prime_Zpower_r; [exact K|]. apply prime_rel_prime; [apply prime_m|apply a_not_div].
Qed.

Lemma after_distinct x i j : valid x -> 0 <= i < m - 1 -> 0 <= j < m - 1 -> engine_after x i = engine_after x j -> i = j.
Proof.
  assert (W : forall i j, valid x -> 0 <= i -> i < j < m - 1 -> engine_after x i <> engine_after x j).
  { clear i j. intros i j V I J E. replace j with (i + (j - i)) in E by lia. rewrite <- after_after in E by lia.
    assert (Vi := after_valid x i V I). set (y := engine_after x i) in *. set (d := j - i) in *.
    apply (pow_order d); [lia|]. unfold engine_after in E. change engine_prime with m in E. change (7 ^ 5) with a in E.
    assert (D : (m | (a ^ d - 1) * y)).
    { apply Zmod_divide; [discriminate|]. rewrite Z.mul_sub_distr_r, Z.mul_1_l, Zminus_mod, <- E.
      rewrite (Z.mod_small y) by lia. now rewrite Z.sub_diag. }
    apply prime_mult in D; [|apply prime_m]. destruct D as [D|D]; [|destruct (not_div y Vi D)].
    destruct D as [k D]. replace (a ^ d) with (1 + k * m) by lia. rewrite Z.mod_add by discriminate. reflexivity. }
  intros V I J E. destruct (Z.lt_trichotomy i j) as [L|[L|L]]; [|exact L|]; exfalso.
  - apply (W i j V); [lia|lia|exact E].
  - apply (W j i V); [lia|lia|congruence].
Qed.

Lemma seq_steps x n : valid x -> Z.of_nat n <= m - 1 ->
  NoDup (map (fun k => engine_after x (Z.of_nat k)) (seq 0 n)).
Proof.
  intros V N.
  assert (H : forall l, NoDup l -> (forall k, In k l -> Z.of_nat k < m - 1) -> NoDup (map (fun k => engine_after x (Z.of_nat k)) l)).
  { induction 1 as [|k l K D IH]; intros B; cbn [map]; constructor.
    - intros I. apply in_map_iff in I as (j & E & I). apply K.
      apply after_distinct in E; [|exact V|split; [lia|apply B; now right]|split; [lia|apply B; now left]].
      apply Nat2Z.inj in E. now subst j.
    - apply IH. intros j I. apply B. now right. }
  apply H; [apply seq_NoDup|]. intros k I. apply in_seq in I. lia.
Qed.

(** Every value comes up within a period. *)
Lemma after_reaches x y : valid x -> valid y -> exists k, 0 <= k < m - 1 /\ engine_after x k = y.
Proof.
  intros V Y. set (n := Z.to_nat (m - 1)). assert (Nn : Z.of_nat n = m - 1) by (apply Z2Nat.id; vm_compute; discriminate).
  set (l := map (fun k => engine_after x (Z.of_nat k)) (seq 0 n)).
  set (l' := map (fun k => 1 + Z.of_nat k) (seq 0 n)).
  assert (I : In y l).
  { assert (C : incl l' l).
    { apply NoDup_length_incl.
      - apply seq_steps; [exact V|lia].
      - unfold l, l'. now rewrite !map_length.
      - intros z Iz. apply in_map_iff in Iz as (k & <- & Ik). apply in_seq in Ik.
        assert (A := after_valid x (Z.of_nat k) V ltac:(lia)).
        apply in_map_iff. exists (Z.to_nat (engine_after x (Z.of_nat k) - 1)). split; [lia|]. apply in_seq. lia. }
    apply C. apply in_map_iff. exists (Z.to_nat (y - 1)). split; [lia|]. apply in_seq. lia. }
  apply in_map_iff in I as (k & E & Ik). apply in_seq in Ik. exists (Z.of_nat k). split; [lia|exact E].
Qed.

(** The last of [m - 1] steps leads back. *)
Lemma after_period x : valid x -> engine_after x (m - 1) = x.
Proof.
  intros V. unfold engine_after. change engine_prime with m. change (7 ^ 5) with a.
  rewrite Z.mul_mod, pow_full, Z.mul_1_l, Z.mod_mod by discriminate. apply Z.mod_small. lia.
Qed.

(** ** The loop *)

Definition accepted (past : Z) (y : Z) : Prop := y - 1 < past.

Lemma reject_spec past fuel : forall x,
  match reject past fuel x with
  | inr y => exists k, 1 <= k <= Zpos fuel /\ y = engine_after x k /\ accepted past y /\
      forall j, 1 <= j < k -> ~ accepted past (engine_after x j)
  | inl y => y = engine_after x (Zpos fuel) /\ forall j, 1 <= j <= Zpos fuel -> ~ accepted past (engine_after x j)
  end.
Proof.
  assert (Two : forall p x, (forall x, match reject past p x with
      | inr y => exists k, 1 <= k <= Zpos p /\ y = engine_after x k /\ accepted past y /\
          forall j, 1 <= j < k -> ~ accepted past (engine_after x j)
      | inl y => y = engine_after x (Zpos p) /\ forall j, 1 <= j <= Zpos p -> ~ accepted past (engine_after x j) end) ->
    match (match reject past p x with inl y => reject past p y | inr y => inr y end) with
    | inr y => exists k, 1 <= k <= 2 * Zpos p /\ y = engine_after x k /\ accepted past y /\
        forall j, 1 <= j < k -> ~ accepted past (engine_after x j)
    | inl y => y = engine_after x (2 * Zpos p) /\ forall j, 1 <= j <= 2 * Zpos p -> ~ accepted past (engine_after x j)
    end).
  { intros p x H. assert (Hx := H x). destruct (reject past p x) as [y|y].
    - destruct Hx as [-> N]. assert (Hy := H (engine_after x (Zpos p))). destruct (reject past p (engine_after x (Zpos p))) as [z|z].
      + destruct Hy as [-> N']. rewrite after_after by lia. split; [f_equal; lia|]. intros j J.
        destruct (Z_le_gt_dec j (Zpos p)) as [L|L]; [apply N; lia|].
        specialize (N' (j - Zpos p) ltac:(lia)). rewrite after_after in N' by lia. now replace (Zpos p + (j - Zpos p)) with j in N' by lia.
      + destruct Hy as (k & K & -> & A & N'). exists (Zpos p + k). rewrite after_after in A |- * by lia. repeat split; try lia; [exact A|].
        intros j J. destruct (Z_le_gt_dec j (Zpos p)) as [L|L]; [apply N; lia|].
        specialize (N' (j - Zpos p) ltac:(lia)). rewrite after_after in N' by lia. now replace (Zpos p + (j - Zpos p)) with j in N' by lia.
    - destruct Hx as (k & K & -> & A & N). exists k. repeat split; try lia; assumption. }
  induction fuel as [p IH|p IH|]; intros x; cbn [reject].
  - destruct (Z.ltb_spec (minstd_next x - 1) past) as [L|L].
    + exists 1. rewrite next_1 in *. repeat split; try lia. exact L.
    + assert (T := Two p (minstd_next x) IH). destruct (match reject past p (minstd_next x) with inl z => _ | inr z => _ end) as [y|y].
      * destruct T as [-> N]. rewrite next_after by lia. split; [f_equal; lia|]. intros j J.
        destruct (Z.eq_dec j 1) as [->|J1]; [rewrite <- next_1; unfold accepted; lia|].
        specialize (N (j - 1) ltac:(lia)). rewrite next_after in N by lia. now replace (j - 1 + 1) with j in N by lia.
      * destruct T as (k & K & -> & A & N). exists (k + 1). rewrite next_after in A |- * by lia. repeat split; try lia; [exact A|].
        intros j J. destruct (Z.eq_dec j 1) as [->|J1]; [rewrite <- next_1; unfold accepted; lia|].
        specialize (N (j - 1) ltac:(lia)). rewrite next_after in N by lia. now replace (j - 1 + 1) with j in N by lia.
  - exact (Two p x IH).
  - destruct (Z.ltb_spec (minstd_next x - 1) past) as [L|L].
    + exists 1. rewrite next_1 in *. repeat split; try lia. exact L.
    + split; [reflexivity|]. intros j J. replace j with 1 by lia. rewrite <- next_1. unfold accepted. lia.
Qed.

(** ** Draws *)

Lemma stretch_unique n u v y : 0 < stretch_length n -> in_stretch n u y -> in_stretch n v y -> u = v.
Proof. unfold in_stretch. intros P A B. nia. Qed.

Lemma draw_spec x n : valid x -> (0 < n)%nat -> Z.of_nat n < m ->
  let (v, y) := minstd_draw x n in drawn_below x n v y.
Proof.
  intros V N M. unfold minstd_draw, drawn_below, in_stretch, stretch_length. change engine_prime with m.
  destruct (Z.ltb_spec (Z.of_nat n) (m - 1)) as [L|L].
  - rewrite (proj2 (Z.eqb_neq _ _)) by lia. set (s := (m - 2) / Z.of_nat n).
    assert (S1 : 1 <= s) by (apply Z.div_le_lower_bound; lia).
    assert (S2 : Z.of_nat n * s <= m - 2) by (apply Z.mul_div_le; lia).
    assert (R := reject_spec (Z.of_nat n * s) 2147483647 x).
    destruct (reject (Z.of_nat n * s) 2147483647 x) as [y|y].
    + exfalso. destruct R as [_ R]. destruct (after_reaches x 1 V) as (k & K & E); [split; [lia|reflexivity]|].
      destruct (Z.eq_dec k 0) as [->|K0].
      * rewrite after_0 in E by exact V. subst x.
        apply (R (m - 1)); [unfold m; lia|]. rewrite after_period by exact V. unfold accepted. nia.
      * apply (R k); [unfold m in K; lia|]. rewrite E. unfold accepted. nia.
    + destruct R as (k & K & Ey & A & R). exists k. unfold accepted in *.
      assert (Yv := after_valid x k V ltac:(lia)). rewrite <- Ey in Yv.
      assert (D := Z.div_mod (y - 1) s ltac:(lia)). assert (B := Z.mod_pos_bound (y - 1) s ltac:(lia)).
      set (q := (y - 1) / s) in *.
      assert (Q : 0 <= q < Z.of_nat n) by nia.
      rewrite Z2Nat.id by lia. split; [split; [lia|]|split; [exact Ey|split; [lia|split; [nia|]]]].
      * (* a whole period is not needed *)
        destruct (Z_lt_le_dec k m) as [Lk|Lk]; [exact Lk|exfalso].
        apply (R (k - (m - 1))); [unfold m in *; lia|].
        assert (E : engine_after x (k - (m - 1)) = y).
        { rewrite Ey. replace k with ((m - 1) + (k - (m - 1))) at 2 by lia.
          rewrite <- after_after by (unfold m in *; lia). now rewrite after_period. }
        rewrite E. nia.
      * intros j u J U H. apply (R j J). nia.
  - assert (En : Z.of_nat n = m - 1) by lia. rewrite En, !Z.eqb_refl.
    assert (Yv : valid (minstd_next x)) by (rewrite next_1; apply after_valid; [exact V|lia]).
    exists 1. rewrite <- next_1, Z2Nat.id by lia. repeat split; try lia.
Qed.

(** ** Samples *)

From Verif.Spec Require Import Bootstrap.

Lemma drawn_valid x n v y : valid x -> drawn_below x n v y -> valid y.
Proof. intros V (k & K & -> & _). apply after_valid; [exact V|lia]. Qed.

Lemma stretch_pos n : (0 < n)%nat -> Z.of_nat n < m -> 0 < stretch_length n.
Proof.
  intros N M. unfold stretch_length. change engine_prime with m. destruct (Z.eqb_spec (Z.of_nat n) (m - 1)); [lia|].
  assert (1 <= (m - 2) / Z.of_nat n) by (apply Z.div_le_lower_bound; lia). lia.
Qed.

Lemma drawn_unique x n v y v' y' : (0 < n)%nat -> Z.of_nat n < m ->
  drawn_below x n v y -> drawn_below x n v' y' -> v = v' /\ y = y'.
Proof.
  intros N M (k & K & -> & Lv & I & F) (k' & K' & -> & Lv' & I' & F').
  assert (k = k') as <-.
  { destruct (Z.lt_trichotomy k k') as [C|[C|C]]; [exfalso|exact C|exfalso].
    - exact (F' k v ltac:(lia) Lv I).
    - exact (F k' v' ltac:(lia) Lv' I'). }
  split; [|reflexivity]. exact (stretch_unique n v v' _ (stretch_pos n N M) I I').
Qed.

Lemma minstd_drawn seed x n : valid x -> (0 < n)%nat -> Z.of_nat n < m ->
  draw (minstd seed) x n = minstd_draw x n.
Proof.
  intros V N M. unfold draw. cbn [rng_next minstd]. assert (D := draw_spec x n V N M).
  destruct (minstd_draw x n) as [v y]. destruct D as (k & _ & _ & L & _). f_equal. apply Nat.mod_small. exact L.
Qed.

Lemma many_drawn {M} (d : M) seed n : forall x l, valid x -> l <> [] -> Z.of_nat (length l) < m ->
  let (s, y) := draw_many d (minstd seed) x n l in
  valid y /\ exists is, length is = n /\ draws_below (length l) x is y /\ Forall2 (fun i e => nth_error l i = Some e) is s.
Proof.
  induction n as [|n IH]; intros x l V N B; cbn [draw_many].
  - split; [exact V|]. exists []. repeat split; constructor.
  - assert (P : (0 < length l)%nat) by (destruct l; [congruence|cbn; lia]).
    rewrite minstd_drawn by assumption. assert (D := draw_spec x (length l) V P B).
    destruct (minstd_draw x (length l)) as [i y]. assert (Vy := drawn_valid _ _ _ _ V D).
    specialize (IH y l Vy N B). destruct (draw_many d (minstd seed) y n l) as [s z].
    destruct IH as (Vz & is & L & Ds & F). split; [exact Vz|]. exists (i :: is). split; [cbn; lia|]. split; [econstructor; eassumption|].
    constructor; [|exact F]. destruct D as (k & _ & _ & Li & _). apply nth_error_nth'. exact Li.
Qed.

Definition fitting {M} (gs : list (list M)) : Prop := Z.of_nat (length gs) < m /\ forall g, In g gs -> Z.of_nat (length g) < m.

Lemma loop_drawn {M} (d : M) seed gs : fitting gs -> gs <> [] -> forall n x, valid x ->
  let (s, y) := groups_loop d (minstd seed) x n gs in valid y /\ groups_drawn gs n x s y.
Proof.
  intros [B1 B2] N n. induction n as [|n IH]; intros x V; cbn [groups_loop].
  - split; [exact V|constructor].
  - assert (P : (0 < length gs)%nat) by (destruct gs; [congruence|cbn; lia]).
    rewrite minstd_drawn by assumption. assert (D := draw_spec x (length gs) V P B1).
    destruct (minstd_draw x (length gs)) as [q y]. assert (Vy := drawn_valid _ _ _ _ V D).
    assert (Lq : (q < length gs)%nat) by (destruct D as (k & _ & _ & L & _); exact L).
    set (g := nth q gs []). assert (Ig : In g gs) by (apply nth_In; exact Lq).
    assert (H : let (s, z) := draw_many d (minstd seed) y (length g) g in
      valid z /\ exists is, length is = length g /\ draws_below (length g) y is z /\ Forall2 (fun i e => nth_error g i = Some e) is s).
    { destruct g as [|e g']; [cbn; split; [exact Vy|]; exists []; repeat split; constructor|].
      apply many_drawn; [exact Vy|discriminate|]. apply B2. exact Ig. }
    destruct (draw_many d (minstd seed) y (length g) g) as [s z]. destruct H as (Vz & is & L & Ds & F).
    specialize (IH z Vz). destruct (groups_loop d (minstd seed) z n gs) as [rest t]. destruct IH as [Vt G].
    split; [exact Vt|]. eapply gd_one; try eassumption. apply nth_error_nth'. exact Lq.
Qed.

Lemma samples_spec {M} (d : M) seed gs samples : fitting gs -> forall x, valid x ->
  drawn (by_query_sampler d (minstd seed)) gs x samples -> samples_drawn gs x samples.
Proof.
  intros B. induction samples as [|s l IH]; intros x V H; [constructor|]. inversion H as [|? ? k' ? E T]; subst.
  unfold by_query_sampler in E. cbn [minstd rng_state] in *.
  destruct gs as [|g gs].
  - cbn in E. injection E as <- <-. econstructor; [constructor|]. exact (IH x V T).
  - assert (L := loop_drawn d seed (g :: gs) B ltac:(discriminate) (length (g :: gs)) x V). rewrite E in L.
    destruct L as [Vk G]. econstructor; [exact G|]. exact (IH k' Vk T).
Qed.

Lemma seed_valid s : valid (minstd_seed s).
Proof.
  unfold minstd_seed. assert (B := Z.mod_pos_bound s minstd_m eq_refl). change minstd_m with m in *.
  destruct (Z.eqb_spec (s mod m) 0); [split; [lia|reflexivity]|lia].
Qed.

Lemma seed_same s s' : minstd_seed s = minstd_seed s' <-> same_start s s'.
Proof.
  unfold minstd_seed, same_start. assert (B := Z.mod_pos_bound s minstd_m eq_refl). assert (B' := Z.mod_pos_bound s' minstd_m eq_refl).
  change engine_prime with m. change minstd_m with m in *.
  destruct (Z.eqb_spec (s mod m) 0), (Z.eqb_spec (s' mod m) 0); lia.
Qed.
