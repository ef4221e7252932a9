(** Proofs about the written text. *)
From Coq Require Import Ascii String List Bool ZArith Lia Lra Reals.
From Flocq Require Import Core BinarySingleNaN.
From Verif.Model Require Import Cpp Floats Stream Output Text.
From Verif.Spec Require Import Reader Text.
From Verif.Proofs Require Import Geometry Reader.
Import ListNotations.
Local Open Scope Z_scope.

(** ** Numerals *)

Lemma numeral_app a n b k : numeral a n -> numeral b k -> numeral (a ++ b) (n * 10 ^ Z.of_nat (List.length b) + k).
Proof.
  intros A B. induction B as [c d D|b k c d B IH D].
  - cbn [List.length]. change (Z.of_nat 1) with 1. replace (n * 10 ^ 1 + d) with (10 * n + d) by lia. now constructor.
  - rewrite app_assoc, app_length. cbn [List.length]. rewrite Nat2Z.inj_add. change (Z.of_nat 1) with 1.
    rewrite Z.pow_add_r by lia. replace (n * (10 ^ Z.of_nat (List.length b) * 10 ^ 1) + (10 * k + d))
      with (10 * (n * 10 ^ Z.of_nat (List.length b) + k) + d) by lia. now constructor.
Qed.

Lemma zeros_numeral j : (0 < j)%nat -> numeral (repeat "0"%char j) 0.
Proof.
  assert (Z0 : digit_is "0"%char 0) by (split; [lia|reflexivity]).
  destruct j as [|j]; [lia|]. intros _. induction j as [|j IH]; [now constructor|].
  change (repeat "0"%char (S (S j))) with ("0"%char :: repeat "0"%char (S j)). rewrite repeat_cons.
  replace 0 with (10 * 0 + 0) by lia. now constructor.
Qed.

Lemma numeral_snoc b c n : numeral (b ++ [c]) n ->
  b = [] /\ digit_is c n \/ exists k d, numeral b k /\ digit_is c d /\ n = 10 * k + d.
Proof.
  intros H. remember (b ++ [c]) as x eqn:E. destruct H as [c' d D|b' k c' d B D].
  - left. destruct b as [|? b]; [|destruct b; discriminate]. injection E as ->. now split.
  - right. apply app_inj_tail in E as [-> ->]. eauto.
Qed.

Lemma numeral_nil n : ~ numeral [] n.
Proof. intros H. remember [] as x eqn:E. destruct H; [discriminate|]. now destruct b. Qed.

(** Leading and trailing zeros. *)
Lemma numeral_zeros_l j b n : numeral b n -> numeral (repeat "0"%char j ++ b) n.
Proof.
  intros B. destruct j as [|j]; [exact B|]. refine (eq_ind _ (numeral _) (numeral_app _ 0 _ n (zeros_numeral (S j) ltac:(lia)) B) _ _).
  lia.
Qed.

Lemma numeral_zeros_r b j n : b <> [] -> numeral (b ++ repeat "0"%char j) n ->
  exists m, numeral b m /\ n = m * 10 ^ Z.of_nat j.
Proof.
  intros N. revert n. induction j as [|j IH]; intros n H.
  - rewrite app_nil_r in H. exists n. split; [exact H|]. cbn. lia.
  - change (repeat "0"%char (S j)) with ("0"%char :: repeat "0"%char j) in H. rewrite repeat_cons, app_assoc in H.
    inversion H as [c d D E|b' k c d B D E].
    + exfalso. destruct b as [|? b]; [now apply N|]. destruct b; cbn in E; [destruct (repeat _ j)|]; discriminate.
    + apply app_inj_tail in E as [E1 E2]. subst b' c. destruct (IH k B) as (m & M & ->).
      assert (d = 0) as -> by (destruct D as [_ D]; change (Z.of_N (N_of_ascii "0"%char)) with 48 in D; lia).
      exists m. split; [exact M|]. rewrite Nat2Z.inj_succ, Z.pow_succ_r by lia. ring.
Qed.

Lemma numeral_bound b n : numeral b n -> 0 <= n < 10 ^ Z.of_nat (List.length b).
Proof.
  induction 1 as [c d [D _]|b n c d B IH [D _]]; [cbn; lia|].
  rewrite app_length. cbn [List.length]. rewrite Nat2Z.inj_add, Z.pow_add_r by lia. change (10 ^ Z.of_nat 1) with 10. lia.
Qed.

Lemma dec_digits_bound fuel : forall n, 0 < n -> Z.log2 n <= Z.of_nat fuel ->
  10 ^ (Z.of_nat (List.length (dec_digits fuel n)) - 1) <= n /\ (1 <= List.length (dec_digits fuel n))%nat.
Proof.
  induction fuel as [|fuel IH]; intros n P L; simpl.
  - lia.
  - destruct (Z.ltb_spec n 10) as [K|K]; [cbn; lia|].
    destruct (IH (n / 10)) as [B1 B2].
    + apply Z.div_str_pos. lia.
    + assert (LE : n / 10 <= n / 2) by (apply Z.div_le_compat_l; lia).
      apply Z.log2_le_mono in LE. pose proof (Z.log2_shiftr n 1 ltac:(lia)) as SH.
      rewrite Z.shiftr_div_pow2 in SH by lia. change (2 ^ 1) with 2 in SH. rewrite SH in LE. lia.
    + rewrite app_length. cbn [List.length]. split; [|lia]. rewrite Nat2Z.inj_add. change (Z.of_nat 1) with 1.
      set (k := Z.of_nat (List.length (dec_digits fuel (n / 10)))) in *.
      replace (k + 1 - 1) with (Z.succ (k - 1)) by lia. rewrite Z.pow_succ_r by lia.
      pose proof (Z.mul_div_le n 10 ltac:(lia)). lia.
Qed.

(** How many digits a number has. *)
Lemma write_uint_length n : 0 < n -> let k := Z.of_nat (List.length (write_uint n)) in
  1 <= k /\ 10 ^ (k - 1) <= n < 10 ^ k.
Proof.
  intros P k. destruct (dec_digits_bound (Z.to_nat (Z.log2 n)) n P) as [B1 B2].
  - rewrite Z2Nat.id; [lia|apply Z.log2_nonneg].
  - assert (U := numeral_bound _ _ (write_uint_numeral n ltac:(lia))). unfold k. unfold write_uint in *. lia.
Qed.

Lemma write_uint_size n p : 0 < p -> 10 ^ (p - 1) <= n < 10 ^ p -> Z.of_nat (List.length (write_uint n)) = p.
Proof.
  intros P [L U]. assert (0 < 10 ^ (p - 1)) by (apply Z.pow_pos_nonneg; lia).
  destruct (write_uint_length n ltac:(lia)) as (K & L' & U'). set (k := Z.of_nat (List.length (write_uint n))) in *.
  assert (p - 1 < k) by (apply (Z.pow_lt_mono_r_iff 10); lia).
  assert (k - 1 < p) by (apply (Z.pow_lt_mono_r_iff 10); lia). lia.
Qed.

(** The first digit is not zero. *)
Lemma write_uint_head n t : 0 < n -> write_uint n <> "0"%char :: t.
Proof.
  intros P E. destruct (write_uint_length n P) as (K & L & _). rewrite E in K, L.
  assert (N := write_uint_numeral n ltac:(lia)). rewrite E in N.
  destruct t as [|c t].
  - inversion N as [? d [_ D] E1|b k c d B D E1].
    + change (Z.of_N (N_of_ascii "0"%char)) with 48 in D. lia.
    + destruct b; [inversion B as [|? ? ? ? ? ? E2]; destruct b; discriminate|destruct b; discriminate].
  - assert (M : exists k, numeral (c :: t) k).
    { apply numeral_iff in N as (_ & F & _). eexists. apply numeral_iff. split; [discriminate|]. split; [|reflexivity].
      now apply Forall_inv_tail in F. }
    destruct M as [k M]. assert (E2 := numeral_zeros_l 1 _ _ M). cbn [repeat app] in E2.
    assert (k = n).
    { apply numeral_iff in N as (_ & _ & N). apply numeral_iff in E2 as (_ & _ & E2). congruence. }
    subst k. apply numeral_bound in M. cbn [List.length] in L, M. rewrite Nat2Z.inj_succ in L.
    replace (Z.succ (Z.of_nat (S (List.length t))) - 1) with (Z.of_nat (S (List.length t))) in L by lia. lia.
Qed.

(** ** Trailing zeros *)

Lemma strip_zeros_spec b : exists j, b = strip_zeros b ++ repeat "0"%char j /\ forall t, strip_zeros b <> t ++ ["0"%char].
Proof.
  induction b as [|c b (j & E & N)]; cbn [strip_zeros].
  - exists 0%nat. split; [reflexivity|]. intros t. now destruct t.
  - destruct (strip_zeros b) as [|c' t'] eqn:S.
    + destruct (Ascii.eqb_spec c "0"%char) as [->|D].
      * exists (Datatypes.S j). cbn in E. subst b. split; [reflexivity|]. intros t. now destruct t.
      * exists j. cbn in E. subst b. split; [reflexivity|]. intros t Q. destruct t as [|x t]; cbn in Q; [congruence|].
        injection Q as _ Q. now destruct t.
    + exists j. cbn [app] in *. split; [now f_equal|]. intros t Q. destruct t as [|x t]; cbn in Q; [discriminate|].
      injection Q as _ Q. now apply (N t).
Qed.

Lemma strip_fraction b : short_fraction (write_frac (strip_zeros b)) (strip_zeros b).
Proof.
  destruct (strip_zeros_spec b) as (j & _ & N). split; [|exact N]. unfold write_frac. destruct (strip_zeros b); [now left|]. right. split; [discriminate|reflexivity].
Qed.

(** The number before and after dropping trailing zeros of the fraction. *)
Lemma strip_value ip b n : ip <> [] -> numeral (ip ++ b) n -> exists m, numeral (ip ++ strip_zeros b) m /\
  (IZR n * powerRZ 10 (- Z.of_nat (List.length b)) = IZR m * powerRZ 10 (- Z.of_nat (List.length (strip_zeros b))))%R.
Proof.
  intros I N. destruct (strip_zeros_spec b) as (j & E & _). rewrite E, app_assoc in N.
  assert (I' : ip ++ strip_zeros b <> []) by (destruct ip; [contradiction|discriminate]).
  destruct (numeral_zeros_r _ j n I' N) as (m & M & ->). exists m. split; [exact M|].
  rewrite E at 1. rewrite app_length, repeat_length, mult_IZR, Rmult_assoc. f_equal.
  rewrite (IZR_Zpower radix10) by lia. rewrite <- !(bpow_powerRZ radix10), <- bpow_plus. f_equal. lia.
Qed.

(** ** Rounding *)

Lemma round_div_spec n d : 0 < d -> round_div n d = ZnearestE (IZR n / IZR d).
Proof.
  intros D. assert (D' : (0 < IZR d)%R) by now apply IZR_lt.
  assert (F := Zfloor_div n d ltac:(lia)). unfold round_div, Znearest. rewrite F.
  assert (E := Z.div_mod n d ltac:(lia)). assert (M := Z.mod_pos_bound n d D).
  assert (X : (IZR n / IZR d - IZR (n / d) = IZR (n mod d) / IZR d)%R).
  { rewrite E at 1. rewrite plus_IZR, mult_IZR. field. lra. }
  rewrite X.
  assert (C : Rcompare (IZR (n mod d) / IZR d) (/ 2) = (2 * (n mod d) ?= d)).
  { rewrite <- (Rcompare_mult_r (2 * IZR d)) by lra.
    replace (IZR (n mod d) / IZR d * (2 * IZR d))%R with (IZR (2 * (n mod d))) by (rewrite mult_IZR; field; lra).
    replace (/ 2 * (2 * IZR d))%R with (IZR d) by lra. apply Rcompare_IZR. }
  rewrite C. destruct (2 * (n mod d) ?= d) eqn:Q; [|reflexivity|].
  - apply Z.compare_eq in Q. rewrite Zceil_floor_neq.
    + rewrite F. now destruct (Z.even (n / d)).
    + rewrite F. intros K. assert (K' : (IZR (n mod d) / IZR d = 0)%R) by lra.
      apply (f_equal (fun r => (r * IZR d)%R)) in K'. unfold Rdiv in K'. rewrite Rmult_assoc, Rinv_l, Rmult_1_r, Rmult_0_l in K' by lra.
      apply eq_IZR in K'. lia.
  - change (2 * (n mod d) > d) in Q. rewrite Zceil_floor_neq; [now rewrite F|].
    rewrite F. intros K. assert (K' : (IZR (n mod d) / IZR d = 0)%R) by lra.
    apply (f_equal (fun r => (r * IZR d)%R)) in K'. unfold Rdiv in K'. rewrite Rmult_assoc, Rinv_l, Rmult_1_r, Rmult_0_l in K' by lra.
    apply eq_IZR in K'. lia.
Qed.

Lemma scale_up_spec fuel : forall n d, 0 < n -> n < d -> d <= 2 ^ Z.of_nat fuel * n ->
  let k := scale_up fuel n d in 1 <= k /\ n * 10 ^ (k - 1) < d <= n * 10 ^ k.
Proof.
  induction fuel as [|fuel IH]; intros n d N L U; [change (2 ^ Z.of_nat 0) with 1 in U; lia|].
  cbn [scale_up]. destruct (Z.leb_spec d n) as [H|_]; [lia|].
  rewrite Nat2Z.inj_succ, Z.pow_succ_r in U by lia.
  destruct (Z.le_gt_cases d (10 * n)) as [H|H].
  - assert (E : scale_up fuel (10 * n) d = 0).
    { destruct fuel; [reflexivity|]. cbn [scale_up]. destruct (Z.leb_spec d (10 * n)); [reflexivity|lia]. }
    rewrite E. cbv zeta. change (1 + 0) with 1. change (10 ^ (1 - 1)) with 1. change (10 ^ 1) with 10. lia.
  - destruct (IH (10 * n) d ltac:(lia) H) as (K & A & B).
    + assert (0 < 2 ^ Z.of_nat fuel) by (apply Z.pow_pos_nonneg; lia). nia.
    + set (k := scale_up fuel (10 * n) d) in *. cbv zeta. replace (1 + k - 1) with (Z.succ (k - 1)) by lia.
      replace (1 + k) with (Z.succ k) by lia. rewrite !Z.pow_succ_r by lia. split; [lia|]. split; nia.
Qed.

Notation bp := (bpow radix10).

Lemma bp_Z k : 0 <= k -> IZR (10 ^ k) = bp k.
Proof. intros K. apply (IZR_Zpower radix10). exact K. Qed.

Lemma dec_exponent_spec n d : 0 < n -> 0 < d ->
  (bp (dec_exponent n d) <= IZR n / IZR d < bp (dec_exponent n d + 1))%R.
Proof.
  intros N D. assert (D' : (0 < IZR d)%R) by now apply IZR_lt. assert (N' : (0 < IZR n)%R) by now apply IZR_lt.
  unfold dec_exponent. destruct (Z.leb_spec d n) as [H|H].
  - assert (P : 0 < n / d) by (apply Z.div_str_pos; lia). destruct (write_uint_length _ P) as (K & L & U).
    set (k := Z.of_nat (List.length (write_uint (n / d)))) in *. replace (k - 1 + 1) with k by lia.
    rewrite <- !bp_Z by lia.
    assert (E := Z.div_mod n d ltac:(lia)). assert (M := Z.mod_pos_bound n d D). split.
    + apply Rmult_le_reg_r with (IZR d); [exact D'|]. unfold Rdiv. rewrite Rmult_assoc, Rinv_l, Rmult_1_r by lra.
      rewrite <- mult_IZR. apply IZR_le. nia.
    + apply Rmult_lt_reg_r with (IZR d); [exact D'|]. unfold Rdiv. rewrite Rmult_assoc, Rinv_l, Rmult_1_r by lra.
      rewrite <- mult_IZR. apply IZR_lt. nia.
  - destruct (scale_up_spec (S (Z.to_nat (Z.log2 d))) n d N H) as (K & A & B).
    + rewrite Nat2Z.inj_succ, Z2Nat.id by apply Z.log2_nonneg. destruct (Z.log2_spec d D) as [_ L]. nia.
    + set (k := scale_up (S (Z.to_nat (Z.log2 d))) n d) in *.
      replace (- k + 1) with (- (k - 1)) by lia. rewrite !bpow_opp. rewrite <- !bp_Z by lia.
      assert (P1 : (0 < IZR (10 ^ k))%R) by (apply IZR_lt; apply Z.pow_pos_nonneg; lia).
      assert (P2 : (0 < IZR (10 ^ (k - 1)))%R) by (apply IZR_lt; apply Z.pow_pos_nonneg; lia).
      apply IZR_le in B. apply IZR_lt in A. rewrite mult_IZR in A, B. split.
      * apply Rmult_le_reg_r with (IZR (10 ^ k)); [exact P1|]. rewrite Rinv_l by lra.
        apply Rmult_le_reg_r with (IZR d); [exact D'|]. rewrite Rmult_1_l.
        replace (IZR n / IZR d * IZR (10 ^ k) * IZR d)%R with (IZR n * IZR (10 ^ k))%R by (field; lra). exact B.
      * apply Rmult_lt_reg_r with (IZR (10 ^ (k - 1))); [exact P2|]. rewrite Rinv_l by lra.
        apply Rmult_lt_reg_r with (IZR d); [exact D'|]. rewrite Rmult_1_l.
        replace (IZR n / IZR d * IZR (10 ^ (k - 1)) * IZR d)%R with (IZR n * IZR (10 ^ (k - 1)))%R by (field; lra). exact A.
Qed.

(** The digits and exponent are those of the rounded number. *)
Lemma significant_spec p n d q x : 0 < p -> 0 < n -> 0 < d -> significant p n d = (q, x) ->
  10 ^ (p - 1) <= q < 10 ^ p /\ (IZR q * bp (x - (p - 1)) = digits p (IZR n / IZR d))%R.
Proof.
  intros P N D. unfold significant. assert (X := dec_exponent_spec n d N D). set (e := dec_exponent n d) in *.
  set (v := (IZR n / IZR d)%R) in *.
  assert (V : (0 < v)%R) by (unfold v; apply Rdiv_lt_0_compat; now apply IZR_lt).
  assert (Mg : (mag radix10 v : Z) = e + 1).
  { apply mag_unique_pos. replace (e + 1 - 1) with e by lia. exact X. }
  set (q0 := if 0 <=? p - 1 - e then round_div (n * 10 ^ (p - 1 - e)) d else round_div n (d * 10 ^ (- (p - 1 - e)))).
  assert (Q : q0 = ZnearestE (v * bp (p - 1 - e))).
  { unfold q0. destruct (Z.leb_spec 0 (p - 1 - e)) as [H|H].
    - rewrite round_div_spec by exact D. f_equal. rewrite mult_IZR, bp_Z by exact H. unfold v. field. apply not_0_IZR. lia.
    - assert (0 < 10 ^ (- (p - 1 - e))) by (apply Z.pow_pos_nonneg; lia).
      rewrite round_div_spec by lia. f_equal. rewrite mult_IZR, bp_Z by lia. rewrite bpow_opp. unfold v. field.
      split; [apply not_0_IZR; lia|]. apply Rgt_not_eq, bpow_gt_0. }
  assert (Dg : digits p v = (IZR q0 * bp (e - (p - 1)))%R).
  { unfold digits, round, F2R, scaled_mantissa, cexp, FLX_exp. rewrite Mg. cbn [Fnum Fexp]. rewrite Q.
    replace (- (e + 1 - p)) with (p - 1 - e) by lia. replace (e + 1 - p) with (e - (p - 1)) by lia. reflexivity. }
  assert (Bd : 10 ^ (p - 1) <= q0 <= 10 ^ p).
  { rewrite Q. assert (B1 : (bp (p - 1) <= v * bp (p - 1 - e))%R).
    { replace (bp (p - 1)) with (bp e * bp (p - 1 - e))%R by (rewrite <- bpow_plus; f_equal; lia).
      apply Rmult_le_compat_r; [apply bpow_ge_0|apply X]. }
    assert (B2 : (v * bp (p - 1 - e) <= bp p)%R).
    { replace (bp p) with (bp (e + 1) * bp (p - 1 - e))%R by (rewrite <- bpow_plus; f_equal; lia).
      apply Rmult_le_compat_r; [apply bpow_ge_0|]. apply Rlt_le, X. }
    rewrite <- (bp_Z (p - 1)) in B1 by lia. rewrite <- (bp_Z p) in B2 by lia. split.
    - apply (Zrnd_le ZnearestE) in B1. now rewrite (Zrnd_IZR ZnearestE) in B1.
    - apply (Zrnd_le ZnearestE) in B2. now rewrite (Zrnd_IZR ZnearestE) in B2. }
  cbv zeta. fold q0. destruct (Z.eqb_spec q0 (10 ^ p)) as [E|E]; intros R; injection R as <- <-.
  - split.
    + split; [lia|]. apply Z.pow_lt_mono_r; lia.
    + rewrite Dg, E, !bp_Z by lia. rewrite <- !bpow_plus. f_equal. lia.
  - split; [lia|]. now rewrite Dg.
Qed.

(** ** The texts of numbers *)

Lemma digits_signed p neg v : digits p (signed neg v) = signed neg (digits p v).
Proof. destruct neg; [|reflexivity]. unfold digits, signed. apply round_NE_opp. Qed.

Lemma signed_abs neg v : (0 <= v)%R -> Rabs (signed neg v) = v.
Proof. intros H. destruct neg; unfold signed; rewrite ?Rabs_Ropp; now apply Rabs_pos_eq. Qed.

Lemma quotient_spec neg m e H n d : quotient m e = (n, d) -> 0 < n /\ 0 < d /\
  B2R (B754_finite neg m e H : f64) = signed neg (IZR n / IZR d).
Proof.
  unfold quotient. intros Q. assert (B : B2R (B754_finite neg m e H : f64) = signed neg (IZR (Zpos m) * bpow radix2 e)).
  { unfold B2R, F2R. cbn [Fnum Fexp]. destruct neg; unfold signed, cond_Zopp; [|reflexivity].
    rewrite opp_IZR. ring. }
  destruct (Z.leb_spec 0 e) as [E|E]; apply pair_equal_spec in Q as [<- <-].
  - assert (0 < 2 ^ e) by (apply Z.pow_pos_nonneg; lia). split; [apply Z.mul_pos_pos; lia|]. split; [lia|]. rewrite B. f_equal.
    rewrite mult_IZR, (IZR_Zpower radix2) by exact E. field.
  - assert (0 < 2 ^ (- e)) by (apply Z.pow_pos_nonneg; lia). split; [lia|]. split; [lia|]. rewrite B. f_equal.
    rewrite (IZR_Zpower radix2) by lia. rewrite bpow_opp. field. apply Rgt_not_eq, bpow_gt_0.
Qed.

Lemma exponent_spec x : exponent_form (write_exponent x) x.
Proof.
  unfold write_exponent. set (ds := (if Z.abs x <? 10 then ["0"%char] else []) ++ write_uint (Z.abs x)).
  exists ds. split; [reflexivity|]. assert (N := write_uint_numeral (Z.abs x) ltac:(lia)). unfold ds.
  destruct (Z.ltb_spec (Z.abs x) 10) as [L|L].
  - assert (K : List.length (write_uint (Z.abs x)) = 1%nat).
    { destruct (Z.eq_dec x 0) as [->|Z]; [reflexivity|]. assert (E := write_uint_size (Z.abs x) 1 ltac:(lia) ltac:(cbn; lia)). lia. }
    split; [apply (numeral_zeros_l 1); exact N|]. rewrite app_length. cbn [List.length]. rewrite K. split; [lia|]. intros B. lia.
  - cbn [app]. split; [exact N|]. destruct (write_uint_length (Z.abs x) ltac:(lia)) as (K & A & B).
    set (k := Z.of_nat (List.length (write_uint (Z.abs x)))) in *. split.
    + assert (1 < k); [|lia]. apply (Z.pow_lt_mono_r_iff 10); lia.
    + intros _ t. apply write_uint_head. lia.
Qed.

Lemma powerRZ_bp k : powerRZ 10 k = bp k.
Proof. symmetry. apply (bpow_powerRZ radix10). Qed.

Lemma significant_range p q x v : 0 < p -> 10 ^ (p - 1) <= q < 10 ^ p -> (IZR q * bp (x - (p - 1)) = v)%R ->
  (bp x <= v < bp (x + 1))%R.
Proof.
  intros P [L U] <-. apply IZR_le in L. apply IZR_lt in U. rewrite bp_Z in L, U by lia.
  assert (B := bpow_gt_0 radix10 (x - (p - 1))). split.
  - replace (bp x) with (bp (p - 1) * bp (x - (p - 1)))%R by (rewrite <- bpow_plus; f_equal; lia). nra.
  - replace (bp (x + 1)) with (bp p * bp (x - (p - 1)))%R by (rewrite <- bpow_plus; f_equal; lia). nra.
Qed.

Lemma firstn_head (ds : bytes) k : (0 < k)%nat -> (forall t, ds <> "0"%char :: t) -> forall t, firstn k ds <> "0"%char :: t.
Proof.
  intros K H t E. destruct k as [|k]; [lia|]. destruct ds as [|c ds]; [discriminate|]. cbn in E. injection E as -> _.
  now apply (H ds).
Qed.

Theorem write_short_finite nan neg m e H : let v := (B754_finite neg m e H : f64) in
  short_form (write_short nan v) neg (digits 6 (B2R v)).
Proof.
  intros v. unfold v, write_short. destruct (quotient m e) as [n d] eqn:Q.
  destruct (quotient_spec neg m e H n d Q) as (N & D & ->). rewrite digits_signed.
  destruct (significant 6 n d) as [q x] eqn:S. destruct (significant_spec 6 n d q x ltac:(lia) N D S) as [Bq E].
  change (6 - 1) with 5 in *. assert (Rg := significant_range 6 q x _ ltac:(lia) Bq E). set (r := digits 6 (IZR n / IZR d)) in *.
  assert (R0 : (0 < r)%R) by (eapply Rlt_le_trans; [apply (bpow_gt_0 radix10 x)|apply Rg]).
  assert (Q0 : 0 < q) by (change (10 ^ 5) with 100000 in Bq; lia).
  assert (Nq := write_uint_numeral q ltac:(lia)). assert (Hd := fun t => write_uint_head q t Q0).
  assert (L6 := write_uint_size q 6 ltac:(lia) Bq).
  assert (Nz : signed neg r <> 0%R) by (destruct neg; unfold signed; lra).
  set (ds := write_uint q) in *. unfold short_form. rewrite signed_abs by lra. rewrite !powerRZ_bp.
  destruct ((-4 <=? x) && (x <? 6)) eqn:C.
  - apply andb_true_iff in C as [C1 C2]. apply Z.leb_le in C1. apply Z.ltb_lt in C2. left. split.
    + right. split.
      * apply Rle_trans with (bp x); [apply bpow_le; lia|apply Rg].
      * apply Rlt_le_trans with (bp (x + 1)); [apply Rg|apply bpow_le; lia].
    + destruct (Z.leb_spec 0 x) as [X|X].
      * set (k := Z.to_nat (x + 1)). assert (K : (0 < k <= 6)%nat) by (unfold k; lia).
        assert (I : firstn k ds <> []) by (destruct k; [lia|]; destruct ds; [cbn in L6; lia|discriminate]).
        rewrite <- (firstn_skipn k ds) in Nq. destruct (strip_value _ _ _ I Nq) as (w & W & V).
        exists (firstn k ds), (write_frac (strip_zeros (skipn k ds))), (strip_zeros (skipn k ds)), w.
        split; [destruct neg; reflexivity|]. split; [exact I|]. split.
        { intros t Et. exfalso. revert Et. apply firstn_head; [lia|exact Hd]. }
        split; [apply strip_fraction|]. split; [exact W|]. f_equal. rewrite <- V, powerRZ_bp, <- E. f_equal. f_equal.
        rewrite skipn_length. lia.
      * set (z := Z.to_nat (- x - 1)). set (b := repeat "0"%char z ++ ds).
        assert (Nb : numeral (lit "0" ++ b) q) by (apply (numeral_zeros_l 1), numeral_zeros_l; exact Nq).
        assert (I : lit "0" <> []) by discriminate.
        destruct (strip_value _ _ _ I Nb) as (w & W & V).
        exists (lit "0"), (write_frac (strip_zeros b)), (strip_zeros b), w.
        split; [destruct neg; reflexivity|]. split; [exact I|]. split; [intros t Et; now injection Et|].
        split; [apply strip_fraction|]. split; [exact W|]. f_equal. rewrite <- V, powerRZ_bp, <- E. f_equal. f_equal.
        unfold b. rewrite app_length, repeat_length. unfold z. lia.
  - right. split.
    + split; [exact Nz|]. apply andb_false_iff in C as [C|C]; [apply Z.leb_gt in C; left|apply Z.ltb_ge in C; right].
      * apply Rlt_le_trans with (bp (x + 1)); [apply Rg|apply bpow_le; lia].
      * apply Rle_trans with (bp x); [apply bpow_le; lia|apply Rg].
    + destruct ds as [|c t] eqn:Ds; [cbn in L6; lia|]. cbn [firstn skipn app].
      assert (I : [c] <> []) by discriminate. destruct (strip_value [c] t q I Nq) as (w & W & V).
      exists c, (write_frac (strip_zeros t)), (strip_zeros t), w, (write_exponent x), x.
      split; [destruct neg; reflexivity|]. split; [intros ->; now apply (Hd t)|]. split; [apply strip_fraction|].
      split; [apply exponent_spec|]. split; [exact W|]. f_equal.
      rewrite powerRZ_bp. unfold Zminus. rewrite bpow_plus. rewrite (Rmult_comm (bp x)), <- Rmult_assoc, <- powerRZ_bp, <- V.
      rewrite powerRZ_bp, Rmult_assoc, <- bpow_plus, <- E. f_equal. f_equal. cbn in L6. lia.
Qed.

Theorem write_scientific_finite nan neg m e H : let v := (B754_finite neg m e H : f64) in
  scientific_form (write_scientific nan v) neg (digits 7 (B2R v)).
Proof.
  intros v. unfold v, write_scientific. destruct (quotient m e) as [n d] eqn:Q.
  destruct (quotient_spec neg m e H n d Q) as (N & D & ->). rewrite digits_signed.
  destruct (significant 7 n d) as [q x] eqn:S. destruct (significant_spec 7 n d q x ltac:(lia) N D S) as [Bq E].
  change (7 - 1) with 6 in *. assert (Q0 : 0 < q) by (change (10 ^ 6) with 1000000 in Bq; lia).
  assert (Nq := write_uint_numeral q ltac:(lia)). assert (Hd := fun t => write_uint_head q t Q0).
  assert (L7 := write_uint_size q 7 ltac:(lia) Bq).
  destruct (write_uint q) as [|c t] eqn:Ds; [cbn in L7; lia|]. cbn [firstn skipn app].
  exists c, t, q, (write_exponent x), x. split; [destruct neg; reflexivity|]. split; [cbn in L7; lia|].
  split; [apply exponent_spec|]. split; [intros ->; now destruct (Hd t)|]. split; [exact Nq|]. f_equal.
  now rewrite powerRZ_bp, E.
Qed.

Lemma digits_0 p : digits p 0 = 0%R.
Proof. apply round_0, valid_rnd_N. Qed.

Theorem write_short_spec nan (v : f64) : is_finite v = true -> short_form (write_short nan v) (Bsign v) (digits 6 (B2R v)).
Proof.
  destruct v as [neg| | |neg m e H]; try discriminate; intros _; [|apply write_short_finite].
  cbn [B2R Bsign]. rewrite digits_0. left. split; [now left|].
  exists (lit "0"), [], [], 0. split; [destruct neg; reflexivity|]. split; [discriminate|]. split; [intros t E; now injection E|].
  split; [split; [now left|intros t E; now destruct t]|]. split; [apply (zeros_numeral 1); lia|].
  rewrite Rmult_0_l. destruct neg; unfold signed; lra.
Qed.

Theorem write_scientific_spec nan (v : f64) : is_finite v = true ->
  scientific_form (write_scientific nan v) (Bsign v) (digits 7 (B2R v)).
Proof.
  destruct v as [neg| | |neg m e H]; try discriminate; intros _; [|apply write_scientific_finite].
  cbn [B2R Bsign]. rewrite digits_0. exists "0"%char, (lit "000000"), 0, (lit "e+00"), 0.
  split; [destruct neg; reflexivity|]. split; [reflexivity|]. split; [apply (exponent_spec 0)|]. split; [easy|].
  split; [apply (zeros_numeral 7); lia|]. rewrite Rmult_0_l. destruct neg; unfold signed; lra.
Qed.

(** ** The text is determined by the number *)

Lemma digit_is_eq c c' d : digit_is c d -> digit_is c' d -> c = c'.
Proof.
  intros [_ H] [_ H']. assert (E : N_of_ascii c = N_of_ascii c') by lia.
  rewrite <- (ascii_N_embedding c), <- (ascii_N_embedding c'). now rewrite E.
Qed.

Lemma numeral_same b n : numeral b n -> forall b', numeral b' n -> List.length b = List.length b' -> b = b'.
Proof.
  induction 1 as [c d D|b n c d B IH D]; intros b' B' L.
  - destruct b' as [|c' b0 _] using rev_ind; [destruct (numeral_nil _ B')|]. rewrite app_length in L. cbn in L.
    destruct b0; [|cbn in L; lia]. destruct (numeral_snoc _ _ _ B') as [[_ D']|(n0 & d' & B0 & _)]; [|destruct (numeral_nil _ B0)].
    cbn. f_equal. now apply (digit_is_eq _ _ d).
  - destruct b' as [|c' b0 _] using rev_ind; [destruct (numeral_nil _ B')|]. rewrite !app_length in L. cbn [List.length] in L.
    destruct (numeral_snoc _ _ _ B') as [[-> D']|(n0 & d' & B0 & D' & E)].
    + destruct b; [destruct (numeral_nil _ B)|cbn in L; lia].
    + destruct D as [D0 D], D' as [D0' D']. assert (n0 = n /\ d' = d) as [-> ->] by lia.
      f_equal; [apply IH; [exact B0|lia]|]. f_equal. apply (digit_is_eq _ _ d); now split.
Qed.

Lemma numeral_lower c t m : numeral (c :: t) m -> c <> "0"%char -> 10 ^ Z.of_nat (List.length t) <= m.
Proof.
  revert m. induction t as [|x t IH] using rev_ind; intros m N C.
  - change (10 ^ Z.of_nat (List.length (@nil ascii))) with 1.
    destruct (numeral_snoc [] _ _ N) as [[_ [D0 D]]|(k & d & B & _)]; [|destruct (numeral_nil _ B)].
    destruct (Z.eq_dec m 0) as [->|]; [|lia]. destruct C. apply (digit_is_eq _ _ 0); (split; [lia|first [lia|reflexivity]]).
  - destruct (numeral_snoc (c :: t) _ _ N) as [[E _]|(k & d & B & [D0 D] & ->)]; [discriminate|].
    specialize (IH k B C). rewrite app_length. cbn [List.length]. rewrite Nat2Z.inj_add, Z.pow_add_r by lia.
    change (10 ^ Z.of_nat 1) with 10. lia.
Qed.

(** The last digit of a multiple of ten. *)
Lemma numeral_last b c m : numeral (b ++ [c]) (10 * m) -> c = "0"%char.
Proof.
  intros N. destruct (numeral_snoc _ _ _ N) as [[_ D]|(k & d & _ & D & E)].
  - destruct D as [D0 D]. assert (m = 0) as -> by lia. apply (digit_is_eq _ _ 0); (split; [lia|first [lia|reflexivity]]).
  - destruct D as [D0 D]. assert (d = 0) as -> by lia. apply (digit_is_eq _ _ 0); (split; [lia|first [lia|reflexivity]]).
Qed.

Lemma signed_inj neg x y : signed neg x = signed neg y -> x = y.
Proof. destruct neg; unfold signed; lra. Qed.

(** Equal numbers with fractions without trailing zeros have the same digits. *)
Lemma fraction_le ip f m ip' f' m' x : ip' <> [] -> (forall t, f' <> t ++ ["0"%char]) ->
  numeral (ip ++ f) m -> numeral (ip' ++ f') m' ->
  (IZR m * bp (x - Z.of_nat (List.length f)) = IZR m' * bp (x - Z.of_nat (List.length f')))%R ->
  (List.length f' <= List.length f)%nat.
Proof.
  intros I F N N' E. destruct (Nat.le_gt_cases (List.length f') (List.length f)) as [L|L]; [exact L|exfalso].
  set (k := Z.of_nat (List.length f') - Z.of_nat (List.length f)). assert (K : 0 < k) by (unfold k; lia).
  assert (E' : (IZR (m * 10 ^ k) = IZR m')%R).
  { apply Rmult_eq_reg_r with (bp (x - Z.of_nat (List.length f'))); [|apply Rgt_not_eq, bpow_gt_0].
    rewrite <- E, mult_IZR, bp_Z, Rmult_assoc, <- bpow_plus by lia. f_equal. f_equal. unfold k. lia. }
  apply eq_IZR in E'. replace k with (Z.succ (k - 1)) in E' by lia. rewrite Z.pow_succ_r in E' by lia.
  assert (X : exists t c, f' = t ++ [c]).
  { destruct f' as [|c f'] using rev_ind; [cbn in L; lia|eauto]. }
  destruct X as (t & c & ->). rewrite app_assoc in N'. rewrite <- E' in N'.
  replace (m * (10 * 10 ^ (k - 1))) with (10 * (m * 10 ^ (k - 1))) in N' by ring.
  apply numeral_last in N'. subst c. now apply (F t).
Qed.

Lemma fraction_same ip f m ip' f' m' x : ip <> [] -> ip' <> [] ->
  (forall t, f <> t ++ ["0"%char]) -> (forall t, f' <> t ++ ["0"%char]) ->
  numeral (ip ++ f) m -> numeral (ip' ++ f') m' ->
  (IZR m * bp (x - Z.of_nat (List.length f)) = IZR m' * bp (x - Z.of_nat (List.length f')))%R ->
  List.length f = List.length f' /\ m = m'.
Proof.
  intros I I' F F' N N' E. assert (L := fraction_le _ _ _ _ _ _ x I' F' N N' E).
  assert (L' := fraction_le _ _ _ _ _ _ x I F N' N (eq_sym E)). assert (Q : List.length f = List.length f') by lia.
  split; [exact Q|]. rewrite Q in E. apply Rmult_eq_reg_r in E; [|apply Rgt_not_eq, bpow_gt_0]. now apply eq_IZR.
Qed.

Lemma app_same_tail {A} (a b a' b' : list A) : a ++ b = a' ++ b' -> List.length b = List.length b' -> a = a' /\ b = b'.
Proof.
  intros E L. assert (K : List.length a = List.length a').
  { apply (f_equal (@List.length A)) in E. rewrite !app_length in E. lia. }
  clear L. revert a' K E. induction a as [|x a IH]; intros [|x' a'] K E; cbn in K; try lia; [now split|].
  cbn in E. injection E as -> E. destruct (IH a' ltac:(lia) E) as [-> ->]. now split.
Qed.

Lemma fraction_text fp f fp' : short_fraction fp f -> short_fraction fp' f -> fp = fp'.
Proof. intros [[[-> ->]|[H ->]] _] [[[E ->]|[E ->]] _]; first [reflexivity|contradiction]. Qed.

(** Numerals of a number without unnecessary zeros, with a minimal length. *)
Lemma numeral_short b b' n : numeral b n -> numeral b' n -> (1 <= List.length b < List.length b')%nat ->
  exists t, b' = "0"%char :: t.
Proof.
  intros N N' L. destruct b' as [|c t]; [cbn in L; lia|]. destruct (ascii_dec c "0"%char) as [->|C]; [now exists t|].
  assert (A := numeral_lower c t n N' C). apply numeral_bound in N. cbn [List.length] in L.
  assert (10 ^ Z.of_nat (List.length b) <= 10 ^ Z.of_nat (List.length t)) by (apply Z.pow_le_mono_r; lia). lia.
Qed.

Lemma numeral_length b n : numeral b n -> (1 <= List.length b)%nat.
Proof. destruct 1; rewrite ?app_length; cbn; lia. Qed.

Lemma plain_form_unique b b' neg v : plain_form b neg v -> plain_form b' neg v -> b = b'.
Proof.
  intros (ip & fp & f & m & -> & I & Z0 & F & N & V) (ip' & fp' & f' & m' & -> & I' & Z0' & F' & N' & V').
  rewrite V in V'. apply signed_inj in V'. rewrite !powerRZ_bp in V'.
  rewrite <- (Z.sub_0_l (Z.of_nat (List.length f))), <- (Z.sub_0_l (Z.of_nat (List.length f'))) in V'.
  destruct (fraction_same ip f m ip' f' m' 0 I I' (proj2 F) (proj2 F') N N' V') as [L ->].
  assert (Q : List.length (ip ++ f) = List.length (ip' ++ f')).
  { destruct (Nat.lt_trichotomy (List.length (ip ++ f)) (List.length (ip' ++ f'))) as [H|[H|H]]; [exfalso|exact H|exfalso].
    - destruct (numeral_short _ _ _ N N') as [t E]; [split; [eapply numeral_length; eauto|exact H]|].
      destruct ip' as [|c ip']; [contradiction|]. injection E as -> E. rewrite !app_length in H. cbn in H.
      assert (Y := Z0' ip' eq_refl). subst ip'. cbn in H. destruct ip; [contradiction|]. cbn in H. lia.
    - destruct (numeral_short _ _ _ N' N) as [t E]; [split; [eapply numeral_length; eauto|exact H]|].
      destruct ip as [|c ip]; [contradiction|]. injection E as -> E. rewrite !app_length in H. cbn in H.
      assert (Y := Z0 ip eq_refl). subst ip. cbn in H. destruct ip'; [contradiction|]. cbn in H. lia. }
  destruct (app_same_tail _ _ _ _ (numeral_same _ _ N _ N' Q) L) as [-> ->].
  now rewrite (fraction_text _ _ _ F F').
Qed.

Lemma exponent_form_unique b b' x : exponent_form b x -> exponent_form b' x -> b = b'.
Proof.
  intros (ds & -> & N & L & Z0) (ds' & -> & N' & L' & Z0'). f_equal. f_equal. apply (numeral_same _ _ N _ N').
  destruct (Nat.lt_trichotomy (List.length ds) (List.length ds')) as [H|[H|H]]; [exfalso|exact H|exfalso].
  - destruct (numeral_short _ _ _ N N') as [t E]; [lia|]. now apply (Z0' ltac:(lia) t).
  - destruct (numeral_short _ _ _ N' N) as [t E]; [lia|]. now apply (Z0 ltac:(lia) t).
Qed.

Lemma exp_range c f m x : c <> "0"%char -> numeral (c :: f) m ->
  (bp x <= IZR m * bp (x - Z.of_nat (List.length f)) < bp (x + 1))%R.
Proof.
  intros C N. assert (A := numeral_lower _ _ _ N C). assert (B := proj2 (numeral_bound _ _ N)).
  cbn [List.length] in B. rewrite Nat2Z.inj_succ in B. set (k := Z.of_nat (List.length f)) in *.
  apply (significant_range (k + 1) m x); [lia| |f_equal; f_equal; lia]. replace (k + 1 - 1) with k by lia.
  replace (k + 1) with (Z.succ k) by lia. lia.
Qed.

Lemma bp_range_unique x y v : (bp x <= v < bp (x + 1))%R -> (bp y <= v < bp (y + 1))%R -> x = y.
Proof.
  intros [A B] [C D]. assert (x < y + 1) by (apply (lt_bpow radix10); lra).
  assert (y < x + 1) by (apply (lt_bpow radix10); lra). lia.
Qed.

Lemma exp_form_unique b b' neg v : exp_form b neg v -> exp_form b' neg v -> b = b'.
Proof.
  intros (c & fp & f & m & ex & x & -> & C & F & X & N & V) (c' & fp' & f' & m' & ex' & x' & -> & C' & F' & X' & N' & V').
  rewrite V in V'. apply signed_inj in V'. rewrite !powerRZ_bp in V'.
  assert (R := exp_range c f m x C N). assert (R' := exp_range c' f' m' x' C' N'). rewrite <- V' in R'.
  assert (x = x') as <- by exact (bp_range_unique _ _ _ R R'). rewrite (exponent_form_unique _ _ _ X X').
  destruct (fraction_same [c] f m [c'] f' m' x ltac:(discriminate) ltac:(discriminate) (proj2 F) (proj2 F') N N' V') as [L ->].
  assert (E := numeral_same _ _ N _ N' ltac:(cbn; lia)). injection E as -> ->.
  now rewrite (fraction_text _ _ _ F F').
Qed.

Theorem short_form_unique b b' neg v : short_form b neg v -> short_form b' neg v -> b = b'.
Proof.
  intros [[H P]|[[H1 H2] P]] [[K Q]|[[K1 K2] Q]].
  - exact (plain_form_unique _ _ _ _ P Q).
  - exfalso. destruct H; [contradiction|]. lra.
  - exfalso. destruct K; [contradiction|]. lra.
  - exact (exp_form_unique _ _ _ _ P Q).
Qed.

Theorem scientific_form_unique b b' neg v : scientific_form b neg v -> scientific_form b' neg v -> b = b'.
Proof.
  intros (c & f & m & ex & x & -> & L & X & Z0 & N & V) (c' & f' & m' & ex' & x' & -> & L' & X' & Z0' & N' & V').
  assert (E : x = x').
  { destruct (ascii_dec c "0"%char) as [->|C], (ascii_dec c' "0"%char) as [->|C'].
    - destruct (Z0 eq_refl), (Z0' eq_refl). congruence.
    - exfalso. destruct (Z0 eq_refl) as [-> _]. destruct (exp_range c' f' m' x' C' N') as [R _]. rewrite L' in R.
      assert (B := bpow_gt_0 radix10 x'). rewrite powerRZ_bp in V'. change (Z.of_nat 6) with 6 in R.
      destruct neg; unfold signed in V'; lra.
    - exfalso. destruct (Z0' eq_refl) as [-> _]. destruct (exp_range c f m x C N) as [R _]. rewrite L in R.
      assert (B := bpow_gt_0 radix10 x). rewrite powerRZ_bp in V. change (Z.of_nat 6) with 6 in R.
      destruct neg; unfold signed in V; lra.
    - rewrite V in V'. apply signed_inj in V'. rewrite !powerRZ_bp in V'.
      assert (R := exp_range c f m x C N). assert (R' := exp_range c' f' m' x' C' N'). rewrite L in R. rewrite L' in R'.
      change (Z.of_nat 6) with 6 in *. rewrite <- V' in R'. exact (bp_range_unique _ _ _ R R'). }
  subst x'. rewrite (exponent_form_unique _ _ _ X X'). rewrite V in V'. apply signed_inj in V'. rewrite !powerRZ_bp in V'.
  apply Rmult_eq_reg_r in V'; [|apply Rgt_not_eq, bpow_gt_0]. apply eq_IZR in V'. subst m'.
  assert (E := numeral_same _ _ N _ N' ltac:(cbn; lia)). injection E as -> ->. reflexivity.
Qed.
