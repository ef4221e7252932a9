(** Error records. *)
From Coq Require Import ZArith Bool Reals Lia.
From Flocq Require Import Core BinarySingleNaN.
From Verif.Model Require Import Floats.
From Verif.Spec Require Import Errors.

Lemma strict_nonzero (x : f32) : is_finite_strict x = true -> B2R x <> 0%R.
Proof.
  destruct x as [s|s| |s m e B]; try discriminate. intros _. cbn [B2R]. apply F2R_neq_0. cbn. destruct s; discriminate.
Qed.

Lemma f32_eq_same (x y : f32) : f32_eq x y = true <-> same_float x y.
Proof.
  unfold f32_eq, same_float. destruct (is_finite x) eqn:Fx; destruct (is_finite y) eqn:Fy.
  - rewrite Beqb_correct by assumption.
    assert (N : is_nan x = false /\ is_nan y = false) by (destruct x, y; try discriminate; auto). destruct N as [-> ->].
    destruct (is_finite_strict x) eqn:Sx; destruct (is_finite_strict y) eqn:Sy.
    + case Req_bool_spec; intros E.
      * split; [|reflexivity]. intros _. repeat split. left. now apply B2R_inj.
      * split; [discriminate|]. intros (_ & _ & [->|(s & s' & -> & _)]); [now elim E|discriminate].
    + destruct y as [s'|s'| |s' m' e' B']; try discriminate. assert (K := strict_nonzero x Sx).
      case Req_bool_spec; intros E; [now elim K|]. split; [discriminate|].
      intros (_ & _ & [->|(s & t & -> & _)]); discriminate.
    + destruct x as [s'|s'| |s' m' e' B']; try discriminate. assert (K := strict_nonzero y Sy).
      case Req_bool_spec; intros E; [symmetry in E; now elim K|]. split; [discriminate|].
      intros (_ & _ & [<-|(s & t & _ & ->)]); discriminate.
    + destruct x as [s|s| |s m e B], y as [s'|s'| |s' m' e' B']; try discriminate.
      cbn [B2R]. rewrite Req_bool_true by reflexivity. split; [|reflexivity]. intros _. repeat split. right. eauto.
  - destruct x as [s|s| |s m e B], y as [s'|s'| |s' m' e' B']; try discriminate;
    (split; [intros K; cbn in K; repeat match type of K with context [if ?b then _ else _] => destruct b end; discriminate|]); intros (? & ? & [?|(? & ? & ? & ?)]); discriminate.
  - destruct x as [s|s| |s m e B], y as [s'|s'| |s' m' e' B']; try discriminate;
    (split; [intros K; cbn in K; repeat match type of K with context [if ?b then _ else _] => destruct b end; discriminate|]); intros (? & ? & [?|(? & ? & ? & ?)]); discriminate.
  - destruct x as [s|s| |s m e B], y as [s'|s'| |s' m' e' B']; try discriminate;
    try (split; [intros K; cbn in K; repeat match type of K with context [if ?b then _ else _] => destruct b end; discriminate|]; intros (? & ? & [?|(? & ? & ? & ?)]); discriminate).
    destruct s, s'; cbn; (split; [intros K; try discriminate K; auto|]); intros (? & ? & [?|(? & ? & ? & ?)]); try discriminate; reflexivity.
Qed.

Lemma same_lt_l (x y z : f32) : same_float x y -> f32_lt x z = f32_lt y z.
Proof. intros (_ & _ & [->|(s & s' & -> & ->)]); [reflexivity|]. destruct z as [t|t| |[] m e B]; reflexivity. Qed.

Lemma same_lt_r (z x y : f32) : same_float x y -> f32_lt z x = f32_lt z y.
Proof. intros (_ & _ & [->|(s & s' & -> & ->)]); [reflexivity|]. destruct z as [t|t| |[] m e B]; reflexivity. Qed.

Lemma same_add (x y x' y' : f32) : same_float x x' -> same_float y y' -> is_nan (f32_add x y) = false ->
  same_float (f32_add x y) (f32_add x' y').
Proof.
  intros (A & A' & [->|(s & s' & -> & ->)]) (B & B' & [->|(t & t' & -> & ->)]) N.
  - repeat split; auto.
  - destruct x' as [r|r| |r m e K]; try discriminate; [|repeat split; auto..].
    destruct r, t, t'; repeat split; (left; reflexivity) || (right; repeat eexists).
  - destruct y' as [r|r| |r m e K]; try discriminate; [|repeat split; auto..].
    destruct r, s, s'; repeat split; (left; reflexivity) || (right; repeat eexists).
  - destruct s, s', t, t'; repeat split; (left; reflexivity) || (right; repeat eexists).
Qed.

Lemma f32_add_comm (x y : f32) : f32_add x y = f32_add y x.
Proof.
  unfold f32_add. destruct x as [s|s| |s m e B], y as [s'|s'| |s' m' e' B']; try reflexivity.
  - destruct s, s'; reflexivity.
  - destruct s, s'; reflexivity.
  - cbn [Bplus]. rewrite (Z.min_comm e e'). f_equal. unfold Fplus_naive. apply Z.add_comm.
Qed.
