(** The curves of better rankings. *)
From Coq Require Import List Bool ZArith Arith Sorted Reals Lra Lia.
From Flocq Require Import Core BinarySingleNaN.
From Verif.Model Require Import Cpp Floats Events Matches Assessment.
From Verif.Spec Require Import Order Objects Matching Collapse Metrics Curves Better.
From Verif.Proofs Require Import FloatFacts Collapse Metrics Better.
From Verif.Proofs Require Matching AveragePrecision Curves.
Import ListNotations.
Local Open Scope R_scope.

Lemma first_unique xs x j j' : first_from xs x j -> first_from xs x j' -> j = j'.
Proof.
  intros [(a & Ea & La) H] [(b & Eb & Lb) H'].
  destruct (Nat.lt_trichotomy j j') as [L|[E|L]]; [|exact E|].
  - specialize (H' j a L Ea). lra.
  - specialize (H j' b L Eb). lra.
Qed.

Lemma first_beyond xs x j : first_from xs x j -> beyond xs x -> False.
Proof. intros [(a & Ea & La) _] B. apply nth_error_In in Ea. specialize (B a Ea). lra. Qed.

Lemma line_le a b x u v u' v' y y' : a < x <= b -> on_line a u b v x y -> on_line a u' b v' x y' -> u <= u' -> v <= v' -> y <= y'.
Proof.
  unfold on_line. intros X E E' U V. assert (D : 0 < b - a) by lra.
  assert (Y : y * (b - a) = u * (b - x) + v * (x - a)) by lra.
  assert (Y' : y' * (b - a) = u' * (b - x) + v' * (x - a)) by lra.
  apply Rmult_le_reg_r with (b - a); [exact D|]. rewrite Y, Y'.
  apply Rplus_le_compat; apply Rmult_le_compat_r; lra.
Qed.

Lemma ple_nth l : forall l' i a b, ple l l' -> nth_error l i = Some a -> nth_error l' i = Some b -> a <= b.
Proof.
  induction l as [|x l IH]; intros l' i a b F Ea Eb; [destruct i; discriminate|]. inversion F; subst.
  destruct i as [|i]; cbn in *; [congruence|]. eapply IH; eauto.
Qed.

Lemma last_nth {X} (l : list X) d : l <> [] -> nth_error l (length l - 1) = Some (last l d).
Proof.
  intros N. destruct (exists_last N) as (l0 & z & ->). rewrite app_length. cbn [length].
  replace (length l0 + 1 - 1)%nat with (length l0) by lia. rewrite nth_error_app2, Nat.sub_diag by lia. now rewrite last_last.
Qed.

Lemma last_some {X} (l : list X) d : l <> [] -> last (map Some l) None = Some (last l d).
Proof. intros N. destruct (exists_last N) as (l0 & z & ->). rewrite map_app. cbn [map]. now rewrite !last_last. Qed.

Section Step.
  Variables (x x' y ra rb : list R) (p p' q r : R).
  Hypothesis L : length x = length ra.
  Hypothesis M : ple x x'.
  Hypothesis Lp : p <= p'.
  Hypothesis Lq : q <= p'.
  Hypothesis Z : forall z, last (map Some x') None = Some z -> p <= z.
  Hypothesis Lr : last ra 0 < r.
  Notation n := (length ra).
  Notation rc := (ra ++ last ra 0 :: r :: rb).
  Notation rc' := (ra ++ r :: r :: rb).
  Notation pr := (x ++ p :: q :: y).
  Notation pr' := (x' ++ p' :: q :: y).

  Lemma len' : length x' = n.
  Proof. rewrite <- L. symmetry. exact (Curves.Forall2_len _ _ _ M). Qed.

  Lemma low {A} (l : list A) b i : (i < length l)%nat -> nth_error (l ++ b) i = nth_error l i.
  Proof. apply nth_error_app1. Qed.
  Lemma at0 {A} (l : list A) a b : length l = n -> nth_error (l ++ a :: b) n = Some a.
  Proof. intros E. rewrite nth_error_app2, E, Nat.sub_diag by lia. reflexivity. Qed.
  Lemma at1 {A} (l : list A) a c b : length l = n -> nth_error (l ++ a :: c :: b) (S n) = Some c.
  Proof. intros E. rewrite nth_error_app2 by lia. rewrite E. replace (S n - n)%nat with 1%nat by lia. reflexivity. Qed.
  Lemma high {A} (l l' : list A) a a' c b i : length l = n -> length l' = n -> (n < i)%nat ->
    nth_error (l ++ a :: c :: b) i = nth_error (l' ++ a' :: c :: b) i.
  Proof.
    intros E E' Li. rewrite !nth_error_app2 by lia. rewrite E, E'. destruct (i - n)%nat as [|k] eqn:K; [lia|]. reflexivity.
  Qed.

  (** Where the first place moves to. *)
  Lemma moved X j : first_from rc X j ->
    ((j < n)%nat /\ first_from rc' X j) \/ (j = n /\ n = 0%nat /\ first_from rc' X 0) \/
    (j = S n /\ last ra 0 < X <= r /\ first_from rc' X n) \/ ((S n < j)%nat /\ first_from rc' X j).
  Proof.
    intros [(a & Ea & La) H]. destruct (lt_eq_lt_dec j n) as [[Lj|Ej]|Lj].
    - left. split; [exact Lj|]. split.
      + exists a. rewrite low in Ea by exact Lj. rewrite low by exact Lj. auto.
      + intros i b Li Eb. apply (H i b Li). rewrite low in Eb by lia. rewrite low by lia. exact Eb.
    - right. left. subst j. rewrite at0 in Ea by reflexivity. injection Ea as <-. split; [reflexivity|].
      destruct ra as [|z l] eqn:Er; [|exfalso].
      + split; [reflexivity|]. split; [exists r; split; [reflexivity|]; cbn in *; lra|]. intros i b Li. lia.
      + assert (N : z :: l <> []) by discriminate. assert (E0 := last_nth (z :: l) 0 N).
        assert (K := H (length (z :: l) - 1)%nat (last (z :: l) 0)). rewrite low in K by (cbn; lia).
        assert (last (z :: l) 0 < X) by (apply K; [cbn; lia|exact E0]). lra.
    - right. right. assert (K0 : last ra 0 < X) by (apply (H n); [exact Lj|apply at0; reflexivity]).
      destruct (Nat.eq_dec j (S n)) as [->|Nj].
      + left. rewrite at1 in Ea by reflexivity. injection Ea as <-. split; [reflexivity|]. split; [lra|]. split.
        * exists r. split; [apply at0; reflexivity|lra].
        * intros i b Li Eb. apply (H i b); [lia|]. rewrite low in Eb by lia. rewrite low by lia. exact Eb.
      + right. split; [lia|]. split.
        * exists a. rewrite <- Ea. split; [symmetry; apply high; auto; lia|exact La].
        * assert (Kr : r < X) by (apply (H (S n)); [lia|apply at1; reflexivity]).
          intros i b Li Eb. destruct (lt_eq_lt_dec i n) as [[Hi|Hi]|Hi].
          -- apply (H i b Li). rewrite low in Eb by lia. rewrite low by lia. exact Eb.
          -- subst i. rewrite at0 in Eb by reflexivity. injection Eb as <-. exact Kr.
          -- apply (H i b Li). rewrite <- Eb. apply high; auto.
  Qed.

  Lemma beyond_moved X : beyond rc X -> beyond rc' X.
  Proof.
    intros B a K. apply B. apply in_app_iff in K as [K|[<-|K]]; apply in_app_iff; [auto|right; right; left; reflexivity|right; right; exact K].
  Qed.

  Lemma step_curve t X v v' : curve_value t rc pr X v -> curve_value t rc' pr' X v' -> v <= v'.
  Proof.
    assert (L' := len'). unfold curve_value. destruct t.
    - intros H H'. destruct H as [[F E]|[(j & a & b & s & w & F & Ea & Eb & Es & Ew & O)|[B ->]]].
      + assert (K : first_from rc' X 0).
        { destruct (moved X 0 F) as [[_ K]|[(_ & _ & K)|[(K & _)|(K & _)]]]; [exact K|exact K|lia|lia]. }
        destruct H' as [[_ E']|[(j & a & b & s & w & F' & _)|[B _]]];
          [|assert (Q := first_unique _ _ _ _ K F'); discriminate Q|destruct (first_beyond _ _ _ K B)].
        destruct x as [|z l] eqn:Ex.
        * assert (x' = []) as -> by (inversion M; reflexivity). cbn in E, E'. injection E as <-. injection E' as <-. exact Lp.
        * inversion M; subst. cbn in E, E'. injection E as <-. injection E' as <-. assumption.
      + assert (X1 : a < X) by (destruct F as [_ F]; apply (F j); auto).
        assert (X2 : X <= b) by (destruct F as [(b' & Eb' & Lb) _]; rewrite Eb in Eb'; injection Eb' as <-; exact Lb).
        destruct (moved X (S j) F) as [[Lj K]|[(K1 & K2 & _)|[(Ej & XX & K)|[Lj K]]]]; [|lia| |].
        * destruct H' as [[F' _]|[(j' & a' & b' & s' & w' & F' & Ea' & Eb' & Es' & Ew' & O')|[B _]]];
            [assert (Q := first_unique _ _ _ _ K F'); discriminate Q| |destruct (first_beyond _ _ _ K B)].
          assert (Q := first_unique _ _ _ _ K F'). injection Q as <-.
          rewrite low in Ea, Ea', Eb, Eb' by lia. rewrite low in Es by lia. rewrite low in Ew by lia. rewrite low in Es' by lia. rewrite low in Ew' by lia.
          rewrite Ea in Ea'. injection Ea' as <-. rewrite Eb in Eb'. injection Eb' as <-.
          apply (line_le a b X s w s' w' v v'); auto; [eapply ple_nth; eauto|eapply ple_nth; eauto].
        * injection Ej as ->. rewrite at0 in Ea by reflexivity. rewrite at1 in Eb by reflexivity. rewrite at0 in Es by exact L.
          rewrite at1 in Ew by exact L. injection Ea as <-. injection Eb as <-. injection Es as <-. injection Ew as <-.
          destruct H' as [[F' E']|[(j' & a' & b' & s' & w' & F' & Ea' & Eb' & Es' & Ew' & O')|[B _]]]; [| |destruct (first_beyond _ _ _ K B)].
          -- assert (Q := first_unique _ _ _ _ K F'). rewrite Q in L'. destruct x'; [|discriminate L']. cbn in E'. injection E' as <-.
             assert (P0 : on_line (last ra 0) p' r p' X p') by (unfold on_line; lra).
             apply (line_le (last ra 0) r X p q p' p' v p'); auto.
          -- assert (Q := first_unique _ _ _ _ K F').
             assert (Na : ra <> []) by (intros ->; discriminate Q).
             assert (Nx : x' <> []) by (intros ->; cbn in L'; lia).
             assert (Qj : j' = (n - 1)%nat) by lia.
             rewrite <- Q in Eb', Ew'. rewrite at0 in Eb' by reflexivity. rewrite at0 in Ew' by exact L'. injection Eb' as <-. injection Ew' as <-.
             rewrite low in Ea' by lia. rewrite low in Es' by lia. rewrite Qj in Ea', Es'. rewrite (last_nth ra 0 Na) in Ea'. injection Ea' as <-.
             rewrite <- L' in Es'. rewrite (last_nth x' 0 Nx) in Es'. injection Es' as <-.
             apply (line_le (last ra 0) r X p q (last x' 0) p' v v'); auto. apply Z. apply last_some, Nx.
        * destruct H' as [[F' _]|[(j' & a' & b' & s' & w' & F' & Ea' & Eb' & Es' & Ew' & O')|[B _]]];
            [assert (Q := first_unique _ _ _ _ K F'); discriminate Q| |destruct (first_beyond _ _ _ K B)].
          assert (Q := first_unique _ _ _ _ K F'). injection Q as <-.
          rewrite (high ra ra r (last ra 0)) in Ea' by (auto; lia). rewrite (high ra ra r (last ra 0)) in Eb' by (auto; lia).
          rewrite (high x' x p' p) in Es' by (auto; lia). rewrite (high x' x p' p) in Ew' by (auto; lia).
          rewrite Ea in Ea'. injection Ea' as <-. rewrite Eb in Eb'. injection Eb' as <-. rewrite Es in Es'. injection Es' as <-.
          rewrite Ew in Ew'. injection Ew' as <-. apply (line_le a b X s w s w v v'); auto; lra.
      + apply beyond_moved in B. destruct H' as [[F' _]|[(j' & a' & b' & s' & w' & F' & _)|[_ ->]]]; [| |lra];
          destruct (first_beyond _ _ _ F' B).
    - intros [(j & F & E)|[B ->]] [(j' & F' & E')|[B' ->]].
      + destruct (moved X j F) as [[Lj K]|[(Ej & En & K)|[(Ej & XX & K)|[Lj K]]]]; assert (Q := first_unique _ _ _ _ K F'); subst j'.
        * rewrite low in E by lia. rewrite low in E' by lia. eapply ple_nth; eauto.
        * subst j. rewrite at0 in E by exact L. rewrite <- En, at0 in E' by exact L'. injection E as <-. injection E' as <-. exact Lp.
        * subst j. rewrite at1 in E by exact L. rewrite at0 in E' by exact L'. injection E as <-. injection E' as <-. exact Lq.
        * rewrite (high x' x p' p) in E' by (auto; lia). rewrite E in E'. injection E' as <-. lra.
      + exfalso. destruct (moved X j F) as [[Lj K]|[(Ej & En & K)|[(Ej & XX & K)|[Lj K]]]]; exact (first_beyond _ _ _ K B').
      + exfalso. exact (first_beyond _ _ _ F' (beyond_moved X B)).
      + lra.
  Qed.
End Step.

(** ** Rankings *)

Definition raw_curve (es : list match_error) (i t : bool) (dst : list R) : outcome (list R) :=
  let (pr, rc) := precision_recall RArith (map counts_of es) i in sample_curve RArith rc pr dst t.

Lemma curves_le t xs ys xs' ys' dst : (forall X v v', curve_value t xs ys X v -> curve_value t xs' ys' X v' -> v <= v') ->
  forall out out', Forall2 (curve_value t xs ys) dst out -> Forall2 (curve_value t xs' ys') dst out' -> ple out out'.
Proof.
  intros H. induction dst as [|d dst IH]; intros out out' F F'; inversion F; inversion F'; subst; constructor; eauto.
Qed.

Lemma raw_curve_defined es i t dst : nondecreasing dst -> exists out, raw_curve es i t dst = Ok out.
Proof.
  intros N. unfold raw_curve. destruct (precision_recall RArith (map counts_of es) i) as [pr rc] eqn:E.
  destruct (Curves.sample_curve_spec t rc pr dst) as (out & Eo & _); [|exact N|eauto].
  unfold precision_recall in E. injection E as <- <-. destruct i; rewrite ?interp_length, !map_length; reflexivity.
Qed.

Lemma swap_curve u v i t dst : (forall c, In c (u ++ v) -> bounded c) -> nondecreasing dst ->
  exists a b, (let (pr, rc) := precision_recall RArith (u ++ Counts f32_1 f32_0 1 0 :: Counts f32_0 f32_0 1 1 :: v) i in sample_curve RArith rc pr dst t) = Ok a /\
    (let (pr, rc) := precision_recall RArith (u ++ Counts f32_0 f32_0 1 1 :: Counts f32_1 f32_0 1 0 :: v) i in sample_curve RArith rc pr dst t) = Ok b /\ ple a b.
Proof.
  intros Bu Nd. destruct (swap_curves u v Bu) as (x & p & p' & q & y & ra & r & rb & E1 & E2 & E3 & E4 & L & Lp & Lq' & Z & S & Lr).
  assert (Lq := Rlt_le _ _ Lq').
  unfold precision_recall. change (a0 RArith) with 0. rewrite E1, E2, E3, E4.
  assert (Lb : length y = length rb).
  { assert (K : length (x ++ p :: q :: y) = length (ra ++ last ra 0 :: r :: rb)) by (rewrite <- E1, <- E2, !map_length; reflexivity).
    rewrite !app_length in K. cbn in K. change (num RArith) with R in *. lia. }
  change (num RArith) with R in *.
  assert (G : forall X X' P P' Q Y, length X = length ra -> ple X X' -> P <= P' -> Q <= P' -> length Y = length rb ->
    (forall z, last (map Some X') None = Some z -> P <= z) ->
    exists a b, sample_curve RArith (ra ++ last ra 0 :: r :: rb) (X ++ P :: Q :: Y) dst t = Ok a /\
      sample_curve RArith (ra ++ r :: r :: rb) (X' ++ P' :: Q :: Y) dst t = Ok b /\ ple a b).
  { intros X X' P P' Q Y LX MX LP LQ LY ZX. assert (LX' : length X' = length ra) by (rewrite <- LX; symmetry; exact (Curves.Forall2_len _ _ _ MX)).
    destruct (Curves.sample_curve_spec t (ra ++ last ra 0 :: r :: rb) (X ++ P :: Q :: Y) dst) as (a & Ea & Fa); [rewrite !app_length; cbn; lia|exact Nd|].
    destruct (Curves.sample_curve_spec t (ra ++ r :: r :: rb) (X' ++ P' :: Q :: Y) dst) as (b & Eb & Fb); [rewrite !app_length; cbn; lia|exact Nd|].
    exists a, b. split; [exact Ea|]. split; [exact Eb|]. revert Fa Fb. apply curves_le.
    intros D w w'. now apply step_curve. }
  destruct i.
  - destruct (interp_app x (p :: q :: y)) as (X & Ex & Lx). destruct (interp_app x (p' :: q :: y)) as (X' & Ex' & Lx'). change (num RArith) with R in *.
    assert (M : ple (X ++ interp RArith (p :: q :: y)) (X' ++ interp RArith (p' :: q :: y))).
    { rewrite <- Ex, <- Ex'. apply interp_mono. apply Forall2_app; [apply ple_refl|]. constructor; [exact Lp|apply ple_refl]. }
    apply ple_split in M as [M _]; [|change (num RArith) with R in *; congruence].
    rewrite Ex, Ex'.
    assert (exists Q Y, (forall w, interp RArith (w :: q :: y) = Rmax w Q :: Q :: Y) /\ q <= Q /\ length Y = length y) as (Q & Y & EQ & LQ & LY).
    { assert (K := interp_length RArith y). cbn [interp].
      destruct (interp RArith y) as [|q0 t']; eexists _, _; (split; [intros w; rewrite <- max_R; reflexivity|]); split; auto; [lra|rewrite max_R; apply Rmax_l]. }
    assert (Ehd := EQ p'). assert (Ehd0 := EQ p). rewrite Ehd, Ehd0.
    apply G; auto; [congruence|apply Rle_max_compat_r; exact Lp|apply Rmax_r|congruence|].
    intros z Hz. apply Rle_trans with (Rmax p' Q); [apply Rle_max_compat_r; exact Lp|].
    assert (So := interp_sorted RArith (fun _ => True) (fun x => x) R_lt_v (x ++ p' :: q :: y) (all_true _)).
    rewrite Ex' in So. apply sorted_app_inv in So as (_ & _ & So). apply (So z (Rmax p' Q)).
    + clear - Hz. destruct X' as [|w X'] using rev_ind; [discriminate|]. rewrite map_app in Hz. cbn [map] in Hz. rewrite last_last in Hz. injection Hz as ->. apply in_elt.
    + rewrite Ehd. left. reflexivity.
  - apply G; auto using ple_refl.
Qed.

Lemma ple_trans a b c : ple a b -> ple b c -> ple a c.
Proof. intros H. revert c. induction H; intros c K; inversion K; subst; constructor; [lra|auto]. Qed.

Lemma better_curve es es' i t dst : nondecreasing dst -> better es es' -> (forall e, In e es -> zero_one e) ->
  exists a b, raw_curve es i t dst = Ok a /\ raw_curve es' i t dst = Ok b /\ ple a b.
Proof.
  intros Nd. induction 1 as [l|u v|l1 l2 l3 H1 IH1 _ IH2]; intros Z.
  - destruct (raw_curve_defined l i t dst Nd) as [a E]. exists a, a. split; [exact E|]. split; [exact E|apply ple_refl].
  - unfold raw_curve. rewrite !map_app. cbn [map]. apply swap_curve; [|exact Nd]. rewrite <- map_app. apply raw_bounded.
    intros e K. apply Z. apply in_app_iff in K as [K|K]; apply in_app_iff; [auto|right; right; right; exact K].
  - destruct (IH1 Z) as (a & b & Ea & Eb & L1). destruct IH2 as (b' & c & Eb' & Ec & L2).
    { intros e K. apply Z. apply (Permutation.Permutation_in e (Permutation.Permutation_sym (better_perm _ _ H1)) K). }
    rewrite Eb in Eb'. injection Eb' as <-. exists a, c. split; [exact Ea|]. split; [exact Ec|]. eapply ple_trans; eauto.
Qed.

Lemma raw_curve_ok {RE HE} (score : HE -> f32) (l : list (match_t RE HE)) i t dst :
  (let (pr, rc) := precision_recall_matches RArith score l false i in sample_curve RArith rc pr dst t) = raw_curve (map m_err l) i t dst.
Proof. unfold precision_recall_matches, raw_curve. rewrite AveragePrecision.raw_points, map_map. reflexivity. Qed.
