(** Proofs about runs that differ in their settings. *)
From Coq Require Import String List Bool ZArith Sorted Reals Lra Lia Permutation.
From Flocq Require Import Core BinarySingleNaN.
From Verif.Model Require Import Cpp Floats Box Events EventSets Matches Matcher Scorers Assessment Bootstrap Mapper Stream Reader Options Tool.
From Verif.Spec Require Import Order Objects Sets Matching Scorers Grouping Collapse Metrics Reader Options Tool Parts Found Settings.
From Verif.Proofs Require Import FloatFacts Metrics Curves Collapse AveragePrecision Better Hoist Queries Insert Unfound Found.
From Verif.Proofs Require Ndcg Gain Matching Grouping Evaluation Runs Ties Parts Raised Renumber Lifted Order Rescore Instances Results Mapper Sets Errors Geometry Ids Tool Scorers Added.
Import ListNotations.
Local Open Scope string_scope.
Local Open Scope list_scope.
Local Open Scope R_scope.

(** ** Interpolation and trapezoids *)

Lemma curve_sorted cs : (forall c, In c cs -> bounded c) -> StronglySorted Rle (0 :: map snd (curve cs)).
Proof.
  intros B. destruct (curve_spec cs) as (pr & rc & E & C). unfold precision_recall in E. injection E as E1 E2.
  destruct (curve_bounds cs pr rc B C) as (_ & R1 & R2).
  refine (eq_ind rc (fun x => StronglySorted Rle (0 :: x)) _ _ (eq_sym E2)).
  constructor; [exact R2|]. apply Forall_forall. intros x I. apply (R1 x I).
Qed.

Lemma interp_ge l : ple l (interp RArith l).
Proof.
  induction l as [|p l IH]; [constructor|]. destruct l as [|q l]; [constructor; [right; reflexivity|constructor]|].
  rewrite interp_cons by discriminate. constructor; [apply Rmax_l|exact IH].
Qed.

(** Interpolation does not lower AP. *)
Lemma value_interp t cs : (forall c, In c cs -> bounded c) -> value false t cs <= value true t cs.
Proof. intros B. unfold value. apply area_mono; [exact Logic.I|apply interp_ge|now apply curve_sorted]. Qed.

Lemma area_trap p : forall prev s rc, (forall z, prev = Some z -> Forall (fun x => x <= z) p) -> StronglySorted (fun a b => b <= a) p ->
  StronglySorted Rle (s :: rc) -> area_rec false prev s p rc <= area_rec true prev s p rc.
Proof.
  induction p as [|x p IH]; intros prev s rc Hp Sp Sr; [cbn; lra|]. destruct rc as [|r rc]; [cbn; lra|]. cbn [area_rec].
  inversion Sr as [|? ? S' Fs]; subst. inversion Fs; subst. inversion Sp as [|? ? Sp' Fp]; subst.
  assert (K := IH (Some x) r rc (fun z E => match E in _ = y return match y with Some v => Forall (fun a => a <= v) p | None => True end with eq_refl => Fp end) Sp' S').
  assert (H : height RArith false prev x * (r - s) <= height RArith true prev x * (r - s)).
  { apply Rmult_le_compat_r; [lra|]. rewrite !height_R. destruct prev as [z|]; [|lra]. specialize (Hp z eq_refl). inversion Hp; subst. lra. }
  lra.
Qed.

(** With interpolation, trapezoids do not lower AP. *)
Lemma value_trap cs : (forall c, In c cs -> bounded c) -> value true false cs <= value true true cs.
Proof.
  intros B. unfold value. apply area_trap; [discriminate| |now apply curve_sorted]. cbn [inter].
  exact (interp_sorted RArith (fun _ => True) (fun x : R => x) R_lt_v _ (all_true _)).
Qed.

(** ** Leaving out points *)

Notation P2 := (R * R)%type.

(** The largest precision from here on. *)
Definition best (l : list P2) : R := hd 0 (interp RArith (map fst l)).

Fixpoint rect (s : R) (l : list P2) : R :=
  match l with [] => 0 | x :: t => best l * (snd x - s) + rect (snd x) t end.

Lemma rect_ok l : forall prev s, area_rec false prev s (interp RArith (map fst l)) (map snd l) = rect s l.
Proof.
  induction l as [|[p r] l IH]; intros prev s; [reflexivity|]. cbn [rect map fst snd]. unfold best. cbn [map fst].
  destruct l as [|y l].
  - cbn [map interp area_rec rect hd]. rewrite height_R. destruct prev; reflexivity.
  - assert (E := interp_cons p (map fst (y :: l)) ltac:(discriminate)).
    refine (eq_trans (f_equal (fun u => area_rec false prev s u (r :: map snd (y :: l))) E) _).
    cbn [area_rec]. rewrite IH, height_R. refine (f_equal (fun u => u * (r - s) + rect r (y :: l)) _).
    refine (eq_trans _ (eq_sym (f_equal (hd 0) E))). destruct prev; reflexivity.
Qed.

Lemma value_rect cs : value true false cs = rect 0 (curve cs).
Proof. unfold value. cbn [inter]. apply rect_ok. Qed.

Lemma best_cons x y l : best (x :: y :: l) = Rmax (fst x) (best (y :: l)).
Proof. unfold best. cbn [map]. rewrite interp_cons by discriminate. reflexivity. Qed.

Lemma best_one x : best [x] = fst x.
Proof. reflexivity. Qed.

Lemma rect_start s s' y l : rect s (y :: l) = rect s' (y :: l) + best (y :: l) * (s' - s).
Proof. cbn [rect]. ring. Qed.

(** The second list comes from the first by leaving out points other than the
    last. *)
Inductive thin : list P2 -> list P2 -> Prop :=
| thin_nil : thin [] []
| thin_keep x l l' : thin l l' -> thin (x :: l) (x :: l')
| thin_drop x y l l' : thin (y :: l) l' -> thin (x :: y :: l) l'.

Lemma thin_le l l' : thin l l' -> (l = [] <-> l' = []) /\ (l <> [] -> best l' <= best l) /\
  forall s, StronglySorted Rle (s :: map snd l) -> rect s l' <= rect s l.
Proof.
  induction 1 as [|x l l' T (N & B & H)|x y l l' T (N & B & H)].
  - split; [tauto|]. split; [congruence|]. intros. cbn. lra.
  - assert (Bx : best (x :: l') <= best (x :: l)).
    { destruct l as [|y l], l' as [|y' l']; try (exfalso; intuition congruence); [lra|]. rewrite !best_cons.
      assert (K := B ltac:(discriminate)). apply Rle_max_compat_l, K. }
    split; [split; discriminate|]. split; [auto|]. intros s Sr. cbn [map] in Sr. inversion Sr as [|? ? S' Fs]; subst. inversion Fs; subst.
    cbn [rect]. specialize (H _ S'). assert (best (x :: l') * (snd x - s) <= best (x :: l) * (snd x - s)) by (apply Rmult_le_compat_r; lra). lra.
  - assert (Bx : best (y :: l) <= best (x :: y :: l)) by (rewrite best_cons; apply Rmax_r).
    assert (K := B ltac:(discriminate)).
    split; [split; [discriminate|intros E; apply N in E; discriminate]|]. split; [intros _; lra|].
    intros s Sr. cbn [map] in Sr. inversion Sr as [|? ? S' Fs]; subst. inversion Fs as [|? ? Lx Fs']; subst.
    assert (Sy : StronglySorted Rle (s :: map snd (y :: l))) by (cbn [map]; constructor; [inversion S'; auto|exact Fs']).
    apply (Rle_trans _ _ _ (H s Sy)). rewrite (rect_start s (snd x) y l). change (rect s (x :: y :: l)) with (best (x :: y :: l) * (snd x - s) + rect (snd x) (y :: l)).
    assert (best (y :: l) * (snd x - s) <= best (x :: y :: l) * (snd x - s)) by (apply Rmult_le_compat_r; lra). lra.
Qed.

(** Points that do not count: a later one has as much precision, or they find
    nothing and an earlier one has as much precision. *)
Inductive idle : option R -> R -> list P2 -> list P2 -> Prop :=
| idle_nil q s : idle q s [] []
| idle_keep q s x l l' : idle (Some (fst x)) (snd x) l l' -> idle q s (x :: l) (x :: l')
| idle_later q s x y l l' : fst x <= fst y -> idle q s (y :: l) l' -> idle q s (x :: y :: l) l'
| idle_earlier q s x y l l' : snd x = s -> (forall z, q = Some z -> fst x <= z) -> idle q s (y :: l) l' -> idle q s (x :: y :: l) l'.

Lemma best_ge x l : fst x <= best (x :: l).
Proof. destruct l as [|y l]; [rewrite best_one; lra|rewrite best_cons; apply Rmax_l]. Qed.

Lemma idle_eq q s l l' : idle q s l l' -> (l = [] <-> l' = []) /\ rect s l = rect s l' /\
  (l <> [] -> forall z, q = Some z -> Rmax z (best l) = Rmax z (best l')).
Proof.
  induction 1 as [q s|q s x l l' T (N & H & B)|q s x y l l' Lx T (N & H & B)|q s x y l l' Ex Lx T (N & H & B)].
  - split; [tauto|]. split; [reflexivity|congruence].
  - assert (Bx : best (x :: l) = best (x :: l')).
    { destruct l as [|y l], l' as [|y' l']; try (exfalso; intuition congruence); [reflexivity|]. rewrite !best_cons.
      apply B; [discriminate|reflexivity]. }
    split; [split; discriminate|]. split; [cbn [rect]; now rewrite Bx, H|]. intros _ z _. now rewrite Bx.
  - assert (Bx : best (x :: y :: l) = best (y :: l)).
    { rewrite best_cons. apply Rmax_right. apply (Rle_trans _ _ _ Lx), best_ge. }
    split; [split; [discriminate|intros E; apply N in E; discriminate]|]. split.
    + rewrite <- H, (rect_start s (snd x) y l). change (rect s (x :: y :: l)) with (best (x :: y :: l) * (snd x - s) + rect (snd x) (y :: l)). rewrite Bx. ring.
    + intros _ z Eq. rewrite Bx. apply B; [discriminate|exact Eq].
  - split; [split; [discriminate|intros E; apply N in E; discriminate]|]. split.
    + rewrite <- H, <- Ex. change (rect (snd x) (x :: y :: l)) with (best (x :: y :: l) * (snd x - snd x) + rect (snd x) (y :: l)). ring.
    + intros _ z Eq. rewrite <- (B ltac:(discriminate) z Eq), best_cons, Rmax_assoc. f_equal. apply Rmax_left. exact (Lx z Eq).
Qed.

(** ** Runs of equal scores *)

Lemma ok_inj {X} (a b : X) : Ok a = Ok b -> a = b.
Proof. intros E. now injection E. Qed.

Section Lists.
  Context {RE HE : Type} (score : HE -> f32).
  Notation M := (match_t RE HE).
  Notation cnt := (fun m : M => counts_of (m_err m)).

  Lemma run_sums (r : list M) c : counted_as r c -> summed_as r c ->
    ec_nr c = references (map cnt r) /\ ec_nh c = hypotheses (map cnt r) /\ B2R (ec_fp c) = false_positives (map cnt r) /\ B2R (ec_fn c) = misses (map cnt r).
  Proof.
    intros [C1 C2] [S1 S2]. rewrite C1, C2, S1, S2. unfold references, hypotheses, false_positives, misses, total. rewrite !map_map, !sum_of_map.
    repeat split.
  Qed.

  Lemma thin_run n (r : list M) : r <> [] -> forall nr nh fp fn rest l',
    thin (pr_loop RArith n (nr + references (map cnt r)) (nh + hypotheses (map cnt r)) (fp + false_positives (map cnt r)) (fn + misses (map cnt r)) rest) l' ->
    thin (pr_loop RArith n nr nh fp fn (map cnt r ++ rest))
      ((precision_of RArith (nh + hypotheses (map cnt r)) (fp + false_positives (map cnt r)), recall_of RArith n (nr + references (map cnt r)) (fn + misses (map cnt r))) :: l').
  Proof.
    induction r as [|m r IH]; intros N nr nh fp fn rest l' T; [congruence|]. clear N.
    assert (E : references (map cnt (m :: r)) = (ec_nr (cnt m) + references (map cnt r))%nat /\ hypotheses (map cnt (m :: r)) = (ec_nh (cnt m) + hypotheses (map cnt r))%nat /\
      false_positives (map cnt (m :: r)) = B2R (ec_fp (cnt m)) + false_positives (map cnt r) /\ misses (map cnt (m :: r)) = B2R (ec_fn (cnt m)) + misses (map cnt r)) by (repeat split).
    destruct E as (E1 & E2 & E3 & E4). rewrite E1, E2, E3, E4, ?Nat.add_assoc, <- ?Rplus_assoc in *. cbn [map app pr_loop].
    change (a_add RArith) with Rplus. change (a_f32 RArith) with (fun x : f32 => B2R x). cbv beta.
    destruct r as [|m' r].
    - change (references (map cnt [])) with 0%nat in *. change (hypotheses (map cnt [])) with 0%nat in *. change (false_positives (map cnt [])) with 0 in *. change (misses (map cnt [])) with 0 in *.
      rewrite ?Nat.add_0_r, ?Rplus_0_r in *. cbn [map app]. now apply thin_keep.
    - cbn [map app pr_loop]. apply thin_drop. exact (IH ltac:(discriminate) _ _ _ _ _ _ T).
  Qed.

  Lemma thin_runs n rs cs : Forall2 counted_as rs cs -> Forall2 summed_as rs cs -> (forall r, In r rs -> r <> []) ->
    forall nr nh fp fn, thin (pr_loop RArith n nr nh fp fn (map cnt (concat rs))) (pr_loop RArith n nr nh fp fn cs).
  Proof.
    intros F1. induction F1 as [|r c rs cs C F1 IH]; intros F2 N nr nh fp fn; [constructor|]. inversion F2 as [|? ? ? ? S F2']; subst.
    destruct (run_sums r c C S) as (E1 & E2 & E3 & E4). cbn [concat]. rewrite map_app. cbn [pr_loop].
    change (a_add RArith) with Rplus. change (a_f32 RArith) with (fun x : f32 => B2R x). cbv beta. rewrite E1, E2, E3, E4.
    apply thin_run; [apply N; now left|]. apply IH; auto. intros x I. apply N. now right.
  Qed.

  (** Collapsing leaves out points. *)
  Lemma collapse_thin (l : list M) : (forall m, In m l -> zero_one (m_err m)) -> ranked score l -> (Z.of_nat (List.length l) <= 2 ^ 24)%Z ->
    thin (curve (points score false l)) (curve (points score true l)).
  Proof.
    intros Z Rk L. destruct (Evaluation.points_spec score true l Z (fun _ => conj Rk L)) as (rs & A & F1 & F2).
    unfold curve. rewrite !total_refs, !(Gain.points_refs score), AveragePrecision.raw_points. rewrite <- (ar_all _ _ _ A) at 2.
    apply thin_runs; auto. exact (ar_nonempty _ _ _ A).
  Qed.

  Lemma collapse_le (l : list M) : (forall m, In m l -> zero_one (m_err m)) -> ranked score l -> (Z.of_nat (List.length l) <= 2 ^ 24)%Z ->
    value true false (points score true l) <= value true false (points score false l).
  Proof.
    intros Z Rk L. rewrite !value_rect. apply (thin_le _ _ (collapse_thin l Z Rk L)). apply curve_sorted.
    destruct (points_stand score false l Z) as (rs & _ & _ & _ & B); [discriminate|exact B].
  Qed.

  Lemma cnt_kinds (m : M) : zero_one (m_err m) -> INR (ec_nr (cnt m)) - B2R (ec_fn (cnt m)) = (if is_hitb m then 1 else 0) /\
    B2R (ec_fp (cnt m)) = (if is_fpb m then 1 else 0) /\ INR (ec_nh (cnt m)) = (if is_hitb m then 1 else 0) + (if is_fpb m then 1 else 0).
  Proof. intros Z. destruct (kinds m Z) as (A & B & C & _). auto. Qed.

  Lemma precision_more k j x : (k <= j)%nat -> 0 <= x <= INR k -> precision_of RArith k x <= precision_of RArith j x.
  Proof.
    intros L B. destruct (precision_one k x B) as [P1 _]. destruct (Nat.eq_dec k 0) as [->|N].
    - cbn [INR] in B. assert (x = 0) by lra. subst x. destruct (precision_one j 0) as (_ & _ & E); [split; [lra|apply pos_INR]|].
      rewrite (proj2 E eq_refl). exact P1.
    - rewrite !precision_R by lia. assert (K : 0 < INR k) by (apply lt_0_INR; lia). assert (K' := le_INR _ _ L).
      enough (x / INR j <= x / INR k) by lra. apply div_le; nra.
  Qed.

  Lemma precision_less k f m : zero_one (m_err m) -> is_hitb m = false -> 0 <= f <= INR k ->
    precision_of RArith (k + ec_nh (cnt m)) (f + B2R (ec_fp (cnt m))) <= precision_of RArith k f.
  Proof.
    intros Z Hm B. destruct (cnt_kinds m Z) as (_ & K2 & K3). rewrite Hm in K3. destruct (is_fpb m).
    - assert (E : ec_nh (cnt m) = 1%nat) by (apply INR_eq; cbn [INR]; lra). rewrite E, K2, Nat.add_comm. now apply precision_alarm.
    - assert (E : ec_nh (cnt m) = 0%nat) by (apply INR_eq; cbn [INR]; lra). rewrite E, K2, Nat.add_0_r, Rplus_0_r. lra.
  Qed.

  Notation last_point n nr nh fp fn r := (precision_of RArith (nh + hypotheses (map cnt r)) (fp + false_positives (map cnt r)),
    recall_of RArith n (nr + references (map cnt r)) (fn + misses (map cnt r))).
  Notation after n nr nh fp fn r rest := (pr_loop RArith n (nr + references (map cnt r)) (nh + hypotheses (map cnt r)) (fp + false_positives (map cnt r)) (fn + misses (map cnt r)) rest).

  Lemma map_sums (m : M) r : references (map cnt (m :: r)) = (ec_nr (cnt m) + references (map cnt r))%nat /\ hypotheses (map cnt (m :: r)) = (ec_nh (cnt m) + hypotheses (map cnt r))%nat /\
    false_positives (map cnt (m :: r)) = B2R (ec_fp (cnt m)) + false_positives (map cnt r) /\ misses (map cnt (m :: r)) = B2R (ec_fn (cnt m)) + misses (map cnt r).
  Proof. repeat split. Qed.

  (** A run of hits and misses. *)
  Lemma idle_hits n (r : list M) : r <> [] -> (forall m, In m r -> zero_one (m_err m) /\ is_fpb m = false) -> forall nr nh fp fn q s rest l', 0 <= fp <= INR nh ->
    idle (Some (fst (last_point n nr nh fp fn r))) (snd (last_point n nr nh fp fn r)) (after n nr nh fp fn r rest) l' ->
    idle q s (pr_loop RArith n nr nh fp fn (map cnt r ++ rest)) (last_point n nr nh fp fn r :: l').
  Proof.
    induction r as [|m r IH]; intros N Hr nr nh fp fn q s rest l' B T; [congruence|]. clear N.
    destruct (map_sums m r) as (E1 & E2 & E3 & E4). rewrite E1, E2, E3, E4, ?Nat.add_assoc, <- ?Rplus_assoc in *. cbn [map app pr_loop].
    change (a_add RArith) with Rplus. change (a_f32 RArith) with (fun x : f32 => B2R x). cbv beta. clear E1 E2 E3 E4.
    destruct (Hr m (or_introl eq_refl)) as [Z Fm]. destruct (cnt_kinds m Z) as (_ & K2 & K3). rewrite Fm in K2.
    destruct r as [|m' r].
    - change (references (map cnt [])) with 0%nat in *. change (hypotheses (map cnt [])) with 0%nat in *. change (false_positives (map cnt [])) with 0 in *. change (misses (map cnt [])) with 0 in *.
      rewrite ?Nat.add_0_r, ?Rplus_0_r in *. cbn [map app]. now apply idle_keep.
    - assert (B' : 0 <= fp + B2R (ec_fp (cnt m)) <= INR (nh + ec_nh (cnt m))) by (rewrite K2, plus_INR; assert (P := pos_INR (ec_nh (cnt m))); lra).
      assert (I := IH ltac:(discriminate) (fun x J => Hr x (or_intror J)) _ _ _ _ q s _ _ B' T).
      cbn [map app pr_loop] in *. apply idle_later; [|exact I]. cbn [fst]. change (a_add RArith) with Rplus. change (a_f32 RArith) with (fun x : f32 => B2R x). cbv beta.
      destruct (Hr m' (or_intror (or_introl eq_refl))) as [Z' Fm']. destruct (cnt_kinds m' Z') as (_ & K2' & K3'). rewrite Fm' in K2'. rewrite K2', Rplus_0_r.
      apply precision_more; [lia|exact B'].
  Qed.

  (** A run in which no false positive comes after a hit. *)
  Lemma idle_run n (r : list M) : (0 < n)%nat -> r <> [] -> (forall m, In m r -> zero_one (m_err m)) ->
    (forall u a v b w, r = u ++ a :: v ++ b :: w -> is_hitb a = true -> is_fpb b = false) ->
    forall nr nh fp fn q rest l', 0 <= fp <= INR nh -> (forall z, q = Some z -> precision_of RArith nh fp <= z) ->
    idle (Some (fst (last_point n nr nh fp fn r))) (snd (last_point n nr nh fp fn r)) (after n nr nh fp fn r rest) l' ->
    idle q (recall_of RArith n nr fn) (pr_loop RArith n nr nh fp fn (map cnt r ++ rest)) (last_point n nr nh fp fn r :: l').
  Proof.
    intros Pn. induction r as [|m r IH]; intros N Z La nr nh fp fn q rest l' B Lq T; [congruence|]. clear N.
    destruct (is_hitb m) eqn:Hm.
    { apply idle_hits; auto; [discriminate|]. intros x I. split; [now apply Z|]. destruct I as [<-|I].
      - destruct (cnt_kinds m (Z m (or_introl eq_refl))) as (_ & _ & K). rewrite Hm in K. destruct (is_fpb m); [|reflexivity].
        exfalso. assert (K1 := le_INR _ _ (Objects.nh_le_1 (m_err m))). cbn [counts_of ec_nh] in K. cbn [INR] in K1. lra.
      - apply in_split in I as (v & w & ->). apply (La [] m v x w); auto. }
    destruct (map_sums m r) as (E1 & E2 & E3 & E4). rewrite E1, E2, E3, E4, ?Nat.add_assoc, <- ?Rplus_assoc in *. cbn [map app pr_loop].
    change (a_add RArith) with Rplus. change (a_f32 RArith) with (fun x : f32 => B2R x). cbv beta. clear E1 E2 E3 E4.
    assert (Zm := Z m (or_introl eq_refl)). destruct (cnt_kinds m Zm) as (K1 & K2 & K3). rewrite Hm in K1, K3.
    destruct r as [|m' r].
    - change (references (map cnt [])) with 0%nat in *. change (hypotheses (map cnt [])) with 0%nat in *. change (false_positives (map cnt [])) with 0 in *. change (misses (map cnt [])) with 0 in *.
      rewrite ?Nat.add_0_r, ?Rplus_0_r in *. cbn [map app]. now apply idle_keep.
    - assert (B' : 0 <= fp + B2R (ec_fp (cnt m)) <= INR (nh + ec_nh (cnt m))) by (rewrite plus_INR; destruct (is_fpb m); lra).
      assert (Lp := precision_less nh fp m Zm Hm B).
      assert (Er : recall_of RArith n (nr + ec_nr (cnt m)) (fn + B2R (ec_fn (cnt m))) = recall_of RArith n nr fn).
      { rewrite !recall_R by exact Pn. f_equal. rewrite plus_INR. lra. }
      assert (I := IH ltac:(discriminate) (fun x J => Z x (or_intror J)) (fun u a v b w E => La (m :: u) a v b w (f_equal (cons m) E)) _ _ _ _ q _ _ B'
        (fun z Ez => Rle_trans _ _ _ Lp (Lq z Ez)) T).
      cbn [map app pr_loop] in *. apply idle_earlier; [exact Er| |rewrite Er in I; exact I]. cbn [fst]. intros z Ez. exact (Rle_trans _ _ _ Lp (Lq z Ez)).
  Qed.

  Lemma fp_nh (r : list M) : (forall m, In m r -> zero_one (m_err m)) -> 0 <= false_positives (map cnt r) <= INR (hypotheses (map cnt r)).
  Proof.
    induction r as [|m r IH]; intros Z; [unfold false_positives, hypotheses, total; cbn; lra|]. destruct (map_sums m r) as (_ & -> & -> & _).
    specialize (IH (fun x I => Z x (or_intror I))). destruct (cnt_kinds m (Z m (or_introl eq_refl))) as (_ & K2 & K3). rewrite plus_INR, K2, K3.
    destruct (is_hitb m), (is_fpb m); lra.
  Qed.

  Lemma idle_runs n rs cs : (0 < n)%nat -> Forall2 counted_as rs cs -> Forall2 summed_as rs cs -> (forall r, In r rs -> r <> []) ->
    (forall r m, In r rs -> In m r -> zero_one (m_err m)) ->
    (forall r u a v b w, In r rs -> r = u ++ a :: v ++ b :: w -> is_hitb a = true -> is_fpb b = false) ->
    forall nr nh fp fn q, 0 <= fp <= INR nh -> (forall z, q = Some z -> precision_of RArith nh fp <= z) ->
    idle q (recall_of RArith n nr fn) (pr_loop RArith n nr nh fp fn (map cnt (concat rs))) (pr_loop RArith n nr nh fp fn cs).
  Proof.
    intros Pn F1. induction F1 as [|r c rs cs C F1 IH]; intros F2 N Z La nr nh fp fn q B Lq; [constructor|]. inversion F2 as [|? ? ? ? S F2']; subst.
    destruct (run_sums r c C S) as (E1 & E2 & E3 & E4). cbn [concat]. rewrite map_app. cbn [pr_loop].
    change (a_add RArith) with Rplus. change (a_f32 RArith) with (fun x : f32 => B2R x). cbv beta. rewrite E1, E2, E3, E4.
    apply idle_run; auto; [apply N; now left|intros m I; apply (Z r m); [now left|exact I]|intros u a v b w; apply (La r u a v b w); now left|].
    cbn [fst snd]. apply IH; auto.
    - intros x I. apply N. now right.
    - intros x m I. apply (Z x m). now right.
    - intros x u a v b w I. apply (La x u a v b w). now right.
    - assert (K := fp_nh r (fun m I => Z r m (or_introl eq_refl) I)). rewrite plus_INR. lra.
    - intros z Ez. injection Ez as <-. lra.
  Qed.

  Lemma late_runs (l : list M) rs : are_runs score l rs -> (forall m, In m l -> zero_one (m_err m)) -> hits_late score l ->
    forall r u a v b w, In r rs -> r = u ++ a :: v ++ b :: w -> is_hitb a = true -> is_fpb b = false.
  Proof.
    intros [A1 A2 A3 A4] Z La r u a v b w I E Ha. apply in_split in I as (x & y & Ex).
    assert (Ia : In a r) by (subst r; apply in_elt). assert (Ib : In b r) by (subst r; apply in_or_app; right; right; apply in_elt).
    assert (Ir : In r rs) by (subst rs; apply in_elt).
    assert (El : l = (concat x ++ u) ++ a :: v ++ b :: (w ++ concat y)).
    { rewrite <- A1, Ex, concat_app. cbn [concat]. rewrite E, <- !app_assoc. cbn [app]. rewrite <- app_assoc. reflexivity. }
    assert (Ja : In a l) by (rewrite El; apply in_elt). assert (Jb : In b l) by (rewrite El; apply in_or_app; right; right; apply in_elt).
    destruct (is_fpb b) eqn:Fb; [|reflexivity]. exfalso.
    apply (La _ _ _ _ _ El (A3 r a b Ir Ia Ib)); [now apply (kinds a (Z a Ja))|now apply (kinds b (Z b Jb))].
  Qed.

  (** With interpolation and without trapezoids, collapsing counts the false
      positives among equal scores first. *)
  Lemma collapse_late (l : list M) : (forall m, In m l -> zero_one (m_err m)) -> ranked score l -> (Z.of_nat (List.length l) <= 2 ^ 24)%Z ->
    hits_late score l -> value true false (points score true l) = value true false (points score false l).
  Proof.
    intros Z Rk L La. destruct (Nat.eq_dec (refs l) 0) as [R0|Rn].
    { assert (E1 := no_refs score l true true false Z R0 (fun _ => conj Rk L)). assert (E2 := no_refs score l false true false Z R0 ltac:(discriminate)).
      assert (V1 := value_ok true false (points score true l)). assert (V2 := value_ok true false (points score false l)).
      exact (eq_trans (ok_inj _ _ (eq_trans (eq_sym V1) E1)) (eq_sym (ok_inj _ _ (eq_trans (eq_sym V2) E2)))). }
    rewrite !value_rect. destruct (Evaluation.points_spec score true l Z (fun _ => conj Rk L)) as (rs & A & F1 & F2).
    unfold curve. rewrite !total_refs, !(Gain.points_refs score), AveragePrecision.raw_points. 
    assert (K := idle_runs (refs l) rs _ ltac:(lia) F1 F2 (ar_nonempty _ _ _ A)
      (fun r m I J => Z m (eq_ind _ (fun x => In m x) (proj2 (in_concat rs m) (ex_intro _ r (conj I J))) _ (ar_all _ _ _ A)))
      (late_runs l rs A Z La) 0 0 0 0 None ltac:(cbn [INR]; lra) ltac:(discriminate)).
    rewrite (ar_all _ _ _ A) in K. rewrite (recall_R (refs l) 0 0) in K by lia. replace ((INR 0 - 0) / INR (refs l)) with 0 in K by (cbn [INR]; field; apply not_0_INR; lia).
    symmetry. exact (proj1 (proj2 (idle_eq _ _ _ _ K))).
  Qed.
End Lists.

(** ** Orders among equal scores *)

Section Arranged.
  Context {RE HE : Type} (score : HE -> f32).
  Notation M := (match_t RE HE).
  Notation key m := (emb (rank score m)).

  Definition ahead (a b : M) : bool := f32_lt (rank score b) (rank score a) || (f32_eq (rank score a) (rank score b) && (negb (is_hitb a) && is_hitb b)).

  Lemma ahead_iff a b : is_nan (rank score a) = false -> is_nan (rank score b) = false ->
    ahead a b = true <-> key b < key a \/ (key a = key b /\ is_hitb a = false /\ is_hitb b = true).
  Proof.
    intros Na Nb. unfold ahead. rewrite orb_true_iff, !andb_true_iff, negb_true_iff, (emb_lt _ _ Nb Na), (emb_eq _ _ Na Nb). tauto.
  Qed.

  Lemma ahead_false a b : is_nan (rank score a) = false -> is_nan (rank score b) = false ->
    ahead a b = false <-> key a < key b \/ (key a = key b /\ (is_hitb a = true \/ is_hitb b = false)).
  Proof.
    intros Na Nb. rewrite <- not_true_iff_false, ahead_iff by assumption. destruct (is_hitb a), (is_hitb b); split; intros H; try tauto;
      try (destruct H as [H|H]; [lra|destruct H; lra]).
    all: destruct (Rtotal_order (key a) (key b)) as [K|[K|K]]; auto; try (exfalso; apply H; auto; fail).
    all: intros [F|(F & F1 & F2)]; try discriminate; try lra; destruct H as [H|[H [H1|H1]]]; try discriminate; lra.
  Qed.

  Lemma late_exists (l : list M) : ranked score l -> (forall m, In m l -> zero_one (m_err m)) ->
    exists l', Permutation l l' /\ descending score l' /\ hits_late score l'.
  Proof.
    intros Rk Z. destruct (Order.isort_contract M ahead l) as [P S].
    { split; intros x; intros.
      - apply ahead_false; auto. right. split; [reflexivity|]. destruct (is_hitb x); auto.
      - apply ahead_iff; auto. apply ahead_iff in H2; auto. apply ahead_iff in H3; auto. destruct H2 as [|(? & ? & ?)], H3 as [|(? & ? & ?)]; try (left; lra). congruence.
      - rename H2 into A1, H3 into A2, H4 into B1, H5 into B2. apply ahead_false in A1, A2, B1, B2; auto.
        split; apply ahead_false; auto; destruct A1 as [|[? A1]], A2 as [|[? A2]], B1 as [|[? B1]], B2 as [|[? B2]]; try lra; right; (split; [lra|]);
          destruct (is_hitb x), (is_hitb y), (is_hitb z); auto; intuition congruence. }
    exists (isort M ahead l). split; [exact P|]. assert (Rk' : ranked score (isort M ahead l)) by (intros m I; apply Rk, (Permutation_in _ (Permutation_sym P)), I).
    split.
    - revert S Rk'. generalize (isort M ahead l). clear. induction l as [|m l IH]; intros S Rk; [constructor|]. inversion S; subst. constructor; [apply IH; auto; intros x I; apply Rk; now right|].
      rewrite Forall_forall in *. intros x I. assert (K := H2 x I). apply ahead_false in K; [|apply Rk; now right|apply Rk; now left]. apply emb_ge; [apply Rk; now left|apply Rk; now right|lra].
    - intros u a v b w E T Ha Hb. assert (Ia : In a (isort M ahead l)) by (rewrite E; apply in_elt). assert (Ib : In b (isort M ahead l)) by (rewrite E; apply in_or_app; right; right; apply in_elt).
      assert (Za := Z a (Permutation_in _ (Permutation_sym P) Ia)). assert (Zb := Z b (Permutation_in _ (Permutation_sym P) Ib)).
      assert (S' : ahead b a = false).
      { rewrite E in S. apply Ties.sorted_app_inv in S as (_ & S & _). inversion S; subst. rewrite Forall_forall in H2. apply H2. apply in_elt. }
      apply ahead_false in S'; auto. unfold tie in T. apply emb_eq in T; auto.
      assert (Ka := proj2 (proj1 (proj2 (proj2 (proj2 (kinds a Za))))) Ha). 
      assert (Hb' : is_hitb b = false).
      { destruct (is_hitb b) eqn:Eb; [|reflexivity]. exfalso. apply (kinds b Zb) in Eb. destruct Eb as [Eb _]. unfold is_fp in Hb. rewrite Eb in Hb. assert (K := f32_10). rewrite <- Hb in K. discriminate. }
      destruct S' as [S'|[_ [S'|S']]]; [lra|congruence|congruence].
  Qed.
End Arranged.

(** ** NDCG *)

Section Early.
  Context {RE HE : Type} (score : HE -> f32).
  Notation M := (match_t RE HE).
  Notation cnt := (fun m : M => counts_of (m_err m)).

  Lemma run_gains (r : list M) c : (forall m, In m r -> zero_one (m_err m)) -> counted_as r c -> summed_as r c -> bounded c -> (Z.of_nat (List.length r) <= 2 ^ 19)%Z ->
    (0 < ec_nh c)%nat -> in01 (Ndcg.gain2 c) /\ INR (ec_nh c) * Ndcg.gain2 c <= INR (hits r).
  Proof.
    intros Zr C S (F1 & F2 & B1 & B2) L N1. destruct (counted_stands r c Zr C S) as (S1 & S2 & S3).
    assert (Ln : (ec_nh c <= List.length r)%nat) by (destruct C as [-> _]; apply Ndcg.total_nh_length).
    destruct (Ndcg.run_gain c (Z.of_nat (alarms r)) N1) as [R1 R2]; [lia|exact F1|rewrite S2; apply INR_IZR_INZ| |].
    - split; [lia|]. apply le_IZR. rewrite <- !INR_IZR_INZ. rewrite S3. assert (P := pos_INR (hits r)). lra.
    - split; [exact R1|]. rewrite <- INR_IZR_INZ in R2. lra.
  Qed.

  Lemma raw_gains (r : list M) : (forall m, In m r -> zero_one (m_err m)) -> (forall u a v b w, r = u ++ a :: v ++ b :: w -> is_fpb a = true -> is_hitb b = false) ->
    forall i, Ndcg.dsum i (Ndcg.gains (map cnt r)) = Ndcg.dsum i (repeat 1 (hits r)).
  Proof.
    induction r as [|m r IH]; intros Z E i; [reflexivity|].
    assert (I := IH (fun x J => Z x (or_intror J)) (fun u a v b w Er => E (m :: u) a v b w (f_equal (cons m) Er))).
    assert (Zm := Z m (or_introl eq_refl)). destruct (kinds m Zm) as (_ & _ & K3 & _).
    change (Ndcg.gains (map cnt (m :: r))) with (repeat (Ndcg.gain2 (cnt m)) (me_nh (m_err m)) ++ Ndcg.gains (map cnt r)).
    assert (K1 := le_INR _ _ (Objects.nh_le_1 (m_err m))). cbn [INR] in K1.
    unfold hits in *. cbn [filter]. destruct (is_hitb m) eqn:Hm.
    - assert (En : me_nh (m_err m) = 1%nat) by (apply INR_eq; cbn [INR]; destruct (is_fpb m); lra). rewrite En. cbn [repeat app List.length Ndcg.dsum].
      assert (G := Ndcg.raw_gain_01 RE HE m Zm ltac:(lia)). unfold AveragePrecision.cnt in G. rewrite I, G. now rewrite Hm.
    - destruct (is_fpb m) eqn:Fm.
      + assert (En : me_nh (m_err m) = 1%nat) by (apply INR_eq; cbn [INR]; lra). rewrite En. cbn [repeat app Ndcg.dsum].
        assert (G := Ndcg.raw_gain_01 RE HE m Zm ltac:(lia)). unfold AveragePrecision.cnt in G. rewrite I, G. rewrite Hm.
        assert (H0 : filter is_hitb r = []).
        { destruct (filter is_hitb r) as [|b f] eqn:Ef; [reflexivity|]. exfalso. assert (J : In b (filter is_hitb r)) by (rewrite Ef; now left).
          apply filter_In in J as [J Hb]. apply in_split in J as (v & w & ->). assert (K := E [] m v b w eq_refl Fm). congruence. }
        rewrite H0. cbn. lra.
      + assert (En : me_nh (m_err m) = 0%nat) by (apply INR_eq; cbn [INR]; lra). rewrite En. cbn [repeat app]. apply I.
  Qed.

  Lemma gains_length cs : List.length (Ndcg.gains cs) = hypotheses cs.
  Proof.
    unfold Ndcg.gains, hypotheses, total, list_sum. induction cs as [|c cs IH]; [reflexivity|]. cbn [map concat fold_right]. now rewrite app_length, repeat_length, IH.
  Qed.

  Lemma gains_app a b : Ndcg.gains (a ++ b) = Ndcg.gains a ++ Ndcg.gains b.
  Proof. apply Ndcg.gains_app. Qed.

  Lemma gains_runs rs cs : Forall2 counted_as rs cs -> Forall2 summed_as rs cs -> (forall c, In c cs -> bounded c) ->
    (forall r, In r rs -> (forall m, In m r -> zero_one (m_err m)) /\ (Z.of_nat (List.length r) <= 2 ^ 19)%Z /\ (forall u a v b w, r = u ++ a :: v ++ b :: w -> is_fpb a = true -> is_hitb b = false)) ->
    forall i, (0 < i)%nat -> Ndcg.dsum i (Ndcg.gains cs) <= Ndcg.dsum i (Ndcg.gains (map cnt (concat rs))).
  Proof.
    intros F1. induction F1 as [|r c rs cs C F1 IH]; intros F2 B Hr i Pi; [cbn; lra|]. inversion F2 as [|? ? ? ? S F2']; subst.
    destruct (Hr r (or_introl eq_refl)) as (Zr & Lr & Er). cbn [concat]. rewrite map_app, gains_app, Ndcg.dsum_app, (raw_gains r Zr Er), gains_length.
    change (Ndcg.gains (c :: cs)) with (repeat (Ndcg.gain2 c) (ec_nh c) ++ Ndcg.gains cs). rewrite Ndcg.dsum_app, repeat_length.
    destruct (run_sums r c C S) as (_ & E2 & _). rewrite E2 at 2.
    assert (K := IH F2' (fun x I => B x (or_intror I)) (fun x I => Hr x (or_intror I)) (i + hypotheses (map cnt r))%nat ltac:(lia)).
    apply Rplus_le_compat; [|exact K]. apply Ndcg.dsum_max; [exact Pi| |].
    - apply Forall_forall. intros x I. assert (Ex := repeat_spec _ _ _ I). subst x. apply (run_gains r c); auto; [apply B; now left|].
      destruct (ec_nh c); [destruct I|lia].
    - destruct (Nat.eq_dec (ec_nh c) 0) as [E0|N0].
      + rewrite E0. cbn [repeat]. unfold Ndcg.rsum. cbn. apply pos_INR.
      + destruct (run_gains r c Zr C S (B c (or_introl eq_refl)) Lr ltac:(lia)) as [_ G].
        assert (Es : Ndcg.rsum (repeat (Ndcg.gain2 c) (ec_nh c)) = INR (ec_nh c) * Ndcg.gain2 c).
        { clear. induction (ec_nh c) as [|k IHk]; [unfold Ndcg.rsum; cbn; lra|]. unfold Ndcg.rsum in *. rewrite S_INR. cbn [repeat sum_of fold_right] in *. unfold sum_of in IHk. rewrite IHk. lra. }
        rewrite Es. exact G.
  Qed.

  (** With collapsing, NDCG is at most that of the order with the hits first
      among equal scores. *)
  Lemma collapse_early (l : list M) : (forall m, In m l -> zero_one (m_err m)) -> ranked score l -> (Z.of_nat (List.length l) <= 2 ^ 19)%Z ->
    hits_early score l -> global_ndcg RArith RTrans score l true <= global_ndcg RArith RTrans score l false.
  Proof.
    intros Z Rk L He. assert (L' : (Z.of_nat (List.length l) <= 2 ^ 24)%Z) by lia. destruct (Evaluation.points_spec score true l Z (fun _ => conj Rk L')) as (rs & A & F1 & F2).
    unfold global_ndcg. rewrite !Ndcg.ndcg_sum, !(Gain.points_refs score), AveragePrecision.raw_points. destruct (Nat.ltb_spec 0 (Metrics.refs l)) as [Pr|_]; [|apply Rle_refl].
    unfold Rdiv. apply Rmult_le_compat_r; [left; apply Rinv_0_lt_compat, Ndcg.z_pos, Pr|]. rewrite <- (ar_all _ _ _ A) at 2.
    apply gains_runs; auto.
    - destruct (points_stand score true l Z (fun _ => conj Rk L')) as (_ & _ & _ & _ & B). exact B.
    - intros r I. destruct A as [A1 A2 A3 A4]. split; [intros m J; apply Z; rewrite <- A1; apply in_concat; eauto|]. apply in_split in I as (x & y & Ex). split.
      + enough (List.length r <= List.length l)%nat by lia. rewrite <- A1, Ex, concat_app. cbn [concat]. rewrite !app_length. lia.
      + intros u a v b w E Fa. assert (Ir : In r rs) by (subst rs; apply in_elt).
        assert (Ia : In a r) by (subst r; apply in_elt). assert (Ib : In b r) by (subst r; apply in_or_app; right; right; apply in_elt).
        assert (El : l = (concat x ++ u) ++ a :: v ++ b :: (w ++ concat y)).
        { rewrite <- A1, Ex, concat_app. cbn [concat]. rewrite E, <- !app_assoc. cbn [app]. rewrite <- app_assoc. reflexivity. }
        assert (Ja : In a l) by (rewrite El; apply in_elt). assert (Jb : In b l) by (rewrite El; apply in_or_app; right; right; apply in_elt).
        destruct (is_hitb b) eqn:Hb; [|reflexivity]. exfalso.
        apply (He _ _ _ _ _ El (A3 r a b Ir Ia Ib)); [now apply (kinds a (Z a Ja))|now apply (kinds b (Z b Jb))].
  Qed.
End Early.

(** ** Runs *)

Section Evaluations.
  Context {RE E : Type}.
  Notation HE := (scored E).
  Notation M := (match_t RE HE).
  Variables (ce : Cmp E) (He : total_order ce) (cr : Cmp RE) (Hr : total_order cr).
  Variables (rq : RE -> bytes) (hq : E -> bytes).
  Variables (S : EvSet RE HE) (R : list RE -> HE -> list RE -> Prop) (HS : finds S R).
  Variable scorer : RE -> HE -> match_error.
  Hypothesis HR : forall refs h h' l, sc_base h = sc_base h' -> R refs h l -> R refs h' l.
  Hypothesis Hsc : forall r h h', sc_base h = sc_base h' -> scorer r h = scorer r h'.
  Hypothesis Hl : Parts.local rq hq R.
  Hypothesis Hac : forall r h, acceptable scorer r h -> scorer r h = MatchError f32_0 f32_0.
  Notation eval := (evaluation (c_lt ce) (c_lt cr) rq hq R scorer).

  (** Matches that can be scored. *)
  Definition sound (n : nat) (g : list M) : Prop := (forall m, In m g -> zero_one (m_err m)) /\ ranked sc_score g /\ (List.length g <= n)%nat.

  Lemma two_evaluations crit f refs hyps (ms log : list M) gs ms' log' gs' : (forall h, In h hyps -> is_finite (sc_score h) = true) ->
    eval crit f refs hyps ms log gs -> eval crit f refs hyps ms' log' gs' ->
    sound (List.length refs + List.length hyps) ms /\ (forall g, In g gs -> sound (List.length refs + List.length hyps) g) /\
    (forall cb, points sc_score cb ms = points sc_score cb ms') /\ (forall cb, map (points sc_score cb) gs = map (points sc_score cb) gs').
  Proof.
    intros Fi Ev Ev'. destruct (evaluation_found (c_lt ce) cr Hr rq hq S R HS scorer Hac _ _ _ _ _ _ _ Fi Ev) as (Z & Rk & Le & _).
    assert (F1 := Added.evaluation_same ce He cr Hr rq hq S R HS scorer HR Hsc _ _ _ _ _ _ _ _ _ _ Fi Ev Ev').
    assert (F2 := Runs.groups_equal rq hq _ _ _ _ _ F1 (Parts.evaluation_grouping _ _ _ _ _ _ _ _ _ _ _ _ _ Ev) (Parts.evaluation_grouping _ _ _ _ _ _ _ _ _ _ _ _ _ Ev')).
    split; [split; auto|]. split; [|split].
    - intros g Ig. destruct (Parts.evaluation_keys (c_lt ce) cr Hr rq hq S R HS scorer Hl _ _ _ _ _ _ _ Ev) as (keys & _ & Fk & _).
      assert (Sg : exists P, selects P ms g).
      { clear - Fk Ig. induction Fk as [|k x keys gs Hk Fk IH]; [destruct Ig|]. destruct Ig as [->|Ig]; [eauto|auto]. }
      destruct Sg as [P Sg]. assert (In' : forall m, In m g -> In m ms) by (intros m J; now apply (Grouping.selects_in _ _ _ Sg) in J).
      split; [intros m J; auto|]. split; [intros m J; apply Rk; auto|]. assert (K := Lifted.selects_length _ _ _ Sg). lia.
    - intros cb. now apply equal_points.
    - intros cb. clear - F2. induction F2 as [|g g' gs gs' F F2 IH]; [reflexivity|]. cbn [map]. rewrite IH. f_equal. now apply equal_points.
  Qed.
End Evaluations.

Section Tools.
  Variables (srt : sort_fn) (Hs : sort_contract srt).
  Variables (rngs : Z -> rng) (show_int : Z -> bytes) (show_f64 : f64 -> bytes).
  Notation icdar := (icdar17 RArith RTrans srt rngs show_int show_f64).
  Notation simple := (simple_kws RArith RTrans srt rngs show_int show_f64).

  (** The statistics of two runs come from the same matches. *)
  Definition same_matches {RE E X Y : Type} (n : nat) (c c' : config) (l : list (effect RArith (RE := X) (HE := Y))) (l' : list (effect RArith (RE := X) (HE := Y))) : Prop :=
    exists (ms : list (match_t RE (scored E))) (gs : list (list (match_t RE (scored E)))), sound n ms /\ (forall g, In g gs -> sound n g) /\
      prints (A := RArith) l (ap (cf_collapse c) (cf_interp c) (cf_trapezoid c) ms) (average (A := RArith) (map (ap (cf_collapse c) (cf_interp c) (cf_trapezoid c)) gs))
        (gain (cf_collapse c) ms) (average (A := RArith) (map (gain (cf_collapse c)) gs)) /\
      prints (A := RArith) l' (ap (cf_collapse c') (cf_interp c') (cf_trapezoid c') ms) (average (A := RArith) (map (ap (cf_collapse c') (cf_interp c') (cf_trapezoid c')) gs))
        (gain (cf_collapse c') ms) (average (A := RArith) (map (gain (cf_collapse c')) gs)).

  Lemma by_points {RE E} (v : list counts -> R) cb (gs gs' : list (list (match_t RE (scored E)))) : map (points sc_score cb) gs = map (points sc_score cb) gs' ->
    map (fun g => v (points sc_score cb g)) gs = map (fun g => v (points sc_score cb g)) gs'.
  Proof. intros H. rewrite <- !(map_map (points sc_score cb) v). now rewrite H. Qed.

  Lemma icdar_settings w w' pn pn' args args' c c' refs hyps f : command args c -> command args' c' -> no_bootstrap c -> no_bootstrap c' ->
    inputs shaped_text scored_shaped_text w c refs hyps f -> inputs shaped_text scored_shaped_text w' c' refs hyps f -> cf_sort c = cf_sort c' ->
    same_matches (RE := shaped) (E := shaped) (List.length refs + List.length hyps) c c' (fst (icdar w pn args)) (fst (icdar w' pn' args')).
  Proof.
    intros Cm Cm' NB NB' I I' Es. destruct (icdar w pn args) as [l e] eqn:Et. destruct (icdar w' pn' args') as [l' e'] eqn:Et'. cbn [fst].
    destruct (Instances.icdar_run RTrans srt Hs rngs show_int show_f64 w pn args c refs _ f l e Cm NB I Et) as (ms & log & gs & Fi & Ev & Rp).
    destruct (Instances.icdar_run RTrans srt Hs rngs show_int show_f64 w' pn' args' c' refs _ f l' e' Cm' NB' I' Et') as (ms' & log' & gs' & _ & Ev' & Rp').
    rewrite <- Es in Ev'.
    destruct (two_evaluations cmp_shaped Order.total_order_shaped cmp_shaped Order.total_order_shaped ev_query ev_query
      (evset_docbox srt cmp_str) (box_search cmp_str) (Matching.finds_docbox srt cmp_str Hs Order.total_order_str)
      (fun r h => ioh_scorer cmp_str f32_half r (sc_base h)) Runs.box_search_base
      (fun r h h' B => f_equal (fun x => ioh_scorer cmp_str f32_half r x) B) (Parts.box_local cmp_str)
      (fun r h A => proj1 (Added.ioh_acceptable r h) A) _ _ _ _ _ _ _ _ _ _ Fi Ev Ev') as (A1 & A2 & A3 & A4).
    exists ms, gs. split; [exact A1|]. split; [exact A2|]. split; [exact (reported_values srt _ _ _ _ _ _ _ Rp)|].
    assert (Pr := reported_values srt _ _ _ _ _ _ _ Rp'). unfold ap, gain in *. rewrite A3.
    rewrite (by_points (value (cf_interp c') (cf_trapezoid c')) _ _ _ (A4 (cf_collapse c'))), (by_points (ndcg RArith RTrans) _ _ _ (A4 (cf_collapse c'))). exact Pr.
  Qed.

  Lemma simple_settings qf w w' pn pn' args args' c c' refs hyps f : command args c -> command args' c' -> no_bootstrap c -> no_bootstrap c' ->
    inputs str_event_text scored_str_event_text w c refs hyps f -> inputs str_event_text scored_str_event_text w' c' refs hyps f ->
    (Z.of_nat (strings refs hyps f) <= 2147483648)%Z -> cf_sort c = cf_sort c' ->
    same_matches (RE := event bytes bytes) (E := event bytes bytes) (List.length refs + List.length hyps) c c' (fst (simple qf w pn args)) (fst (simple qf w' pn' args')).
  Proof.
    intros Cm Cm' NB NB' I I' Ls Es. destruct (simple qf w pn args) as [l e] eqn:Et. rewrite Instances.simple_tool in Et.
    destruct (simple qf w' pn' args') as [l' e'] eqn:Et'. rewrite Instances.simple_tool in Et'. cbn [fst].
    destruct (Instances.simple_run_ids RTrans srt Hs rngs show_int show_f64 w qf pn args c refs hyps f l e Cm NB I Et Ls) as (id & ms & log & gs & Id & Inj & Fi & Ev & Rp).
    destruct (Instances.simple_run_ids RTrans srt Hs rngs show_int show_f64 w' qf pn' args' c' refs hyps f l' e' Cm' NB' I' Et' Ls) as (id' & ms' & log' & gs' & Id' & Inj' & _ & Ev' & Rp').
    rewrite <- Es in Ev'. destruct (Raised.ids_bases qf refs hyps hyps id id' eq_refl Id Id') as [Ar Ah].
    apply (Parts.evaluation_orders _ (c_lt (Results.by_id id)) _ (c_lt (Results.by_id id))) in Ev';
      [|intros h h' Ih Ih'; unfold Results.by_id; cbn [c_lt]; now rewrite (Ah h Ih), (Ah h' Ih')
       |intros x x' Ix Ix'; unfold Results.by_id; cbn [c_lt]; now rewrite (Ar x Ix), (Ar x' Ix')].
    assert (Hac : forall r (h : scored (event bytes bytes)), acceptable (fun r h => trivial_scorer cmp_str cmp_str r (sc_base h)) r h ->
      trivial_scorer cmp_str cmp_str r (sc_base h) = MatchError f32_0 f32_0).
    { intros x h A. apply Added.trivial_acceptable in A. subst x. apply Added.trivial_same. }
    destruct (two_evaluations (Results.by_id id) (Results.by_id_total id Inj) (Results.by_id id) (Results.by_id_total id Inj) ev_query ev_query
      (evset_generic (Results.by_id id)) exact_search (Matching.finds_generic _ (Results.by_id_total id Inj))
      (fun r h => trivial_scorer cmp_str cmp_str r (sc_base h)) Parts.exact_base
      (fun r h h' B => f_equal (fun x => trivial_scorer cmp_str cmp_str r x) B) Parts.exact_local Hac _ _ _ _ _ _ _ _ _ _ Fi Ev Ev') as (A1 & A2 & A3 & A4).
    exists ms, gs. split; [exact A1|]. split; [exact A2|].
    assert (Pr := reported_values srt _ _ _ _ _ _ _ Rp). assert (Pr' := reported_values srt _ _ _ _ _ _ _ Rp'). unfold ap, gain in *. rewrite !map_map in Pr, Pr'.
    assert (N : forall (j : bytes -> Z) cb (v : list counts -> R) (gs : list (list (match_t (event bytes bytes) (scored (event bytes bytes))))),
      map (fun x => v (points sc_score cb (map (renamed_match j) x))) gs = map (fun x => v (points sc_score cb x)) gs).
    { intros j cb v g. apply map_ext. intros x. now rewrite Ties.points_names. }
    rewrite !Ties.points_names, !N in Pr, Pr'. split; [exact Pr|]. rewrite A3.
    rewrite (by_points (value (cf_interp c') (cf_trapezoid c')) _ _ _ (A4 (cf_collapse c'))), (by_points (ndcg RArith RTrans) _ _ _ (A4 (cf_collapse c'))). exact Pr'.
  Qed.

  Lemma looser_ap {RE E} c c' n (g : list (match_t RE (scored E))) : looser c c' -> (cf_collapse c = true -> Z.of_nat n <= 2 ^ 24)%Z -> sound n g ->
    ap (cf_collapse c) (cf_interp c) (cf_trapezoid c) g <= ap (cf_collapse c') (cf_interp c') (cf_trapezoid c') g.
  Proof.
    intros L B (Z & Rk & Le). unfold ap.
    assert (Bd : forall x, In x (points sc_score (cf_collapse c) g) -> bounded x).
    { destruct (points_stand sc_score (cf_collapse c) g Z) as (rs & _ & _ & _ & Q); [|exact Q]. intros K. split; [exact Rk|]. specialize (B K). lia. }
    destruct L as [(<- & <- & -> & ->)|[(<- & -> & -> & -> & ->)|(-> & -> & -> & -> & Ec & ->)]]; [now apply value_interp|now apply value_trap|].
    rewrite Ec in *. apply collapse_le; [exact Z|exact Rk|]. specialize (B eq_refl). lia.
  Qed.

  Lemma compared {RE E X Y} n c c' (l l' : list (effect RArith (RE := X) (HE := Y))) : same_matches (RE := RE) (E := E) n c c' l l' -> looser c c' ->
    (cf_collapse c = true -> Z.of_nat n <= 2 ^ 24)%Z ->
    exists gap vap gndcg vndcg gap' vap' gndcg' vndcg' : R, prints (A := RArith) l gap vap gndcg vndcg /\ prints (A := RArith) l' gap' vap' gndcg' vndcg' /\
      gap <= gap' /\ vap <= vap' /\ (cf_collapse c = cf_collapse c' -> gndcg = gndcg' /\ vndcg = vndcg').
  Proof.
    intros (ms & gs & S & Sg & P & P') L B. do 8 eexists. split; [exact P|]. split; [exact P'|]. split; [now apply (looser_ap c c' n)|]. split; [|now intros ->].
    apply Raised.average_le. assert (K : forall g, In g gs -> ap (cf_collapse c) (cf_interp c) (cf_trapezoid c) g <= ap (cf_collapse c') (cf_interp c') (cf_trapezoid c') g)
      by (intros g I; apply (looser_ap c c' n); auto). clear - K.
    induction gs as [|g gs IH]; constructor; [apply K; now left|apply IH; intros x I; apply K; now right].
  Qed.
End Tools.

(** ** The worst order *)

Lemma global_value {RE HE} (score : HE -> f32) (l : list (match_t RE HE)) cb i t : global_ap RArith score l cb i t = Ok (value i t (points score cb l)).
Proof. apply value_ok. Qed.

Lemma collapse_worst {RE HE} (score : HE -> f32) (l : list (match_t RE HE)) : (forall m, In m l -> zero_one (m_err m)) -> ranked score l -> descending score l ->
  (Z.of_nat (List.length l) <= 2 ^ 24)%Z -> exists v, global_ap RArith score l true true false = Ok v /\
    (forall l', Permutation l l' -> descending score l' -> exists v', global_ap RArith score l' false true false = Ok v' /\ v <= v') /\
    (exists l', Permutation l l' /\ descending score l' /\ global_ap RArith score l' false true false = Ok v).
Proof.
  intros Z Rk D L. exists (value true false (points score true l)). split; [apply global_value|].
  assert (K : forall l', Permutation l l' -> descending score l' -> value true false (points score true l) = value true false (points score true l') /\
    (forall m, In m l' -> zero_one (m_err m)) /\ ranked score l' /\ (Z.of_nat (List.length l') <= 2 ^ 24)%Z).
  { intros l' P D'. destruct (Collapse.metrics_ties _ _ score RArith RTrans l l' Rk D D' Z P) as [E _]. specialize (E true false). rewrite !global_value in E.
    split; [now apply ok_inj|]. assert (J : forall m, In m l' -> In m l) by (intros m I; apply (Permutation_in _ (Permutation_sym P) I)).
    split; [auto|]. split; [intros m I; apply Rk; auto|]. rewrite <- (Permutation_length P). exact L. }
  split.
  - intros l' P D'. destruct (K l' P D') as (E & Z' & Rk' & L'). eexists. split; [apply global_value|]. rewrite E. now apply collapse_le.
  - destruct (late_exists score l Rk Z) as (l' & P & D' & H). exists l'. split; [exact P|]. split; [exact D'|].
    destruct (K l' P D') as (E & Z' & Rk' & L'). rewrite global_value, E. refine (f_equal Ok (eq_sym _)). now apply collapse_late.
Qed.

Lemma collapse_gain {RE HE} (score : HE -> f32) (l l' : list (match_t RE HE)) : (forall m, In m l -> zero_one (m_err m)) -> ranked score l -> descending score l ->
  (Z.of_nat (List.length l) <= 2 ^ 19)%Z -> Permutation l l' -> descending score l' -> hits_early score l' ->
  global_ndcg RArith RTrans score l true <= global_ndcg RArith RTrans score l' false.
Proof.
  intros Z Rk D L P D' H. destruct (Collapse.metrics_ties _ _ score RArith RTrans l l' Rk D D' Z P) as [_ ->].
  assert (J : forall m, In m l' -> In m l) by (intros m I; apply (Permutation_in _ (Permutation_sym P) I)).
  apply collapse_early; [auto|intros m I; apply Rk; auto|rewrite <- (Permutation_length P); exact L|exact H].
Qed.
