(** Proofs about runs with one more reference. *)
From Coq Require Import String List Bool ZArith Sorted Reals Lra Lia Permutation.
From Flocq Require Import Core BinarySingleNaN.
From Verif.Model Require Import Cpp Floats Box Events EventSets Matches Matcher Scorers Assessment Bootstrap Mapper Stream Reader Options Tool.
From Verif.Spec Require Import Order Objects Sets Matching Scorers Grouping Collapse Metrics Reader Options Tool Parts Better Unfound.
From Verif.Proofs Require Import FloatFacts Metrics Curves Collapse AveragePrecision Better Hoist Queries Insert.
From Verif.Proofs Require Ndcg Gain Matching Grouping Evaluation Runs Ties Parts Raised Renumber Lifted Order Rescore Instances Results Mapper Sets Errors Geometry Ids Tool Scorers Added.
Import ListNotations.
Local Open Scope string_scope.
Local Open Scope list_scope.
Local Open Scope R_scope.

(** ** The statistics with one more miss *)

Lemma pr_loop_scale n n' w : (0 < n)%nat -> (0 < n')%nat -> forall nr nh fp fn,
  map fst (pr_loop RArith n nr nh fp fn w) = map fst (pr_loop RArith n' nr nh fp fn w) /\
  map snd (pr_loop RArith n nr nh fp fn w) = map (fun x => x * (INR n' / INR n)) (map snd (pr_loop RArith n' nr nh fp fn w)).
Proof.
  intros Hn Hn'. assert (K := lt_0_INR n Hn). assert (K' := lt_0_INR n' Hn').
  induction w as [|e w IH]; intros nr nh fp fn; [split; reflexivity|]. cbn [pr_loop map fst snd].
  destruct (IH (nr + ec_nr e)%nat (nh + ec_nh e)%nat (a_add RArith fp (a_f32 RArith (ec_fp e))) (a_add RArith fn (a_f32 RArith (ec_fn e)))) as [E1 E2].
  split; f_equal; auto. rewrite !recall_R by assumption. match goal with |- @eq _ ?a ?b => change (@eq R a b) end. field. lra.
Qed.

Lemma area_scale t d : forall p prev s rc, area_rec t prev (s * d) p (map (fun x => x * d) rc) = area_rec t prev s p rc * d.
Proof.
  induction p as [|q p IH]; intros prev s rc; [cbn; lra|]. destruct rc as [|r rc]; [cbn; lra|]. cbn [map area_rec].
  rewrite IH. lra.
Qed.

Lemma start_scale n n' i t w : (0 < n)%nat -> (0 < n')%nat -> start n i t w * INR n = start n' i t w * INR n'.
Proof.
  intros Hn Hn'. assert (K := lt_0_INR n Hn). unfold start.
  destruct (pr_loop_scale n n' w Hn Hn' 0%nat 0%nat 0 0) as [-> ->].
  assert (E := area_scale t (INR n' / INR n) (inter i (map fst (pr_loop RArith n' 0 0 0 0 w))) None 0 (map snd (pr_loop RArith n' 0 0 0 0 w))).
  rewrite Rmult_0_l in E. change (num RArith) with R in *. rewrite E. field. lra.
Qed.

Lemma start_nothing n i t w : (0 < n)%nat -> (forall c, In c w -> bounded c) -> references w = 0%nat -> start n i t w = 0.
Proof.
  intros Hn Bw R0. unfold start. apply area_flat. change (num RArith) with R.
  enough (G : forall fn, fn = 0 -> forall nh fp, Forall (eq 0) (map snd (pr_loop RArith n 0 nh fp fn w))) by (apply G; reflexivity).
  revert R0. induction w as [|e w IH]; intros R0 fn Ef nh fp; [constructor|]. change (ec_nr e + references w = 0)%nat in R0.
  destruct (Bw e (or_introl eq_refl)) as (_ & _ & _ & B). assert (Z0 : ec_nr e = 0%nat) by lia. rewrite Z0 in B. cbn [INR] in B.
  cbn [pr_loop map snd]. rewrite Z0. cbn [a_add a_f32 RArith Nat.add]. assert (E0 : fn + B2R (ec_fn e) = 0) by lra. rewrite E0.
  constructor; [rewrite recall_R by exact Hn; cbn [INR]; unfold Rdiv; ring|]. apply IH; [intros c I; apply Bw; now right|lia|reflexivity].
Qed.

(** Blank points at the end that hold one more reference. *)
Lemma blank_more i t w B B' : (forall c, In c w -> bounded c) -> (forall c, In c B -> blank c) -> (forall c, In c B' -> blank c) ->
  references B' = Datatypes.S (references B) ->
  value i t (w ++ B') * INR (references (w ++ B')) = value i t (w ++ B) * INR (references (w ++ B)).
Proof.
  intros Bw Bl Bl' Er. rewrite !start_value by assumption.
  assert (E : references (w ++ B') = Datatypes.S (references (w ++ B))) by (unfold references in *; rewrite !Matching.total_app; lia).
  rewrite E. destruct (references (w ++ B)) as [|n] eqn:En; [|apply start_scale; lia].
  cbn [INR]. rewrite start_nothing; [lra|lia|exact Bw|]. unfold references in *. rewrite Matching.total_app in En. lia.
Qed.

Lemma gains_app a b : Ndcg.gains (a ++ b) = Ndcg.gains a ++ Ndcg.gains b.
Proof. unfold Ndcg.gains. now rewrite map_app, concat_app. Qed.

Lemma gains_blank B : (forall c, In c B -> blank c) -> Ndcg.gains B = [].
Proof.
  induction B as [|c B IH]; intros H; [reflexivity|]. unfold Ndcg.gains in *. cbn [map concat]. rewrite IH by (intros x I; apply H; now right).
  destruct (H c (or_introl eq_refl)) as (-> & _). reflexivity.
Qed.

(** Points whose float32 sums are exact. *)
Definition fair (c : counts) : Prop :=
  bounded c /\ (Z.of_nat (ec_nh c) <= 2 ^ 24)%Z /\ (ec_nr c = 0%nat -> B2R (ec_fp c) = INR (ec_nh c)).

Lemma fair_gains w : (forall c, In c w -> fair c) -> Forall (fun x => 0 <= x) (Ndcg.gains w) /\
  (references w = 0%nat -> Forall (eq 0) (Ndcg.gains w)).
Proof.
  induction w as [|c w IH]; intros H; [split; constructor|]. destruct (IH (fun x I => H x (or_intror I))) as [G1 G2].
  destruct (H c (or_introl eq_refl)) as ((B1 & _ & B2 & _) & L & E). change (c :: w) with ([c] ++ w). rewrite gains_app.
  unfold Ndcg.gains at 1 3. cbn [map concat]. rewrite app_nil_r.
  assert (Rp : forall P : R -> Prop, ((0 < ec_nh c)%nat -> P (Ndcg.gain2 c)) -> Forall P (repeat (Ndcg.gain2 c) (ec_nh c))).
  { intros P HP. apply Forall_forall. intros x I. assert (N : (0 < ec_nh c)%nat) by (destruct (ec_nh c); [destruct I|lia]).
    apply repeat_spec in I as ->. auto. }
  split.
  - apply Forall_app. split; [|exact G1]. apply Rp. intros N. destruct (Ndcg.rel32_in01 c _ N L B1 eq_refl B2) as [K _].
    unfold Ndcg.gain2. enough (Rpower 2 0 <= Rpower 2 (B2R (Ndcg.rel32 c))) by (rewrite Rpower_O in H0; lra).
    apply Rle_Rpower; lra.
  - intros R0. change (ec_nr c + references w = 0)%nat in R0. apply Forall_app. split; [|apply G2; lia]. apply Rp. intros N.
    unfold Ndcg.gain2. rewrite (Ndcg.rel32_all_wrong c N L B1) by (apply E; lia). rewrite Rpower_O; lra.
Qed.

Lemma dsum_zero ws : Forall (eq 0) ws -> forall i, Ndcg.dsum i ws = 0.
Proof. induction 1 as [|x ws <- F IH]; intros i; [reflexivity|]. cbn [Ndcg.dsum]. rewrite IH. lra. Qed.

Lemma blank_more_ndcg w B B' : (forall c, In c w -> fair c) -> (forall c, In c B -> blank c) -> (forall c, In c B' -> blank c) ->
  references B' = Datatypes.S (references B) ->
  ndcg RArith RTrans (w ++ B') * ideal (references (w ++ B')) = ndcg RArith RTrans (w ++ B) * ideal (references (w ++ B)).
Proof.
  intros Fw Bl Bl' Er. rewrite !Ndcg.ndcg_sum, !gains_app, (gains_blank B Bl), (gains_blank B' Bl'), !app_nil_r.
  assert (E : references (w ++ B') = Datatypes.S (references (w ++ B))) by (unfold references in *; rewrite !Matching.total_app; lia).
  rewrite E. destruct (references (w ++ B)) as [|n] eqn:En; cbn [Nat.ltb Nat.leb].
  - destruct (fair_gains w Fw) as [_ G]. rewrite dsum_zero; [|apply G; unfold references in *; rewrite Matching.total_app in En; lia].
    change (num RArith) with R. unfold Rdiv. ring.
  - unfold ideal. rewrite <- !Ndcg.dsum_ideal.
    assert (K := Ndcg.z_pos (Datatypes.S n) ltac:(lia)). assert (K' := Ndcg.z_pos (Datatypes.S (Datatypes.S n)) ltac:(lia)). change (num RArith) with R. field. lra.
Qed.

Lemma fair_ndcg w B : (forall c, In c w -> fair c) -> (forall c, In c B -> blank c) -> 0 <= ndcg RArith RTrans (w ++ B).
Proof.
  intros Fw Bl. rewrite Ndcg.ndcg_sum, gains_app, (gains_blank B Bl), app_nil_r.
  destruct (Nat.ltb_spec 0 (references (w ++ B))) as [H|H]; [|apply Rle_refl].
  apply Rmult_le_pos; [apply Ndcg.dsum_nonneg; [lia|exact (proj1 (fair_gains w Fw))]|]. left. now apply Rinv_0_lt_compat, Ndcg.z_pos.
Qed.

Lemma ideal_le n : 0 <= ideal n <= ideal (Datatypes.S n) /\ ((0 < n)%nat -> 0 < ideal n).
Proof.
  unfold ideal. rewrite <- !Ndcg.dsum_ideal.
  assert (G : forall k i, (0 < i)%nat -> 0 <= Ndcg.dsum i (repeat 1 k) <= Ndcg.dsum i (repeat 1 (Datatypes.S k))).
  { induction k as [|k IH]; intros i Hi.
    - cbn. assert (D := Ndcg.discount_pos i Hi). lra.
    - destruct (IH (Datatypes.S i) ltac:(lia)) as [A1 A2]. cbn [repeat Ndcg.dsum] in *. assert (D := Ndcg.discount_pos i Hi). lra. }
  split; [apply G; lia|apply Ndcg.z_pos].
Qed.

(** From the products to the statistics. *)
Lemma diluted v v' x x' : 0 <= v -> 0 <= x <= x' -> 0 < x' -> v' * x' = v * x -> v' <= v.
Proof. intros Hv Hx Hx' E. apply (Rmult_le_reg_r x'); [exact Hx'|]. rewrite E. apply Rmult_le_compat_l; lra. Qed.

(** ** Lists of matches with misses at the end *)

Lemma fair_raw e : zero_one e -> fair (counts_of e).
Proof.
  intros Z1. split; [|]. { apply (Better.raw_bounded [e]); [intros x [<-|[]]; exact Z1|now left]. }
  destruct f32_1_R as [O _]. destruct (zero_one_cases e Z1) as [[-> ->]|[[-> ->]|[[-> ->]|[-> ->]]]]; cbn [ec_nh ec_nr ec_fp]; (split; [lia|]); try discriminate.
  intros _. rewrite O. reflexivity.
Qed.

Lemma fair_point (m : Hoist.M) l : (forall x, In x (m :: l) -> zero_one (m_err x)) -> (Z.of_nat (List.length (m :: l)) <= 2 ^ 24)%Z -> fair (point m l).
Proof.
  intros Z1 L. destruct (point_counts m l) as [C1 C2]. destruct (point_summed m l Z1 L) as [S1 _]. split; [now apply point_bounded|].
  rewrite C1, C2, S1. destruct f32_1_R as [O _]. clear C1 C2 S1. revert Z1 L. generalize (m :: l). clear m l.
  assert (G : forall l : list Hoist.M, (forall x, In x l -> zero_one (m_err x)) -> (total (fun m => me_nh (m_err m)) l <= List.length l)%nat /\
    (total (fun m => me_nr (m_err m)) l = 0%nat -> sum_of (fun m => B2R (me_fp (m_err m))) l = INR (total (fun m => me_nh (m_err m)) l))).
  { induction l as [|m l IH]; intros Z1; [split; [auto|reflexivity]|]. destruct IH as [A1 A2]; [intros x I; apply Z1; now right|].
    rewrite !total_cons. cbn [List.length]. unfold sum_of in *. cbn [fold_right].
    destruct (zero_one_cases _ (Z1 m (or_introl eq_refl))) as [[E E']|[[E E']|[[E E']|[E E']]]];
      (assert (Eh := f_equal ec_nh E'); assert (Er := f_equal ec_nr E'); cbn [counts_of ec_nh ec_nr] in Eh, Er; rewrite Eh, Er; split; [lia|]); try discriminate.
    intros T0. rewrite A2 by exact T0. rewrite E. cbn [me_fp]. rewrite O, plus_INR. cbn [INR]. lra. }
  intros l Z1 L. destruct (G l Z1) as [A1 A2]. split; [lia|exact A2].
Qed.

Lemma fair_collapse (l : list Hoist.M) : (forall m, In m l -> zero_one (m_err m)) -> (Z.of_nat (List.length l) <= 2 ^ 24)%Z ->
  forall c, In c (collapse_matches sc l) -> fair c.
Proof.
  remember (List.length l) as n eqn:En. intros Z1 L.
  assert (Hn : (List.length l <= n)%nat) by lia. clear En. revert l Hn Z1.
  assert (G : forall k (l : list Hoist.M), (List.length l <= k)%nat -> (k <= n)%nat -> (forall m, In m l -> zero_one (m_err m)) -> forall c, In c (collapse_matches sc l) -> fair c).
  { induction k as [|k IH]; intros [|m l] Hn Hk H c; try (intros []; fail); [cbn in Hn; lia|].
    assert (Ls : (List.length (same sc m l) <= List.length l)%nat).
    { clear. induction l as [|x l IH]; [auto|]. cbn [same]. destruct (tieb sc m x); cbn [List.length]; lia. }
    rewrite collapse_cons. intros [<-|I].
    - apply fair_point; [intros x [<-|I]; apply H; [now left|right]; exact (same_in sc m l x I)|]. cbn [List.length] in *. lia.
    - apply (IH (rest sc m l)); [assert (K := rest_length sc m l); cbn in Hn; lia|lia| |exact I]. intros x J. apply H. right. exact (rest_in sc m l x J). }
  intros l Hn Z1. apply (G n l Hn (le_n _) Z1).
Qed.

Section Tail.
  Context {RE E : Type}.
  Notation HE := (scored E).
  Notation M := (match_t RE HE).

  (** The matches have errors 0 or 1 and finite scores. *)
  Definition plain (F : list M) : Prop := forall m, In m F -> zero_one (m_err m) /\ exists h, m_hyp m = Some h /\ is_finite (sc_score h) = true.

  Lemma tail_points cb (F : list M) x : plain F -> (cb = true -> Z.of_nat (List.length F + List.length x) <= 2 ^ 24)%Z ->
    exists B, points sc_score cb (F ++ map make_fn x) = points sc_score cb F ++ B /\ (forall c, In c B -> blank c) /\ references B = List.length x /\
      forall c, In c (points sc_score cb F) -> fair c.
  Proof.
    intros Pl L. destruct cb.
    - specialize (L eq_refl). cbn [points].
      assert (Fl : List.length (map norm (map (scored_error sc_score) F)) = List.length F) by now rewrite !map_length.
      assert (Zf : forall m, In m (map item (map norm (map (scored_error sc_score) F))) -> zero_one (m_err m)).
      { intros m I. rewrite !map_map in I. apply in_map_iff in I as (y & <- & I). exact (proj1 (Pl y I)). }
      set (Pm := map norm (map (scored_error sc_score) (map (@make_fn RE HE) x))).
      assert (Em : Pm = repeat (ninf, miss_error) (List.length x)).
      { unfold Pm. rewrite !map_map. clear. induction x as [|r x IH]; [reflexivity|]. cbn [map List.length repeat]. rewrite IH. reflexivity. }
      exists (collapse_matches sc (map item Pm)).
      rewrite (collapse_items sc_score (F ++ _)), !map_app, <- map_app, bottom_collapse, <- collapse_items.
      + split; [reflexivity|]. split; [|split].
        * rewrite Em. destruct x as [|r x]; [intros c []|]. cbn [List.length repeat].
          assert (Ae : forall q : P, In q ((ninf, miss_error) :: repeat (ninf, miss_error) (List.length x)) -> q = (ninf, miss_error)).
          { intros q [<-|I]; [reflexivity|exact (repeat_spec _ _ _ I)]. }
          rewrite ninf_run by (intros q I; now rewrite (Ae q I)).
          intros c [<-|[]]. apply point_misses.
          -- intros e I. apply in_map_iff in I as (q & <- & I). rewrite (repeat_spec _ _ _ I). reflexivity.
          -- rewrite repeat_length. cbn [List.length] in L. lia.
        * unfold references. change (list_sum (map ec_nr (collapse_matches sc (map item Pm))) = List.length x).
          rewrite (proj2 (collapse_totals sc (map item Pm))), Em. clear. induction x as [|r x IH]; [reflexivity|]. cbn [List.length repeat map].
          rewrite total_cons, IH. reflexivity.
        * intros c I. rewrite collapse_items in I. revert c I. apply fair_collapse; [exact Zf|]. rewrite map_length, Fl. lia.
      + intros p I. rewrite map_map in I. apply in_map_iff in I as (m & <- & I). destruct (Pl m I) as (_ & h & Eh & Fh).
        unfold scored_error, rank, norm. cbn [fst]. rewrite Eh. destruct (sc_score h) as [s|s| |[] y e B]; try discriminate; reflexivity.
      + fold Pm. rewrite Em. intros p I. now rewrite (repeat_spec _ _ _ I).
    - exists (map (fun m : M => counts_of (m_err m)) (map make_fn x)). cbn [points]. split; [exact (map_app _ _ _)|]. split; [|split].
      + intros c I. rewrite map_map in I. apply in_map_iff in I as (r & <- & _). apply (blank_misses [miss_error]); [intros e [<-|[]]; reflexivity|now left].
      + rewrite map_map. clear. induction x as [|r x IH]; [reflexivity|]. cbn [map List.length]. unfold references in *. rewrite <- IH. reflexivity.
      + intros c I. apply in_map_iff in I as (m & <- & I). apply fair_raw. exact (proj1 (Pl m I)).
  Qed.

  Definition ap (cb i t : bool) (g : list M) : R := value i t (points sc_score cb g).
  Definition gain (cb : bool) (g : list M) : R := ndcg RArith RTrans (points sc_score cb g).

  Lemma tail_nonneg cb i t (F : list M) x : plain F -> (cb = true -> Z.of_nat (List.length F + List.length x) <= 2 ^ 24)%Z ->
    0 <= ap cb i t (F ++ map make_fn x) /\ 0 <= gain cb (F ++ map make_fn x).
  Proof.
    intros Pl L. destruct (tail_points cb F x Pl L) as (B & E0 & Bl & _ & Fr). unfold ap, gain. rewrite E0. split; [|now apply fair_ndcg].
    rewrite start_value by (auto; intros c I; exact (proj1 (Fr c I))).
    assert (Bw : forall c, In c (points sc_score cb F) -> bounded c) by (intros c I; exact (proj1 (Fr c I))).
    unfold start. apply area_nonneg; [discriminate| |now apply recalls]. apply inter_nonneg. now apply precisions.
  Qed.

  (** One more reference that is missed. *)
  Lemma tail_more cb i t (F : list M) x x' : plain F -> (cb = true -> Z.of_nat (List.length F + List.length x') <= 2 ^ 24)%Z ->
    List.length x' = Datatypes.S (List.length x) ->
    let n := refs (F ++ map make_fn x) in
    ap cb i t (F ++ map make_fn x') * INR (Datatypes.S n) = ap cb i t (F ++ map make_fn x) * INR n /\
    gain cb (F ++ map make_fn x') * ideal (Datatypes.S n) = gain cb (F ++ map make_fn x) * ideal n /\
    ap cb i t (F ++ map make_fn x') <= ap cb i t (F ++ map make_fn x) /\ gain cb (F ++ map make_fn x') <= gain cb (F ++ map make_fn x).
  Proof.
    intros Pl L' Lx n. assert (L : (cb = true -> Z.of_nat (List.length F + List.length x) <= 2 ^ 24)%Z) by (intros C; specialize (L' C); lia).
    destruct (tail_points cb F x Pl L) as (B & E0 & Bl & Rb & Fr). destruct (tail_points cb F x' Pl L') as (B' & E0' & Bl' & Rb' & _).
    destruct (tail_nonneg cb i t F x Pl L) as [N1 N2].
    assert (En : references (points sc_score cb F ++ B) = n) by (rewrite <- E0; apply Gain.points_refs).
    assert (En' : references (points sc_score cb F ++ B') = Datatypes.S n).
    { rewrite <- En. unfold references in *. rewrite !Matching.total_app. lia. }
    assert (A1 := blank_more i t _ B B' (fun c I => proj1 (Fr c I)) Bl Bl' ltac:(lia)).
    assert (A2 := blank_more_ndcg _ B B' Fr Bl Bl' ltac:(lia)). rewrite En, En' in *. rewrite <- E0, <- E0' in *.
    split; [exact A1|]. split; [exact A2|]. split.
    - apply (diluted _ _ (INR n) (INR (Datatypes.S n))); auto; [|apply lt_0_INR; lia]. rewrite S_INR. assert (P := pos_INR n). lra.
    - apply (diluted _ _ (ideal n) (ideal (Datatypes.S n))); auto; [apply ideal_le|]. apply ideal_le. lia.
  Qed.
End Tail.

(** ** Dropping a reference that accepts nothing *)

Section Drop.
  Context {RE E : Type}.
  Notation HE := (scored E).
  Notation M := (match_t RE HE).
  Variables (ce : Cmp E) (He : total_order ce) (cr : Cmp RE) (Hr : total_order cr).
  Variables (rq : RE -> bytes) (hq : E -> bytes).
  Variables (S : EvSet RE HE) (R : list RE -> HE -> list RE -> Prop) (HS : finds S R).
  Variable scorer : RE -> HE -> match_error.
  Hypothesis HR : forall refs h h' l, sc_base h = sc_base h' -> R refs h l -> R refs h' l.
  Hypothesis Hsc : forall r h h', sc_base h = sc_base h' -> scorer r h = scorer r h'.
  Hypothesis Lo : Parts.local rq hq R.
  Hypothesis Zo : forall r h, zero_one (scorer r h).
  Hypothesis Hac : forall r h, acceptable scorer r h -> scorer r h = hit_error.
  Hypothesis Hdrop : forall refs refs' r h l', (forall x, In x refs <-> In x refs' /\ x <> r) -> R refs' h l' ->
    exists l, R refs h l /\ selects (fun x => x <> r) l' l.

  Notation eval := (evaluation (c_lt ce) (c_lt cr) rq hq R scorer).

  Lemma logged_drop r h l' l (ms : list M) : ~ acceptable scorer r h -> selects (fun x => x <> r) l' l -> logged scorer h l' ms -> logged scorer h l ms.
  Proof.
    intros N Se. revert ms. induction Se as [|x l' l Nx Se IH|x l' l Nx Se IH]; intros ms Lg; [exact Lg| |];
      inversion Lg as [|? ? ms0 A L0|? ? ? A L0]; subst.
    - apply log_yes; auto.
    - apply log_no; auto.
    - exfalso. apply Nx. intros ->. contradiction.
    - auto.
  Qed.

  Lemma decided_drop r taken h l' l t (m g : list M) : ~ acceptable scorer r h -> selects (fun x => x <> r) l' l ->
    decided scorer taken h l' t m g -> decided scorer taken h l t m g.
  Proof.
    intros N Se D. assert (In' := Grouping.selects_in _ _ _ Se). destruct D as [before x after ms El A Nt Bf Lg|Na|ms (x & Ix & A) At Lg].
    - subst l'. destruct (Parts.selects_split _ _ _ _ Se) as (b1 & b2 & -> & S1 & S2). inversion S2 as [|? ? b3 Nx S3|? ? ? Nx S3]; subst.
      + apply (Spec.Matching.hit _ _ _ _ b1 x b3 ms); auto; [|exact (logged_drop r h before b1 ms N S1 Lg)].
        intros y I. apply Bf. now apply (Grouping.selects_in _ _ _ S1) in I.
      + exfalso. apply Nx. intros ->. contradiction.
    - apply false_alarm. intros x I. apply Na. now apply In' in I.
    - apply repeated; [|intros y I; apply At; now apply In' in I|exact (logged_drop r h l' l ms N Se Lg)].
      exists x. split; [|exact A]. apply In'. split; [exact Ix|]. intros ->. contradiction.
  Qed.

  Lemma matching_drop r refs refs' rank taken (ms log : list M) : (forall x, In x refs <-> In x refs' /\ x <> r) ->
    (forall h, In h rank -> ~ acceptable scorer r h) -> matching R scorer refs' rank taken ms log ->
    matching R scorer refs rank taken ms log /\ ~ In r taken.
  Proof.
    intros Eq N Mt. induction Mt as [|rank taken ms log h l t m g Mt IH Rl D]; [split; [constructor|intros []]|].
    destruct IH as [IH Nt]; [intros x I; apply N, in_or_app; now left|]. assert (Nh : ~ acceptable scorer r h) by (apply N, in_or_app; right; now left).
    destruct (Hdrop refs refs' r h l Eq Rl) as (l0 & R0 & S0). split.
    - apply (next_hyp _ _ _ _ _ _ _ _ l0); auto. exact (decided_drop r taken h l l0 t m g Nh S0 D).
    - intros I. apply in_app_or in I as [I|I]; [contradiction|]. destruct D as [before x after ms1 El A _ _ _|_|ms1 _ _ _]; [destruct I as [->|[]]; contradiction|destruct I|destruct I].
  Qed.

  (** The matches of the hypotheses, of finite scores. *)
  Lemma matching_plain refs rank taken (ms log : list M) : (forall h, In h rank -> is_finite (sc_score h) = true) ->
    matching R scorer refs rank taken ms log -> plain ms /\ Metrics.refs ms = List.length (refs_of ms).
  Proof.
    intros Fi Mt. induction Mt as [|rank taken ms log h l t m g Mt IH Rl D]; [split; [intros ? []|reflexivity]|].
    destruct IH as [IH1 IH2]; [intros x I; apply Fi, in_or_app; now left|]. assert (Fh := Fi h ltac:(apply in_or_app; right; now left)).
    assert (D' : plain m /\ Metrics.refs m = List.length (refs_of m)).
    { destruct D as [before x after ms1 El A _ _ _|_|ms1 _ _ _].
      - rewrite (Hac x h A). split; [|reflexivity]. intros y [<-|[]]. split; [split; cbn; auto|]. exists h. auto.
      - split; [|reflexivity]. intros y [<-|[]]. split; [split; cbn; auto|]. exists h. auto.
      - split; [intros ? []|reflexivity]. }
    destruct D' as [D1 D2]. split; [intros y I; apply in_app_or in I as [I|I]; auto|].
    unfold Metrics.refs in *. rewrite Matching.total_app, Matching.refs_app, app_length, IH2, D2. reflexivity.
  Qed.

  Lemma sorted_drop (r : RE) l : StronglySorted (fun x y => c_lt cr x y = true) l ->
    (exists a b, l = a ++ r :: b /\ ~ In r a /\ ~ In r b /\ StronglySorted (fun x y => c_lt cr x y = true) (a ++ b)) \/ ~ In r l.
  Proof.
    intros So. destruct (in_dec (Added.ref_dec cr Hr) r l) as [I|I]; [left|now right]. apply in_split in I as (a & b & ->). exists a, b.
    assert (Nd := Ties.sorted_nodup (c_lt cr) _ (to_irrefl _ Hr) So). apply NoDup_remove_2 in Nd. split; [reflexivity|].
    split; [intros I; apply Nd, in_or_app; auto|]. split; [intros I; apply Nd, in_or_app; auto|]. exact (proj1 (Raised.sorted_remove _ _ _ _ So)).
  Qed.

  (** The matches with the reference and without. *)
  Lemma evaluation_drop crit f refs refs' r hyps (ms' log' : list M) groups' : one_more r refs refs' -> ~ In r refs ->
    (forall h, In h hyps -> ~ acceptable scorer r h) -> (forall h, In h hyps -> is_finite (sc_score h) = true) ->
    eval crit f refs' hyps ms' log' groups' ->
    exists F x x' groups, plain F /\ Metrics.refs F = List.length (refs_of F) /\ ms' = F ++ map make_fn x' /\ eval crit f refs hyps (F ++ map make_fn x) log' groups /\
      (List.length F <= List.length hyps)%nat /\
      ((kept f (rq r) /\ exists a b, x' = a ++ r :: b /\ x = a ++ b) \/ (~ kept f (rq r) /\ x' = x)).
  Proof.
    intros (a & b & -> & ->) Nr Na Fi (r1 & h1 & rank & taken & found & missed & Sr & Sh & Rk & Mt & So & Mi & -> & G).
    destruct (Evaluation.ranking_in (c_lt ce) _ _ _ Rk) as [Ri Rl].
    assert (Ih : forall h, In h rank -> In h hyps) by (intros h I; apply Ri in I; now apply (Grouping.selects_in _ _ _ Sh) in I).
    destruct (matching_plain _ _ _ _ _ (fun h I => Fi h (Ih h I)) Mt) as [Pl Rf].
    assert (Lf : (List.length found <= List.length hyps)%nat).
    { assert (K := Added.matching_length R scorer _ _ _ _ _ Mt). assert (K' := Lifted.selects_length _ _ _ Sh). lia. }
    destruct (Parts.selects_split _ _ _ _ Sr) as (a1 & rb & -> & Sa & Sb).
    assert (Gx : forall x, incl x missed -> exists groups, grouping rq hq f (found ++ map make_fn x) groups).
    { intros x Ix. apply (Parts.grouping_exists Parts.bytes_dec rq hq f). intros m I. destruct G as (ks & keys & F1 & _).
      destruct (Evaluation.Forall2_in _ _ _ F1) as [K _]. destruct (K m) as (k & _ & Hk); [|exists k; exact Hk].
      apply in_app_or in I as [I|I]; apply in_or_app; [now left|right]. apply in_map_iff in I as (z & <- & I). apply in_map. auto. }
    inversion Sb as [|? ? b1 Kr Sb1|? ? b1 Kr Sb1]; subst.
    - assert (Eq : forall x, In x (a1 ++ b1) <-> In x (a1 ++ r :: b1) /\ x <> r).
      { intros x. assert (Nx : ~ In r (a1 ++ b1)).
        { intros I. apply Nr. apply in_app_or in I as [I|I]; apply in_or_app; [left; now apply (Grouping.selects_in _ _ _ Sa) in I|right; now apply (Grouping.selects_in _ _ _ Sb1) in I]. }
        rewrite !in_app_iff in *. cbn [In]. split; [|intros [[I|[->|I]] K]; tauto]. intros I. split; [tauto|]. intros ->. tauto. }
      destruct (matching_drop r (a1 ++ b1) _ rank taken found log' Eq (fun h I => Na h (Ih h I)) Mt) as [Mt0 Nt].
      assert (Im : In r missed) by (apply Mi; split; [apply in_elt|exact Nt]).
      destruct (sorted_drop r missed So) as [(p & q & -> & Np & Nq & So0)|C]; [|contradiction].
      destruct (Gx (p ++ q)) as [groups0 G0]; [intros z I; apply in_app_or in I as [I|I]; apply in_or_app; simpl; auto|].
      exists found, (p ++ q), (p ++ r :: q), groups0. split; [exact Pl|]. split; [exact Rf|]. split; [reflexivity|]. split; [|split; [exact Lf|left; split; [exact Kr|]; exists p, q; auto]].
      exists (a1 ++ b1), h1, rank, taken, found, (p ++ q). split; [now apply Added.selects_app|]. split; [exact Sh|]. split; [exact Rk|]. split; [exact Mt0|].
      split; [exact So0|]. split; [|auto]. intros z. rewrite Eq.
      assert (K := Mi z). rewrite in_app_iff in K. cbn [In] in K. rewrite in_app_iff. split.
      + intros I. assert (z <> r) by (intros ->; tauto). tauto.
      + intros [[I1 I2] I3]. destruct (proj2 K (conj I1 I3)) as [I|[I|I]]; auto. congruence.
    - exists found, missed, missed, groups'. split; [exact Pl|]. split; [exact Rf|]. split; [reflexivity|]. split; [|split; [exact Lf|right; auto]].
      exists (a1 ++ rb), h1, rank, taken, found, missed. split; [now apply Added.selects_app|]. auto 10.
  Qed.

  Lemma selects_tail (P : RE -> Prop) (Q : M -> Prop) x g : (forall r, Q (make_fn r) <-> P r) -> selects Q (map make_fn x) g ->
    exists y, g = map make_fn y /\ selects P x y.
  Proof.
    intros H. revert g. induction x as [|r x IH]; intros g K; [inversion K; subst; exists []; split; [reflexivity|constructor]|].
    cbn [map] in K. inversion K as [|? ? t Pm T E1|? ? t Pm T E1]; subst; [destruct (IH t T) as (y & -> & Sy)|destruct (IH g T) as (y & -> & Sy)].
    - exists (r :: y). split; [reflexivity|]. apply sel_yes; [now apply H|exact Sy].
    - exists y. split; [reflexivity|]. apply sel_no; [|exact Sy]. intros C. apply Pm. now apply H.
  Qed.

  Lemma equal_points (g g' : list M) cb : Forall2 equal_matches g g' -> points sc_score cb g = points sc_score cb g'.
  Proof. exact (Rescore.sim_points equal_hyps sc_score sc_score (fun x y => f32_eq x y = true) Runs.eq_tie Runs.equal_score eq_refl g g' cb). Qed.

  Lemma plain_sub (P : M -> Prop) F F1 : selects P F F1 -> plain F -> plain F1.
  Proof. intros Sf Pl m I. apply Pl. now apply (Grouping.selects_in _ _ _ Sf) in I. Qed.

  (** The statistics with the reference and without. *)
  Lemma one_more_values crit f refs refs' r hyps (ms log : list M) gs ms' log' gs' cb i t : one_more r refs refs' -> ~ In r refs ->
    (forall h, In h hyps -> ~ acceptable scorer r h) -> (forall h, In h hyps -> is_finite (sc_score h) = true) ->
    (cb = true -> Z.of_nat (List.length refs' + List.length hyps) <= 2 ^ 24)%Z ->
    eval crit f refs hyps ms log gs -> eval crit f refs' hyps ms' log' gs' ->
    let n := List.length (refs_of ms) in
    (kept f (rq r) -> ap cb i t ms' * INR (Datatypes.S n) = ap cb i t ms * INR n /\ gain cb ms' * ideal (Datatypes.S n) = gain cb ms * ideal n) /\
    ap cb i t ms' <= ap cb i t ms /\ gain cb ms' <= gain cb ms /\
    average (A := RArith) (map (ap cb i t) gs') <= average (A := RArith) (map (ap cb i t) gs) /\
    average (A := RArith) (map (gain cb) gs') <= average (A := RArith) (map (gain cb) gs).
  Proof.
    intros O Nr Na Fi Ln Ev Ev' n.
    destruct (evaluation_drop crit f refs refs' r hyps ms' log' gs' O Nr Na Fi Ev') as (F & x & x' & gs0 & Pl & Rf & -> & Ev0 & Lf & C).
    assert (Em := Added.evaluation_same ce He cr Hr rq hq S R HS scorer HR Hsc _ _ _ _ _ _ _ _ _ _ Fi Ev0 Ev).
    destruct (Parts.evaluation_keys (c_lt ce) cr Hr rq hq S R HS scorer Lo _ _ _ _ _ _ _ Ev) as (keys & Nk & Fk & Hm & Ik).
    destruct (Parts.evaluation_keys (c_lt ce) cr Hr rq hq S R HS scorer Lo _ _ _ _ _ _ _ Ev') as (keys' & Nk' & Fk' & Hm' & Ik').
    assert (Kk : incl keys keys').
    { intros k I. apply Ik'. apply Ik in I as (q & A1 & A2 & A3). exists q. split; [auto|]. split; [auto|]. destruct A3 as [(y & J & A3)|A3]; [|auto].
      left. exists y. split; [|auto]. destruct O as (a & b & -> & ->). apply in_app_or in J as [J|J]; apply in_or_app; simpl; auto. }
    assert (Lx : (cb = true -> Z.of_nat (List.length F + List.length x') <= 2 ^ 24)%Z).
    { intros Cb. specialize (Ln Cb). enough (List.length x' <= List.length refs')%nat by lia.
      destruct (Evaluation.eval_refs (c_lt ce) cr Hr rq hq S R HS scorer _ _ _ _ _ _ _ Ev') as [N1 N2].
      rewrite Matching.refs_app, Matching.refs_fn in N1, N2. apply NoDup_incl_length; [clear - N1; revert N1; generalize (refs_of F); intros u; induction u as [|z u IH]; [auto|]; intros N1; inversion N1; auto|].
      intros y I. apply N2, in_or_app. now right. }
    assert (Lxx : (List.length x <= List.length x')%nat).
    { destruct C as [(_ & a & b & -> & ->)|(_ & ->)]; [|auto]. rewrite !app_length. cbn [List.length]. lia. }
    (* any part *)
    assert (Hp : forall P g g', (forall q, kept f q -> P q \/ ~ P q) -> selects (Parts.about rq hq P) ms g ->
      selects (Parts.about rq hq P) (F ++ map make_fn x') g' ->
      exists F1 y y', plain F1 /\ (forall c, points sc_score c g = points sc_score c (F1 ++ map make_fn y)) /\ g' = F1 ++ map make_fn y' /\
        (cb = true -> Z.of_nat (List.length F1 + List.length y') <= 2 ^ 24)%Z /\ (y' = y \/ List.length y' = Datatypes.S (List.length y))).
    { intros P g g' DP Sg Sg'. destruct (Parts.selects_split _ _ _ _ Sg') as (F1 & k & -> & SF & Sk).
      assert (Hq : forall z : RE, Parts.about rq hq P (make_fn z : M) <-> P (rq z)).
      { intros z. split; [intros (q & -> & H); exact H|intros H; exists (rq z); split; [reflexivity|exact H]]. }
      destruct (selects_tail _ _ _ _ Hq Sk) as (y' & -> & Sy').
      assert (exists y, selects (fun z => P (rq z)) x y /\ (y' = y \/ List.length y' = Datatypes.S (List.length y))) as (y & Sy & Cy).
      { destruct C as [(_ & a & b & -> & ->)|(_ & ->)]; [|exists y'; auto].
        destruct (Parts.selects_split _ _ _ _ Sy') as (a1 & rb & -> & Sa & Sb). inversion Sb as [|? ? b1 Pr Sb1|? ? b1 Pr Sb1]; subst.
        - exists (a1 ++ b1). split; [now apply Added.selects_app|]. right. rewrite !app_length. cbn [List.length]. lia.
        - exists (a1 ++ rb). split; [now apply Added.selects_app|]. now left. }
      exists F1, y, y'. split; [exact (plain_sub _ _ _ SF Pl)|]. split; [|split; [reflexivity|split; [|exact Cy]]].
      - intros c. symmetry. apply equal_points. apply (Added.selects_equal rq hq P _ _ Em); [|exact Sg].
        apply Added.selects_app; [exact SF|]. clear - Sy Hq. induction Sy as [|z l s Pz Sy IH|z l s Pz Sy IH]; [constructor| |]; cbn [map].
        + apply sel_yes; [now apply Hq|exact IH].
        + apply sel_no; [|exact IH]. intros K. apply Pz. now apply Hq.
      - intros Cb. specialize (Lx Cb). assert (K := Lifted.selects_length _ _ _ SF). assert (K' := Lifted.selects_length _ _ _ Sy'). lia. }
    assert (Hv : forall P g g', (forall q, kept f q -> P q \/ ~ P q) -> selects (Parts.about rq hq P) ms g ->
      selects (Parts.about rq hq P) (F ++ map make_fn x') g' -> ap cb i t g' <= ap cb i t g /\ gain cb g' <= gain cb g /\ 0 <= ap cb i t g /\ 0 <= gain cb g).
    { intros P g g' DP Sg Sg'. destruct (Hp P g g' DP Sg Sg') as (F1 & y & y' & P1 & Ep & -> & L1 & Cy).
      unfold ap at 2 3, gain at 2 3. rewrite (Ep cb). fold (ap cb i t (F1 ++ map make_fn y)) (gain cb (F1 ++ map make_fn y)).
      assert (Ly : (List.length y <= List.length y')%nat) by (destruct Cy as [->|Cy]; lia).
      destruct (tail_nonneg cb i t F1 y P1 ltac:(intros Cb; specialize (L1 Cb); lia)) as [N1 N2].
      destruct Cy as [->|Cy]; [repeat split; auto; apply Rle_refl|]. destruct (tail_more cb i t F1 y y' P1 L1 Cy) as (_ & _ & A1 & A2). auto. }
    assert (Ha : forall l : list M, (forall m, In m l -> exists k, match_group rq hq f m k) -> forall m, In m l -> Parts.about rq hq (fun _ => True) m).
    { intros l H m J. destruct (H m J) as (k & q & A & _). exists q. auto. }
    assert (Sa := selects_all _ _ (Ha ms (fun m J => let (k, Hk) := Hm m J in ex_intro _ k (proj2 Hk)))).
    assert (Sa' := selects_all _ _ (Ha _ (fun m J => let (k, Hk) := Hm' m J in ex_intro _ k (proj2 Hk)))).
    destruct (Hv (fun _ => True) _ _ (fun _ _ => or_introl Logic.I) Sa Sa') as (G1 & G2 & _).
    assert (Hk : forall k g g', selects (fun m => match_group rq hq f m k) ms g -> selects (fun m => match_group rq hq f m k) (F ++ map make_fn x') g' ->
      ap cb i t g' <= ap cb i t g /\ gain cb g' <= gain cb g /\ 0 <= ap cb i t g /\ 0 <= gain cb g).
    { intros k g g' Sg Sg'. exact (Hv (fun q => group_is f q k) g g' (Raised.group_dec f k) Sg Sg'). }
    assert (Hex : forall k, exists g', selects (fun m => match_group rq hq f m k) (F ++ map make_fn x') g').
    { intros k. apply Parts.selects_exists. intros m J. destruct (Hm' m J) as (k' & _ & Gm). destruct (Parts.bytes_dec k k') as [->|D]; [now left|right].
      intros C'. apply D. exact (Evaluation.match_group_fun rq hq f m k k' C' Gm). }
    assert (Hn : forall k g', ~ In k keys -> selects (fun m => match_group rq hq f m k) (F ++ map make_fn x') g' -> ap cb i t g' <= 0 /\ gain cb g' <= 0).
    { intros k g' J Sg'. assert (Sg : selects (fun m => match_group rq hq f m k) ms []).
      { apply Grouping.selects_none. intros m Im Gm. destruct (Hm m Im) as (k' & I' & Gm'). apply J.
        now rewrite (Evaluation.match_group_fun rq hq f m k k' Gm Gm'). }
      destruct (Hk k [] g' Sg Sg') as (A & B & _).
      assert (ap cb i t ([] : list M) = 0) as E1 by (unfold ap, value, curve; destruct cb; cbn; destruct i; reflexivity).
      assert (gain cb ([] : list M) = 0) as E2 by (destruct cb; reflexivity). rewrite E1 in A. rewrite E2 in B. auto. }
    split; [|split; [exact G1|split; [exact G2|split]]].
    - intros Kr. destruct C as [(_ & a & b & -> & ->)|(C & _)]; [|contradiction].
      assert (Pt : points sc_score cb ms = points sc_score cb (F ++ map make_fn (a ++ b))) by (symmetry; now apply equal_points).
      destruct (tail_more cb i t F (a ++ b) (a ++ r :: b) Pl Lx ltac:(rewrite !app_length; cbn [List.length]; lia)) as (A1 & A2 & _).
      assert (En : Metrics.refs (F ++ map make_fn (a ++ b)) = n).
      { unfold n. transitivity (List.length (refs_of (F ++ map make_fn (a ++ b)))).
        - unfold Metrics.refs. rewrite Matching.total_app. change (total (fun m : M => me_nr (m_err m)) F) with (Metrics.refs F).
          rewrite Rf, Matching.refs_app, app_length, Matching.refs_fn. f_equal. clear. induction (a ++ b) as [|z l IH]; [reflexivity|]. cbn [map List.length].
          change (total (fun m : M => me_nr (m_err m)) (make_fn z :: map make_fn l)) with (Datatypes.S (total (fun m : M => me_nr (m_err m)) (map make_fn l))). now rewrite IH.
        - clear - Em. induction Em as [|m m' l l' (E1 & _) Fm IH]; [reflexivity|]. unfold refs_of in *. cbn [flat_map]. rewrite E1, !app_length, IH. reflexivity. }
      rewrite En in *. unfold ap at 2, gain at 2. rewrite Pt. auto.
    - apply (Added.means_dilute Parts.bytes_dec _ _ (ap cb i t) (ap cb i t) keys keys' gs gs' Nk Nk' Kk Fk Fk').
      + intros k g g' _ Sg Sg'. now apply (Hk k).
      + intros k g' _ J Sg'. now apply (Hn k).
      + intros k g _ Sg. destruct (Hex k) as [g' Sg']. now apply (Hk k g g').
    - apply (Added.means_dilute Parts.bytes_dec _ _ (gain cb) (gain cb) keys keys' gs gs' Nk Nk' Kk Fk Fk').
      + intros k g g' _ Sg Sg'. now apply (Hk k).
      + intros k g' _ J Sg'. now apply (Hn k).
      + intros k g _ Sg. destruct (Hex k) as [g' Sg']. now apply (Hk k g g').
  Qed.
End Drop.

(** ** The searches *)

Lemma box_drop refs refs' r (h : scored shaped) l' : (forall x, In x refs <-> In x refs' /\ x <> r) -> box_search cmp_str refs' h l' ->
  exists l, box_search cmp_str refs h l /\ selects (fun x => x <> r) l' l.
Proof.
  intros Eq (N & K & So).
  destruct (Parts.selects_exists (fun x => x <> r) l') as [l Sl].
  { intros x _. destruct (Added.ref_dec cmp_shaped Order.total_order_shaped x r); auto. }
  exists l. split; [|exact Sl]. assert (In' := Grouping.selects_in _ _ _ Sl). split; [|split].
  - clear - N Sl. induction Sl as [|x l s Px Sl IH|x l s Px Sl IH]; inversion N as [|? ? N1 N2]; subst; auto. constructor; auto.
    intros I. apply N1. now apply (Grouping.selects_in _ _ _ Sl) in I.
  - intros x. rewrite In', K, Eq. tauto.
  - exact (Ties.selects_sorted _ _ _ _ Sl So).
Qed.

Lemma exact_drop {E} refs refs' r (h : scored E) l' : (forall x y : E, {x = y} + {x <> y}) -> (forall x, In x refs <-> In x refs' /\ x <> r) -> exact_search refs' h l' ->
  exists l, exact_search refs h l /\ selects (fun x => x <> r) l' l.
Proof.
  intros Dec Eq [[I ->]|[N ->]].
  - destruct (Dec (sc_base h) r) as [C|C].
    + exists []. split; [right; split; [|reflexivity]; rewrite Eq; tauto|]. apply sel_no; [auto|constructor].
    + exists [sc_base h]. split; [left; split; [rewrite Eq; auto|reflexivity]|]. apply sel_yes; [auto|constructor].
  - exists []. split; [right; split; [rewrite Eq; tauto|reflexivity]|constructor].
Qed.

(** ** The runs *)

Lemma global_value {RE E} (g : list (match_t RE (scored E))) cb i t : global_ap RArith sc_score g cb i t = Ok (ap cb i t g).
Proof. apply value_ok. Qed.

Section Values.
  Variable srt : sort_fn.

  Lemma reported_values {RE E} w c (ms log : list (match_t RE (scored E))) gs l r : Instances.reported RTrans srt w c ms log gs l r ->
    prints (A := RArith) l (ap (cf_collapse c) (cf_interp c) (cf_trapezoid c) ms)
      (average (A := RArith) (map (ap (cf_collapse c) (cf_interp c) (cf_trapezoid c)) gs))
      (gain (cf_collapse c) ms) (average (A := RArith) (map (gain (cf_collapse c)) gs)).
  Proof.
    intros Rp. destruct (Parts.reported_prints RTrans srt _ _ _ _ _ _ _ Rp) as (v1 & v2 & v4 & Pr & H1 & H2 & H4).
    rewrite global_value in H1. injection H1 as <-. apply Parts.mean_ndcg_average in H4. subst v4.
    rewrite (Parts.mean_ap_average (A := RArith) sc_score srt gs _ _ _ _ (map (ap (cf_collapse c) (cf_interp c) (cf_trapezoid c)) gs) H2) in Pr; [exact Pr|].
    clear. induction gs as [|g gs IH]; constructor; [apply global_value|exact IH].
  Qed.
End Values.

Lemma same_length {X} (l l' : list X) : NoDup l -> NoDup l' -> (forall x, In x l <-> In x l') -> List.length l = List.length l'.
Proof. intros N N' H. apply Permutation_length. now apply NoDup_Permutation. Qed.

Section Tools.
  Variables (srt : sort_fn) (Hs : sort_contract srt).
  Variables (rngs : Z -> rng) (show_int : Z -> bytes) (show_f64 : f64 -> bytes).
  Notation icdar := (icdar17 RArith RTrans srt rngs show_int show_f64).
  Notation simple := (simple_kws RArith RTrans srt rngs show_int show_f64).

  Lemma icdar_unfound w w' pn args c refs refs' hyps f r : command args c -> no_bootstrap c ->
    inputs shaped_text scored_shaped_text w c refs hyps f -> inputs shaped_text scored_shaped_text w' c refs' hyps f ->
    one_more r refs refs' -> ~ In r refs -> (forall h, In h hyps -> Scorers.rejected (ioh_scorer cmp_str f32_half r (sc_base h))) ->
    (cf_collapse c = true -> Z.of_nat (List.length refs' + List.length hyps) <= 2 ^ 24)%Z ->
    exists gap vap gndcg vndcg gap' vap' gndcg' vndcg' : R,
      prints (A := RArith) (fst (icdar w pn args)) gap vap gndcg vndcg /\
      prints (A := RArith) (fst (icdar w' pn args)) gap' vap' gndcg' vndcg' /\
      dilutes f refs r gap vap gndcg vndcg gap' vap' gndcg' vndcg'.
  Proof.
    intros Cm NB I I' O Nr Rj Ln.
    destruct (icdar w pn args) as [l e] eqn:Et. destruct (icdar w' pn args) as [l' e'] eqn:Et'. cbn [fst].
    destruct (Instances.icdar_run RTrans srt Hs rngs show_int show_f64 w pn args c refs _ f l e Cm NB I Et) as (ms & log & gs & Fi & Ev & Rp).
    destruct (Instances.icdar_run RTrans srt Hs rngs show_int show_f64 w' pn args c refs' _ f l' e' Cm NB I' Et') as (ms' & log' & gs' & _ & Ev' & Rp').
    do 8 eexists. split; [exact (reported_values srt _ _ _ _ _ _ _ Rp)|]. split; [exact (reported_values srt _ _ _ _ _ _ _ Rp')|].
    assert (Ho : forall h, In h hyps -> ~ acceptable (fun r h => ioh_scorer cmp_str f32_half r (sc_base h)) r h).
    { intros h Ih A. unfold acceptable in A. assert (K := f_equal (fun e => f32_lt (me_fp e) f32_1) (Rj h Ih)). discriminate (eq_trans (eq_sym A) K). }
    destruct (one_more_values cmp_shaped Order.total_order_shaped cmp_shaped Order.total_order_shaped ev_query ev_query
      (evset_docbox srt cmp_str) (box_search cmp_str) (Matching.finds_docbox srt cmp_str Hs Order.total_order_str)
      (fun r h => ioh_scorer cmp_str f32_half r (sc_base h)) Runs.box_search_base
      (fun r h h' B => f_equal (fun x => ioh_scorer cmp_str f32_half r x) B) (Parts.box_local cmp_str)
      (fun r h A => proj1 (Added.ioh_acceptable r h) A) box_drop
      _ _ _ _ _ _ _ _ _ _ _ _ (cf_collapse c) (cf_interp c) (cf_trapezoid c) O Nr Ho Fi Ln Ev Ev') as (A1 & A2 & A3 & A4 & A5).
    split; [auto|]. intros Kr q Nq Iq.
    destruct (Evaluation.eval_refs _ cmp_shaped Order.total_order_shaped ev_query ev_query (evset_docbox srt cmp_str) (box_search cmp_str)
      (Matching.finds_docbox srt cmp_str Hs Order.total_order_str) _ _ _ _ _ _ _ _ Ev) as [N1 N2].
    rewrite (same_length q (refs_of ms) Nq N1) by (intros x; rewrite Iq, N2; reflexivity). exact (A1 Kr).
  Qed.

  Lemma simple_unfound qf w w' pn args c refs refs' hyps f r : command args c -> no_bootstrap c -> cf_collapse c = true ->
    cf_sort c = lit "desc" \/ cf_sort c = lit "asc" ->
    inputs str_event_text scored_str_event_text w c refs hyps f -> inputs str_event_text scored_str_event_text w' c refs' hyps f ->
    (Z.of_nat (strings refs' hyps f) <= 2147483648)%Z -> one_more r refs refs' -> ~ In r refs -> ~ In r (map sc_base hyps) ->
    (Z.of_nat (List.length refs' + List.length hyps) <= 2 ^ 24)%Z ->
    exists gap vap gndcg vndcg gap' vap' gndcg' vndcg' : R,
      prints (A := RArith) (fst (simple qf w pn args)) gap vap gndcg vndcg /\
      prints (A := RArith) (fst (simple qf w' pn args)) gap' vap' gndcg' vndcg' /\
      dilutes f refs r gap vap gndcg vndcg gap' vap' gndcg' vndcg'.
  Proof.
    intros Cm NB Cc Cs I I' Ls' O Nr Nh Ln.
    assert (Ls : (Z.of_nat (strings refs hyps f) <= 2147483648)%Z).
    { destruct O as (a & b & -> & ->). revert Ls'. unfold strings. rewrite !app_length. cbn [List.length]. lia. }
    destruct (simple qf w pn args) as [l e] eqn:Et. rewrite Instances.simple_tool in Et.
    destruct (simple qf w' pn args) as [l' e'] eqn:Et'. rewrite Instances.simple_tool in Et'. cbn [fst].
    destruct (Instances.simple_run RTrans srt Hs rngs show_int show_f64 w qf pn args c refs hyps f l e Cm NB I Et Ls) as (id & ms & log & gs & Inj & Fi & Ev & Rp).
    destruct (Instances.simple_run RTrans srt Hs rngs show_int show_f64 w' qf pn args c refs' hyps f l' e' Cm NB I' Et' Ls') as (id' & ms' & log' & gs' & Inj' & _ & Ev' & Rp').
    assert (Pr := reported_values srt _ _ _ _ _ _ _ Rp). assert (Pr' := reported_values srt _ _ _ _ _ _ _ Rp').
    do 8 eexists. split; [exact Pr|]. split; [exact Pr'|]. clear Pr Pr' Rp Rp'. rewrite Cc in *.
    assert (Ho : forall h, In h hyps -> ~ acceptable (fun r h => trivial_scorer cmp_str cmp_str r (sc_base h)) r h).
    { intros h Ih A. apply Added.trivial_acceptable in A. apply Nh. subst r. now apply in_map. }
    assert (Hac : forall r (h : scored (event bytes bytes)), acceptable (fun r h => trivial_scorer cmp_str cmp_str r (sc_base h)) r h ->
      trivial_scorer cmp_str cmp_str r (sc_base h) = hit_error).
    { intros x h A. apply Added.trivial_acceptable in A. subst x. apply Added.trivial_same. }
    assert (Hdrop : forall refs refs' r (h : scored (event bytes bytes)) l', (forall x, In x refs <-> In x refs' /\ x <> r) -> exact_search refs' h l' ->
      exists l, exact_search refs h l /\ selects (fun x => x <> r) l' l).
    { intros. eapply exact_drop; eauto. apply Ties.event_dec. }
    destruct (evaluation_drop (Results.by_id id') (Results.by_id id') (Results.by_id_total id' Inj') ev_query ev_query
      exact_search (fun r h => trivial_scorer cmp_str cmp_str r (sc_base h)) Hac Hdrop _ _ _ _ _ _ _ _ _ O Nr Ho Fi Ev')
      as (F & x & x' & gs0 & _ & _ & _ & Ev0 & _).
    destruct (one_more_values (Results.by_id id') (Results.by_id_total id' Inj') (Results.by_id id') (Results.by_id_total id' Inj') ev_query ev_query
      (evset_generic (Results.by_id id')) exact_search (Matching.finds_generic _ (Results.by_id_total id' Inj'))
      (fun r h => trivial_scorer cmp_str cmp_str r (sc_base h)) Parts.exact_base
      (fun r h h' B => f_equal (fun x => trivial_scorer cmp_str cmp_str r x) B) Parts.exact_local Hac Hdrop
      _ _ _ _ _ _ _ _ _ _ _ _ true (cf_interp c) (cf_trapezoid c) O Nr Ho Fi (fun _ => Ln) Ev0 Ev') as (A1 & A2 & A3 & A4 & A5).
    destruct (Ties.evaluations_ties id id' _ _ refs refs _ hyps ms log gs _ _ gs0 Cs Inj Inj' (fun x => iff_refl _) (Permutation_refl _) Fi Ev Ev0)
      as (Sp & gp & Pg & Fg).
    assert (E1 : forall i t (g : list (match_t (event bytes bytes) (scored (event bytes bytes)))), ap true i t (map (renamed_match id) g) = ap true i t g).
    { intros i t g. unfold ap. now rewrite Ties.points_names. }
    assert (E1' : forall i t (g : list (match_t (event bytes bytes) (scored (event bytes bytes)))), ap true i t (map (renamed_match id') g) = ap true i t g).
    { intros i t g. unfold ap. now rewrite Ties.points_names. }
    assert (E2 : forall g : list (match_t (event bytes bytes) (scored (event bytes bytes))), gain true (map (renamed_match id) g) = gain true g).
    { intros g. unfold gain. now rewrite Ties.points_names. }
    assert (E2' : forall g : list (match_t (event bytes bytes) (scored (event bytes bytes))), gain true (map (renamed_match id') g) = gain true g).
    { intros g. unfold gain. now rewrite Ties.points_names. }
    assert (Av : forall v : list counts -> R, average (A := RArith) (map (fun g => v (points sc_score true g)) gs) = average (A := RArith) (map (fun g => v (points sc_score true g)) gs0)).
    { intros v. rewrite (Raised.average_perm _ _ (Permutation_map (fun g => v (points sc_score true g)) Pg)). f_equal.
      clear - Fg. induction Fg as [|g g' gp gs0 E F IH]; [reflexivity|]. cbn [map]. rewrite E. f_equal. exact IH. }
    unfold dilutes. rewrite !map_map, E1, E1', E2, E2', (map_ext _ _ (E1 _ _)), (map_ext _ _ (E1' _ _)), (map_ext _ _ E2), (map_ext _ _ E2').
    assert (B1 : ap true (cf_interp c) (cf_trapezoid c) ms = ap true (cf_interp c) (cf_trapezoid c) (F ++ map make_fn x)) by (unfold ap; now rewrite Sp).
    assert (B2 : gain true ms = gain true (F ++ map make_fn x)) by (unfold gain; now rewrite Sp).
    rewrite B1, B2. rewrite (Av (value (cf_interp c) (cf_trapezoid c)) : average (A := RArith) (map (ap true (cf_interp c) (cf_trapezoid c)) gs) = _).
    rewrite (Av (ndcg RArith RTrans) : average (A := RArith) (map (gain true) gs) = _).
    split; [auto|]. intros Kr q Nq Iq.
    destruct (Evaluation.eval_refs _ (Results.by_id id') (Results.by_id_total id' Inj') ev_query ev_query (evset_generic (Results.by_id id')) exact_search
      (Matching.finds_generic _ (Results.by_id_total id' Inj')) _ _ _ _ _ _ _ _ Ev0) as [N1 N2].
    rewrite (same_length q (refs_of (F ++ map make_fn x)) Nq N1) by (intros y; rewrite Iq, N2; reflexivity). exact (A1 Kr).
  Qed.
End Tools.
