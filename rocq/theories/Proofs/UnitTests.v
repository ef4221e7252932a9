(** The project's unit tests (/repo/*/*Test.cc), run in the model.

    Each example below is one TEST of the C++ code: the same inputs, and the
    values the test expects.  They check the model, not the program: a
    definition that disagrees with what the authors expect of their code would
    fail here.  Two kinds of tests are left out: those that only construct
    objects, and those of streams of mock locations. *)
From Coq Require Import Ascii String.
From Coq Require Import List Bool ZArith Reals Lra Lia.
From Flocq Require Import Core BinarySingleNaN.
From Verif.Model Require Import Cpp Floats Box Events EventSets Matches Matcher Scorers
  Assessment Mapper Stream Reader Output Options Text.
Import ListNotations.
Local Open Scope Z_scope.

(** ** /repo/core/BoundingBoxTest.cc *)

(** The comparisons of TEST(BoundingBoxTest, Comparison), lines 37-49. *)
Example box_comparison_test :
  let b1 := Box 1 2 3 4 in
  let b2 := Box 1 2 3 5 in
  [box_ne b1 b2; box_eq b2 b2; box_lt b1 b2; box_gt b2 b1; box_le b1 b2; box_le b2 b2;
   box_ge b2 b1; box_ge b2 b2] = repeat true 8.
Proof. reflexivity. Qed.

(** TEST(BoundingBoxTest, Constructor), lines 7-36, and the signed half of
    TEST(BoundingBoxTest, Geometry), lines 53-76. *)
Example box_geometry_int_test :
  let b0 := Box 4 4 0 0 in
  let b1 := Box 0 1 4 5 in
  let b3 := Box 99 99 99 99 in
  let b4 := Box (-1) 0 3 4 in
  box_area_ty ty_i32 (Box 1 2 3 4) = Ok 12
  /\ map (box_inter_ty ty_i32 b1) [b0; b1; b3; b4] = map Ok [0; 20; 0; 6]
  /\ map (box_union_ty ty_i32 b1) [b0; b1; b3; b4] = map Ok [20; 20; 20 + 99 * 99; 20 + 6].
Proof. repeat split. Qed.

(** The unsigned half, lines 78-101. *)
Example box_geometry_uint_test :
  let b0 := Box 4 4 0 0 in
  let b1 := Box 0 1 4 5 in
  let b3 := Box 99 99 99 99 in
  let b4 := Box 2 3 3 4 in
  map (box_inter b1) [b0; b1; b3; b4] = [0; 20; 0; 6]
  /\ map (box_union b1) [b0; b1; b3; b4] = [20; 20; 20 + 99 * 99; 20 + 6].
Proof. repeat split. Qed.

(** TEST(BoundingBoxTest, Streams), lines 104-115. *)
Example box_streams_test :
  write_box (Box 1 2 3 4) = lit "1 2 3 4"
  /\ fst (read_box (open_stream (lit "1 2 3 4"))) = Box 1 2 3 4.
Proof. split; reflexivity. Qed.

(** ** /repo/core/DocumentBoundingBoxTest.cc *)

(** A document box. *)
Definition dbox (d : string) (x y w h : Z) : docbox := DocBox (lit d) (Box x y w h).

(** TEST(DocumentBoundingBoxTest, Comparison), lines 41-56. *)
Example docbox_comparison_test :
  let b1 := dbox "doc1" 1 2 3 4 in
  let b2 := dbox "doc1" 1 2 3 5 in
  let b4 := dbox "doc2" 1 2 3 4 in
  [docbox_ne b1 b2; docbox_eq b2 b2; docbox_lt b1 b2; docbox_gt b2 b1; docbox_le b1 b2;
   docbox_le b2 b2; docbox_ge b2 b1; docbox_ge b2 b2; docbox_ne b1 b4; docbox_lt b1 b4;
   docbox_gt b4 b1] = repeat true 11.
Proof. reflexivity. Qed.

(** The unsigned half of TEST(DocumentBoundingBoxTest, Geometry), lines
    88-115 (the model has document boxes of uint32_t only). *)
Example docbox_geometry_test :
  let b0 := dbox "doc1" 4 4 0 0 in
  let b1 := dbox "doc1" 0 1 4 5 in
  let b3 := dbox "doc1" 99 99 99 99 in
  let b4 := dbox "doc1" 2 3 3 4 in
  let b5 := dbox "doc2" 0 1 4 5 in
  docbox_area (dbox "doc" 1 2 3 4) = 12
  /\ map (docbox_inter b1) [b0; b1; b3; b4; b5] = [0; 20; 0; 6; 0]
  /\ map (docbox_union b1) [b0; b1; b3; b4; b5] = [20; 20; 20 + 99 * 99; 20 + 6; 20 + 20].
Proof. repeat split. Qed.

(** TEST(DocumentBoundingBoxTest, Streams), lines 118-129. *)
Example docbox_streams_test :
  write_docbox (dbox "doc" 1 2 3 4) = lit "doc 1 2 3 4"
  /\ fst (read_docbox (open_stream (lit "doc 1 2 3 4"))) = dbox "doc" 1 2 3 4.
Proof. split; reflexivity. Qed.

(** ** /repo/core/EventTest.cc, /repo/core/ShapedEventTest.cc *)

(** The operators of [int]. *)
Definition cmp_int : Cmp Z := mkCmp Z.eqb (fun a b => negb (Z.eqb a b)) Z.ltb.

(** A location whose comparisons all return [b] (MockLocation with Return). *)
Definition cmp_mock (b : bool) : Cmp unit := mkCmp (fun _ _ => b) (fun _ _ => b) (fun _ _ => b).

(** TEST(EventTest, Comparisons), lines 14-63: in each list the location's
    operator first returns false, then true, and then it is not called because
    the queries differ (it is checked with both results). *)
Example event_comparisons_test :
  let e1 := Event 1 tt in
  let e4 := Event 2 tt in
  let eq b := event_eq cmp_int (cmp_mock b) in
  let ne b := event_ne cmp_int (cmp_mock b) in
  let lt b := event_lt cmp_int (cmp_mock b) in
  let gt b := event_gt cmp_int (cmp_mock b) in
  [eq true e1 e1; eq false e1 e1; eq true e1 e4; eq false e1 e4] = [true; false; false; false]
  /\ [ne false e1 e1; ne true e1 e1; ne true e1 e4; ne false e1 e4] = [false; true; true; true]
  /\ [lt false e1 e1; lt true e1 e1; lt true e1 e4; lt false e1 e4; lt false e1 e1;
      lt true e4 e1; lt false e4 e1] = [false; true; true; true; false; false; false]
  /\ [gt false e1 e1; gt true e1 e1; gt true e1 e4; gt false e1 e4; gt true e4 e1;
      gt false e4 e1; gt false e1 e1] = [false; true; false; false; true; true; false].
Proof. repeat split. Qed.

(** ** /repo/core/EventSetTest.cc *)

(** TEST(EventSetTest, Tests), lines 12-51: the sizes after each step. *)
Example event_set_test :
  let ce := cmp_event cmp_int cmp_int in
  let e1 := Event 1 1 in
  let e2 := Event 1 2 in
  let e3 := Event 2 1 in
  let ins e s := gset_insert ce e s in
  let rem e s := gset_remove ce e s in
  let s0 := gset_empty in
  let s1 := ins e1 s0 in
  let s2 := rem e2 s1 in
  let s3 := ins e1 s2 in
  let s4 := ins e2 s3 in
  let s5 := rem e1 s4 in
  let s6 := ins e2 s5 in
  let s7 := ins e3 s6 in
  let s8 := rem e3 s7 in
  let s9 := ins e2 s8 in
  map gset_size [s0; s1; s2; s3; s4; s5; s6; s7; s8; s9; gset_clear s9]
  = [0; 1; 1; 1; 2; 1; 1; 2; 1; 1; 0]%nat.
Proof. reflexivity. Qed.

(** ** /repo/core/DocumentBoundingBoxEventSetTest.cc *)

(** Sizes after each of a list of steps. *)
Fixpoint dset_sizes (steps : list (dset Z -> outcome (dset Z))) (s : dset Z)
  : list (outcome Z) :=
  dset_size s ::
  match steps with
  | [] => []
  | f :: rest => match f s with Ok s' => dset_sizes rest s' | _ => [] end
  end.

(** TEST(DocumentBoundingBoxEventSetTest, Tests), lines 12-52. *)
Example docbox_event_set_test :
  let e1 := Event 1 (dbox "d1" 1 1 1 1) in
  let e2 := Event 1 (dbox "d1" 2 2 2 2) in
  let e3 := Event 1 (dbox "d2" 2 2 2 2) in
  let e4 := Event 2 (dbox "d1" 2 2 2 2) in
  let ins := dset_insert cmp_int in
  let rem := dset_remove cmp_int in
  dset_sizes [ins e1; rem e2; ins e1; ins e2; rem e1; ins e2; ins e3; ins e4; rem e3; ins e2;
              ins e4; fun s => Ok (dset_clear s)] dset_empty
  = map Ok [0; 1; 1; 1; 2; 1; 1; 2; 3; 2; 2; 2; 0].
Proof. vm_compute. reflexivity. Qed.

(** ** /repo/scorer/*Test.cc *)

(** The float nearest to [m * 10^e]. *)
Definition dec32 (m e : Z) : f32 := of_decimal 24 128 false m e.

(** Boxes one unit high, on one line of one page: [strip x w] has area [w]
    (the tests mock the areas; these boxes have them). *)
Definition strip (x w : Z) : event Z docbox := Event 1 (dbox "d" x 0 w 1).

(** TEST(IntersectionOverHypothesisAreaScorerTest, All): the reference and
    hypothesis areas and their intersection are, in order, 0 0 0, 10 0 0, 0 10 0,
    10 10 0, 10 10 3, 10 10 5 and 10 10 10. *)
Example ioh_scorer_test :
  let sc r h := ioh_scorer cmp_int f32_half r h in
  map (fun rh => me_eq (sc (fst rh) (snd rh)) (MatchError f32_1 f32_1))
    [(strip 0 0, strip 0 0); (strip 0 10, strip 0 0); (strip 0 0, strip 0 10);
     (strip 0 10, strip 20 10); (strip 0 10, strip 7 10)] = repeat true 5
  /\ map (fun rh => me_eq (sc (fst rh) (snd rh)) (MatchError f32_0 f32_0))
    [(strip 0 10, strip 5 10); (strip 0 10, strip 0 10)] = repeat true 2.
Proof. split; vm_compute; reflexivity. Qed.

(** TEST(IntersectionOverUnionAreaScorerTest, All): areas and intersection
    0 0 0, 10 0 0, 0 10 0, 10 10 0, 10 10 3, 12 12 8, 10 10 8. *)
Example iou_scorer_test :
  let sc r h := iou_scorer cmp_int f32_half r h in
  map (fun rh => me_eq (sc (fst rh) (snd rh)) (MatchError f32_1 f32_1))
    [(strip 0 0, strip 0 0); (strip 0 10, strip 0 0); (strip 0 0, strip 0 10);
     (strip 0 10, strip 20 10); (strip 0 10, strip 7 10)] = repeat true 5
  /\ map (fun rh => me_eq (sc (fst rh) (snd rh)) (MatchError f32_0 f32_0))
    [(strip 0 12, strip 4 12); (strip 0 10, strip 2 10)] = repeat true 2.
Proof. split; vm_compute; reflexivity. Qed.

(** |a - b| < 10^-6 (the tests allow four units in the last place of a
    float, which is at most that for numbers below 2). *)
Definition near (a b : f64) : bool :=
  Bltb (Babs (f64_sub a b)) (of_decimal 53 1024 false 1 (-6)).

(** [n / d] as a double. *)
Definition ratio (n d : Z) : f64 := f64_div (f64_of_Z n) (f64_of_Z d).

(** An error close to the fractions given. *)
Definition err_near (e : match_error) (fp fn : f64) : bool :=
  near (f64_of_f32 (me_fp e)) fp && near (f64_of_f32 (me_fn e)) fn.

(** TEST(SoftIntersectionOverHypothesisAreaScorerTest, All): reference and
    hypothesis area and intersection 0 0 0, 10 0 0, 0 10 0, 5 5 0, 10 10 10,
    10 12 10, 12 10 10 and 8 6 4. *)
Example soft_scorer_test :
  let sc r h := soft_scorer cmp_int r h in
  map (fun rh => me_eq (sc (fst rh) (snd rh)) (MatchError f32_1 f32_1))
    [(strip 0 0, strip 0 0); (strip 0 10, strip 0 0); (strip 0 0, strip 0 10);
     (strip 0 5, strip 20 5)] = repeat true 4
  /\ me_eq (sc (strip 0 10) (strip 0 10)) (MatchError f32_0 f32_0) = true
  /\ err_near (sc (strip 0 10) (strip 0 12)) (ratio 2 12) (ratio 0 1) = true
  /\ err_near (sc (strip 0 12) (strip 0 10)) (ratio 0 1) (ratio 2 12) = true
  /\ err_near (sc (strip 0 8) (strip 4 6)) (ratio 2 6) (ratio 4 8) = true.
Proof. repeat split; vm_compute; reflexivity. Qed.

(** ** /repo/core/AssessmentTest.cc *)

(** Events with a dummy location, /repo/core/DummyLocation.h:11-55, which is
    an [int]; [RefEvent()] and [HypEvent(score)] of the tests. *)
Definition ref0 : event Z Z := Event 0 0.
Definition hyp_at (m e : Z) : scored (event Z Z) := Scored ref0 (dec32 m e).

(** TEST(AssessmentTest, CollapseMatches), lines 31-70. *)
Example collapse_matches_test :
  let col := collapse_matches (RE := event Z Z) (@sc_score (event Z Z)) in
  let same a b := forallb (fun p => counts_eq (fst p) (snd p)) (combine a b)
                  && Nat.eqb (length a) (length b) in
  col [] = []
  /\ same (col (repeat (make_fn ref0) 4)) [Counts (dec32 0 0) (dec32 4 0) 0 4] = true
  /\ same (col [match_pair ref0 (hyp_at 5 (-1)) (MatchError (dec32 0 0) (dec32 0 0));
                match_pair ref0 (hyp_at 5 (-1)) (MatchError (dec32 2 (-1)) (dec32 3 (-1)));
                make_fp (hyp_at 5 (-1)); make_fp (hyp_at 4 (-1)); make_fn ref0; make_fn ref0])
       [Counts (dec32 12 (-1)) (dec32 3 (-1)) 3 2; Counts (dec32 1 0) (dec32 0 0) 1 0;
        Counts (dec32 0 0) (dec32 2 0) 0 2] = true.
Proof. repeat split; vm_compute; reflexivity. Qed.

(** A list of errors given in tenths. *)
Definition tenths (l : list (Z * Z)) : list counts :=
  map (fun p => counts_of (MatchError (dec32 (fst p) (-1)) (dec32 (snd p) (-1)))) l.

(** All elements near. *)
Definition all_near (a b : list f64) : bool :=
  forallb (fun p => near (fst p) (snd p)) (combine a b) && Nat.eqb (length a) (length b).

(** TEST(AssessmentTest, ComputePrecisionAndRecall), lines 66-126, run with
    Real = double.  The tests use Real = float; see Props/P41_Single.v. *)
Example precision_recall_test :
  let pr l := precision_recall DArith (tenths l) false in
  pr [] = ([], [])
  /\ (all_near (fst (pr [(0, 10)])) [ratio 1 1] && all_near (snd (pr [(0, 10)])) [ratio 0 1])
     = true
  /\ (all_near (fst (pr [(10, 0)])) [ratio 0 1] && all_near (snd (pr [(10, 0)])) [ratio 1 1])
     = true
  /\ let l := pr [(0, 0); (2, 0); (10, 0); (0, 0); (8, 7); (0, 10)] in
     all_near (fst l) [ratio 1 1; ratio 18 20; ratio 18 30; ratio 28 40; ratio 30 50; ratio 30 50]
     = true
     /\ all_near (snd l) [ratio 1 5; ratio 2 5; ratio 2 5; ratio 3 5; ratio 33 50; ratio 33 50]
        = true.
Proof. repeat split; vm_compute; reflexivity. Qed.

(** TEST(AssessmentTest, ComputeAP), lines 133-154. *)
Example compute_ap_test :
  let ap pr rc t := match ap_curves DArith pr rc t with Ok x => x | _ => B754_nan end in
  let pr := [ratio 10 10; ratio 7 10; ratio 8 10; ratio 3 10] in
  let rc := [ratio 2 10; ratio 2 10; ratio 4 10; ratio 9 10] in
  near (ap [ratio 1 1] [ratio 1 1] false) (ratio 1 1) = true
  /\ near (ap [ratio 0 1] [ratio 0 1] false) (ratio 0 1) = true
  /\ near (ap pr rc false) (ratio (20 + 16 + 15) 100) = true
  /\ near (ap pr rc true) (ratio (200 + 150 + 275) 1000) = true.
Proof. repeat split; vm_compute; reflexivity. Qed.

Local Open Scope R_scope.

(** log2 and exp2. *)
Definition lg (x : R) : R := ln x / ln 2.
Definition ex (x : R) : R := Rpower 2 x.

(** The gain of a point, as the model computes it. *)
Definition gain (fp : f32) (nh : nat) : R :=
  B2R (f32_sub f32_1 (f32_div fp (f32_of_Z (Z.of_nat nh)))).

Lemma gain_computed fp nh s m e :
  B2SF (f32_sub f32_1 (f32_div fp (f32_of_Z (Z.of_nat nh)))) = SpecFloat.S754_finite s m e ->
  gain fp nh = F2R (Float radix2 (SpecFloat.cond_Zopp s (Zpos m)) e).
Proof. intros H. unfold gain. rewrite <- SF2R_B2SF, H. reflexivity. Qed.

Lemma gain_none fp nh s :
  B2SF (f32_sub f32_1 (f32_div fp (f32_of_Z (Z.of_nat nh)))) = SpecFloat.S754_zero s ->
  gain fp nh = 0.
Proof. intros H. unfold gain. rewrite <- SF2R_B2SF, H. reflexivity. Qed.

Lemma counts_value e nh nr : me_nh e = nh -> me_nr e = nr ->
  counts_of e = Counts (me_fp e) (me_fn e) nh nr.
Proof. intros <- <-. reflexivity. Qed.

Lemma ndcg_hit fp fn : ndcg RArith RTrans [Counts fp fn 1 1]
  = (0 + (ex (gain fp 1) - 1) / lg (INR 2)) / (0 + 1 / lg (INR 2)).
Proof. reflexivity. Qed.

Lemma ndcg_missed fp fn : ndcg RArith RTrans [Counts fp fn 0 1] = 0 / (0 + 1 / lg (INR 2)).
Proof. reflexivity. Qed.

Lemma gain_0 : gain (dec32 0 (-1)) 1 = 1.
Proof.
  rewrite (gain_computed _ _ false 8388608 (-23)) by (vm_compute; reflexivity).
  unfold F2R. cbn. lra.
Qed.

Lemma gain_02 : gain (dec32 2 (-1)) 1 = 13421773 / 16777216.
Proof.
  rewrite (gain_computed _ _ false 13421773 (-24)) by (vm_compute; reflexivity).
  unfold F2R. cbn. lra.
Qed.

Lemma gain_08 : gain (dec32 8 (-1)) 1 = 13421772 / 67108864.
Proof.
  rewrite (gain_computed _ _ false 13421772 (-26)) by (vm_compute; reflexivity).
  unfold F2R. cbn. lra.
Qed.

Lemma gain_10 : gain (dec32 10 (-1)) 1 = 0.
Proof. apply (gain_none _ _ false). vm_compute. reflexivity. Qed.

Lemma ex_0 : ex 0 = 1.
Proof. apply Rpower_O. lra. Qed.

Lemma ex_1 : ex 1 = 2.
Proof. apply Rpower_1. lra. Qed.

Lemma lg_2 : lg 2 = 1.
Proof. unfold lg. field. pose proof ln_lt_2. lra. Qed.

(** TEST(AssessmentTest, ComputeNDCG), lines 156-168, over the reals: no
    errors, a perfect hit, a missed reference. *)
Example ndcg_simple_test :
  ndcg RArith RTrans [] = 0
  /\ ndcg RArith RTrans (tenths [(0, 0)]%Z) = 1
  /\ ndcg RArith RTrans (tenths [(0, 10)]%Z) = 0.
Proof.
  split; [reflexivity|]. split.
  - cbn [tenths map fst snd]. rewrite (counts_value _ 1 1) by (vm_compute; reflexivity).
    cbn [me_fp]. rewrite ndcg_hit, gain_0, ex_1. replace (INR 2) with 2 by (simpl; lra).
    rewrite lg_2. lra.
  - cbn [tenths map fst snd]. rewrite (counts_value _ 0 1) by (vm_compute; reflexivity).
    rewrite ndcg_missed. replace (INR 2) with 2 by (simpl; lra). rewrite lg_2. lra.
Qed.

Lemma ndcg_six a1 a2 a3 a4 a5 b1 b2 b3 b4 b5 b6 c : ndcg RArith RTrans
    [Counts a1 b1 1 1; Counts a2 b2 1 1; Counts a3 b3 1 0; Counts a4 b4 1 1; Counts a5 b5 1 1;
     Counts c b6 0 1]
  = (0 + (ex (gain a1 1) - 1) / lg (INR 2) + (ex (gain a2 1) - 1) / lg (INR 3)
     + (ex (gain a3 1) - 1) / lg (INR 4) + (ex (gain a4 1) - 1) / lg (INR 5)
     + (ex (gain a5 1) - 1) / lg (INR 6))
    / (0 + 1 / lg (INR 2) + 1 / lg (INR 3) + 1 / lg (INR 4) + 1 / lg (INR 5) + 1 / lg (INR 6)).
Proof. reflexivity. Qed.

(** The generic case, lines 169-193.  The gains are those of the floats next
    to 0.8 and 0.2. *)
Example ndcg_generic_test : exists r s,
  Rabs (r - 0.8) < 0.000001 /\ Rabs (s - 0.2) < 0.000001
  /\ ndcg RArith RTrans (tenths [(0, 0); (2, 0); (10, 0); (0, 0); (8, 7); (0, 10)]%Z)
     = (1 / lg 2 + (ex r - 1) / lg 3 + 1 / lg 5 + (ex s - 1) / lg 6)
       / (1 / lg 2 + 1 / lg 3 + 1 / lg 4 + 1 / lg 5 + 1 / lg 6).
Proof.
  exists (13421773 / 16777216), (13421772 / 67108864).
  split; [apply Rabs_def1; lra|]. split; [apply Rabs_def1; lra|].
  cbn [tenths map fst snd].
  rewrite !(counts_value (MatchError (dec32 0 (-1)) (dec32 0 (-1))) 1 1) by (vm_compute; reflexivity).
  rewrite (counts_value (MatchError (dec32 2 (-1)) _) 1 1) by (vm_compute; reflexivity).
  rewrite (counts_value (MatchError (dec32 10 (-1)) _) 1 0) by (vm_compute; reflexivity).
  rewrite (counts_value (MatchError (dec32 8 (-1)) _) 1 1) by (vm_compute; reflexivity).
  rewrite (counts_value (MatchError (dec32 0 (-1)) (dec32 10 (-1))) 0 1) by (vm_compute; reflexivity).
  cbn [me_fp]. rewrite ndcg_six, gain_0, gain_02, gain_10, gain_08, ex_0, ex_1.
  replace (INR 2) with 2 by (simpl; lra). replace (INR 3) with 3 by (simpl; lra).
  replace (INR 4) with 4 by (simpl; lra). replace (INR 5) with 5 by (simpl; lra).
  replace (INR 6) with 6 by (simpl; lra).
  f_equal; unfold Rdiv; ring.
Qed.

Lemma gain_perfect nh : (0 < nh <= 4)%nat -> gain (dec32 0 0) nh = 1.
Proof.
  intros H. assert (C : (nh = 1 \/ nh = 2 \/ nh = 3 \/ nh = 4)%nat) by lia.
  destruct C as [E|[E|[E|E]]]; subst nh;
    (rewrite (gain_computed _ _ false 8388608 (-23)) by (vm_compute; reflexivity));
    unfold F2R; cbn; lra.
Qed.

Lemma ndcg_four a b : ndcg RArith RTrans [Counts a b 4 4]
  = (0 + (ex (gain a 4) - 1) / lg (INR 2) + (ex (gain a 4) - 1) / lg (INR 3)
     + (ex (gain a 4) - 1) / lg (INR 4) + (ex (gain a 4) - 1) / lg (INR 5))
    / (0 + 1 / lg (INR 2) + 1 / lg (INR 3) + 1 / lg (INR 4) + 1 / lg (INR 5)).
Proof. reflexivity. Qed.

Lemma ndcg_none a b : ndcg RArith RTrans [Counts a b 0 5]
  = 0 / (0 + 1 / lg (INR 2) + 1 / lg (INR 3) + 1 / lg (INR 4) + 1 / lg (INR 5) + 1 / lg (INR 6)).
Proof. reflexivity. Qed.

Lemma ndcg_nine a b : ndcg RArith RTrans [Counts a b 9 4]
  = (0 + (ex (gain a 9) - 1) / lg (INR 2) + (ex (gain a 9) - 1) / lg (INR 3)
     + (ex (gain a 9) - 1) / lg (INR 4) + (ex (gain a 9) - 1) / lg (INR 5)
     + (ex (gain a 9) - 1) / lg (INR 6) + (ex (gain a 9) - 1) / lg (INR 7)
     + (ex (gain a 9) - 1) / lg (INR 8) + (ex (gain a 9) - 1) / lg (INR 9)
     + (ex (gain a 9) - 1) / lg (INR 10))
    / (0 + 1 / lg (INR 2) + 1 / lg (INR 3) + 1 / lg (INR 4) + 1 / lg (INR 5)).
Proof. reflexivity. Qed.

Lemma lg_pos n : (1 < n)%nat -> 0 < 1 / lg (INR n).
Proof.
  intros H. apply Rdiv_lt_0_compat; [lra|]. unfold lg. apply Rdiv_lt_0_compat.
  - rewrite <- ln_1. apply ln_increasing; [lra|]. apply lt_1_INR. exact H.
  - pose proof ln_lt_2. lra.
Qed.

(** Collapsed points, lines 194-208: all hits, all references missed, only
    false positives. *)
Example ndcg_collapsed_test :
  ndcg RArith RTrans [Counts (dec32 0 0) (dec32 0 0) 4 4] = 1
  /\ ndcg RArith RTrans [Counts (dec32 0 0) (dec32 5 0) 0 5] = 0
  /\ ndcg RArith RTrans [Counts (dec32 9 0) (dec32 4 0) 9 4] = 0.
Proof.
  change (num RArith) with R. split; [|split].
  - rewrite ndcg_four, gain_perfect, ex_1 by lia. replace (2 - 1) with 1 by lra.
    pose proof (lg_pos 2 ltac:(lia)). pose proof (lg_pos 3 ltac:(lia)).
    pose proof (lg_pos 4 ltac:(lia)). pose proof (lg_pos 5 ltac:(lia)).
    apply Rinv_r. lra.
  - rewrite ndcg_none. unfold Rdiv. ring.
  - rewrite ndcg_nine, (gain_none (dec32 9 0) 9 false) by (vm_compute; reflexivity).
    rewrite ex_0.
    unfold Rdiv. ring.
Qed.

Lemma gain_half : gain (dec32 1 0) 2 = 0.5.
Proof.
  rewrite (gain_computed _ _ false 8388608 (-24)) by (vm_compute; reflexivity).
  unfold F2R. cbn. lra.
Qed.

Lemma gain_quarter : gain (dec32 3 0) 4 = 0.25.
Proof.
  rewrite (gain_computed _ _ false 8388608 (-25)) by (vm_compute; reflexivity).
  unfold F2R. cbn. lra.
Qed.

Lemma ndcg_three a1 a2 a3 b1 b2 b3 :
  ndcg RArith RTrans [Counts a1 b1 1 1; Counts a2 b2 2 2; Counts a3 b3 4 2]
  = (0 + (ex (gain a1 1) - 1) / lg (INR 2)
     + (ex (gain a2 2) - 1) / lg (INR 3) + (ex (gain a2 2) - 1) / lg (INR 4)
     + (ex (gain a3 4) - 1) / lg (INR 5) + (ex (gain a3 4) - 1) / lg (INR 6)
     + (ex (gain a3 4) - 1) / lg (INR 7) + (ex (gain a3 4) - 1) / lg (INR 8))
    / (0 + 1 / lg (INR 2) + 1 / lg (INR 3) + 1 / lg (INR 4) + 1 / lg (INR 5) + 1 / lg (INR 6)).
Proof. reflexivity. Qed.

(** The generic case of collapsed points, lines 209-231. *)
Example ndcg_collapsed_generic_test :
  ndcg RArith RTrans [Counts (dec32 0 0) (dec32 0 0) 1 1; Counts (dec32 1 0) (dec32 0 0) 2 2;
                      Counts (dec32 3 0) (dec32 1 0) 4 2]
  = (1 / lg 2 + (ex 0.5 - 1) / lg 3 + (ex 0.5 - 1) / lg 4
     + (ex 0.25 - 1) / lg 5 + (ex 0.25 - 1) / lg 6 + (ex 0.25 - 1) / lg 7 + (ex 0.25 - 1) / lg 8)
    / (1 / lg 2 + 1 / lg 3 + 1 / lg 4 + 1 / lg 5 + 1 / lg 6).
Proof.
  rewrite ndcg_three, gain_perfect, gain_half, gain_quarter, ex_1 by lia.
  replace (INR 2) with 2 by (simpl; lra). replace (INR 3) with 3 by (simpl; lra).
  replace (INR 4) with 4 by (simpl; lra). replace (INR 5) with 5 by (simpl; lra).
  replace (INR 6) with 6 by (simpl; lra). replace (INR 7) with 7 by (simpl; lra).
  replace (INR 8) with 8 by (simpl; lra).
  f_equal; unfold Rdiv; ring.
Qed.
Local Close Scope R_scope.

(** ** /repo/matcher/SimpleMatcherTest.cc *)

(** Events of the tests: query and dummy location are integers. *)
Definition ievent := event Z Z.
Definition cmp_ievent : Cmp ievent := cmp_event cmp_int cmp_int.

(** The set of the first four tests: EventSet<DummyEvent>. *)
Definition plain_set : EvSet ievent ievent :=
  mkEvSet (@gset ievent) gset_empty gset_clear
    (fun e s => Ok (gset_insert cmp_ievent e s))
    (fun h s => Ok (gset_find_overlapping cmp_ievent h s)).

(** A mock set: FindOverlapping answers from a table. *)
Definition mock_set (t : list (ievent * list ievent)) : EvSet ievent ievent :=
  mkEvSet unit tt (fun s => s) (fun _ s => Ok s)
    (fun h _ => Ok (match map_find (event_eq cmp_int cmp_int) h t with
                    | Some l => l | None => [] end)).

(** A mock scorer: answers from a table, in tenths. *)
Definition mock_scorer (t : list (ievent * ievent * (Z * Z))) (r h : ievent) : match_error :=
  match find (fun x => event_eq cmp_int cmp_int (fst (fst x)) r
                       && event_eq cmp_int cmp_int (snd (fst x)) h) t with
  | Some (_, (fp, fn)) => MatchError (dec32 fp (-1)) (dec32 fn (-1))
  | None => MatchError B754_nan B754_nan
  end.

(** The matches found, compared with those expected. *)
Definition found (S : EvSet ievent ievent) sc refs hyps (want : list (match_t ievent ievent))
  : bool :=
  match match_run (c_lt cmp_ievent) S sc (matcher_new S) refs hyps with
  | Ok (l, _) =>
      forallb (fun p => match_eq cmp_ievent cmp_ievent (fst p) (snd p)) (combine l want)
      && Nat.eqb (length l) (length want)
  | _ => false
  end.

(** AllEmpty, RefsEmpty, HypsEmpty and NoOverlaps, lines 47-81. *)
Example matcher_plain_test :
  let sc := mock_scorer [] in
  let e11 := Event 1 1 : ievent in
  let e12 := Event 1 2 : ievent in
  found plain_set sc [] [] [] = true
  /\ found plain_set sc [] [e11] [make_fp e11] = true
  /\ found plain_set sc [e11] [] [make_fn e11] = true
  /\ found plain_set sc [e11] [e12] [make_fp e12; make_fn e11] = true.
Proof. repeat split; vm_compute; reflexivity. Qed.

(** PerfectMatch and NotPerfectMatches, lines 83-166. *)
Example matcher_mock_test :
  let e11 := Event 1 1 : ievent in
  let e12 := Event 1 2 : ievent in
  let err fp fn := MatchError (dec32 fp (-1)) (dec32 fn (-1)) in
  found (mock_set [(e11, [e11])]) (mock_scorer [(e11, e11, (0, 0))])
    [e11] [e11] [match_pair e11 e11 (err 0 0)] = true
  /\ found (mock_set [(e11, [e11; e12])])
       (mock_scorer [(e11, e11, (10, 10)); (e12, e11, (5, 3))])
       [e11; e12] [e11] [match_pair e12 e11 (err 5 3); make_fn e11] = true
  /\ found (mock_set [(e11, [e12; e11])]) (mock_scorer [(e12, e11, (0, 2))])
       [e11; e12] [e11] [match_pair e12 e11 (err 0 2); make_fn e11] = true
  /\ found (mock_set [(e11, [e11]); (e12, [e11])])
       (mock_scorer [(e11, e11, (4, 5)); (e11, e12, (0, 2))])
       [e11] [e11; e12] [match_pair e11 e11 (err 4 5)] = true.
Proof. repeat split; vm_compute; reflexivity. Qed.

(** ** /repo/mapper/*Test.cc *)

(** The ids of a list of strings, in order. *)
Fixpoint ids (int_max : Z) (t : id_table) (l : list bytes) : list (outcome Z) :=
  match l with
  | [] => []
  | s :: rest =>
      match string_to_int int_max t s with
      | Ok (i, t') => Ok i :: ids int_max t' rest
      | UB => [UB]
      | Throw e => [Throw e]
      end
  end.

(** TEST(StringToIntMapper, Simple) and TEST(StringToIntMapper,
    RangeErrorException), lines 18-35: with int8_t, 128 strings get the ids 0,
    ..., 127, and one more throws. *)
Example string_to_int_test :
  ids 2147483647 [] [lit "s1"; lit "s2"; lit "s1"; lit "s3"] = map Ok [0; 1; 0; 2]
  /\ ids 127 [] (map (fun i => lit "s" ++ write_uint (Z.of_nat i)) (seq 0 128) ++ [lit "except"])
     = map Ok (map Z.of_nat (seq 0 128)) ++ [Throw RangeError].
Proof. split; vm_compute; reflexivity. Qed.

(** TEST(StringEventToIntMapper, Simple), lines 32-43; the ids expected are
    those of a compiler that maps the query first. *)
Example event_to_int_test :
  let ev q l := Event (lit q) (lit l) in
  match event_to_int true 2147483647 [] (ev "foo" "foo")%string with
  | Ok (a, t1) =>
      match event_to_int true 2147483647 t1 (ev "foo" "bar")%string with
      | Ok (b, t2) =>
          match event_to_int true 2147483647 t2 (ev "bar" "foo")%string with
          | Ok (c, _) => [a; b; c] = [Event 0 0; Event 0 1; Event 1 0]
          | _ => False
          end
      | _ => False
      end
  | _ => False
  end.
Proof. vm_compute. reflexivity. Qed.

(** TEST(ScoredEventMapperTest, Test), lines 24-38. *)
Example scored_mapper_test :
  let em (_ : unit) (e : ievent) : outcome (ievent * unit) :=
    Ok (if event_eq cmp_int cmp_int e (Event 1 1) then Event 2 2 else Event 3 3, tt) in
  let same q s want :=
    match scored_mapper em tt (Scored (Event q q) s) with
    | Ok (e, _) => scored_eq cmp_ievent e (Scored (Event want want) s)
    | _ => false
    end in
  [same 1 (dec32 32 (-1)) 2; same 1 (dec32 72 (-1)) 2; same 2 (dec32 72 (-1)) 3] = repeat true 3.
Proof. vm_compute. reflexivity. Qed.

(** ** /repo/reader/PlainTextReaderTest.cc *)

(** A text of several lines. *)
Definition lines (l : list string) : bytes := flat_map (fun s => lit s ++ [nl]) l.

(** A reader without a mapper: PlainTextReader. *)
Definition read_all {E} (extract : istream -> E * istream) (b : bytes) : outcome (read_res) :=
  read_stream extract identity_mapper (open_stream b) [] tt.

(** TEST(PlainTextReader, Integers), lines 17-41. *)
Example reader_integers_test :
  let int_ := read_int fmt_i32 true 0 in
  read_all int_ (lines ["# this is a comment line"; "# this is also a comment line";
                        "1"; "2"; "3"; ""]%string)
  = Ok (ReadRes true [1; 2; 3] None tt)
  /\ read_all int_ (lines ["1"; "2"; "3"; "# this is also a comment line"; "1"; "2"; "3"; ""]%string)
     = Ok (ReadRes true [1; 2; 3; 1; 2; 3] None tt).
Proof. split; vm_compute; reflexivity. Qed.

(** TEST(PlainTextReader, EventDocumentBoundingBox), lines 43-112; "\r" is the
    carriage return.  The last case stops at line 4. *)
Example reader_events_test :
  let ev := read_event (read_string []) read_docbox in
  let cr := [ascii_of_N 13] in
  let e q d x y w h := Event (lit q) (dbox d x y w h) in
  let both := [e "q1" "d1" 1 2 3 4; e "q1" "d2" 4 3 2 1]%string in
  read_all ev (lines ["# This is a comment line"; "# This is another comment line"]%string)
  = Ok (ReadRes true [] None tt)
  /\ read_all ev (lines ["q1 d1 1 2 3 4"; "q1 d2 4 3 2 1"]%string) = Ok (ReadRes true both None tt)
  /\ read_all ev (lines ["# this is a comment"; "q1 d1 1 2 3 4"; "q1 d2 4 3 2 1"]%string)
     = Ok (ReadRes true both None tt)
  /\ read_all ev (lit "# this is a comment" ++ cr ++ [nl] ++ lit "q1 d1 1 2 3 4" ++ cr ++ [nl]
                  ++ lit "# this is a comment" ++ [nl] ++ lit "q1 d2 4 3 2 1" ++ cr ++ [nl]
                  ++ lit "# this is a comment" ++ [nl])
     = Ok (ReadRes true both None tt)
  /\ read_all ev (lines ["# this is a comment"; "q1 d1 1 2 3 4"; "q2 d1 5 6 7 8"; "q1 d2 9 10 11";
                         "q1 d1 13 14 15 16"]%string)
     = Ok (ReadRes false [e "q1" "d1" 1 2 3 4; e "q2" "d1" 5 6 7 8]%string (Some 4%nat) tt).
Proof. repeat split; vm_compute; reflexivity. Qed.

(** ** /repo/cmd/OptionTest.cc and /repo/cmd/ArgumentTest.cc *)

(** An option (or, if [arg], an argument) and the store of its variable. *)
Definition opt_of (arg : bool) (name help : string) (t : vtype) : opt :=
  Opt arg (lit name) (lit help) t (lit "v").
Definition with_v (v : value) : store := [(lit "v", v)].

(** Help texts; [show_f64] is not used by them. *)
Definition write_int (z : Z) : bytes :=
  if z <? 0 then lit "-" ++ write_uint (- z) else write_uint z.
Definition help_of (w : nat) (v : value) (o : opt) : bytes :=
  opt_help write_int (fun _ => []) w (with_v v) o.

(** IsBoolean and Help of options, OptionTest.cc:5-33. *)
Example option_help_test :
  let oi := opt_of false "--int" "int help" (TInt fmt_i32) in
  let ob := opt_of false "--bool" "bool help" TBool in
  [is_boolean oi; is_boolean ob] = [false; true]
  /\ help_of 0 (VInt (-1)) oi = lit "--int : int help (type = int32_t, value = ""-1"")"
  /\ help_of 10 (VInt (-1)) oi = lit "--int      : int help (type = int32_t, value = ""-1"")"
  /\ help_of 0 (VBool true) ob = lit "--bool : bool help (type = bool, value = ""true"")"
  /\ help_of 10 (VBool true) ob = lit "--bool     : bool help (type = bool, value = ""true"")".
Proof. repeat split; vm_compute; reflexivity. Qed.

(** The same of arguments, ArgumentTest.cc:5-28. *)
Example argument_help_test :
  let oi := opt_of true "int" "int help" (TInt fmt_i32) in
  let ob := opt_of true "bool" "bool help" TBool in
  [is_boolean oi; is_boolean ob] = [false; true]
  /\ help_of 0 (VInt (-1)) oi = lit "int : int help (type = int32_t)"
  /\ help_of 10 (VInt (-1)) oi = lit "int        : int help (type = int32_t)"
  /\ help_of 0 (VBool true) ob = lit "bool : bool help (type = bool)"
  /\ help_of 10 (VBool true) ob = lit "bool       : bool help (type = bool)".
Proof. repeat split; vm_compute; reflexivity. Qed.

(** Parse, OptionTest.cc:35-62 and ArgumentTest.cc:30-57: what is accepted,
    and the values stored.  An option, but not an argument, may omit the value
    of a boolean. *)
Example option_parse_test : forall arg : bool,
  let parse t s := parse_value arg t (VInt (-1)) (lit s) in
  parse (TInt fmt_i32) "-1244"%string = (VInt (-1244), true)
  /\ map (fun s => snd (parse (TInt fmt_i32) s)) ["-12.4"; "12 asdsad"]%string = [false; false]
  /\ snd (parse TBool ""%string) = negb arg
  /\ (arg = false -> parse TBool ""%string = (VBool true, true))
  /\ map (parse TBool) ["false"; "true"; "0"; "1"]%string
     = [(VBool false, true); (VBool true, true); (VBool false, true); (VBool true, true)]
  /\ map (fun s => snd (parse TBool s)) ["FALSE"; "TRUE"; "1234"; "-inf"]%string
     = repeat false 4.
Proof. intros []; repeat split; try discriminate; vm_compute; reflexivity. Qed.

(** ** /repo/cmd/ParserTest.cc *)

(** The variables of the tests. *)
Definition vars : store :=
  [(lit "i", VInt (-1)); (lit "b", VBool false); (lit "s", VStr [])].
Definition help_text (p : parser) : bytes := parser_help write_int (fun _ => []) p vars.

(** TEST(ParserTest, Constructor), lines 7-18. *)
Example parser_constructor_test :
  help_text (parser_new (lit "prog") []) = lines ["Usage: prog"]%string
  /\ help_text (parser_new (lit "prog2")
       (lit "  This is the description of" ++ [nl] ++ lit "  this program."))
     = lines ["Usage: prog2"; ""; "Description:"; "  This is the description of";
              "  this program."]%string.
Proof. split; vm_compute; reflexivity. Qed.

(** TEST(ParserTest, RegisterOption), lines 20-39. *)
Example parser_register_option_test :
  let p0 := parser_new (lit "prog") [] in
  let (r1, p1) := register_option (lit "int") (lit "help for int option") (TInt fmt_i32) (lit "i") p0 in
  let (r2, p2) := register_option (lit "int") (lit "this will be ignored") (TInt fmt_i32) (lit "i") p1 in
  let (r3, p3) := register_option (lit "bool") (lit "help for bool option") TBool (lit "b") p2 in
  let (r4, p4) := register_option (lit "str") (lit "help for str option") TStr (lit "s") p3 in
  [r1; r2; r3; r4] = [true; false; true; true]
  /\ help_text p4
     = lines ["Usage: prog [ options ]"; ""; "Options:";
              "  --bool : help for bool option (type = bool, value = ""false"")";
              "  --int  : help for int option (type = int32_t, value = ""-1"")";
              "  --str  : help for str option (type = string, value = """")"]%string.
Proof. split; vm_compute; reflexivity. Qed.

(** TEST(Parser, RegisterArgument) and TEST(Parser, RegisterOptArgument), lines
    41-76. *)
Example parser_register_argument_test :
  let add f p := f (lit "str") (lit "help for str option") TStr (lit "s")
    (f (lit "bool") (lit "help for bool option") TBool (lit "b")
      (f (lit "int") (lit "help for int option") (TInt fmt_i32) (lit "i") p)) in
  let p := parser_new (lit "prog") [] in
  let body := ["Arguments:"; "  int  : help for int option (type = int32_t)";
               "  bool : help for bool option (type = bool)";
               "  str  : help for str option (type = string)"]%string in
  help_text (add register_argument p) = lines (["Usage: prog int bool str"; ""]%string ++ body)
  /\ help_text (add register_opt_argument p)
     = lines (["Usage: prog [ int [ bool [ str ] ] ]"; ""]%string ++ body).
Proof. split; vm_compute; reflexivity. Qed.

(** TEST(Parser, ParseWithNoOptions) and TEST(Parser, ParseOptionBool), lines
    78-144. *)
Example parser_bool_test :
  let p := snd (register_option (lit "bool") [] TBool (lit "b") (parser_new (lit "prog") [])) in
  let run v args := parse p (map lit args) [(lit "b", VBool v)] in
  run false [] = PTrue [(lit "b", VBool false)]
  /\ run false ["--bool"]%string = PTrue [(lit "b", VBool true)]
  /\ run false ["--bool"; "true"]%string = PTrue [(lit "b", VBool true)]
  /\ run true ["--bool"; "false"]%string = PTrue [(lit "b", VBool false)]
  /\ exists e s, run false ["--bool"; "12314"]%string = PFalse e s
     /\ parse_message e = lit "ERROR: Invalid value for option '--bool'".
Proof.
  repeat split; try (vm_compute; reflexivity).
  eexists _, _. split; vm_compute; reflexivity.
Qed.

(** TEST(Parser, ParseOptionString), lines 146-175. *)
Example parser_string_test :
  let p1 := snd (register_option (lit "str1") [] TStr (lit "a") (parser_new (lit "prog") [])) in
  let p := snd (register_option (lit "str2") [] TStr (lit "b") p1) in
  let run args := parse p (map lit args) [(lit "a", VStr []); (lit "b", VStr [])] in
  run ["--str1"; "this value"; "--str2"; "  whitespaces are preserved "]%string
  = PTrue [(lit "a", VStr (lit "this value")); (lit "b", VStr (lit "  whitespaces are preserved "))]
  /\ exists e s, run ["--str1"; "this value"; "--str2"]%string = PFalse e s
     /\ parse_message e = lit "ERROR: Invalid value for option '--str2'".
Proof.
  split; [vm_compute; reflexivity|]. eexists _, _. split; vm_compute; reflexivity.
Qed.
