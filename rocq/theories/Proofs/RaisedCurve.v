(** The curves of runs in which one hypothesis has a higher score. *)
From Coq Require Import Ascii String List Bool ZArith Reals Lia Lra Permutation Sorted.
From Flocq Require Import Core BinarySingleNaN.
From Verif.Model Require Import Cpp Floats Events EventSets Matches Matcher Scorers Assessment Bootstrap Mapper Stream
  Reader Options Tool.
From Verif.Spec Require Import Order Sets Matching Grouping Collapse Metrics Curves Reader Options Tool Parts MeanParts Better Lower.
From Verif.Proofs Require Import Queries Raised.
From Verif.Proofs Require Collapse Order Sets Matching Grouping Evaluation Finish Instances Runs Ties Rescore Results Curves MeanCurve Parts Better
  CurvesE MeanParts BetterCurve Tool.
Import ListNotations.
Local Open Scope string_scope.
Local Open Scope list_scope.

Section Points.
  Context {A : Arith} {RE E : Type}.
  Notation M := (match_t RE (scored E)).

  Lemma reported_named (T : Trans A) srt w c (ms log : list M) gs l r n p : Instances.reported T srt w c ms log gs l r ->
    In (EWrite n (FCurve p)) l ->
    (n = cf_grp c /\ Finish.global_points (A := A) c ms p) \/
    (n = cf_mrp c /\ cf_mrp c <> [] /\ w_writable w (cf_mrp c) = true /\ Finish.mean_points (A := A) w c gs p).
  Proof.
    intros (v1 & v2 & v4 & curves & e & _ & _ & _ & _ & O & Cv) K.
    assert (K' : In (EWrite n (FCurve p)) (outputs l)) by (unfold outputs; apply filter_In; auto).
    assert (G : forall nm P l b, curve_file (A := A) (RE := RE) (HE := scored E) w nm P l b -> In (EWrite n (FCurve p)) l ->
      n = nm /\ nm <> [] /\ w_writable w nm = true /\ P p).
    { intros nm P l0 b [Hn|q Hn Hw Hp|Hn Hw] K0; [destruct K0| |destruct K0]. destruct K0 as [K0|[]]. injection K0 as <- <-. auto. }
    rewrite O in K'. apply in_app_iff in K' as [K'|K'].
    - exfalso. revert K'. unfold dumped. destruct (cf_dump c); [intros []|intros [K'|[]]; discriminate K'].
    - apply in_app_iff in K' as [K'|K']; [exfalso; repeat (destruct K' as [K'|K']; [discriminate K'|]); exact K'|]. destruct Cv as [g m b Hg Hm|g Hg].
      + apply in_app_iff in K' as [K'|K'].
        * left. destruct (G _ _ _ _ Hg K') as (E1 & _ & _ & Hp). auto.
        * right. exact (G _ _ _ _ Hm K').
      + left. destruct (G _ _ _ _ Hg K') as (E1 & _ & _ & Hp). auto.
  Qed.

  Lemma no_groups w w' c p p' : cf_mrp c <> [] -> w_writable w (cf_mrp c) = true -> w_writable w' (cf_mrp c) = true ->
    Finish.mean_points (A := A) w c ([] : list (list M)) p -> Finish.mean_points (A := A) w' c ([] : list (list M)) p' -> p = p'.
  Proof.
    intros N W W' (_ & _ & _ & H) (_ & _ & _ & H'). specialize (H N). specialize (H' N).
    assert (Q : write_mean_curve A sc_score w c ([] : list (list M)) = write_mean_curve A sc_score w' c []).
    { unfold write_mean_curve, write_curve. destruct (cf_mrp c) as [|b nm]; [easy|]. now rewrite W, W'. }
    rewrite Q, H' in H. now injection H as ->.
  Qed.
End Points.

Section Curves.
  Context {RE E : Type}.
  Notation M := (match_t RE (scored E)).
  Variable c : config.
  Hypothesis Cc : cf_collapse c = false.
  Notation xs := (even_points RArith (Z.to_nat (cf_curve c))).
  Notation curve es := (BetterCurve.raw_curve es (cf_interp c) (cf_trapezoid c) xs).

  Lemma points_rise : nondecreasing xs.
  Proof. apply Curves.sorted_lt_le, Curves.even_points_sorted. Qed.

  Lemma global_raw (ms : list M) p : Finish.global_points (A := RArith) c ms p ->
    exists ys, p = combine xs ys /\ List.length ys = List.length xs /\ curve (map m_err ms) = Ok ys.
  Proof.
    intros (ys & -> & Ly & H). exists ys. split; [reflexivity|]. split; [exact Ly|].
    rewrite <- (BetterCurve.raw_curve_ok sc_score). rewrite Cc in H. destruct precision_recall_matches. exact H.
  Qed.

  Lemma raw_global (ms : list M) : exists ys, Finish.global_points (A := RArith) c ms (combine xs ys) /\
    List.length ys = List.length xs /\ curve (map m_err ms) = Ok ys.
  Proof.
    destruct (BetterCurve.raw_curve_defined (map m_err ms) (cf_interp c) (cf_trapezoid c) xs points_rise) as [ys Ey].
    assert (Ey' := Ey). rewrite <- (BetterCurve.raw_curve_ok sc_score) in Ey'.
    assert (Ly : List.length ys = List.length xs).
    { assert (Lr := MeanCurve.pr_rc_length RArith _ _ sc_score ms false (cf_interp c)).
      destruct (precision_recall_matches RArith sc_score ms false (cf_interp c)) as [pr rc]. cbn [fst snd] in Lr.
      destruct (Finish.sample_curve_ok (A := RArith) rc pr xs (cf_trapezoid c)) as (o & Eo & Lo); [change (num RArith) with R in *; lia|].
      rewrite Ey' in Eo. injection Eo as ->. exact Lo. }
    exists ys. split; [|auto]. exists ys. split; [reflexivity|]. split; [exact Ly|]. rewrite Cc.
    destruct (precision_recall_matches RArith sc_score ms false (cf_interp c)). exact Ey'.
  Qed.

  Definition value_at (i : nat) (es : list match_error) : R := match curve es with Ok ys => nth i ys 0%R | _ => 0%R end.

  Lemma better_value i es es' : better es es' -> (forall x, In x es -> zero_one x) -> (value_at i es <= value_at i es')%R.
  Proof.
    intros B Z0. destruct (BetterCurve.better_curve es es' (cf_interp c) (cf_trapezoid c) xs points_rise B Z0) as (a & b & Ea & Eb & L).
    unfold value_at. rewrite Ea, Eb. clear - L. revert i. induction L as [|x y a b H L IH]; intros [|i]; cbn [nth]; try lra. apply IH.
  Qed.

  Lemma lower_points ys ys' : Forall2 Rle ys ys' -> nowhere_above (combine xs ys) (combine xs ys').
  Proof.
    generalize xs. intros l F. revert l. induction F as [|y y' ys ys' H F IH]; intros [|x l]; try constructor; [cbn; auto|apply IH].
  Qed.

  Lemma global_better (ms : list M) (ms' : list M) p p' : Finish.global_points (A := RArith) c ms p -> Finish.global_points (A := RArith) c ms' p' ->
    better (map m_err ms) (map m_err ms') -> (forall x, In x (map m_err ms) -> zero_one x) -> nowhere_above p p'.
  Proof.
    intros G G' B Z0. destruct (global_raw ms p G) as (ys & -> & _ & Ey). destruct (global_raw ms' p' G') as (ys' & -> & _ & Ey').
    destruct (BetterCurve.better_curve _ _ (cf_interp c) (cf_trapezoid c) xs points_rise B Z0) as (a & b & Ea & Eb & L).
    rewrite Ey in Ea. injection Ea as <-. rewrite Ey' in Eb. injection Eb as <-. now apply lower_points.
  Qed.

  (** The mean points as averages of values. *)
  Lemma mean_values w (gs : list (list M)) p : gs <> [] -> cf_mrp c <> [] -> w_writable w (cf_mrp c) = true ->
    Finish.mean_points (A := RArith) w c gs p ->
    map fst p = xs /\ forall i x y, nth_error p i = Some (x, y) -> y = average (A := RArith) (map (fun g => value_at i (map m_err g)) gs).
  Proof.
    intros Ng N W Mp.
    assert (exists curves, Forall2 (fun g cv => Finish.global_points (A := RArith) c g cv /\ exists ys, cv = combine xs ys /\
      List.length ys = List.length xs /\ curve (map m_err g) = Ok ys) gs curves) as (curves & F).
    { clear Ng Mp. induction gs as [|g gs IH]; [exists []; constructor|]. destruct IH as (cs & F).
      destruct (raw_global g) as (ys & G & Ly & Ey). exists (combine xs ys :: cs). constructor; [|exact F]. split; [exact G|]. eauto. }
    destruct (MeanParts.mean_parts w c gs curves p Ng N W) as (Hf & Hy); [|exact Mp|].
    { revert F. apply Collapse.Forall2_weaken. tauto. }
    split.
    - destruct Mp as (ys & -> & Ly & _). apply MeanParts.fst_combine. exact Ly.
    - intros i x y K. destruct (Hy i x y K) as (vs & Fv & ->). f_equal. clear - F Fv. revert vs Fv.
      induction F as [|g cv gs curves (_ & ys & -> & Ly & Ey) F IH]; intros vs Fv; inversion Fv as [|? v ? vs' Hv Fv']; subst; [reflexivity|].
      cbn [map]. f_equal; [|now apply IH]. apply MeanParts.combine_inv in Hv as [_ Hv]. unfold value_at. rewrite Ey.
      symmetry. now apply nth_error_nth.
  Qed.

  Lemma nowhere_nth (p p' : list (R * R)) : map fst p = map fst p' ->
    (forall i x y y', nth_error p i = Some (x, y) -> nth_error p' i = Some (x, y') -> (y <= y')%R) -> nowhere_above p p'.
  Proof.
    revert p'. induction p as [|[x y] p IH]; intros [|[x' y'] p'] Ef H; try discriminate; [constructor|].
    cbn in Ef. injection Ef as <- Ef. constructor.
    - cbn. split; [reflexivity|]. exact (H 0%nat x y y' eq_refl eq_refl).
    - apply IH; [exact Ef|]. intros i a b b'. exact (H (S i) a b b').
  Qed.

  Lemma mean_better {K} (P P' : K -> list M -> Prop) w w' keys keys' (gs gs' : list (list M)) p p' :
    cf_mrp c <> [] -> w_writable w (cf_mrp c) = true -> w_writable w' (cf_mrp c) = true ->
    NoDup keys -> NoDup keys' -> (forall k, In k keys <-> In k keys') -> Forall2 P keys gs -> Forall2 P' keys' gs' ->
    (forall k g g', In k keys -> P k g -> P' k g' -> better (map m_err g) (map m_err g')) ->
    (forall g x, In g gs -> In x (map m_err g) -> zero_one x) ->
    Finish.mean_points (A := RArith) w c gs p -> Finish.mean_points (A := RArith) w' c gs' p' -> nowhere_above p p'.
  Proof.
    intros N W W' Nk Nk' Kk F F' B Z0 Mp Mp'. destruct gs as [|g0 gs0] eqn:Eg.
    - inversion F; subst. assert (keys' = []) as -> by (destruct keys' as [|k ks]; [reflexivity|exfalso; apply (Kk k); left; reflexivity]).
      inversion F'; subst. rewrite (no_groups w w' c p p' N W W' Mp Mp').
      apply nowhere_nth; [reflexivity|]. intros i x y y' K1 K2. rewrite K1 in K2. injection K2 as ->. lra.
    - rewrite <- Eg in *. assert (Ng : gs <> []) by (rewrite Eg; discriminate). clear Eg g0 gs0.
      assert (Ng' : gs' <> []).
      { intros ->. inversion F'; subst. destruct F as [|k g ks gs1 _ _]; [easy|]. apply (Kk k). left. reflexivity. }
      destruct (mean_values w gs p Ng N W Mp) as [E1 H1]. destruct (mean_values w' gs' p' Ng' N W' Mp') as [E2 H2].
      apply nowhere_nth; [etransitivity; [exact E1|symmetry; exact E2]|]. intros i x y y' K1 K2. rewrite (H1 i x y K1), (H2 i x y' K2).
      apply (means_le P P' (value_at i) better keys keys' gs gs' Nk Nk' Kk F F' B).
      intros g es Jg Hb. apply better_value; [exact Hb|]. intros z. now apply Z0.
  Qed.
End Curves.

Section Runs.
  Variables (srt : sort_fn) (Hs : sort_contract srt).
  Variables (rngs : Z -> rng) (show_int : Z -> bytes) (show_f64 : f64 -> bytes).
  Notation simple := (simple_kws RArith RTrans srt rngs show_int show_f64).

  Lemma simple_curves qf w w' pn args c refs hyps hyps' f e name p p' : command args c -> no_bootstrap c -> cf_sort c = lit "desc" -> cf_collapse c = false ->
    cf_grp c <> cf_mrp c ->
    inputs str_event_text scored_str_event_text w c refs hyps f -> inputs str_event_text scored_str_event_text w' c refs hyps' f ->
    (Z.of_nat (strings refs hyps f) <= 2147483648)%Z -> raised e hyps hyps' ->
    In (EWrite (A := RArith) name (FCurve p)) (fst (simple qf w pn args)) -> In (EWrite (A := RArith) name (FCurve p')) (fst (simple qf w' pn args)) ->
    (In e refs -> nowhere_above p p') /\ (~ In e refs -> nowhere_above p' p).
  Proof.
    intros Cm NB Cs Cc Nm I I' Ls Ra.
    assert (Ls' : (Z.of_nat (strings refs hyps' f) <= 2147483648)%Z).
    { revert Ls. assert (K := f_equal (@List.length _) (raised_bases e hyps hyps' Ra)). rewrite !map_length in K. unfold strings. now rewrite K. }
    destruct (simple qf w pn args) as [l r] eqn:Et. rewrite Instances.simple_tool in Et.
    destruct (simple qf w' pn args) as [l' r'] eqn:Et'. rewrite Instances.simple_tool in Et'. cbn [fst]. intros W1 W2.
    destruct (Instances.simple_run_ids RTrans srt Hs rngs show_int show_f64 w qf pn args c refs hyps f l r Cm NB I Et Ls)
      as (id & ms & log & gs & Id & Inj & Fi & Ev & Rp).
    destruct (Instances.simple_run_ids RTrans srt Hs rngs show_int show_f64 w' qf pn args c refs hyps' f l' r' Cm NB I' Et' Ls')
      as (id' & ms' & log' & gs' & Id' & Inj' & Fi' & Ev' & Rp').
    rewrite Cs in Ev, Ev'.
    destruct (ids_bases qf refs hyps hyps' id id' (raised_bases _ _ _ Ra) Id Id') as [Ar Ah].
    apply (Parts.evaluation_orders _ (c_lt (Results.by_id id)) _ (c_lt (Results.by_id id))) in Ev';
      [|intros h h' Ih Ih'; unfold Results.by_id; cbn [c_lt]; now rewrite (Ah h Ih), (Ah h' Ih')
       |intros x x' Ix Ix'; unfold Results.by_id; cbn [c_lt]; now rewrite (Ar x Ix), (Ar x' Ix')].
    set (ce := Results.by_id id) in *. assert (He : total_order ce) by exact (Results.by_id_total id Inj).
    destruct (Parts.evaluation_keys (c_lt ce) ce He ev_query ev_query (evset_generic ce) exact_search
      (Matching.finds_generic ce He) (fun r h => trivial_scorer cmp_str cmp_str r (sc_base h)) Parts.exact_local _ _ _ _ _ _ _ Ev) as (keys & Nk & Fk & Hm & Ik).
    destruct (Parts.evaluation_keys (c_lt ce) ce He ev_query ev_query (evset_generic ce) exact_search
      (Matching.finds_generic ce He) (fun r h => trivial_scorer cmp_str cmp_str r (sc_base h)) Parts.exact_local _ _ _ _ _ _ _ Ev') as (keys' & Nk' & Fk' & Hm' & Ik').
    assert (Zo : forall m, In m ms -> zero_one (m_err m)).
    { apply (Evaluation.eval_zero_one _ ce _ _ _ _ _ _ _ _ _ _ _ Ev). intros x h. apply Instances.zero_one_trivial. }
    assert (Zo' : forall m, In m ms' -> zero_one (m_err m)).
    { apply (Evaluation.eval_zero_one _ ce _ _ _ _ _ _ _ _ _ _ _ Ev'). intros x h. apply Instances.zero_one_trivial. }
    assert (Kk : forall k, In k keys <-> In k keys').
    { intros k. rewrite Ik, Ik'. assert (B : forall q, (exists h, In h hyps /\ ev_query (sc_base h) = q) <-> (exists h, In h hyps' /\ ev_query (sc_base h) = q)).
      { intros q. assert (K : map (fun h => ev_query (sc_base h)) hyps = map (fun h => ev_query (sc_base h)) hyps').
        { rewrite <- (map_map sc_base ev_query hyps), <- (map_map sc_base ev_query hyps'). now rewrite (raised_bases _ _ _ Ra). }
        split; intros (h & J & E); apply (in_map (fun h => ev_query (sc_base h))) in J; cbv beta in J; rewrite E in J;
          [rewrite K in J|rewrite <- K in J]; apply in_map_iff in J as (x & A & B); eauto. }
      split; intros (q & A1 & A2 & A3); exists q; (split; [exact A1|]); (split; [exact A2|]); (destruct A3 as [A3|A3]; [now left|right]); now apply B. }
    assert (Hp : forall P g g', (forall q, kept f q -> P q \/ ~ P q) -> selects (Parts.about ev_query ev_query P) ms g ->
      selects (Parts.about ev_query ev_query P) ms' g' ->
      (In e refs -> better (map m_err g) (map m_err g')) /\ (~ In e refs -> better (map m_err g') (map m_err g))).
    { intros P g g' DP Sg Sg'. exact (part_raised cmp_str Order.total_order_str cmp_str Order.total_order_str ce He event_dec P f refs hyps hyps' e
        ms log gs g ms' log' gs' g' DP Fi Fi' Ra Ev Sg Ev' Sg'). }
    assert (Ha : forall m, In m ms -> Parts.about ev_query ev_query (fun _ => True) m).
    { intros m J. destruct (Hm m J) as (k & _ & q & A & _). exists q. auto. }
    assert (Ha' : forall m, In m ms' -> Parts.about ev_query ev_query (fun _ => True) m).
    { intros m J. destruct (Hm' m J) as (k & _ & q & A & _). exists q. auto. }
    destruct (Hp (fun _ => True) ms ms' (fun _ _ => or_introl Logic.I) (selects_all _ _ Ha) (selects_all _ _ Ha')) as [G1 G2].

    assert (En : forall (j : bytes -> Z) (x : list (match_t (event bytes bytes) (scored (event bytes bytes)))), map m_err (map (renamed_match j) x) = map m_err x) by (intros j x; rewrite map_map; reflexivity).
    assert (Fz : forall g x, In g gs -> In x (map m_err g) -> zero_one x).
    { intros g x J K. apply in_map_iff in K as (m & <- & K). apply Zo. destruct (Evaluation.Forall2_in _ _ _ Fk) as [_ F].
      destruct (F g J) as (k & _ & S). now apply (Grouping.selects_in _ _ _ S) in K. }
    assert (Fz' : forall g x, In g gs' -> In x (map m_err g) -> zero_one x).
    { intros g x J K. apply in_map_iff in K as (m & <- & K). apply Zo'. destruct (Evaluation.Forall2_in _ _ _ Fk') as [_ F].
      destruct (F g J) as (k & _ & S). now apply (Grouping.selects_in _ _ _ S) in K. }
    assert (Zm : forall x, In x (map m_err ms) -> zero_one x) by (intros x K; apply in_map_iff in K as (m & <- & K); auto).
    assert (Zm' : forall x, In x (map m_err ms') -> zero_one x) by (intros x K; apply in_map_iff in K as (m & <- & K); auto).
    destruct (reported_named RTrans srt _ _ _ _ _ _ _ _ _ Rp W1) as [[N1 Q1]|(N1 & Ne & Ww & Q1)];
      destruct (reported_named RTrans srt _ _ _ _ _ _ _ _ _ Rp' W2) as [[N2 Q2]|(N2 & Ne' & Ww' & Q2)];
      [| exfalso; apply Nm; now rewrite <- N1 | exfalso; apply Nm; now rewrite <- N2 |].
    - split; intros J; [apply (global_better c Cc _ _ _ _ Q1 Q2)|apply (global_better c Cc _ _ _ _ Q2 Q1)]; rewrite !En; auto.
    - assert (Fm : forall (j : bytes -> Z) (P : bytes -> list (match_t (event bytes bytes) (scored (event bytes bytes))) -> Prop) ks l0, Forall2 P ks l0 ->
        Forall2 (fun k g => exists g0, g = map (renamed_match j) g0 /\ P k g0) ks (map (map (renamed_match j)) l0)).
      { intros j P ks l0 F. induction F; cbn [map]; constructor; eauto. }
      assert (Zr : forall (j : bytes -> Z) (l0 : list (list (match_t (event bytes bytes) (scored (event bytes bytes))))),
        (forall g x, In g l0 -> In x (map m_err g) -> zero_one x) ->
        forall g x, In g (map (map (renamed_match j)) l0) -> In x (map m_err g) -> zero_one x).
      { intros j l0 H g x K Kx. apply in_map_iff in K as (g0 & <- & K). rewrite En in Kx. now apply (H g0). }
      split; intros J.
      + refine (mean_better c Cc _ _ w w' keys keys' _ _ p p' Ne Ww Ww' Nk Nk' Kk (Fm id _ _ _ Fk) (Fm id' _ _ _ Fk') _ (Zr id _ Fz) Q1 Q2).
        intros k g g' _ (g0 & -> & Sg) (g0' & -> & Sg'). rewrite !En. exact (proj1 (Hp (fun q => group_is f q k) g0 g0' (group_dec f k) Sg Sg') J).
      + refine (mean_better c Cc _ _ w' w keys' keys _ _ p' p Ne Ww' Ww Nk' Nk (fun k => iff_sym (Kk k)) (Fm id' _ _ _ Fk') (Fm id _ _ _ Fk) _ (Zr id' _ Fz') Q2 Q1).
        intros k g g' _ (g0 & -> & Sg) (g0' & -> & Sg'). rewrite !En. exact (proj2 (Hp (fun q => group_is f q k) g0' g0 (group_dec f k) Sg' Sg) J).
  Qed.
End Runs.
