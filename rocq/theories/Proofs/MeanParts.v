(** The mean curve is the mean of the curves of the groups. *)
From Coq Require Import List Bool ZArith Arith Reals Lra Lia.
From Flocq Require Import Core BinarySingleNaN.
From Verif.Model Require Import Cpp Floats Events EventSets Matches Matcher Scorers Assessment Bootstrap Mapper Stream Reader Options Tool.
From Verif.Spec Require Import Order Objects Matching Grouping Collapse Metrics Curves Double Reader Options Results Tool Parts MeanParts.
From Verif.Proofs Require Matching Order Curves Tool Finish Evaluation Instances Results Runs Parts CurvesE.
Import ListNotations.

Lemma omap_nth {X Y} (f : X -> outcome Y) l : forall ys i y, omap f l = Ok ys -> nth_error ys i = Some y ->
  exists x, nth_error l i = Some x /\ f x = Ok y.
Proof.
  induction l as [|x l IH]; intros ys i y E N; cbn [omap] in E; [injection E as <-; destruct i; discriminate|].
  destruct (f x) as [z| |] eqn:Ef; try discriminate. cbn [obind] in E. destruct (omap f l) as [zs| |]; try discriminate.
  cbn [obind] in E. injection E as <-. destruct i as [|i]; [injection N as <-; exists x; auto|]. exact (IH zs i y eq_refl N).
Qed.

Lemma fst_combine {X Y} (xs : list X) (ys : list Y) : length ys = length xs -> map fst (combine xs ys) = xs.
Proof. revert ys. induction xs as [|x xs IH]; intros [|y ys] L; simpl in *; try discriminate; auto. f_equal. apply IH. lia. Qed.

Lemma combine_nth {X Y} (xs : list X) (ys : list Y) : forall i x y, nth_error xs i = Some x -> nth_error ys i = Some y ->
  nth_error (combine xs ys) i = Some (x, y).
Proof.
  revert ys. induction xs as [|a xs IH]; intros [|b ys] [|i] x y Ex Ey; simpl in *; try discriminate; [congruence|]. now apply IH.
Qed.

Lemma combine_inv {X Y} (xs : list X) (ys : list Y) : forall i x y, nth_error (combine xs ys) i = Some (x, y) ->
  nth_error xs i = Some x /\ nth_error ys i = Some y.
Proof.
  revert ys. induction xs as [|a xs IH]; intros [|b ys] [|i] x y H; simpl in *; try discriminate; [injection H as -> ->; auto|]. now apply IH.
Qed.

Section Points.
  Context {A : Arith} {RE E : Type}.
  Notation M := (match_t RE (scored E)).

  Lemma sums i (yss : list (list (num A))) n : Forall (fun ys => length ys = n) yss -> (i < n)%nat ->
    exists vs, Forall2 (fun ys y => nth_error ys i = Some y) yss vs /\ sum_at A i yss = Ok (fold_left (a_add A) vs (a0 A)).
  Proof.
    intros F Li. unfold sum_at. generalize (a0 A) as s. induction F as [|ys yss L F IH]; intros s.
    - exists []. split; [constructor|reflexivity].
    - destruct (nth_error ys i) as [y|] eqn:Ey; [|apply nth_error_None in Ey; lia].
      destruct (IH (a_add A s y)) as (vs & Fv & Ev). exists (y :: vs). split; [now constructor|].
      cbn [ofold fold_left]. unfold at_ at 1. rewrite Ey. cbn [obind]. exact Ev.
  Qed.

  Lemma samples c (gs : list (list M)) curves : Forall2 (Finish.global_points (A := A) c) gs curves ->
    exists yss, omap (fun g => let (pr, rc) := precision_recall_matches A sc_score g (cf_collapse c) (cf_interp c) in
        sample_curve A rc pr (even_points A (Z.to_nat (cf_curve c))) (cf_trapezoid c)) gs = Ok yss /\
      Forall (fun ys => length ys = length (even_points A (Z.to_nat (cf_curve c)))) yss /\
      curves = map (combine (even_points A (Z.to_nat (cf_curve c)))) yss.
  Proof.
    induction 1 as [|g cv gs curves (ys & -> & L & H) _ (yss & E1 & F & ->)]; [exists []; repeat split; constructor|].
    exists (ys :: yss). cbn [omap]. destruct (precision_recall_matches A sc_score g (cf_collapse c) (cf_interp c)) as [pr rc].
    rewrite H. cbn [obind]. rewrite E1. split; [reflexivity|]. split; [now constructor|reflexivity].
  Qed.

  Lemma mean_parts w c (gs : list (list M)) curves pts : gs <> [] -> cf_mrp c <> [] -> w_writable w (cf_mrp c) = true ->
    Forall2 (Finish.global_points (A := A) c) gs curves -> Finish.mean_points (A := A) w c gs pts -> mean_of_curves curves pts.
  Proof.
    intros Ng N W F (ys & -> & Ly & H). specialize (H N). unfold write_mean_curve in H.
    destruct (samples c gs curves F) as (yss & E1 & Fl & ->). rewrite E1 in H. cbn [run] in H. rewrite Tool.pbind_nil in H.
    assert (Lg : length yss = length gs) by exact (CurvesE.omap_len _ _ _ E1).
    set (xs := even_points A (Z.to_nat (cf_curve c))) in *.
    destruct (omap (fun i => obind (sum_at A i yss) (fun s => Ok (a_div A s (a_nat A (length gs))))) (seq 0 (length xs))) as [zs| |] eqn:E2;
      [|discriminate H|discriminate H].
    cbn [run] in H. rewrite Tool.pbind_nil in H.
    assert (Lz : length zs = length xs) by (etransitivity; [exact (CurvesE.omap_len _ _ _ E2)|apply seq_length]).
    assert (combine xs ys = combine xs zs) as ->.
    { revert H. unfold write_curve. destruct (cf_mrp c) as [|b nm]; [easy|]. rewrite Lz, Nat.eqb_refl, W. cbn [run].
      rewrite Tool.pbind_nil. unfold emit. intros H. now injection H. }
    split.
    - apply Forall_forall. intros cv K. apply in_map_iff in K as (y & <- & K). rewrite Forall_forall in Fl.
      rewrite !fst_combine; auto.
    - intros i x y K. apply combine_inv in K as [Kx Ky]. destruct (omap_nth _ _ _ _ _ E2 Ky) as (j & Ej & Sj).
      assert (Li : (i < length xs)%nat) by (apply nth_error_Some; congruence).
      assert (j = i) as ->.
      { rewrite (nth_error_nth' _ 0%nat) in Ej by (rewrite seq_length; exact Li). rewrite seq_nth in Ej by exact Li. now injection Ej. }
      destruct (sums i yss (length xs) Fl Li) as (vs & Fv & Ev). rewrite Ev in Sj. cbn [obind] in Sj. injection Sj as <-.
      exists vs. split.
      + clear - Fv Kx. induction Fv as [|z v yss vs Hz Fv IH]; [constructor|]. cbn [map]. constructor; [|exact IH]. now apply combine_nth.
      + assert (Lv : length yss = length vs) by (clear - Fv; induction Fv; simpl; congruence). rewrite Lg in Lv. destruct vs as [|v vs]; [destruct gs; [easy|discriminate Lv]|].
        unfold average. now rewrite <- Lv.
  Qed.

  Lemma global_again c c' (g g' : list M) pts : points sc_score (cf_collapse c) g = points sc_score (cf_collapse c) g' ->
    same_settings c c' -> cf_curve c' = cf_curve c -> Finish.global_points (A := A) c' g' pts -> Finish.global_points (A := A) c g pts.
  Proof.
    intros P (_ & S2 & S3 & S4) Ec. unfold Finish.global_points, precision_recall_matches. now rewrite Ec, P, <- S2, <- S3, <- S4.
  Qed.

  Lemma in_outputs (x : effect A (RE := RE) (HE := scored E)) l : In x (outputs l) -> In x l.
  Proof. unfold outputs. rewrite filter_In. tauto. Qed.

  Lemma grp_written (T : Trans A) srt w c (ms log : list M) gs l r : Instances.reported T srt w c ms log gs l r ->
    cf_grp c <> [] -> w_writable w (cf_grp c) = true ->
    exists pts, In (EWrite (cf_grp c) (FCurve pts)) l /\ Finish.global_points (A := A) c ms pts.
  Proof.
    intros (v1 & v2 & v4 & curves & e & _ & _ & _ & _ & O & Cv) N W.
    assert (exists pts, In (EWrite (cf_grp c) (FCurve pts)) curves /\ Finish.global_points (A := A) c ms pts) as (p & K & G).
    { destruct Cv as [g m b Hg Hm|g Hg].
      - inversion Hg; subst; [congruence|]. exists pts. split; [apply in_app_iff; left; left; reflexivity|assumption].
      - inversion Hg; subst. congruence. }
    exists p. split; [|exact G]. apply in_outputs. rewrite O. apply in_app_iff. right. apply in_app_iff. now right.
  Qed.

  Lemma mrp_written (T : Trans A) srt w c (ms log : list M) gs l r : Instances.reported T srt w c ms log gs l r ->
    cf_grp c = [] \/ w_writable w (cf_grp c) = true -> cf_mrp c <> [] -> w_writable w (cf_mrp c) = true ->
    exists pts, In (EWrite (cf_mrp c) (FCurve pts)) l /\ Finish.mean_points (A := A) w c gs pts.
  Proof.
    intros (v1 & v2 & v4 & curves & e & _ & _ & _ & _ & O & Cv) Ng N W.
    assert (exists pts, In (EWrite (cf_mrp c) (FCurve pts)) curves /\ Finish.mean_points (A := A) w c gs pts) as (p & K & G).
    { destruct Cv as [g m b Hg Hm|g Hg].
      - inversion Hm; subst; [congruence| |congruence]. exists pts. split; [apply in_app_iff; right; left; reflexivity|assumption].
      - inversion Hg; subst. destruct Ng; congruence. }
    exists p. split; [|exact G]. apply in_outputs. rewrite O. apply in_app_iff. right. apply in_app_iff. now right.
  Qed.
End Points.

Section Runs.
  Context {A : Arith} (T : Trans A) (srt : sort_fn) (Hs : sort_contract srt).
  Variables (rngs : Z -> rng) (show_int : Z -> bytes) (show_f64 : f64 -> bytes).
  Notation icdar := (icdar17 A T srt rngs show_int show_f64).
  Notation simple := (simple_kws A T srt rngs show_int show_f64).

  Lemma icdar_curves (pns : bytes -> bytes) (argss : bytes -> list bytes) (ws : bytes -> world) (cs : bytes -> config) (fs : bytes -> query_file bytes)
    w pn args c refs hyps f :
    command args c -> no_bootstrap c -> inputs shaped_text scored_shaped_text w c refs hyps f ->
    cf_grp c = [] \/ w_writable w (cf_grp c) = true -> cf_mrp c <> [] -> w_writable w (cf_mrp c) = true ->
    (exists k, present f refs hyps k) ->
    (forall k, present f refs hyps k -> only f k (fs k) /\ command (argss k) (cs k) /\ no_bootstrap (cs k) /\ same_settings c (cs k) /\
      cf_curve (cs k) = cf_curve c /\ cf_grp (cs k) <> [] /\ w_writable (ws k) (cf_grp (cs k)) = true /\
      inputs shaped_text scored_shaped_text (ws k) (cs k) refs hyps (fs k)) ->
    exists ks curves pts, NoDup ks /\ (forall k, In k ks <-> present f refs hyps k) /\
      In (EWrite (cf_mrp c) (FCurve pts)) (fst (icdar w pn args)) /\
      Forall2 (fun k curve => In (EWrite (cf_grp (cs k)) (FCurve curve)) (fst (icdar (ws k) (pns k) (argss k)))) ks curves /\
      mean_of_curves curves pts.
  Proof.
    intros Cm NB I Wg Nm Wm [k0 K0] Hk. destruct (icdar w pn args) as [l r] eqn:Et.
    destruct (Instances.icdar_run T srt Hs rngs show_int show_f64 w pn args c refs hyps f l r Cm NB I Et) as (ms & log & gs & Fi & Ev & Rp).
    destruct (Parts.evaluation_keys (c_lt cmp_shaped) cmp_shaped Order.total_order_shaped ev_query ev_query (evset_docbox srt cmp_str) (box_search cmp_str)
      (Matching.finds_docbox srt cmp_str Hs Order.total_order_str) _ (Parts.box_local cmp_str) _ _ _ _ _ _ _ Ev) as (keys & Nk & Fk & _ & Ik).
    destruct (mrp_written T srt w c ms log gs l r Rp Wg Nm Wm) as (pts & Kp & Mp).
    assert (Ng : gs <> []) by (intros ->; inversion Fk; subst; exact (proj2 (Ik k0) K0)).
    assert (exists curves, Forall2 (fun k curve => In (EWrite (cf_grp (cs k)) (FCurve curve)) (fst (icdar (ws k) (pns k) (argss k)))) keys curves /\
      Forall2 (Finish.global_points (A := A) c) gs curves) as (curves & F1 & F2).
    { assert (Hk' : forall k, In k keys -> present f refs hyps k) by (intros k K; now apply Ik). clear Ik Nk Rp Mp Ng.
      assert (exists gs0, icdar17_evaluation (cf_sort c) f refs hyps ms log gs0) as [gs0 Ev0] by eauto. clear Ev.
      induction Fk as [|k g keys gs Sg Fk IH]; [exists []; split; constructor|].
      destruct IH as (curves & F1 & F2); [intros k' K; apply Hk'; simpl; auto|].
      destruct (Hk k) as (On & Cm' & NB' & Ss & Ec & Ng' & Wg' & I'); [apply Hk'; simpl; auto|].
      destruct (icdar (ws k) (pns k) (argss k)) as [l' r'] eqn:Et'.
      destruct (Instances.icdar_run T srt Hs rngs show_int show_f64 (ws k) (pns k) (argss k) (cs k) refs hyps (fs k) l' r' Cm' NB' I' Et')
        as (ms' & log' & gs' & _ & Ev' & Rp').
      destruct (Parts.kept_events _ _ _ _ _ _ _ _ _ _ _ _ _ Ev') as (refs2 & hyps2 & Sr & Sh).
      destruct (Parts.evaluation_part Parts.bytes_dec _ _ _ _ _ _ (Parts.box_local cmp_str) _ f k (fs k) refs hyps ms log _ g refs2 hyps2 On Ev0 Sg Sr Sh)
        as (log2 & gs2 & Ev2).
      rewrite (proj1 Ss) in Ev2. assert (Pt := Parts.evaluation_again cmp_shaped Order.total_order_shaped cmp_shaped Order.total_order_shaped ev_query ev_query
        (evset_docbox srt cmp_str) (box_search cmp_str) (Matching.finds_docbox srt cmp_str Hs Order.total_order_str)
        (fun r h => ioh_scorer cmp_str f32_half r (sc_base h)) Runs.box_search_base
        (fun r h h' B => f_equal (fun x => ioh_scorer cmp_str f32_half r x) B) _ _ _ _ _ _ _ _ _ _ Fi Ev2 Ev' (cf_collapse c)).
      destruct (grp_written T srt (ws k) (cs k) ms' log' gs' l' r' Rp' Ng' Wg') as (cv & Kc & Gc).
      exists (cv :: curves). split; constructor; [rewrite Et'; exact Kc|exact F1| |exact F2].
      exact (global_again c (cs k) g ms' cv Pt Ss Ec Gc). }
    exists keys, curves, pts. split; [exact Nk|]. split; [exact Ik|]. split; [exact Kp|]. split; [exact F1|].
    exact (mean_parts w c gs curves pts Ng Nm Wm F2 Mp).
  Qed.

  Lemma simple_curves (pns : bytes -> bytes) (argss : bytes -> list bytes) (ws : bytes -> world) (cs : bytes -> config)
    (fs : bytes -> query_file bytes) qf w pn args c refs hyps f :
    command args c -> no_bootstrap c -> inputs str_event_text scored_str_event_text w c refs hyps f ->
    (Z.of_nat (strings refs hyps f) <= 2147483648)%Z ->
    cf_grp c = [] \/ w_writable w (cf_grp c) = true -> cf_mrp c <> [] -> w_writable w (cf_mrp c) = true ->
    (exists k, present f refs hyps k) ->
    (forall k, present f refs hyps k -> only f k (fs k) /\ command (argss k) (cs k) /\ no_bootstrap (cs k) /\ same_settings c (cs k) /\
      cf_curve (cs k) = cf_curve c /\ cf_grp (cs k) <> [] /\ w_writable (ws k) (cf_grp (cs k)) = true /\
      inputs str_event_text scored_str_event_text (ws k) (cs k) refs hyps (fs k) /\ (Z.of_nat (strings refs hyps (fs k)) <= 2147483648)%Z) ->
    exists ks curves pts, NoDup ks /\ (forall k, In k ks <-> present f refs hyps k) /\
      In (EWrite (cf_mrp c) (FCurve pts)) (fst (simple qf w pn args)) /\
      Forall2 (fun k curve => In (EWrite (cf_grp (cs k)) (FCurve curve)) (fst (simple qf (ws k) (pns k) (argss k)))) ks curves /\
      mean_of_curves curves pts.
  Proof.
    intros Cm NB I Ls Wg Nm Wm [k0 K0] Hk. destruct (simple qf w pn args) as [l r] eqn:Et. rewrite Instances.simple_tool in Et.
    destruct (Instances.simple_run_ids T srt Hs rngs show_int show_f64 w qf pn args c refs hyps f l r Cm NB I Et Ls) as (id & ms & log & gs & Id & Inj & Fi & Ev & Rp).
    destruct (Parts.evaluation_keys (c_lt (Results.by_id id)) (Results.by_id id) (Results.by_id_total id Inj) ev_query ev_query (evset_generic (Results.by_id id)) exact_search
      (Matching.finds_generic (Results.by_id id) (Results.by_id_total id Inj)) (fun r h => trivial_scorer cmp_str cmp_str r (sc_base h)) Parts.exact_local _ _ _ _ _ _ _ Ev) as (keys & Nk & Fk & _ & Ik).
    destruct (mrp_written T srt w c _ _ _ l r Rp Wg Nm Wm) as (pts & Kp & Mp).
    assert (Ng : map (map (renamed_match id)) gs <> []) by (intros X; apply map_eq_nil in X; subst gs; inversion Fk; subst; exact (proj2 (Ik k0) K0)).
    assert (exists curves, Forall2 (fun k curve => In (EWrite (cf_grp (cs k)) (FCurve curve)) (fst (simple qf (ws k) (pns k) (argss k)))) keys curves /\
      Forall2 (Finish.global_points (A := A) c) (map (map (renamed_match id)) gs) curves) as (curves & F1 & F2).
    { assert (Hk' : forall k, In k keys -> present f refs hyps k) by (intros k K; now apply Ik). clear Ik Nk Rp Mp Ng.
      assert (exists gs0, simple_evaluation id (cf_sort c) f refs hyps ms log gs0) as [gs0 Ev0] by eauto. clear Ev.
      induction Fk as [|k g keys gs Sg Fk IH]; [exists []; split; constructor|].
      destruct IH as (curves & F1 & F2); [intros k' K; apply Hk'; simpl; auto|].
      destruct (Hk k) as (On & Cm' & NB' & Ss & Ec & Ng' & Wg' & I' & Ls'); [apply Hk'; simpl; auto|].
      destruct (simple qf (ws k) (pns k) (argss k)) as [l' r'] eqn:Et'. assert (Et2 := Et'). rewrite Instances.simple_tool in Et2.
      destruct (Instances.simple_run_ids T srt Hs rngs show_int show_f64 (ws k) qf (pns k) (argss k) (cs k) refs hyps (fs k) l' r' Cm' NB' I' Et2 Ls')
        as (id' & ms' & log' & gs' & Id' & Inj' & _ & Ev' & Rp').
      destruct (Parts.kept_events _ _ _ _ _ _ _ _ _ _ _ _ _ Ev') as (refs2 & hyps2 & Sr & Sh).
      destruct (Parts.evaluation_part Parts.bytes_dec _ _ _ _ _ _ Parts.exact_local _ f k (fs k) refs hyps ms log _ g refs2 hyps2 On Ev0 Sg Sr Sh)
        as (log2 & gs2 & Ev2).
      rewrite <- (proj1 Ss) in Ev'.
      destruct (Parts.ids_agree qf refs hyps id' id Id' Id) as [Ar Ah].
      apply (Parts.evaluation_orders _ (c_lt (Results.by_id id)) _ (c_lt (Results.by_id id))) in Ev';
        [|intros h h' Ih Ih'; unfold Results.by_id; cbn [c_lt]; now rewrite (Ah h Ih), (Ah h' Ih')
         |intros x x' Ix Ix'; unfold Results.by_id; cbn [c_lt]; now rewrite (Ar x Ix), (Ar x' Ix')].
      assert (Pt := Parts.evaluation_again (Results.by_id id) (Results.by_id_total id Inj) (Results.by_id id) (Results.by_id_total id Inj) ev_query ev_query
        (evset_generic (Results.by_id id)) exact_search (Matching.finds_generic (Results.by_id id) (Results.by_id_total id Inj))
        (fun r h => trivial_scorer cmp_str cmp_str r (sc_base h)) Parts.exact_base
        (fun r h h' B => f_equal (fun x => trivial_scorer cmp_str cmp_str r x) B) _ _ _ _ _ _ _ _ _ _ Fi Ev2 Ev' (cf_collapse c)).
      assert (Pt' : points sc_score (cf_collapse c) (map (renamed_match id) g) = points sc_score (cf_collapse c) (map (renamed_match id') ms')).
      { transitivity (points sc_score (cf_collapse c) g); [apply Runs.points_renamed; reflexivity|].
        rewrite Pt. symmetry. apply Runs.points_renamed. reflexivity. }
      destruct (grp_written T srt (ws k) (cs k) _ _ _ l' r' Rp' Ng' Wg') as (cv & Kc & Gc).
      exists (cv :: curves). split; [|cbn [map]]; constructor; [rewrite Et'; exact Kc|exact F1| |exact F2].
      exact (global_again c (cs k) _ _ cv Pt' Ss Ec Gc). }
    exists keys, curves, pts. split; [exact Nk|]. split; [exact Ik|]. split; [exact Kp|]. split; [exact F1|].
    exact (mean_parts w c _ curves pts Ng Nm Wm F2 Mp).
  Qed.
End Runs.
