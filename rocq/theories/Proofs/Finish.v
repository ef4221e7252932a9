(** The end of a run: dump, statistics and curves. *)
From Coq Require Import Ascii String List Bool ZArith Lia Permutation Sorted.
From Flocq Require Import BinarySingleNaN.
From Verif.Model Require Import Cpp Floats Events EventSets Matches Matcher Assessment Bootstrap Mapper Stream
  Reader Options Tool.
From Verif.Spec Require Import Order Matching Grouping Collapse Metrics Curves Reader Tool.
From Verif.Proofs Require Import Queries Tool.
From Verif.Proofs Require Reader Grouping Order Matching Curves MeanCurve Rescore Metrics.
Import ListNotations.

(** ** Everything is defined, in any arithmetic *)

Section Defined.
  Context {A : Arith} (T : Trans A) {RE HE : Type} (score : HE -> f32).
  Notation M := (match_t RE HE).

  Lemma global_ap_ok (ms : list M) c i t : exists v, global_ap A score ms c i t = Ok v.
  Proof.
    unfold global_ap. pose proof (MeanCurve.pr_rc_length A RE HE score ms c i) as L.
    destruct (precision_recall_matches A score ms c i) as [pr rc]. cbn [fst snd] in L.
    unfold ap_curves. rewrite L, Nat.eqb_refl. eauto.
  Qed.

  Lemma ofold_ok {X S} (f : S -> X -> outcome S) l : (forall s x, exists s', f s x = Ok s') ->
    forall s, exists s', ofold f l s = Ok s'.
  Proof.
    intros H. induction l as [|x l IH]; intros s; simpl; [eauto|].
    destruct (H s x) as [s' ->]. apply IH.
  Qed.

  Lemma mean_ap_ok srt (gs : list (list M)) c i t : exists v, mean_ap A score srt gs c i t false = Ok v.
  Proof.
    unfold mean_ap. cbn [maybe_sort].
    edestruct (ofold_ok (fun s g => obind (Ok g) (fun g' => obind (global_ap A score g' c i t) (fun ap => Ok (a_add A s ap)))) gs)
      as [s' E].
    - intros s g. cbn [obind]. destruct (global_ap_ok g c i t) as [v ->]. cbn [obind]. eauto.
    - rewrite E. cbn [obind]. eauto.
  Qed.

  Lemma mean_ndcg_ok srt (gs : list (list M)) c : exists v, mean_ndcg A T score srt gs c false = Ok v.
  Proof.
    unfold mean_ndcg. cbn [maybe_sort].
    edestruct (ofold_ok (fun s g => obind (Ok g) (fun g' => Ok (a_add A s (global_ndcg A T score g' c)))) gs)
      as [s' E].
    - intros s g. cbn [obind]. eauto.
    - rewrite E. cbn [obind]. eauto.
  Qed.

  Lemma count_lt_le (x : num A) l : (count_lt A x l <= List.length l)%nat.
  Proof. induction l as [|a l IH]; simpl; [lia|]. destruct (a_lt A a x); lia. Qed.

  Lemma sample_loop_ok (xs ys : list (num A)) linear dst : (List.length xs <= List.length ys)%nat ->
    forall j, (j <= List.length xs)%nat ->
    exists out, sample_loop A xs ys linear j dst = Ok out /\ List.length out = List.length dst.
  Proof.
    intros L. induction dst as [|x dst IH]; intros j J; [exists []; split; reflexivity|].
    rewrite Curves.sample_loop_cons. set (k := (j + count_lt A x (skipn j xs))%nat).
    assert (K : (k <= List.length xs)%nat).
    { unfold k. pose proof (count_lt_le x (skipn j xs)) as C. rewrite skipn_length in C. lia. }
    assert (exists y, Curves.sample_at A xs ys linear k x = Ok y) as [y Y].
    { unfold Curves.sample_at. destruct (Nat.eqb_spec k (List.length xs)) as [E|E]; [eauto|].
      destruct (negb linear || Nat.eqb k 0) eqn:B.
      - destruct (Curves.at_ok ys k) as [y [-> _]]; [lia|eauto].
      - destruct (Curves.at_ok xs k) as [u1 [-> _]]; [lia|]. destruct (Curves.at_ok xs (k - 1)) as [u2 [-> _]]; [lia|].
        destruct (Curves.at_ok ys (k - 1)) as [u3 [-> _]]; [lia|]. destruct (Curves.at_ok ys k) as [u4 [-> _]]; [lia|].
        cbn [obind]. eauto. }
    rewrite Y. cbn [obind]. destruct (IH k K) as (out & -> & Lo). cbn [obind].
    exists (y :: out). split; [reflexivity|]. simpl. now f_equal.
  Qed.

  Lemma sample_curve_ok (xs ys dst : list (num A)) linear : (List.length xs <= List.length ys)%nat ->
    exists out, sample_curve A xs ys dst linear = Ok out /\ List.length out = List.length dst.
  Proof. intros L. apply sample_loop_ok; [exact L|lia]. Qed.

  (** A curve file: written if it can be, otherwise an exception. *)
  Definition curve_result (w : world) (name : bytes) (p : prog A (RE := RE) (HE := HE) unit)
    (P : list (num A * num A) -> Prop) : Prop :=
    (w_writable w name = true /\ exists pts, p = ([EWrite name (FCurve pts)], inl tt) /\ P pts) \/
    (w_writable w name = false /\ p = ([], inr (FThrow IosFailure))).

  Lemma global_curve_ok w c (ms : list M) : cf_grp c <> [] ->
    curve_result w (cf_grp c) (write_global_curve A score w c ms)
      (fun pts => exists ys, pts = combine (even_points A (Z.to_nat (cf_curve c))) ys /\
         List.length ys = List.length (even_points A (Z.to_nat (cf_curve c))) /\
         let (pr, rc) := precision_recall_matches A score ms (cf_collapse c) (cf_interp c) in
         sample_curve A rc pr (even_points A (Z.to_nat (cf_curve c))) (cf_trapezoid c) = Ok ys).
  Proof.
    intros N. unfold write_global_curve.
    pose proof (MeanCurve.pr_rc_length A RE HE score ms (cf_collapse c) (cf_interp c)) as L.
    destruct (precision_recall_matches A score ms (cf_collapse c) (cf_interp c)) as [pr rc]. cbn [fst snd] in L.
    destruct (sample_curve_ok rc pr (even_points A (Z.to_nat (cf_curve c))) (cf_trapezoid c)) as (ys & E & Ly); [lia|].
    rewrite E. cbn [run]. rewrite pbind_nil. unfold write_curve.
    destruct (cf_grp c) as [|x nm] eqn:En; [easy|]. rewrite <- En. rewrite Ly, Nat.eqb_refl.
    destruct (w_writable w (cf_grp c)) eqn:W; cbn [run].
    - left. split; [exact W|]. rewrite pbind_nil. eexists. split; [reflexivity|]. exists ys. auto.
    - right. split; [exact W|reflexivity].
  Qed.

  Lemma sum_at_ok i (curves : list (list (num A))) : (forall ys, In ys curves -> (i < List.length ys)%nat) ->
    exists s, sum_at A i curves = Ok s.
  Proof.
    unfold sum_at. generalize (a0 A). induction curves as [|ys curves IH]; intros s H; simpl; [eauto|].
    destruct (Curves.at_ok ys i) as [y [-> _]]; [apply H; now left|]. cbn [obind]. apply IH. intros; apply H; now right.
  Qed.

  Lemma mean_curve_ok w c (gs : list (list M)) : cf_mrp c <> [] ->
    curve_result w (cf_mrp c) (write_mean_curve A score w c gs)
      (fun pts => exists ys, pts = combine (even_points A (Z.to_nat (cf_curve c))) ys /\
         List.length ys = List.length (even_points A (Z.to_nat (cf_curve c)))).
  Proof.
    intros N. unfold write_mean_curve. set (xs := even_points A (Z.to_nat (cf_curve c))). clearbody xs.
    destruct (MeanCurve.omap_ok (fun g : list M =>
        let (pr, rc) := precision_recall_matches A score g (cf_collapse c) (cf_interp c) in
        sample_curve A rc pr xs (cf_trapezoid c)) (fun _ ys => List.length ys = List.length xs) gs) as [curves [E1 F1]].
    { intros g _. pose proof (MeanCurve.pr_rc_length A RE HE score g (cf_collapse c) (cf_interp c)) as L.
      destruct (precision_recall_matches A score g (cf_collapse c) (cf_interp c)) as [pr rc]. cbn [fst snd] in L.
      apply sample_curve_ok. lia. }
    rewrite E1. cbn [run]. rewrite pbind_nil.
    assert (LC : forall ys, In ys curves -> List.length ys = List.length xs).
    { intros ys I. clear - F1 I. induction F1 as [|g z gs cs H F IH]; [destruct I|]. destruct I as [<-|I]; auto. }
    destruct (MeanCurve.omap_ok (fun i => obind (sum_at A i curves)
        (fun s => Ok (a_div A s (a_nat A (List.length gs))))) (fun _ _ => True) (seq 0 (List.length xs))) as [ys [E2 F2]].
    { intros i K. apply in_seq in K. destruct (sum_at_ok i curves) as [s ->]; [intros z I; rewrite (LC z I); lia|].
      cbn [obind]. eauto. }
    rewrite E2. cbn [run]. rewrite pbind_nil. unfold write_curve.
    assert (Ly : List.length ys = List.length xs) by (rewrite <- (Grouping.Forall2_len _ _ _ F2), seq_length; reflexivity).
    destruct (cf_mrp c) as [|x nm] eqn:En; [easy|]. rewrite <- En. rewrite Ly, Nat.eqb_refl.
    destruct (w_writable w (cf_mrp c)) eqn:W; cbn [run].
    - left. split; [exact W|]. rewrite pbind_nil. eexists. split; [reflexivity|]. exists ys. auto.
    - right. split; [exact W|reflexivity].
  Qed.
End Defined.

(** ** Dump and check *)

Section End_.
  Context {A : Arith} (T : Trans A) {Q RE E : Type}.
  Notation HE := (scored E).
  Notation M := (match_t RE HE).
  Variables (srt : sort_fn) (rngs : Z -> rng).
  Variables (cq : Cmp Q) (rq : RE -> Q) (hq : E -> Q).
  Variable w : world.
  Variable c : config.
  Notation hqs := (fun h : HE => hq (sc_base h)).
  Notation Prog := (prog A (RE := RE) (HE := HE)).

  Lemma dump_cases (ms log : list M) :
    (cf_dump c <> [] /\ w_writable w (cf_dump c) = false /\
     dump_matches A w c ms log = ([EDiag (DDumpFailed (cf_dump c))], inr (FExit 1))) \/
    ((cf_dump c <> [] -> w_writable w (cf_dump c) = true) /\ dump_matches A w c ms log = (dumped c ms log, inl tt)).
  Proof.
    unfold dump_matches, dumped. destruct (cf_dump c) as [|x nm]; [right; split; [congruence|reflexivity]|].
    destruct (w_writable w (x :: nm)); [right|left]; (split; [easy|]); [reflexivity|]. split; reflexivity.
  Qed.

  Lemma fold_total (ms : list M) k : fold_left (fun n m => (n + me_nh (m_err m))%nat) ms k =
    (k + total (fun x => me_nh (m_err x)) ms)%nat.
  Proof. revert k. induction ms as [|m ms IH]; intros k; simpl; [unfold total; simpl; lia|]. rewrite IH. unfold total. simpl. lia. Qed.

  Lemma check_ok n (ms : list M) : (total (fun x => me_nh (m_err x)) ms <= n)%nat ->
    exists D, check_hyps A n ms = (D, inl tt) /\ outputs D = [].
  Proof.
    intros H. unfold check_hyps. rewrite fold_total. simpl (0 + _)%nat.
    destruct (Nat.ltb_spec (total (fun x => me_nh (m_err x)) ms) n).
    - eexists. split; reflexivity.
    - destruct (Nat.ltb_spec n (total (fun x => me_nh (m_err x)) ms)); [lia|]. exists []. split; reflexivity.
  Qed.

  (** ** Statistics *)

  Lemma statistic_cases name ci (gs : list (list M)) plain on :
    (exists v iv, compute_statistic A srt rngs name c ci gs plain on = ([EStat name v iv], inl tt) /\
       (ci = false -> iv = None /\ plain = Ok v)) \/
    (exists e, compute_statistic A srt rngs name c ci gs plain on = ([], inr e) /\ (e = FUB \/ exists x, e = FThrow x) /\
       (ci = false -> forall v, plain <> Ok v)).
  Proof.
    unfold compute_statistic. destruct ci.
    - destruct (bootstrap_groups A _ srt on _ gs _ _) as [[[v lo] up]| |x].
      + left. exists v, (Some (lo, up)). split; [reflexivity|discriminate].
      + right. exists FUB. split; [reflexivity|]. split; [auto|discriminate].
      + right. exists (FThrow x). split; [reflexivity|]. split; [eauto|discriminate].
    - destruct plain as [v| |x].
      + left. exists v, None. split; [reflexivity|auto].
      + right. exists FUB. split; [reflexivity|]. split; [auto|discriminate].
      + right. exists (FThrow x). split; [reflexivity|]. split; [eauto|discriminate].
  Qed.

  Definition curve_part (name : bytes) (p : Prog unit) : Prog unit :=
    match name with [] => pret A tt | _ => p end.

  Lemma finish_stats m n ms log gs : group_matches cq rq hqs ms m = Ok gs ->
    (total (fun x => me_nh (m_err x)) ms <= n)%nat -> no_bootstrap c ->
    (cf_dump c <> [] -> w_writable w (cf_dump c) = true) ->
    exists D v1 v2 v3 v4,
      outputs D = [] /\
      global_ap A sc_score ms (cf_collapse c) (cf_interp c) (cf_trapezoid c) = Ok v1 /\
      mean_ap A sc_score srt gs (cf_collapse c) (cf_interp c) (cf_trapezoid c) false = Ok v2 /\
      global_ndcg A T sc_score ms (cf_collapse c) = v3 /\
      mean_ndcg A T sc_score srt gs (cf_collapse c) false = Ok v4 /\
      finish T srt rngs cq rq hq w c m n ms log =
        pbind A (dumped c ms log ++ D ++ [EStat (lit "gAP") v1 None; EStat (lit "mAP") v2 None;
                   EStat (lit "gNDCG") v3 None; EStat (lit "mNDCG") v4 None], inl tt)
          (fun _ => pbind A (curve_part (cf_grp c) (write_global_curve A sc_score w c ms))
          (fun _ => pbind A (curve_part (cf_mrp c) (write_mean_curve A sc_score w c gs))
          (fun _ => stop A 0))).
  Proof.
    intros G L (C1 & C2 & C3 & C4) Dm.
    destruct (check_ok n ms L) as (D & Ec & OD).
    destruct (global_ap_ok (A := A) sc_score ms (cf_collapse c) (cf_interp c) (cf_trapezoid c)) as [v1 V1].
    destruct (mean_ap_ok (A := A) sc_score srt gs (cf_collapse c) (cf_interp c) (cf_trapezoid c)) as [v2 V2].
    destruct (mean_ndcg_ok T sc_score srt gs (cf_collapse c)) as [v4 V4].
    exists D, v1, v2, (global_ndcg A T sc_score ms (cf_collapse c)), v4.
    split; [exact OD|]. split; [exact V1|]. split; [exact V2|]. split; [reflexivity|]. split; [exact V4|].
    unfold finish. destruct (dump_cases ms log) as [(N & W & _)|(_ & Ed)]; [rewrite (Dm N) in W; discriminate|].
    assert (R : report A T srt rngs cq rq hqs sc_score w c m ms =
      pbind A ([EStat (lit "gAP") v1 None; EStat (lit "mAP") v2 None;
                EStat (lit "gNDCG") (global_ndcg A T sc_score ms (cf_collapse c)) None;
                EStat (lit "mNDCG") v4 None], inl tt)
        (fun _ => pbind A (curve_part (cf_grp c) (write_global_curve A sc_score w c ms))
        (fun _ => curve_part (cf_mrp c) (write_mean_curve A sc_score w c gs)))).
    { unfold report. rewrite G. cbn [run]. unfold pret at 1. rewrite pbind_nil. unfold compute_statistic. rewrite C1, C2, C3, C4, V1, V2, V4. cbn [run].
      unfold emit, pret. repeat (progress (rewrite ?pbind_assoc, ?pbind_inl; cbn [fst snd app])). reflexivity. }
    rewrite Ed, Ec, R.
    repeat (progress (rewrite ?pbind_assoc, ?pbind_inl; cbn [fst snd])).
    rewrite <- !app_assoc. reflexivity.
  Qed.

  (** ** Names of the statistics printed *)

  (** The names printed are a prefix of [ns]; all of them, if the run goes on;
      and there is no exit. *)
  Definition reports {X} (p : Prog X) (ns : list bytes) : Prop :=
    exists rest, ns = stat_names (fst p) ++ rest /\
      match snd p with
      | inl _ => rest = []
      | inr e => e = FUB \/ exists x, e = FThrow x
      end.

  Lemma reports_bind {X Y} (p : Prog X) ns (f : X -> Prog Y) ns' :
    reports p ns -> (forall x, reports (f x) ns') -> reports (pbind A p f) (ns ++ ns').
  Proof.
    intros (rest & E1 & H) K. destruct p as [l [x|e]]; cbn [fst snd] in *.
    - subst rest. rewrite app_nil_r in E1. rewrite pbind_inl. destruct (K x) as (rest & E2 & H2).
      exists rest. cbn [fst snd]. rewrite names_app, <- app_assoc, <- E2, E1. auto.
    - exists (rest ++ ns'). cbn [pbind fst snd]. rewrite app_assoc, <- E1. auto.
  Qed.

  Lemma reports_statistic name ci (gs : list (list M)) plain on :
    reports (compute_statistic A srt rngs name c ci gs plain on) [name].
  Proof.
    destruct (statistic_cases name ci gs plain on) as [(v & iv & -> & _)|(e & -> & H & _)].
    - exists []. split; reflexivity.
    - exists [name]. split; [reflexivity|exact H].
  Qed.

  Lemma reports_curve name (p : Prog unit) (P : list (num A * num A) -> Prop) : curve_result w name p P -> reports p [].
  Proof.
    intros [(_ & pts & -> & _)|(_ & ->)]; exists []; (split; [reflexivity|]); [reflexivity|].
    right. eexists. reflexivity.
  Qed.

  Lemma reports_report m ms gs : group_matches cq rq hqs ms m = Ok gs ->
    reports (report A T srt rngs cq rq hqs sc_score w c m ms) four_names.
  Proof.
    intros G. unfold report. rewrite G. cbn [run]. rewrite pbind_nil.
    change four_names with ([lit "gAP"] ++ [lit "mAP"] ++ [lit "gNDCG"] ++ [lit "mNDCG"] ++ @nil bytes ++ @nil bytes).
    apply reports_bind; [apply reports_statistic|intros _].
    apply reports_bind; [apply reports_statistic|intros _].
    apply reports_bind; [apply reports_statistic|intros _].
    apply reports_bind; [apply reports_statistic|intros _].
    apply reports_bind; [|intros _].
    - destruct (cf_grp c) as [|x nm] eqn:N; [exists []; split; reflexivity|].
      eapply reports_curve. apply global_curve_ok. congruence.
    - destruct (cf_mrp c) as [|x nm] eqn:N; [exists []; split; reflexivity|].
      eapply reports_curve. apply mean_curve_ok. congruence.
  Qed.

  (** The end of any run. *)
  Lemma finish_any m n ms log gs : group_matches cq rq hqs ms m = Ok gs ->
    (total (fun x => me_nh (m_err x)) ms <= n)%nat ->
    exists l e, finish T srt rngs cq rq hq w c m n ms log = (l, inr e) /\
      ((cf_dump c <> [] /\ w_writable w (cf_dump c) = false /\ e = FExit 1 /\ outputs l = [] /\ l <> []) \/
       ((cf_dump c <> [] -> w_writable w (cf_dump c) = true) /\
        exists rest, four_names = stat_names l ++ rest /\
          (e = FExit 0 /\ rest = [] \/ e = FUB \/ exists x, e = FThrow x))).
  Proof.
    intros G L. unfold finish. destruct (dump_cases ms log) as [(N & W & E1)|(W & E1)]; rewrite E1.
    - eexists _, _. split; [reflexivity|]. left. repeat split; auto. discriminate.
    - rewrite pbind_inl. destruct (check_ok n ms L) as (D & E2 & OD). rewrite E2. rewrite pbind_inl. cbn [fst snd].
      destruct (reports_report m ms gs G) as (rest & E3 & H).
      assert (N1 : stat_names (A := A) (dumped c ms log) = []) by (unfold dumped; destruct (cf_dump c); reflexivity).
      assert (N2 : stat_names D = []) by (rewrite <- names_outputs, OD; reflexivity).
      destruct (report A T srt rngs cq rq hqs sc_score w c m ms) as [l [x|e]]; cbn [fst snd] in *.
      + rewrite pbind_inl. cbn [stop fst snd]. eexists _, _. split; [reflexivity|]. right. split; [exact W|].
        exists rest. rewrite !names_app, N1, N2. cbn [app]. rewrite app_nil_r. split; [exact E3|]. auto.
      + cbn [pbind fst snd]. eexists _, _. split; [reflexivity|]. right. split; [exact W|].
        exists rest. rewrite !names_app, N1, N2. cbn [app]. auto.
  Qed.

  (** ** The outputs of a run without bootstrapping *)

  Definition global_points (ms : list M) (pts : list (num A * num A)) : Prop :=
    exists ys, pts = combine (even_points A (Z.to_nat (cf_curve c))) ys /\
         List.length ys = List.length (even_points A (Z.to_nat (cf_curve c))) /\
         let (pr, rc) := precision_recall_matches A sc_score ms (cf_collapse c) (cf_interp c) in
         sample_curve A rc pr (even_points A (Z.to_nat (cf_curve c))) (cf_trapezoid c) = Ok ys.

  Definition mean_points (gs : list (list M)) (pts : list (num A * num A)) : Prop :=
    exists ys, pts = combine (even_points A (Z.to_nat (cf_curve c))) ys /\
         List.length ys = List.length (even_points A (Z.to_nat (cf_curve c))) /\
         (cf_mrp c <> [] -> write_mean_curve A sc_score w c gs = ([EWrite (cf_mrp c) (FCurve pts)], inl tt)).

  Lemma curve_part_ok name (p : Prog unit) (P : list (num A * num A) -> Prop) : (name <> [] -> curve_result w name p P) ->
    exists l (b : bool), curve_part name p = (l, if b then inl tt else inr (FThrow IosFailure)) /\ outputs l = l /\
      curve_file w name P l b.
  Proof.
    intros H. unfold curve_part. destruct name as [|x nm].
    - exists [], true. split; [reflexivity|]. split; [reflexivity|]. now constructor.
    - destruct H as [(W & pts & -> & Hp)|(W & ->)]; [discriminate| |].
      + eexists _, true. split; [reflexivity|]. split; [reflexivity|]. constructor; easy.
      + exists [], false. split; [reflexivity|]. split; [reflexivity|]. constructor; easy.
  Qed.

  Lemma finish_run m n ms log gs : group_matches cq rq hqs ms m = Ok gs ->
    (total (fun x => me_nh (m_err x)) ms <= n)%nat -> no_bootstrap c ->
    (cf_dump c <> [] -> w_writable w (cf_dump c) = true) ->
    exists l e v1 v2 v4 curves,
      finish T srt rngs cq rq hq w c m n ms log = (l, inr e) /\
      global_ap A sc_score ms (cf_collapse c) (cf_interp c) (cf_trapezoid c) = Ok v1 /\
      mean_ap A sc_score srt gs (cf_collapse c) (cf_interp c) (cf_trapezoid c) false = Ok v2 /\
      mean_ndcg A T sc_score srt gs (cf_collapse c) false = Ok v4 /\
      outputs l = dumped c ms log ++ [EStat (lit "gAP") v1 None; EStat (lit "mAP") v2 None;
                   EStat (lit "gNDCG") (global_ndcg A T sc_score ms (cf_collapse c)) None;
                   EStat (lit "mNDCG") v4 None] ++ curves /\
      curve_files w c (global_points ms) (mean_points gs) curves e.
  Proof.
    intros G L C W. destruct (finish_stats m n ms log gs G L C W) as (D & v1 & v2 & v3 & v4 & OD & V1 & V2 & V3 & V4 & EF).
    rewrite EF, V3. clear EF. rewrite pbind_inl.
    destruct (curve_part_ok (cf_grp c) (write_global_curve A sc_score w c ms) (global_points ms)) as (g & b & Eg & Og & Cg).
    { intros N. exact (global_curve_ok sc_score w c ms N). }
    destruct (curve_part_ok (cf_mrp c) (write_mean_curve A sc_score w c gs) (mean_points gs)) as (k & b' & Ek & Ok_ & Ck).
    { intros N. destruct (mean_curve_ok (A := A) sc_score w c gs N) as [(W1 & pts & E1 & ys & P1 & P2)|(W1 & E1)].
      - left. split; [exact W1|]. exists pts. split; [exact E1|]. exists ys. auto.
      - right. auto. }
    assert (OS : outputs (A := A) (dumped c ms log) = dumped c ms log) by (unfold dumped; destruct (cf_dump c); reflexivity).
    destruct b.
    - rewrite Eg, pbind_inl. destruct b'.
      + rewrite Ek, pbind_inl. cbn [fst snd stop]. rewrite app_nil_r.
        eexists _, _, v1, v2, v4, (g ++ k). split; [reflexivity|]. repeat (split; [assumption|]). split.
        * rewrite !outputs_app, OS, OD, Og, Ok_, <- !app_assoc. reflexivity.
        * exact (cf_both _ _ _ _ _ _ true Cg Ck).
      + rewrite Ek. cbn [pbind fst snd].
        eexists _, _, v1, v2, v4, (g ++ k). split; [reflexivity|]. repeat (split; [assumption|]). split.
        * rewrite !outputs_app, OS, OD, Og, Ok_, <- !app_assoc. reflexivity.
        * exact (cf_both _ _ _ _ _ _ false Cg Ck).
    - rewrite Eg. cbn [pbind fst snd].
      eexists _, _, v1, v2, v4, g. split; [reflexivity|]. repeat (split; [assumption|]). split.
      + rewrite !outputs_app, OS, OD, Og, <- !app_assoc. reflexivity.
      + now constructor.
  Qed.
End End_.
