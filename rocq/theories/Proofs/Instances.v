(** The two programs as instances of the general tool. *)
From Coq Require Import Ascii String List Bool ZArith Lia Reals Lra.
From Flocq Require Import BinarySingleNaN.
From Verif.Model Require Import Cpp Floats Box Events EventSets Matches Scorers Matcher Assessment Bootstrap Mapper Stream Reader Options Tool.
From Verif.Spec Require Import Order Matching Grouping Collapse Metrics Curves Mapper Reader Options Tool.
From Verif.Proofs Require Order Matching Grouping Scorers Mapper Reader Tool Programs Finish Evaluation Ids.
Import ListNotations.

Definition int_max : Z := 2147483647.

Section Instances.
  Context {A : Arith} (T : Trans A).
  Variables (srt : sort_fn) (Hs : sort_contract srt).
  Variable rngs : Z -> rng.
  Variables (show_int : Z -> bytes) (show_f64 : f64 -> bytes).

  Lemma icdar17_tool w pn args : icdar17 A T srt rngs show_int show_f64 w pn args =
    Programs.tool T srt rngs show_int show_f64 cmp_str cmp_shaped cmp_shaped ev_query ev_query
      (evset_docbox srt cmp_str) (fun r h => ioh_scorer cmp_str f32_half r (sc_base h))
      read_shaped (read_scored read_shaped) identity_mapper identity_mapper identity_mapper
      (lit "  Official evaluation tool for ICDAR2017 H-KWS Competition.") w tt pn args.
  Proof. reflexivity. Qed.

  Lemma simple_tool qf w pn args : simple_kws A T srt rngs show_int show_f64 qf w pn args =
    Programs.tool T srt rngs show_int show_f64 cmp_Z cmp_int_event cmp_int_event ev_query ev_query
      (evset_generic cmp_int_event) (fun r h => trivial_scorer cmp_Z cmp_Z r (sc_base h))
      read_str_event (read_scored read_str_event) (event_to_int qf int_max)
      (scored_mapper (event_to_int qf int_max)) (string_to_int int_max)
      (lit "  Perform simple evaluation for segmentation-based keyword spotting.") w [] pn args.
  Proof. reflexivity. Qed.
End Instances.

Lemma tame_identity {X S} (st : S) (x : X) : Tool.tame false (identity_mapper st x).
Proof. left. eexists. reflexivity. Qed.

Lemma tame_string st x : Tool.tame true (string_to_int int_max st x).
Proof.
  unfold string_to_int. destruct (map_find str_eq x st); [left; eauto|].
  destruct (_ <? _)%Z; [left; eauto|right; auto].
Qed.

Lemma tame_bind {X Y} (o : outcome X) (f : X -> outcome Y) : Tool.tame true o -> (forall x, Tool.tame true (f x)) ->
  Tool.tame true (obind o f).
Proof. intros [[x ->]|[L ->]] H; [apply H|right; auto]. Qed.

Lemma tame_event qf st x : Tool.tame true (event_to_int qf int_max st x).
Proof.
  unfold event_to_int. destruct qf; (apply tame_bind; [apply tame_string|]; intros [? ?]; apply tame_bind; [apply tame_string|];
    intros [? ?]; left; eauto).
Qed.

Lemma tame_scored qf st x : Tool.tame true (scored_mapper (event_to_int qf int_max) st x).
Proof. unfold scored_mapper. apply tame_bind; [apply tame_event|]. intros [? ?]. left. eauto. Qed.

Lemma keeps_identity {E S} (st : S) (x y : scored E) st' : identity_mapper st x = Ok (y, st') -> sc_score y = sc_score x.
Proof. intros H. injection H as <- _. reflexivity. Qed.

Lemma keeps_scored qf st x y st' : scored_mapper (event_to_int qf int_max) st x = Ok (y, st') -> sc_score y = sc_score x.
Proof.
  unfold scored_mapper. destruct (event_to_int qf int_max st (sc_base x)) as [[b s1]| |]; simpl; try discriminate.
  intros H. injection H as <- _. reflexivity.
Qed.

Lemma map_all_id {X S} (st : S) (l : list X) : map_all identity_mapper st l = Ok (l, st).
Proof. apply Reader.map_all_identity. Qed.

Lemma map_file_id f : Tool.map_file identity_mapper tt f = Ok (f, tt).
Proof.
  destruct f as [|ws|fs]; simpl; [reflexivity|now rewrite map_all_id|].
  assert (H : map_all (map_all identity_mapper) tt fs = Ok (fs, tt)).
  { induction fs as [|x fs IH]; [reflexivity|]. cbn [map_all]. rewrite map_all_id. cbn. rewrite IH. reflexivity. }
  now rewrite H.
Qed.

Lemma zero_one_ioh r h : zero_one (ioh_scorer cmp_str f32_half r h).
Proof. unfold ioh_scorer. cbv zeta. destruct (_ && _); [destruct (f32_ge _ _)|]; split; simpl; auto. Qed.

Lemma zero_one_trivial {Q L} (cq : Cmp Q) (cl : Cmp L) r h : zero_one (trivial_scorer cq cl r h).
Proof. unfold trivial_scorer. destruct (_ && _); split; simpl; auto. Qed.

Lemma finite_shaped b e : scored_shaped_text b e -> is_finite (sc_score e) = true.
Proof. intros (l & g & r & _ & _ & _ & neg & m & x & _ & F & _). exact F. Qed.

Lemma finite_str b e : scored_str_event_text b e -> is_finite (sc_score e) = true.
Proof. intros (l & g & r & _ & _ & _ & _ & neg & m & x & _ & F & _). exact F. Qed.

Lemma total_order_int_event : total_order cmp_int_event.
Proof. apply Order.total_order_event; apply Order.total_order_Z. Qed.

Lemma renamed_inj id : (forall s s', id s = id s' -> s = s') -> forall x y, renamed id x = renamed id y -> x = y.
Proof. intros H [q l] [q' l'] K. unfold renamed in K. simpl in K. injection K as K1 K2. apply H in K1, K2. now subst. Qed.

Lemma simple_back id crit f refs hyps ms log groups : (forall s s', id s = id s' -> s = s') ->
  evaluation (c_lt cmp_int_event) (c_lt cmp_int_event) ev_query ev_query exact_search
    (fun r h => trivial_scorer cmp_Z cmp_Z r (sc_base h)) crit (map_queries id f) (map (renamed id) refs)
    (map (map_scored (renamed id)) hyps) ms log groups ->
  exists ms' log' groups', ms = map (renamed_match id) ms' /\ log = map (renamed_match id) log' /\
    groups = map (map (renamed_match id)) groups' /\
    simple_evaluation id crit f refs hyps ms' log' groups'.
Proof.
  intros Inj H. assert (Ie := renamed_inj id Inj).
  refine (Ids.evaluation_back id (renamed id) (renamed id) Inj Ie (c_lt cmp_int_event) (c_lt cmp_int_event)
    ev_query ev_query ev_query ev_query _ _ exact_search exact_search _
    (fun r h => trivial_scorer cmp_Z cmp_Z r (sc_base h)) (fun r h => trivial_scorer cmp_str cmp_str r (sc_base h)) _
    crit f refs hyps ms log groups H).
  - reflexivity.
  - reflexivity.
  - intros rs h l [[I ->]|[I ->]].
    + exists [sc_base h]. split; [reflexivity|]. left. split; [|reflexivity]. now apply (Ids.in_back (renamed id) Ie).
    + exists []. split; [reflexivity|]. right. split; [|reflexivity]. now rewrite <- (Ids.in_back (renamed id) Ie).
  - intros [q l] [[q' l'] s]. unfold trivial_scorer, renamed, map_scored. cbn [sc_base ev_query ev_loc].
    assert (B : forall a b, c_eq cmp_Z (id a) (id b) = c_eq cmp_str a b).
    { intros a b. apply eq_true_iff_eq. rewrite (to_eq _ Order.total_order_Z), (to_eq _ Order.total_order_str).
      split; [apply Inj|now intros ->]. }
    now rewrite !B.
Qed.

Section Runs.
  Context {A : Arith} (T : Trans A).
  Variables (srt : sort_fn) (Hs : sort_contract srt).
  Variable rngs : Z -> rng.
  Variables (show_int : Z -> bytes) (show_f64 : f64 -> bytes).
  Variable w : world.

  Notation icdar := (icdar17 A T srt rngs show_int show_f64 w).
  Notation simple := (simple_kws A T srt rngs show_int show_f64).

  Definition icdar_status := Programs.main_status T srt Hs rngs show_int show_f64 false cmp_str Order.total_order_str
    cmp_shaped Order.total_order_shaped cmp_shaped Order.total_order_shaped ev_query ev_query
    (evset_docbox srt cmp_str) (box_search cmp_str) (Matching.finds_docbox srt cmp_str Hs Order.total_order_str)
    (fun r h => ioh_scorer cmp_str f32_half r (sc_base h))
    read_shaped shaped_text (read_scored read_shaped) scored_shaped_text fm_shaped fm_scored_shaped finite_shaped
    identity_mapper identity_mapper identity_mapper tame_identity tame_identity tame_identity keeps_identity
    (lit "  Official evaluation tool for ICDAR2017 H-KWS Competition.") w tt.

  Definition icdar_main := Programs.main_reach T srt Hs rngs show_int show_f64 false cmp_str Order.total_order_str
    cmp_shaped Order.total_order_shaped cmp_shaped Order.total_order_shaped ev_query ev_query
    (evset_docbox srt cmp_str) (box_search cmp_str) (Matching.finds_docbox srt cmp_str Hs Order.total_order_str)
    (fun r h => ioh_scorer cmp_str f32_half r (sc_base h))
    read_shaped shaped_text (read_scored read_shaped) scored_shaped_text fm_shaped fm_scored_shaped finite_shaped
    identity_mapper identity_mapper identity_mapper tame_identity tame_identity tame_identity keeps_identity
    (lit "  Official evaluation tool for ICDAR2017 H-KWS Competition.") w tt.

  Definition icdar_defined := Programs.main_defined T srt Hs rngs show_int show_f64 false cmp_str Order.total_order_str
    cmp_shaped Order.total_order_shaped cmp_shaped Order.total_order_shaped ev_query ev_query
    (evset_docbox srt cmp_str) (box_search cmp_str) (Matching.finds_docbox srt cmp_str Hs Order.total_order_str)
    (fun r h => ioh_scorer cmp_str f32_half r (sc_base h))
    read_shaped shaped_text (read_scored read_shaped) scored_shaped_text fm_shaped fm_scored_shaped finite_shaped
    identity_mapper identity_mapper identity_mapper tame_identity tame_identity tame_identity keeps_identity
    (lit "  Official evaluation tool for ICDAR2017 H-KWS Competition.") w tt.

  Definition simple_status qf := Programs.main_status T srt Hs rngs show_int show_f64 true cmp_Z Order.total_order_Z
    cmp_int_event total_order_int_event cmp_int_event total_order_int_event ev_query ev_query
    (evset_generic cmp_int_event) exact_search (Matching.finds_generic cmp_int_event total_order_int_event)
    (fun r h => trivial_scorer cmp_Z cmp_Z r (sc_base h))
    read_str_event str_event_text (read_scored read_str_event) scored_str_event_text fm_str_event fm_scored_str_event finite_str
    (event_to_int qf int_max) (scored_mapper (event_to_int qf int_max)) (string_to_int int_max)
    (tame_event qf) (tame_scored qf) tame_string (keeps_scored qf)
    (lit "  Perform simple evaluation for segmentation-based keyword spotting.") w [].

  Definition simple_defined qf := Programs.main_defined T srt Hs rngs show_int show_f64 true cmp_Z Order.total_order_Z
    cmp_int_event total_order_int_event cmp_int_event total_order_int_event ev_query ev_query
    (evset_generic cmp_int_event) exact_search (Matching.finds_generic cmp_int_event total_order_int_event)
    (fun r h => trivial_scorer cmp_Z cmp_Z r (sc_base h))
    read_str_event str_event_text (read_scored read_str_event) scored_str_event_text fm_str_event fm_scored_str_event finite_str
    (event_to_int qf int_max) (scored_mapper (event_to_int qf int_max)) (string_to_int int_max)
    (tame_event qf) (tame_scored qf) tame_string (keeps_scored qf)
    (lit "  Perform simple evaluation for segmentation-based keyword spotting.") w [].

  (** What a run computes and writes. *)
  Definition reported {RE E} (c : config) (ms log : list (match_t RE (scored E))) (groups : list (list (match_t RE (scored E))))
    (l : list (effect A)) (r : unit + fin) : Prop :=
    exists v1 v2 v4 curves e, r = inr e /\
      global_ap A sc_score ms (cf_collapse c) (cf_interp c) (cf_trapezoid c) = Ok v1 /\
      mean_ap A sc_score srt groups (cf_collapse c) (cf_interp c) (cf_trapezoid c) false = Ok v2 /\
      mean_ndcg A T sc_score srt groups (cf_collapse c) false = Ok v4 /\
      outputs l = dumped c ms log ++ [EStat (lit "gAP") v1 None; EStat (lit "mAP") v2 None;
                   EStat (lit "gNDCG") (global_ndcg A T sc_score ms (cf_collapse c)) None;
                   EStat (lit "mNDCG") v4 None] ++ curves /\
      curve_files w c (Finish.global_points c ms) (Finish.mean_points w c groups) curves e.

  (** A run that arrives at its matches. *)
  Definition reached {Q RE E} (cq : Cmp Q) (rq : RE -> Q) (hq : E -> Q) (c : config) (ms log : list (match_t RE (scored E)))
    (groups : list (list (match_t RE (scored E)))) (l : list (effect A)) (r : unit + fin) : Prop :=
    exists m n D, group_matches cq rq (fun h => hq (sc_base h)) ms m = Ok groups /\
      (total (fun x => me_nh (m_err x)) ms <= n)%nat /\ outputs D = [] /\
      l = D ++ fst (Tool.finish T srt rngs cq rq hq w c m n ms log) /\
      r = snd (Tool.finish T srt rngs cq rq hq w c m n ms log).

  Lemma reached_reported {Q RE E} (cq : Cmp Q) (rq : RE -> Q) (hq : E -> Q) c ms log groups l r :
    reached cq rq hq c ms log groups l r -> no_bootstrap c -> (cf_dump c <> [] -> w_writable w (cf_dump c) = true) ->
    reported c ms log groups l r.
  Proof.
    intros (m & n & D & G & Tn & O & -> & ->) NB Dm.
    destruct (Finish.finish_run T srt rngs cq rq hq w c m n ms log groups G Tn NB Dm)
      as (l & e & v1 & v2 & v4 & curves & -> & V1 & V2 & V4 & OL & C). cbn [fst snd].
    exists v1, v2, v4, curves, e. rewrite Tool.outputs_app, O. auto 10.
  Qed.

  Lemma icdar_reach pn args c refs hyps f l r : command args c ->
    inputs shaped_text scored_shaped_text w c refs hyps f -> icdar pn args = (l, r) ->
    exists ms log groups, (forall h, In h hyps -> is_finite (sc_score h) = true) /\
      icdar17_evaluation (cf_sort c) f refs hyps ms log groups /\ reached cmp_str ev_query ev_query c ms log groups l r.
  Proof.
    intros Cm I Et. rewrite icdar17_tool in Et.
    destruct (icdar_main pn args c refs hyps f l r Cm I Et) as [[K _]|H]; [discriminate|].
    destruct H as (refs' & hyps' & f' & st1 & st2 & st3 & m & n & ms & log & groups & D & H).
    destruct H as (M1 & M2 & M3 & _ & Fi & Ev & G & Tn & O & El & Er).
    rewrite map_all_id in M1. injection M1 as <- <-. rewrite map_all_id in M2. injection M2 as <- <-.
    rewrite map_file_id in M3. injection M3 as <- <-.
    exists ms, log, groups. split; [exact Fi|]. split; [exact Ev|]. exists m, n, D. auto.
  Qed.

  Lemma icdar_run pn args c refs hyps f l r : command args c -> no_bootstrap c ->
    inputs shaped_text scored_shaped_text w c refs hyps f -> icdar pn args = (l, r) ->
    exists ms log groups, (forall h, In h hyps -> is_finite (sc_score h) = true) /\
      icdar17_evaluation (cf_sort c) f refs hyps ms log groups /\ reported c ms log groups l r.
  Proof.
    intros Cm NB I Et. destruct (icdar_reach pn args c refs hyps f l r Cm I Et) as (ms & log & groups & Fi & Ev & Rc).
    exists ms, log, groups. split; [exact Fi|]. split; [exact Ev|].
    exact (reached_reported _ _ _ _ _ _ _ _ _ Rc NB (in_dump _ _ _ _ _ _ _ I)).
  Qed.

  Lemma tame_total {X Y St} (d : X -> Y) (m : St -> X -> outcome (Y * St)) st x : Tool.tame false (Programs.total_map d m st x).
  Proof. left. unfold Programs.total_map. destruct (m st x); eauto. Qed.

  (** The ids of the strings of the events; they do not depend on the file of
      queries, which is read last. *)
  Definition ids_of (qf : bool) (refs : list (event bytes bytes)) (hyps : list (scored (event bytes bytes))) (id : bytes -> Z) : Prop :=
    exists t1 t2, map_all (event_to_int qf int_max) [] refs = Ok (map (renamed id) refs, t1) /\
      map_all (scored_mapper (event_to_int qf int_max)) t1 hyps = Ok (map (map_scored (renamed id)) hyps, t2).

  Lemma simple_reach_ids qf pn args c refs hyps f l r : command args c ->
    inputs str_event_text scored_str_event_text w c refs hyps f -> simple qf w pn args = (l, r) ->
    (Z.of_nat (strings refs hyps f) <= 2147483648)%Z ->
    exists id ms log groups, ids_of qf refs hyps id /\ (forall s s', id s = id s' -> s = s') /\
      (forall h, In h hyps -> is_finite (sc_score h) = true) /\
      simple_evaluation id (cf_sort c) f refs hyps ms log groups /\
      reached cmp_Z ev_query ev_query c (map (renamed_match id) ms) (map (renamed_match id) log)
        (map (map (renamed_match id)) groups) l r.
  Proof.
    intros Cm I Et L. rewrite simple_tool in Et.
    destruct (Ids.run_total int_max qf refs hyps f) as (refs' & t1 & hyps' & t2 & f' & t3 & M1 & M2 & M3); [easy|exact L|].
    set (d1 := fun _ : event bytes bytes => Event 0%Z 0%Z).
    set (d2 := fun x : scored (event bytes bytes) => Scored (Event 0%Z 0%Z) (sc_score x)).
    set (d3 := fun _ : bytes => 0%Z).
    assert (M1' := Programs.total_same d1 _ _ _ _ M1). assert (M2' := Programs.total_same d2 _ _ _ _ M2).
    rewrite (Programs.tool_ext T srt rngs show_int show_f64 cmp_Z cmp_int_event cmp_int_event ev_query ev_query
      (evset_generic cmp_int_event) (fun r h => trivial_scorer cmp_Z cmp_Z r (sc_base h))
      read_str_event str_event_text (read_scored read_str_event) scored_str_event_text fm_str_event fm_scored_str_event
      (event_to_int qf int_max) (Programs.total_map d1 (event_to_int qf int_max))
      (scored_mapper (event_to_int qf int_max)) (Programs.total_map d2 (scored_mapper (event_to_int qf int_max)))
      (string_to_int int_max) d3 (lit "  Perform simple evaluation for segmentation-based keyword spotting.")
      w [] pn args c refs hyps f refs' t1 hyps' t2 (f', t3) Cm I M1 M1' M2 M2' M3) in Et.
    destruct (Programs.main_reach T srt Hs rngs show_int show_f64 false cmp_Z Order.total_order_Z
      cmp_int_event total_order_int_event cmp_int_event total_order_int_event ev_query ev_query
      (evset_generic cmp_int_event) exact_search (Matching.finds_generic cmp_int_event total_order_int_event)
      (fun r h => trivial_scorer cmp_Z cmp_Z r (sc_base h))
      read_str_event str_event_text (read_scored read_str_event) scored_str_event_text fm_str_event fm_scored_str_event finite_str
      (Programs.total_map d1 (event_to_int qf int_max)) (Programs.total_map d2 (scored_mapper (event_to_int qf int_max)))
      (Programs.total_map d3 (string_to_int int_max))
      (tame_total _ _) (tame_total _ _) (tame_total _ _)
      ltac:(intros st x y st'; unfold Programs.total_map;
            destruct (scored_mapper (event_to_int qf int_max) st x) as [p| |] eqn:K; intros K';
            [injection K' as ->; exact (keeps_scored qf _ _ _ _ K)|injection K' as <- _; reflexivity|injection K' as <- _; reflexivity])
      (lit "  Perform simple evaluation for segmentation-based keyword spotting.") w [] pn args c refs hyps f l r Cm I Et)
      as [[K _]|H]; [discriminate|].
    destruct H as (refs2 & hyps2 & f2 & st1 & st2 & st3 & m & n & ms & log & groups & D & H).
    destruct H as (N1 & N2 & N3 & _ & Fi & Ev & G & Tn & O & El & Er).
    rewrite M1' in N1. injection N1 as <- <-. rewrite M2' in N2. injection N2 as <- <-.
    assert (f2 = f').
    { destruct f as [|ws|fs]; simpl in M3, N3.
      - congruence.
      - destruct (map_all (string_to_int int_max) t2 ws) as [p| |] eqn:K; try discriminate.
        rewrite (Programs.total_same d3 _ _ _ _ K) in N3. simpl in *. congruence.
      - destruct (map_all (map_all (string_to_int int_max)) t2 fs) as [p| |] eqn:K; try discriminate.
        rewrite (Programs.total_same2 d3 _ _ _ _ K) in N3. simpl in *. congruence. }
    subst f2.
    destruct (Ids.run_ids int_max qf _ _ _ _ _ _ _ _ _ M1 M2 M3) as (id & Inj & -> & -> & ->).
    destruct (simple_back id _ _ _ _ _ _ _ Inj Ev) as (ms' & log' & groups' & -> & -> & -> & Ev').
    exists id, ms', log', groups'. split; [exists t1, t2; auto|]. split; [exact Inj|]. split.
    - intros h Ih. exact (Fi (map_scored (renamed id) h) (in_map _ _ _ Ih)).
    - split; [exact Ev'|]. exists m, n, D. auto.
  Qed.

  Lemma simple_reach qf pn args c refs hyps f l r : command args c ->
    inputs str_event_text scored_str_event_text w c refs hyps f -> simple qf w pn args = (l, r) ->
    (Z.of_nat (strings refs hyps f) <= 2147483648)%Z ->
    exists id ms log groups, (forall s s', id s = id s' -> s = s') /\
      (forall h, In h hyps -> is_finite (sc_score h) = true) /\
      simple_evaluation id (cf_sort c) f refs hyps ms log groups /\
      reached cmp_Z ev_query ev_query c (map (renamed_match id) ms) (map (renamed_match id) log)
        (map (map (renamed_match id)) groups) l r.
  Proof.
    intros Cm I Et L. destruct (simple_reach_ids qf pn args c refs hyps f l r Cm I Et L) as (id & ms & log & groups & _ & H).
    exists id, ms, log, groups. exact H.
  Qed.

  Lemma simple_run_ids qf pn args c refs hyps f l r : command args c -> no_bootstrap c ->
    inputs str_event_text scored_str_event_text w c refs hyps f -> simple qf w pn args = (l, r) ->
    (Z.of_nat (strings refs hyps f) <= 2147483648)%Z ->
    exists id ms log groups, ids_of qf refs hyps id /\ (forall s s', id s = id s' -> s = s') /\
      (forall h, In h hyps -> is_finite (sc_score h) = true) /\
      simple_evaluation id (cf_sort c) f refs hyps ms log groups /\
      reported c (map (renamed_match id) ms) (map (renamed_match id) log) (map (map (renamed_match id)) groups) l r.
  Proof.
    intros Cm NB I Et L.
    destruct (simple_reach_ids qf pn args c refs hyps f l r Cm I Et L) as (id & ms & log & groups & Id & Inj & Fi & Ev & Rc).
    exists id, ms, log, groups. split; [exact Id|]. split; [exact Inj|]. split; [exact Fi|]. split; [exact Ev|].
    exact (reached_reported _ _ _ _ _ _ _ _ _ Rc NB (in_dump _ _ _ _ _ _ _ I)).
  Qed.

  Lemma simple_run qf pn args c refs hyps f l r : command args c -> no_bootstrap c ->
    inputs str_event_text scored_str_event_text w c refs hyps f -> simple qf w pn args = (l, r) ->
    (Z.of_nat (strings refs hyps f) <= 2147483648)%Z ->
    exists id ms log groups, (forall s s', id s = id s' -> s = s') /\
      (forall h, In h hyps -> is_finite (sc_score h) = true) /\
      simple_evaluation id (cf_sort c) f refs hyps ms log groups /\
      reported c (map (renamed_match id) ms) (map (renamed_match id) log) (map (map (renamed_match id)) groups) l r.
  Proof.
    intros Cm NB I Et L.
    destruct (simple_reach qf pn args c refs hyps f l r Cm I Et L) as (id & ms & log & groups & Inj & Fi & Ev & Rc).
    exists id, ms, log, groups. split; [exact Inj|]. split; [exact Fi|]. split; [exact Ev|].
    exact (reached_reported _ _ _ _ _ _ _ _ _ Rc NB (in_dump _ _ _ _ _ _ _ I)).
  Qed.
End Runs.
