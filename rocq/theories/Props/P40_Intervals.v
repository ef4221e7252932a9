(** C104: confidence intervals of runs. *)
From Coq Require Import Ascii String List Bool ZArith QArith Reals Lia Lra Permutation.
From Flocq Require Import Core BinarySingleNaN.
From Verif.Model Require Import Cpp Floats Box Events EventSets Matches Matcher Scorers Assessment Bootstrap Mapper Stream
  Reader Options Tool Engine.
From Verif.Spec Require Import Order Objects Sets Matching Scorers Grouping Bootstrap Reader Options Tool Libm Samples Parts Found Again Perfect Intervals.
From Verif.Proofs Require Order Geometry Scorers Instances Compute Bootstrap GainD Perfect Intervals.
From Verif.Props Require Import P17_Tool P18_Results P25_Ties P38_Perfect.
Import ListNotations.
Local Open Scope string_scope.
Local Open Scope list_scope.

(** ** C104 *)

(** C104.  Two runs of Icdar17KwsEval on the same events that differ only in
    the level print the same statistics and write the same files, and the
    intervals of the smaller level enclose those of the larger one. *)
Theorem c104_nested_icdar17 : forall T srt rngs show_int show_f64 w w' pn pn' args args' c c' refs hyps f, accurate T -> sort_contract srt ->
  command args c -> command args' c' -> same_but_level c c' -> w_writable w = w_writable w' ->
  inputs shaped_text scored_shaped_text w c refs hyps f -> inputs shaped_text scored_shaped_text w' c' refs hyps f ->
  (B2R (cf_alpha c) <= B2R (cf_alpha c'))%R -> (cf_samples c <= 2 ^ 53)%Z -> (bootstraps c -> usable_options c) -> (bootstraps c' -> usable_options c') ->
  (Z.of_nat (List.length refs + List.length hyps) <= 2 ^ 25)%Z ->
  wider c (icdar17 DArith T srt rngs show_int show_f64 w pn args) (icdar17 DArith T srt rngs show_int show_f64 w' pn' args').
Proof. intros T srt rngs si sf w w' pn pn' args args' c c' refs hyps f HT Hs. exact (Intervals.icdar_wider T HT srt Hs rngs si sf w w' pn pn' args args' c c' refs hyps f). Qed.
Print Assumptions c104_nested_icdar17.

(** C104.  The same for SimpleKwsEval. *)
Theorem c104_nested_simple : forall T srt rngs show_int show_f64 qf w w' pn pn' args args' c c' refs hyps f, accurate T -> sort_contract srt ->
  command args c -> command args' c' -> same_but_level c c' -> w_writable w = w_writable w' ->
  inputs str_event_text scored_str_event_text w c refs hyps f -> inputs str_event_text scored_str_event_text w' c' refs hyps f ->
  (Z.of_nat (strings refs hyps f) <= 2147483648)%Z ->
  (B2R (cf_alpha c) <= B2R (cf_alpha c'))%R -> (cf_samples c <= 2 ^ 53)%Z -> (bootstraps c -> usable_options c) -> (bootstraps c' -> usable_options c') ->
  (Z.of_nat (List.length refs + List.length hyps) <= 2 ^ 25)%Z ->
  wider c (simple_kws DArith T srt rngs show_int show_f64 qf w pn args) (simple_kws DArith T srt rngs show_int show_f64 qf w' pn' args').
Proof. intros T srt rngs si sf qf w w' pn pn' args args' c c' refs hyps f HT Hs. exact (Intervals.simple_wider T HT srt Hs rngs si sf qf w w' pn pn' args args' c c' refs hyps f). Qed.
Print Assumptions c104_nested_simple.

(** C104.  In exact arithmetic the statistics of Icdar17KwsEval are from 0 to
    1 and the bounds from twice the statistic minus 1 to twice the statistic, in
    order for levels up to 1. *)
Theorem c104_range_icdar17 : forall srt rngs show_int show_f64 w pn args c refs hyps f, sort_contract srt ->
  command args c -> inputs shaped_text scored_shaped_text w c refs hyps f ->
  (cf_samples c <= 2 ^ 53)%Z -> (bootstraps c -> usable_options c) ->
  let k := (List.length refs + List.length hyps)%nat in
  exists v1 v2 v3 v4 i1 i2 i3 i4,
    prints_intervals (fst (icdar17 RArith RTrans srt rngs show_int show_f64 w pn args)) v1 v2 v3 v4 i1 i2 i3 i4 /\
    reflected c (cf_ci_gap c) v1 i1 /\ reflected c (cf_ci_map c) v2 i2 /\
    ((cf_collapse c = true -> Z.of_nat (if cf_ci_gndcg c then k * k else k) <= 2 ^ 19)%Z -> reflected c (cf_ci_gndcg c) v3 i3) /\
    ((cf_collapse c = true -> Z.of_nat k <= 2 ^ 19)%Z -> reflected c (cf_ci_mndcg c) v4 i4).
Proof. intros srt rngs si sf w pn args c refs hyps f Hs. exact (Intervals.icdar_range srt Hs rngs si sf w pn args c refs hyps f). Qed.
Print Assumptions c104_range_icdar17.

(** C104.  The same for SimpleKwsEval. *)
Theorem c104_range_simple : forall srt rngs show_int show_f64 qf w pn args c refs hyps f, sort_contract srt ->
  command args c -> inputs str_event_text scored_str_event_text w c refs hyps f -> (Z.of_nat (strings refs hyps f) <= 2147483648)%Z ->
  (cf_samples c <= 2 ^ 53)%Z -> (bootstraps c -> usable_options c) ->
  let k := (List.length refs + List.length hyps)%nat in
  exists v1 v2 v3 v4 i1 i2 i3 i4,
    prints_intervals (fst (simple_kws RArith RTrans srt rngs show_int show_f64 qf w pn args)) v1 v2 v3 v4 i1 i2 i3 i4 /\
    reflected c (cf_ci_gap c) v1 i1 /\ reflected c (cf_ci_map c) v2 i2 /\
    ((cf_collapse c = true -> Z.of_nat (if cf_ci_gndcg c then k * k else k) <= 2 ^ 19)%Z -> reflected c (cf_ci_gndcg c) v3 i3) /\
    ((cf_collapse c = true -> Z.of_nat k <= 2 ^ 19)%Z -> reflected c (cf_ci_mndcg c) v4 i4).
Proof. intros srt rngs si sf qf w pn args c refs hyps f Hs. exact (Intervals.simple_range srt Hs rngs si sf qf w pn args c refs hyps f). Qed.
Print Assumptions c104_range_simple.

(** C104.  If every hypothesis of Icdar17KwsEval has half of its cells in a
    reference and every reference has more cells of some such hypothesis than
    any other reference, all statistics and all bounds are 1. *)
Theorem c104_perfect_icdar17 : forall srt rngs show_int show_f64 w pn args c refs hyps f, sort_contract srt ->
  command args c -> inputs shaped_text scored_shaped_text w c refs hyps f -> all_found f refs hyps ->
  (forall r, In r refs -> fits (ev_loc r)) -> (forall h, In h hyps -> fits (ev_loc (sc_base h))) ->
  (cf_samples c <= 2 ^ 53)%Z -> (bootstraps c -> usable_options c) ->
  let k := (List.length refs + List.length hyps)%nat in
  (cf_collapse c = true -> Z.of_nat (if cf_ci_gap c || cf_ci_gndcg c then k * k else k) <= 2 ^ 24)%Z ->
  prints_intervals (fst (icdar17 RArith RTrans srt rngs show_int show_f64 w pn args)) 1 1 1 1
    (point (cf_ci_gap c) 1) (point (cf_ci_map c) 1) (point (cf_ci_gndcg c) 1) (point (cf_ci_mndcg c) 1).
Proof. intros srt rngs si sf w pn args c refs hyps f Hs. exact (Intervals.icdar_point srt Hs rngs si sf w pn args c refs hyps f). Qed.
Print Assumptions c104_perfect_icdar17.

(** C104.  So they are for SimpleKwsEval if the hypotheses are the
    references. *)
Theorem c104_perfect_simple : forall srt rngs show_int show_f64 qf w pn args c refs hyps f, sort_contract srt ->
  command args c -> inputs str_event_text scored_str_event_text w c refs hyps f -> (Z.of_nat (strings refs hyps f) <= 2147483648)%Z ->
  submits_references f refs hyps -> (cf_samples c <= 2 ^ 53)%Z -> (bootstraps c -> usable_options c) ->
  let k := (List.length refs + List.length hyps)%nat in
  (cf_collapse c = true -> Z.of_nat (if cf_ci_gap c || cf_ci_gndcg c then k * k else k) <= 2 ^ 24)%Z ->
  prints_intervals (fst (simple_kws RArith RTrans srt rngs show_int show_f64 qf w pn args)) 1 1 1 1
    (point (cf_ci_gap c) 1) (point (cf_ci_map c) 1) (point (cf_ci_gndcg c) 1) (point (cf_ci_mndcg c) 1).
Proof. intros srt rngs si sf qf w pn args c refs hyps f Hs. exact (Intervals.simple_point srt Hs rngs si sf qf w pn args c refs hyps f). Qed.
Print Assumptions c104_perfect_simple.

(** Runs with intervals for gAP and mAP from twenty samples at some level. *)
Definition level_args (level : string) : list string :=
  ["--bootstrap_ci_gap"; "--bootstrap_ci_map"; "--bootstrap_samples"; "20"; "--bootstrap_seed"; "5"; "--bootstrap_alpha"; level; "r"; "h"].
(** See [level_args]. *)
Definition level_simple w level := simple_kws QArith_ TQ (@isort) minstd (fun _ => []) (fun _ => []) true w (lit "prog") (map lit (level_args level)).
(** See [level_args]. *)
Definition level_icdar w level := icdar17 QArith_ TQ (@isort) minstd (fun _ => []) (fun _ => []) w (lit "prog") (map lit (level_args level)).

(** Five queries with different results. *)
Definition five : world := tie_world (map lit ["a x"; "b x"; "b y"; "c x"; "d x"; "e x"; "e y"])
  (map lit ["a x 9"; "b z 8"; "b x 7"; "c y 6"; "c x 5"; "d y 4"; "e x 3"; "e z 2"; "e y 1"]).
(** The same with boxes. *)
Definition five_boxes : world := tie_world (map lit ["a d 0 0 8 8"; "b d 0 0 8 8"; "b e 0 0 8 8"; "c d 0 0 8 8"; "d d 0 0 8 8"; "e d 0 0 8 8"; "e e 0 0 8 8"])
  (map lit ["a d 0 1 8 8 9"; "b z 0 0 8 8 8"; "b d 2 0 8 8 7"; "c e 0 0 8 8 6"; "c d 0 0 6 8 5"; "d e 0 0 8 8 4"; "e d 3 0 8 8 3"; "e z 0 0 8 8 2"; "e e 0 0 8 8 1"]).

(** The first two values with their intervals. *)
Definition first_two {RE HE} (l : list (effect QArith_ (RE := RE) (HE := HE))) : list (list Q) :=
  map (fun s => match s with (_, v, Some (lo, up)) => [Qred v; Qred lo; Qred up] | (_, v, None) => [Qred v] end) (firstn 2 (stats l)).

(** The value of a level. *)
Lemma level_value (x : f64) m e : B2SF x = SpecFloat.S754_finite false m e -> is_finite x = true /\ B2R x = (IZR (Zpos m) * bpow radix2 e)%R.
Proof. intros E. split; [destruct x; try discriminate; reflexivity|]. rewrite <- SF2R_B2SF, E. reflexivity. Qed.

(** The configuration of [level_args]. *)
Definition has_level (level : string) (m : positive) (e : Z) (c : config) : Prop :=
  command (map lit (level_args level)) c /\ bootstraps c /\ cf_collapse c = true /\ cf_ci_gap c = true /\ cf_samples c = 20%Z /\
  is_finite (cf_alpha c) = true /\ B2R (cf_alpha c) = (IZR (Zpos m) * bpow radix2 e)%R.

Lemma has_level_ok level m e c : Compute.config_for (map lit (level_args level)) = Some c ->
  match Compute.config_for (map lit (level_args level)) with
  | Some c => (cf_collapse c, cf_ci_gap c, cf_samples c, B2SF (cf_alpha c)) | None => (false, false, 0%Z, SpecFloat.S754_nan) end =
  (true, true, 20%Z, SpecFloat.S754_finite false m e) -> has_level level m e c.
Proof.
  intros Ec X. rewrite Ec in X. injection X as X1 X2 X3 X4. split; [exact (Compute.config_for_ok _ _ Ec)|].
  split; [left; exact X2|]. split; [exact X1|]. split; [exact X2|]. split; [exact X3|exact (level_value _ _ _ X4)].
Qed.

Lemma has_level_usable level m e c : has_level level m e c -> (-60 <= e)%Z -> (Zpos m * 2 ^ (60 + e) < 2 ^ 61)%Z -> (2 ^ 8 <= Zpos m * 2 ^ (60 + e))%Z -> usable_options c.
Proof.
  intros (_ & _ & _ & _ & Sm & Fi & V) He Up Lo. split; [|rewrite Sm; lia]. split; [exact Fi|]. rewrite V, Bootstrap.u64_R.
  assert (E : (IZR (Zpos m) * bpow radix2 e = IZR (Zpos m * 2 ^ (60 + e)) * bpow radix2 (-60))%R).
  { rewrite mult_IZR. change (2 ^ (60 + e))%Z with (radix2 ^ (60 + e))%Z. rewrite (IZR_Zpower radix2 (60 + e)) by lia. rewrite Rmult_assoc, <- bpow_plus. do 2 f_equal. lia. }
  rewrite E. apply IZR_lt in Up. apply IZR_le in Lo. change (bpow radix2 (-60)) with (/ 1152921504606846976)%R.
  change (2 ^ 61)%Z with 2305843009213693952%Z in Up. change (2 ^ 8)%Z with 256%Z in Lo.
  set (x := IZR (Zpos m * 2 ^ (60 + e))) in *. clearbody x. split.
  - apply Rmult_lt_reg_r with 1152921504606846976%R; [lra|]. rewrite (Rmult_assoc x), Rinv_l, Rmult_1_r by lra. lra.
  - apply Rmult_lt_reg_r with 1152921504606846976%R; [lra|]. rewrite (Rmult_assoc x), Rinv_l, Rmult_1_r by lra. lra.
Qed.

(** At the level 1/4 the intervals enclose those at the level 1/2. *)
Example c104_nested_case : accurate GainD.ideal_libm /\
  (exists c c' refs hyps, has_level "0.25" 4503599627370496 (-54) c /\ has_level "0.5" 4503599627370496 (-53) c' /\
    same_but_level c c' /\ (B2R (cf_alpha c) <= B2R (cf_alpha c'))%R /\ usable_options c /\ usable_options c' /\
    inputs str_event_text scored_str_event_text five c refs hyps NoQueries /\ inputs str_event_text scored_str_event_text five c' refs hyps NoQueries /\
    (Z.of_nat (strings refs hyps NoQueries) <= 2147483648)%Z /\ (Z.of_nat (List.length refs + List.length hyps) <= 2 ^ 19)%Z) /\
  (exists c c' refs hyps, has_level "0.25" 4503599627370496 (-54) c /\ has_level "0.5" 4503599627370496 (-53) c' /\
    same_but_level c c' /\
    inputs shaped_text scored_shaped_text five_boxes c refs hyps NoQueries /\ inputs shaped_text scored_shaped_text five_boxes c' refs hyps NoQueries /\
    (Z.of_nat (List.length refs + List.length hyps) <= 2 ^ 19)%Z) /\
  map (fun l => first_two (fst (level_simple five l))) ["0.25"; "0.5"] =
    [[[1069 # 2205; 1024 # 6615; 3821 # 4410]; [31 # 60; 7 # 30; 5 # 6]];
     [[1069 # 2205; 1937 # 8820; 2071 # 4410]; [31 # 60; 3 # 10; 2 # 3]]]%Q /\
  map (fun l => first_two (fst (level_icdar five_boxes l))) ["0.25"; "0.5"] =
    [[[1069 # 2205; 1024 # 6615; 3821 # 4410]; [31 # 60; 7 # 30; 5 # 6]];
     [[1069 # 2205; 1937 # 8820; 2071 # 4410]; [31 # 60; 3 # 10; 2 # 3]]]%Q.
Proof.
  split; [exact GainD.ideal_accurate|].
  destruct (Compute.config_for (map lit (level_args "0.25"))) as [c|] eqn:Ec; [|vm_compute in Ec; discriminate].
  destruct (Compute.config_for (map lit (level_args "0.5"))) as [c'|] eqn:Ec'; [|vm_compute in Ec'; discriminate].
  assert (H := has_level_ok "0.25" 4503599627370496 (-54) c Ec ltac:(vm_compute; reflexivity)).
  assert (H' := has_level_ok "0.5" 4503599627370496 (-53) c' Ec' ltac:(vm_compute; reflexivity)).
  assert (Sb : same_but_level c c') by (vm_compute in Ec, Ec'; injection Ec as <-; injection Ec' as <-; repeat split).
  split; [|split; [|split; vm_compute; reflexivity]].
  - destruct (Compute.simple_inputs five c) as [[[rs hs] f]|] eqn:I.
    2:{ exfalso. vm_compute in Ec. injection Ec as <-. vm_compute in I. discriminate. }
    assert (I' : Compute.simple_inputs five c' = Some (rs, hs, f)).
    { rewrite <- I. vm_compute in Ec, Ec'. injection Ec as <-. injection Ec' as <-. vm_compute. reflexivity. }
    assert (X : f = NoQueries /\ (Z.of_nat (strings rs hs f) <= 2147483648)%Z /\ List.length rs = 7%nat /\ List.length hs = 9%nat).
    { vm_compute in Ec. injection Ec as <-. vm_compute in I. injection I as <- <- <-. split; [reflexivity|]. split; [vm_compute; discriminate|repeat split]. }
    destruct X as (-> & L3 & L1 & L2). exists c, c', rs, hs. split; [exact H|]. split; [exact H'|]. split; [exact Sb|].
    split; [rewrite (proj2 (proj2 (proj2 (proj2 (proj2 (proj2 H)))))), (proj2 (proj2 (proj2 (proj2 (proj2 (proj2 H')))))); apply Rmult_le_compat_l; [lra|apply bpow_le; lia]|].
    split; [apply (has_level_usable _ _ _ _ H); vm_compute; congruence|]. split; [apply (has_level_usable _ _ _ _ H'); vm_compute; congruence|].
    split; [exact (Compute.simple_inputs_ok _ _ _ _ _ I)|]. split; [exact (Compute.simple_inputs_ok _ _ _ _ _ I')|].
    split; [exact L3|]. rewrite L1, L2. vm_compute. discriminate.
  - destruct (Compute.icdar_inputs five_boxes c) as [[[rs hs] f]|] eqn:I.
    2:{ exfalso. vm_compute in Ec. injection Ec as <-. vm_compute in I. discriminate. }
    assert (I' : Compute.icdar_inputs five_boxes c' = Some (rs, hs, f)).
    { rewrite <- I. vm_compute in Ec, Ec'. injection Ec as <-. injection Ec' as <-. vm_compute. reflexivity. }
    assert (X : f = NoQueries /\ List.length rs = 7%nat /\ List.length hs = 9%nat).
    { vm_compute in Ec. injection Ec as <-. vm_compute in I. injection I as <- <- <-. repeat split. }
    destruct X as (-> & L1 & L2). exists c, c', rs, hs. split; [exact H|]. split; [exact H'|]. split; [exact Sb|].
    split; [exact (Compute.icdar_inputs_ok _ _ _ _ _ I)|]. split; [exact (Compute.icdar_inputs_ok _ _ _ _ _ I')|].
    rewrite L1, L2. vm_compute. discriminate.
Qed.

(** The runs of C102 with intervals at the level 1/2. *)
Example c104_perfect_case :
  (exists c refs hyps, has_level "0.5" 4503599627370496 (-53) c /\ usable_options c /\
    inputs str_event_text scored_str_event_text same_lines c refs hyps NoQueries /\ submits_references NoQueries refs hyps /\
    (Z.of_nat ((List.length refs + List.length hyps) * (List.length refs + List.length hyps)) <= 2 ^ 24)%Z) /\
  (exists c refs hyps, has_level "0.5" 4503599627370496 (-53) c /\ usable_options c /\
    inputs shaped_text scored_shaped_text same_boxes c refs hyps NoQueries /\ all_found NoQueries refs hyps /\
    (forall r, In r refs -> fits (ev_loc r)) /\ (forall h, In h hyps -> fits (ev_loc (sc_base h))) /\
    (Z.of_nat ((List.length refs + List.length hyps) * (List.length refs + List.length hyps)) <= 2 ^ 24)%Z) /\
  first_two (fst (level_simple same_lines "0.5")) = [[1; 1; 1]; [1; 1; 1]]%Q /\
  first_two (fst (level_icdar same_boxes "0.5")) = [[1; 1; 1]; [1; 1; 1]]%Q.
Proof.
  destruct (Compute.config_for (map lit (level_args "0.5"))) as [c|] eqn:Ec; [|vm_compute in Ec; discriminate].
  assert (H := has_level_ok "0.5" 4503599627370496 (-53) c Ec ltac:(vm_compute; reflexivity)).
  split; [|split; [|split; vm_compute; reflexivity]].
  2:{ destruct (Compute.icdar_inputs same_boxes c) as [[[rs hs] f]|] eqn:I.
    2:{ exfalso. vm_compute in Ec. injection Ec as <-. vm_compute in I. discriminate. }
    exists c, rs, hs. split; [exact H|]. split; [apply (has_level_usable _ _ _ _ H); vm_compute; congruence|].
    assert (Io := Compute.icdar_inputs_ok _ _ _ _ _ I).
    vm_compute in Ec. injection Ec as <-. vm_compute in I. injection I as Er Eh <-. split; [exact Io|]. clear Io H.
    assert (Sub : submits_references NoQueries rs hs).
    { subst rs hs. split; [eexists; split; [now left|right; intros q g A; inversion A]|]. intros r _. cbn [map sc_base In]. tauto. }
    assert (Fr : forall r, In r rs -> fits (ev_loc r)).
    { intros r J. rewrite <- Er in J. repeat (destruct J as [<-|J]; [apply Scorers.fits_intro; easy|]). destruct J. }
    assert (Fh : forall h, In h hs -> fits (ev_loc (sc_base h))).
    { intros h J. rewrite <- Eh in J. repeat (destruct J as [<-|J]; [apply Scorers.fits_intro; easy|]). destruct J. }
    assert (Ca : forall r, wanted NoQueries rs r -> exists a, covers (ev_loc r) a /\ (0 < a)%Z).
    { intros r [J _]. exists (docbox_area (ev_loc r)). split; [apply Scorers.covers_intro; [now apply Fr|reflexivity]|].
      rewrite <- Er in J. repeat (destruct J as [<-|J]; [easy|]). destruct J. }
    split; [|split; [exact Fr|split; [exact Fh|subst rs hs; vm_compute; discriminate]]].
    apply (Perfect.references_found _ _ _ Sub Fr Ca). intros r r' [J _] [J' _] Ne Eq n i Cn Si.
    rewrite (Geometry.cell_count_unique _ _ _ Cn (Scorers.covers_intro _ _ (Fr r J) eq_refl)).
    rewrite (Geometry.cell_count_unique _ _ _ Si (Scorers.shares_intro _ _ _ (Fr r' J') (Fr r J) eq_refl)).
    rewrite <- Er in J, J'. clear Fr Sub Ca Er Eh.
    repeat (destruct J as [<-|J]; [repeat (destruct J' as [<-|J']; [first [congruence|easy|discriminate Eq]|]); destruct J'|]). destruct J. }
  destruct (Compute.simple_inputs same_lines c) as [[[rs hs] f]|] eqn:I.
  2:{ exfalso. vm_compute in Ec. injection Ec as <-. vm_compute in I. discriminate. }
  exists c, rs, hs. split; [exact H|]. split; [apply (has_level_usable _ _ _ _ H); vm_compute; congruence|].
  assert (Io := Compute.simple_inputs_ok _ _ _ _ _ I).
  vm_compute in Ec. injection Ec as <-. vm_compute in I. injection I as <- <- <-. split; [exact Io|]. clear Io H.
  split; [|vm_compute; discriminate].
  split; [eexists; split; [now left|right; intros q g A; inversion A]|]. intros r _. cbn [map sc_base In]. tauto.
Qed.

(** C104.  More is false, with the random engine of the programs.  At the level
    1/2 the interval of gAP does not contain gAP.  At the level 1/16 a lower
    bound is below 0, and an upper bound above 1.  At the level 3/2, which the
    programs accept, the bounds are in the wrong order. *)
Theorem c104_inside_refuted :
  (exists c refs hyps, has_level "0.5" 4503599627370496 (-53) c /\ usable_options c /\ inputs shaped_text scored_shaped_text five_boxes c refs hyps NoQueries) /\
  (exists c, has_level "0.0625" 4503599627370496 (-56) c /\ usable_options c) /\
  (exists c, has_level "1.5" 6755399441055744 (-52) c /\ usable_options c) /\
  (exists lo up m, first_two (fst (level_icdar five_boxes "0.5")) = [[1069 # 2205; lo; up]; m] /\ up < 1069 # 2205)%Q /\
  (exists lo up m, first_two (fst (level_icdar five_boxes "0.0625")) = [[1069 # 2205; lo; up]; m] /\ lo < 0)%Q /\
  (exists lo up m, first_two (fst (level_simple (tie_world (map lit ["a x"; "b x"; "c x"; "d x"]) (map lit ["a x 9"; "b x 8"; "c x 7"; "d y 6"])) "0.0625")) = [m; [3 # 4; lo; up]] /\ 1 < up)%Q /\
  (exists lo up m, first_two (fst (level_icdar five_boxes "1.5")) = [m; [31 # 60; lo; up]] /\ up < lo)%Q.
Proof.
  split; [|split; [|split; [|split; [|split; [|split]]]]].
  - destruct (Compute.config_for (map lit (level_args "0.5"))) as [c|] eqn:Ec; [|vm_compute in Ec; discriminate].
    assert (H := has_level_ok "0.5" 4503599627370496 (-53) c Ec ltac:(vm_compute; reflexivity)).
    destruct (Compute.icdar_inputs five_boxes c) as [[[rs hs] f]|] eqn:I.
    2:{ exfalso. vm_compute in Ec. injection Ec as <-. vm_compute in I. discriminate. }
    exists c, rs, hs. split; [exact H|]. split; [apply (has_level_usable _ _ _ _ H); vm_compute; congruence|].
    assert (Io := Compute.icdar_inputs_ok _ _ _ _ _ I). assert (Ef : f = NoQueries); [|rewrite Ef in Io; exact Io].
    vm_compute in Ec. injection Ec as <-. vm_compute in I. injection I as _ _ <-. reflexivity.
  - destruct (Compute.config_for (map lit (level_args "0.0625"))) as [c|] eqn:Ec; [|vm_compute in Ec; discriminate].
    assert (H := has_level_ok "0.0625" 4503599627370496 (-56) c Ec ltac:(vm_compute; reflexivity)).
    exists c. split; [exact H|apply (has_level_usable _ _ _ _ H); vm_compute; congruence].
  - destruct (Compute.config_for (map lit (level_args "1.5"))) as [c|] eqn:Ec; [|vm_compute in Ec; discriminate].
    assert (H := has_level_ok "1.5" 6755399441055744 (-52) c Ec ltac:(vm_compute; reflexivity)).
    exists c. split; [exact H|apply (has_level_usable _ _ _ _ H); vm_compute; congruence].
  - exists (1937 # 8820)%Q, (2071 # 4410)%Q, [31 # 60; 3 # 10; 2 # 3]%Q. vm_compute. auto.
  - exists (-67 # 2205)%Q, (1958 # 2205)%Q, [31 # 60; 1 # 6; 9 # 10]%Q. vm_compute. auto.
  - exists (1 # 2)%Q, (5 # 4)%Q, [3 # 4; 1 # 2; 5 # 4]%Q. vm_compute. auto.
  - exists (2 # 3)%Q, (3 # 10)%Q, [1069 # 2205; 2071 # 4410; 1937 # 8820]%Q. vm_compute. auto.
Qed.
Print Assumptions c104_inside_refuted.
