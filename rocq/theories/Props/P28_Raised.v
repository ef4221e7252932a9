(** C92: higher scores with collapsing. *)
From Coq Require Import Ascii String List Bool ZArith QArith Reals Lia Lra Permutation.
From Flocq Require Import Core BinarySingleNaN.
From Verif.Model Require Import Cpp Floats Events EventSets Matches Matcher Scorers Assessment Bootstrap Mapper Stream
  Reader Options Tool.
From Verif.Spec Require Import Order Sets Matching Grouping Collapse Metrics Curves Reader Options Tool Parts Better.
From Verif.Proofs Require Reader Lines Runs Instances Compute Better Hoist Raised Lifted.
From Verif.Props Require Import P17_Tool P18_Results P25_Ties P27_Better.
Import ListNotations.
Local Open Scope string_scope.
Local Open Scope list_scope.

(** ** C92 *)

Lemma renormed {RE HE} (score : HE -> f32) (l rest : list (match_t RE HE)) m x : m_err m = x -> Permutation l (m :: rest) ->
  Permutation (map Hoist.norm (map (Hoist.scored_error score) l))
    ((Ties.unsigned (rank score m), x) :: map Hoist.norm (map (Hoist.scored_error score) rest)).
Proof. intros <- P. now rewrite P. Qed.

(** C92.  With collapsing and interpolation, a higher score for a hit does not
    lower AP. *)
Theorem c92_hit : forall RE HE (score : HE -> f32) (l l' rest : list (match_t RE HE)) m m' trapezoid,
  ranked score l -> ranked score l' -> descending score l -> descending score l' -> (forall m, In m l -> zero_one (m_err m)) ->
  Permutation l (m :: rest) -> Permutation l' (m' :: rest) -> m_err m = hit_error -> m_err m' = hit_error ->
  f32_lt (rank score m) (rank score m') = true ->
  exists ap ap' : R, global_ap RArith score l true true trapezoid = Ok ap /\
    global_ap RArith score l' true true trapezoid = Ok ap' /\ (ap <= ap')%R.
Proof.
  intros RE HE score l l' rest m m' t Rk Rk' D D' Zo P P' E E' Lt.
  do 2 eexists. split; [apply Lifted.ap_tvalue|]. split; [apply Lifted.ap_tvalue|]. rewrite <- !Lifted.tvalue_matches.
  apply (Hoist.raise_hit score score l l' (Ties.unsigned (rank score m)) (Ties.unsigned (rank score m')) (map Hoist.norm (map (Hoist.scored_error score) rest))); auto.
  - rewrite Hoist.unsigned_nan. apply Rk'. apply (Permutation_in _ (Permutation_sym P')). now left.
  - now rewrite Ties.unsigned_lt.
  - now apply renormed.
  - now apply renormed.
Qed.
Print Assumptions c92_hit.

(** C92.  With collapsing, a higher score for a false alarm does not raise AP,
    with or without interpolation and trapezoids. *)
Theorem c92_alarm : forall RE HE (score : HE -> f32) (l l' rest : list (match_t RE HE)) m m' interpolate trapezoid,
  ranked score l -> ranked score l' -> descending score l -> descending score l' -> (forall m, In m l -> zero_one (m_err m)) ->
  (Z.of_nat (List.length l) <= 2 ^ 24)%Z ->
  Permutation l (m :: rest) -> Permutation l' (m' :: rest) -> m_err m = alarm_error -> m_err m' = alarm_error ->
  f32_lt (rank score m) (rank score m') = true ->
  exists ap ap' : R, global_ap RArith score l true interpolate trapezoid = Ok ap /\
    global_ap RArith score l' true interpolate trapezoid = Ok ap' /\ (ap' <= ap)%R.
Proof.
  intros RE HE score l l' rest m m' i t Rk Rk' D D' Zo Ln P P' E E' Lt.
  do 2 eexists. split; [apply Lifted.ap_tvalue|]. split; [apply Lifted.ap_tvalue|]. rewrite <- !Lifted.tvalue_matches.
  apply (Hoist.raise_alarm score score l l' (Ties.unsigned (rank score m)) (Ties.unsigned (rank score m')) (map Hoist.norm (map (Hoist.scored_error score) rest))); auto.
  - rewrite Hoist.unsigned_nan. apply Rk'. apply (Permutation_in _ (Permutation_sym P')). now left.
  - now rewrite Ties.unsigned_lt.
  - now apply renormed.
  - now apply renormed.
Qed.
Print Assumptions c92_alarm.

(** C92.  SimpleKwsEval with collapsing: a higher score for a hypothesis that is
    right lowers neither gAP nor mAP, with interpolation; a higher score for one
    that is wrong raises neither, with any settings. *)
Theorem c92_simple : forall srt rngs show_int show_f64 qf w w' pn args c refs hyps hyps' f e, sort_contract srt ->
  command args c -> no_bootstrap c -> cf_sort c = lit "desc" -> cf_collapse c = true ->
  inputs str_event_text scored_str_event_text w c refs hyps f -> inputs str_event_text scored_str_event_text w' c refs hyps' f ->
  (Z.of_nat (strings refs hyps f) <= 2147483648)%Z -> raised e hyps hyps' ->
  exists gap vap gndcg vndcg gap' vap' gndcg' vndcg' : R,
    prints (A := RArith) (fst (simple_kws RArith RTrans srt rngs show_int show_f64 qf w pn args)) gap vap gndcg vndcg /\
    prints (A := RArith) (fst (simple_kws RArith RTrans srt rngs show_int show_f64 qf w' pn args)) gap' vap' gndcg' vndcg' /\
    (In e refs -> cf_interp c = true -> gap <= gap' /\ vap <= vap')%R /\
    (~ In e refs -> (Z.of_nat (List.length refs + List.length hyps) <= 2 ^ 24)%Z -> gap' <= gap /\ vap' <= vap)%R.
Proof.
  intros srt rngs si sf qf w w' pn args c refs hyps hyps' f e Hs Cm NB Cs Cc I I' L Ra.
  exact (Lifted.simple_lifted srt Hs rngs si sf qf w w' pn args c refs hyps hyps' f e Cm NB Cs Cc I I' L Ra).
Qed.
Print Assumptions c92_simple.

(** Hits and false alarms of two queries, some of them tied, one hit and one
    false alarm with the scores given. *)
Definition tied_hits (s s' : string) : world :=
  tie_world (map lit ["a x"; "a y"; "b x"; "b y"])
    (map lit ["a p 7"; "a x 8"; "a q 8"; "b x 9"; "b p 6"] ++ [lit "a y " ++ lit s; lit "b q " ++ lit s'; lit "b y 1"]).

Example c92_case :
  (exists c refs hyps hyps' e, command (map lit ["r"; "h"]) c /\ no_bootstrap c /\ cf_sort c = lit "desc" /\
    cf_collapse c = true /\ cf_interp c = true /\ inputs str_event_text scored_str_event_text (tied_hits "3" "2") c refs hyps NoQueries /\
    inputs str_event_text scored_str_event_text (tied_hits "8" "2") c refs hyps' NoQueries /\ (Z.of_nat (strings refs hyps NoQueries) <= 2147483648)%Z /\
    raised e hyps hyps' /\ In e refs) /\
  (exists c refs hyps hyps' e, command (map lit ["--interpolated_precision"; "false"; "r"; "h"]) c /\ no_bootstrap c /\ cf_sort c = lit "desc" /\
    cf_collapse c = true /\ inputs str_event_text scored_str_event_text (tied_hits "3" "2") c refs hyps NoQueries /\
    inputs str_event_text scored_str_event_text (tied_hits "3" "9") c refs hyps' NoQueries /\ (Z.of_nat (strings refs hyps NoQueries) <= 2147483648)%Z /\
    raised e hyps hyps' /\ ~ In e refs /\ (Z.of_nat (List.length refs + List.length hyps) <= 2 ^ 24)%Z) /\
  map (fun w => map snd (firstn 2 (printed (fst (tie_run TQ w ["r"; "h"])))))
    [tied_hits "3" "2"; tied_hits "8" "2"] = [[17 # 24; 5 # 8]; [13 # 16; 17 # 24]]%Q /\
  map (fun w => map snd (firstn 2 (printed (fst (tie_run TQ w ["--interpolated_precision"; "false"; "r"; "h"])))))
    [tied_hits "3" "2"; tied_hits "3" "9"] = [[577 # 840; 7 # 12]; [155 # 336; 11 # 24]]%Q.
Proof.
  split; [|split; [|split]].
  - eexists _, _, _, _, _. split; [apply Compute.config_for_ok; vm_compute; reflexivity|].
    split; [repeat split|]. split; [reflexivity|]. split; [reflexivity|]. split; [reflexivity|].
    split; [apply Compute.simple_inputs_ok; vm_compute; reflexivity|]. split; [apply Compute.simple_inputs_ok; vm_compute; reflexivity|].
    split; [vm_compute; discriminate|]. split.
    + eexists [_; _; _; _; _], _, _, [_; _]. split; [reflexivity|]. split; [reflexivity|]. vm_compute. reflexivity.
    + right. left. reflexivity.
  - eexists _, _, _, _, _. split; [apply Compute.config_for_ok; vm_compute; reflexivity|].
    split; [repeat split|]. split; [reflexivity|]. split; [reflexivity|].
    split; [apply Compute.simple_inputs_ok; vm_compute; reflexivity|]. split; [apply Compute.simple_inputs_ok; vm_compute; reflexivity|].
    split; [vm_compute; discriminate|]. split; [|split; [|vm_compute; discriminate]].
    + eexists [_; _; _; _; _; _], _, _, [_]. split; [reflexivity|]. split; [reflexivity|]. vm_compute. reflexivity.
    + intros I. repeat (destruct I as [I|I]; [discriminate|]). destruct I.
  - vm_compute. reflexivity.
  - vm_compute. reflexivity.
Qed.

(** Two false alarms and a hit with the score given. *)
Definition third_hit (s : f32) : list (match_t nat f32) :=
  [make_fp (f32_of_Z 3); make_fp (f32_of_Z 2); Match (Some 0%nat) (Some s) hit_error].

(** C92.  False for NDCG: a hit below two false alarms that gets the score of the
    second one. *)
Theorem c92_ndcg_refuted :
  let score (s : f32) := s in
  let low := third_hit (f32_of_Z 1) in let high := third_hit (f32_of_Z 2) in
  (forall l, In l [low; high] -> ranked score l /\ descending score l /\ forall m, In m l -> zero_one (m_err m)) /\
  (global_ndcg RArith RTrans score high true < global_ndcg RArith RTrans score low true)%R.
Proof.
  cbv zeta. split.
  - intros l [<-|[<-|[]]]; (split; [intros m I; repeat (destruct I as [<-|I]; [reflexivity|]); destruct I|]);
      (split; [repeat constructor|intros m I; repeat (destruct I as [<-|I]; [split; cbn; auto|]); destruct I]).
  - assert (P1 : points (fun s : f32 => s) true (third_hit (f32_of_Z 1)) = [Counts f32_1 f32_0 1 0; Counts f32_1 f32_0 1 0; Counts f32_0 f32_0 1 1]) by reflexivity.
    assert (P2 : points (fun s : f32 => s) true (third_hit (f32_of_Z 2)) = [Counts f32_1 f32_0 1 0; Counts f32_1 f32_0 2 1]) by reflexivity.
    assert (R0 : B2R (f32_sub f32_1 (f32_div f32_1 (f32_of_Z (Z.of_nat 1)))) = 0%R).
    { replace (f32_sub f32_1 (f32_div f32_1 (f32_of_Z (Z.of_nat 1)))) with f32_0 by (apply B2SF_inj; vm_compute; reflexivity). reflexivity. }
    assert (R1 : B2R (f32_sub f32_1 (f32_div f32_0 (f32_of_Z (Z.of_nat 1)))) = 1%R).
    { replace (f32_sub f32_1 (f32_div f32_0 (f32_of_Z (Z.of_nat 1)))) with f32_1 by (apply B2SF_inj; vm_compute; reflexivity). apply FloatFacts.f32_1_R. }
    assert (Rh : B2R (f32_sub f32_1 (f32_div f32_1 (f32_of_Z (Z.of_nat 2)))) = (1 / 2)%R).
    { rewrite <- SF2R_B2SF. replace (B2SF (f32_sub f32_1 (f32_div f32_1 (f32_of_Z (Z.of_nat 2))))) with (SpecFloat.S754_finite false 8388608 (-24)) by (vm_compute; reflexivity).
      unfold SF2R, F2R. cbn. lra. }
    unfold global_ndcg. rewrite P1, P2. clear P1 P2.
    cbn -[B2R f32_sub f32_div f32_of_Z f32_0 f32_1 INR Z.of_nat ln Rpower]. rewrite R0, R1, Rh.
    rewrite !Rpower_O, !Rpower_1 by lra.
    replace (INR 4) with (2 * 2)%R by (cbn; lra). replace (INR 3) with 3%R by (cbn; lra). replace (INR 2) with 2%R by (cbn; lra).
    replace (INR 1) with 1%R by reflexivity. replace (INR 0) with 0%R by reflexivity.
    rewrite ln_mult by lra. assert (L2 : (0 < ln 2)%R) by (rewrite <- ln_1; apply ln_increasing; lra).
    assert (L3 : (3 / 2 * ln 2 < ln 3)%R).
    { assert (K : (ln (2 * (2 * 2)) < ln (3 * 3))%R) by (apply ln_increasing; lra). rewrite !ln_mult in K by lra. lra. }
    assert (Sq : (1 < Rpower 2 (1 / 2) < 1.4143)%R).
    { assert (K : (Rpower 2 (1 / 2) * Rpower 2 (1 / 2) = 2)%R) by (rewrite <- Rpower_plus; replace (1 / 2 + 1 / 2)%R with 1%R by lra; apply Rpower_1; lra).
      assert (P0 : (0 < Rpower 2 (1 / 2))%R) by apply exp_pos. nra. }
    set (x := Rpower 2 (1 / 2)) in *.
    assert (Q : (ln 2 / ln 3 < 2 / 3)%R).
    { apply Rmult_lt_reg_r with (ln 3); [lra|]. unfold Rdiv at 1. rewrite Rmult_assoc, Rinv_l by lra. lra. }
    assert (Q0 : (0 < ln 2 / ln 3)%R) by (apply Rdiv_lt_0_compat; lra).
    replace ((x - 1) / (ln 3 / ln 2))%R with ((x - 1) * (ln 2 / ln 3))%R by (field; lra).
    replace ((ln 2 + ln 2) / ln 2)%R with 2%R by (field; lra). replace (ln 2 / ln 2)%R with 1%R by (field; lra). nra.
Qed.
Print Assumptions c92_ndcg_refuted.

(** A hit and a false alarm, each in turn with a higher score, tied with
    others. *)
Example c92_lists_case :
  let score (s : f32) := s in
  let hit (n : Z) s := Match (Some n) (Some (f32_of_Z s)) hit_error in
  let fp s := make_fp (RE := Z) (f32_of_Z s) in
  let l := [hit 1 4; fp 4; fp 3; hit 2 2; fp 2; make_fn 3]%Z in
  let l' := [hit 1 4; fp 4; hit 2 3; fp 3; fp 2; make_fn 3]%Z in
  let l'' := [fp 4; fp 4; hit 1 4; hit 2 2; fp 2; make_fn 3]%Z in
  (ranked score l /\ ranked score l' /\ ranked score l'' /\ descending score l /\ descending score l' /\ descending score l'' /\
    forall m, In m l -> zero_one (m_err m)) /\
  (exists rest, Permutation l (hit 2%Z 2%Z :: rest) /\ Permutation l' (hit 2%Z 3%Z :: rest) /\
    f32_lt (rank score (hit 2%Z 2%Z)) (rank score (hit 2%Z 3%Z)) = true) /\
  (exists rest, Permutation l (fp 3%Z :: rest) /\ Permutation l'' (fp 4%Z :: rest) /\ f32_lt (rank score (fp 3%Z)) (rank score (fp 4%Z)) = true) /\
  map (fun l => global_ap QArith_ score l true true true) [l; l'; l''] = map Ok [3 # 10; 1 # 3; 4 # 15]%Q.
Proof.
  cbv zeta. split; [|split; [|split]].
  - assert (Hr : forall l : list (match_t Z f32), forallb (fun m => negb (is_nan (rank (fun s => s) m))) l = true -> ranked (fun s => s) l).
    { intros l H m I. rewrite forallb_forall in H. specialize (H m I). now destruct (is_nan (rank (fun s : f32 => s) m)). }
    do 3 (split; [apply Hr; vm_compute; reflexivity|]). do 3 (split; [repeat constructor|]).
    intros m I. repeat (destruct I as [<-|I]; [split; cbn; auto|]). destruct I.
  - exists [Match (Some 1%Z) (Some (f32_of_Z 4)) hit_error; make_fp (f32_of_Z 4); make_fp (f32_of_Z 3); make_fp (f32_of_Z 2); make_fn 3%Z].
    split; [|split; [|vm_compute; reflexivity]].
    + apply Permutation_sym. apply (Permutation_middle [_; _; _] [_; _]).
    + apply Permutation_sym. apply (Permutation_middle [_; _] [_; _; _]).
  - exists [Match (Some 1%Z) (Some (f32_of_Z 4)) hit_error; make_fp (f32_of_Z 4); Match (Some 2%Z) (Some (f32_of_Z 2)) hit_error; make_fp (f32_of_Z 2); make_fn 3%Z].
    split; [|split; [|vm_compute; reflexivity]].
    + apply Permutation_sym. apply (Permutation_middle [_; _] [_; _; _]).
    + constructor. apply (Permutation_middle [_] [_; _; _]).
  - vm_compute. reflexivity.
Qed.
