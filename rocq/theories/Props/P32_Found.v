(** C96: the statistics and the number of references found. *)
From Coq Require Import Ascii String List Bool ZArith QArith Reals Lia Lra Permutation.
From Flocq Require Import Core BinarySingleNaN.
From Verif.Model Require Import Cpp Floats Box Events EventSets Matches Matcher Scorers Assessment Bootstrap Mapper Stream
  Reader Options Tool.
From Verif.Spec Require Import Order Objects Sets Matching Scorers Grouping Collapse Metrics Curves Reader Options Tool Parts Found.
From Verif.Proofs Require Order Geometry Scorers Reader Lines Runs Instances Compute Unfound Found.
From Verif.Props Require Import P17_Tool P18_Results P25_Ties.
Import ListNotations.
Local Open Scope string_scope.
Local Open Scope list_scope.

(** ** C96 *)

(** C96.  AP of a ranking is at most the share of the references that are
    hits, and with interpolation at least this times the share of the
    hypotheses that are hits.  It is this share just when no false alarm comes
    before a hit; when equal scores are collapsed, just when every hit has a
    higher score than every false alarm. *)
Theorem c96_ap : forall {RE HE} (score : HE -> f32) cb i t (l : list (match_t RE HE)), (forall m, In m l -> zero_one (m_err m)) ->
  (cb = true -> ranked score l /\ Z.of_nat (List.length l) <= 2 ^ 24)%Z ->
  exists a : R, global_ap RArith score l cb i t = Ok a /\ (a * INR (refs l) <= INR (hits l))%R /\
    (i = true -> INR (hits l) * INR (hits l) <= a * INR (refs l) * INR (hyps l))%R /\
    (cb = false -> ((a * INR (refs l))%R = INR (hits l) <-> hits_first l)) /\
    (cb = true -> descending score l -> ((a * INR (refs l))%R = INR (hits l) <-> hits_above score l)).
Proof. intros RE HE score cb i t l. exact (Found.ap_found score cb i t l). Qed.
Print Assumptions c96_ap.

(** C96.  NDCG is at most that of a ranking with these hits first, and without
    collapsing it is this just when no false alarm comes before a hit. *)
Theorem c96_ndcg : forall {RE HE} (score : HE -> f32) cb (l : list (match_t RE HE)), (forall m, In m l -> zero_one (m_err m)) ->
  (cb = true -> ranked score l /\ Z.of_nat (List.length l) <= 2 ^ 19)%Z ->
  let g := global_ndcg RArith RTrans score l cb in
  (g * ideal (refs l) <= ideal (hits l))%R /\ (cb = false -> ((g * ideal (refs l))%R = ideal (hits l) <-> hits_first l)).
Proof. intros RE HE score cb l. exact (Found.ndcg_found score cb l). Qed.
Print Assumptions c96_ndcg.

(** A ranking of two hits, a false alarm and a miss, and one with the false
    alarm before the second hit. *)
Definition rank_of (s : Z) : scored unit := Scored tt (f32_of_Z s).
Definition hits_on_top : list (match_t unit (scored unit)) :=
  [match_pair tt (rank_of 3) (MatchError f32_0 f32_0); match_pair tt (rank_of 2) (MatchError f32_0 f32_0); make_fp (rank_of 1); make_fn tt].
Definition alarm_between : list (match_t unit (scored unit)) :=
  [match_pair tt (rank_of 3) (MatchError f32_0 f32_0); make_fp (rank_of 2); match_pair tt (rank_of 1) (MatchError f32_0 f32_0); make_fn tt].

Example c96_ranking_case :
  (forall m, In m hits_on_top -> zero_one (m_err m)) /\ ranked sc_score hits_on_top /\ (Z.of_nat (List.length hits_on_top) <= 2 ^ 19)%Z /\
  descending sc_score hits_on_top /\ hits_first hits_on_top /\ hits_above sc_score hits_on_top /\
  (refs hits_on_top, hits hits_on_top, hyps hits_on_top) = (3, 2, 3)%nat /\
  global_ap QArith_ sc_score hits_on_top true true true = Ok (2 # 3)%Q /\
  ~ hits_first alarm_between /\ ~ hits_above sc_score alarm_between /\
  (refs alarm_between, hits alarm_between, hyps alarm_between) = (3, 2, 3)%nat /\
  global_ap QArith_ sc_score alarm_between true true true = Ok (5 # 9)%Q /\
  global_ap QArith_ sc_score alarm_between false true false = Ok (5 # 9)%Q.
Proof.
  split; [intros m [<-|[<-|[<-|[<-|[]]]]]; split; cbn; auto|].
  split; [intros m [<-|[<-|[<-|[<-|[]]]]]; reflexivity|]. split; [vm_compute; discriminate|].
  split; [repeat constructor|]. split.
  { intros u a v b w E Fa [Hb Hn]. assert (Fb := f_equal (fun y => f32_eq y f32_0) Fa). assert (Nb := f_equal (fun y => f32_eq y f32_0) Hn).
    destruct u as [|? [|? [|? [|? u]]]]; cbn [app] in E; injection E; intros; subst; try discriminate Fb; [|destruct u; discriminate].
    destruct v as [|? v]; cbn [app] in *; [|destruct v; discriminate].
    match goal with K : [make_fn tt] = b :: w |- _ => injection K; intros; subst end. discriminate Nb. }
  split; [|split; [reflexivity|split; [vm_compute; reflexivity|]]].
  { intros a b Ia Ib Fa [Hb Hn]. assert (Fb := f_equal (fun y => f32_eq y f32_0) Fa). assert (Mb := f_equal (fun y => f32_eq y f32_0) Hb).
    assert (Nb := f_equal (fun y => f32_eq y f32_0) Hn). destruct Ia as [<-|[<-|[<-|[<-|[]]]]]; try discriminate Fb.
    destruct Ib as [<-|[<-|[<-|[<-|[]]]]]; try discriminate Nb; try discriminate Mb; reflexivity. }
  split; [intros F; apply (F [_] _ [] _ [_] eq_refl); [reflexivity|split; reflexivity]|].
  split; [intros F; assert (X := F _ _ (or_intror (or_introl eq_refl)) (or_intror (or_intror (or_introl eq_refl))) eq_refl (conj eq_refl eq_refl)); vm_compute in X; discriminate X|].
  split; [reflexivity|]. split; vm_compute; reflexivity.
Qed.

(** C96.  SimpleKwsEval: [n] references are evaluated, [k] of them are among
    the hypotheses, and [la] are the false alarms. *)
Theorem c96_simple : forall srt rngs show_int show_f64 qf w pn args c refs hyps f ln lk la, sort_contract srt ->
  command args c -> no_bootstrap c ->
  inputs str_event_text scored_str_event_text w c refs hyps f -> (Z.of_nat (strings refs hyps f) <= 2147483648)%Z ->
  lists (wanted f refs) ln -> lists (found f refs hyps) lk -> selects (false_alarms f refs) hyps la ->
  (cf_collapse c = true -> Z.of_nat (List.length refs + List.length hyps) <= 2 ^ 24)%Z ->
  let n := List.length ln in let k := List.length lk in
  exists gap vap gndcg vndcg : R,
    prints (A := RArith) (fst (simple_kws RArith RTrans srt rngs show_int show_f64 qf w pn args)) gap vap gndcg vndcg /\
    (gap * INR n <= INR k)%R /\ (cf_interp c = true -> INR k * INR k <= gap * INR n * INR (k + List.length la))%R /\
    ((cf_collapse c = true -> Z.of_nat (List.length refs + List.length hyps) <= 2 ^ 19)%Z -> gndcg * ideal n <= ideal k)%R /\
    (cf_sort c = lit "desc" ->
      (found_above f refs hyps -> (gap * INR n)%R = INR k) /\ ((gap * INR n)%R = INR k -> found_not_below f refs hyps) /\
      (cf_collapse c = true -> (gap * INR n)%R = INR k -> found_above f refs hyps) /\
      (cf_collapse c = false -> ((gap * INR n)%R = INR k <-> (gndcg * ideal n)%R = ideal k))).
Proof.
  intros srt rngs si sf qf w pn args c refs hyps f ln lk la Hs. exact (Found.simple_found srt Hs rngs si sf qf w pn args c refs hyps f ln lk la).
Qed.
Print Assumptions c96_simple.

(** C96.  Icdar17KwsEval: [lk] are the references that accept a hypothesis. *)
Theorem c96_icdar17_accepting : forall srt rngs show_int show_f64 w pn args c refs hyps f ln lk, sort_contract srt ->
  command args c -> no_bootstrap c ->
  inputs shaped_text scored_shaped_text w c refs hyps f -> lists (wanted f refs) ln ->
  lists (fun r => wanted f refs r /\ exists h, In h hyps /\ Spec.Scorers.accepted (ioh_scorer cmp_str f32_half r (sc_base h))) lk ->
  (cf_collapse c = true -> Z.of_nat (List.length refs + List.length hyps) <= 2 ^ 24)%Z ->
  exists gap vap gndcg vndcg : R,
    prints (A := RArith) (fst (icdar17 RArith RTrans srt rngs show_int show_f64 w pn args)) gap vap gndcg vndcg /\
    (gap * INR (List.length ln) <= INR (List.length lk))%R /\
    ((cf_collapse c = true -> Z.of_nat (List.length refs + List.length hyps) <= 2 ^ 19)%Z -> gndcg * ideal (List.length ln) <= ideal (List.length lk))%R.
Proof.
  intros srt rngs si sf w pn args c refs hyps f ln lk Hs. exact (Found.icdar_found srt Hs rngs si sf w pn args c refs hyps f ln lk).
Qed.
Print Assumptions c96_icdar17_accepting.

(** C96.  The same with the references that share half of the cells of a
    hypothesis of the same query, where these have at most 2^24. *)
Theorem c96_icdar17 : forall srt rngs show_int show_f64 w pn args c refs hyps f ln lk, sort_contract srt ->
  command args c -> no_bootstrap c ->
  inputs shaped_text scored_shaped_text w c refs hyps f -> lists (wanted f refs) ln -> lists (half_covered f refs hyps) lk ->
  (forall r, In r refs -> fits (ev_loc r)) ->
  (forall h, In h hyps -> fits (ev_loc (sc_base h)) /\ exists a, covers (ev_loc (sc_base h)) a /\ (a <= 2 ^ 24)%Z) ->
  (cf_collapse c = true -> Z.of_nat (List.length refs + List.length hyps) <= 2 ^ 24)%Z ->
  exists gap vap gndcg vndcg : R,
    prints (A := RArith) (fst (icdar17 RArith RTrans srt rngs show_int show_f64 w pn args)) gap vap gndcg vndcg /\
    (gap * INR (List.length ln) <= INR (List.length lk))%R /\
    ((cf_collapse c = true -> Z.of_nat (List.length refs + List.length hyps) <= 2 ^ 19)%Z -> gndcg * ideal (List.length ln) <= ideal (List.length lk))%R.
Proof.
  intros srt rngs si sf w pn args c refs hyps f ln lk Hs Cm NB I Ln [Nk Ik] Fr Fh.
  apply (c96_icdar17_accepting srt rngs si sf w pn args c refs hyps f ln lk Hs Cm NB I Ln). split; [exact Nk|].
  assert (Rule : forall r h, In r refs -> In h hyps -> exists a i, covers (ev_loc (sc_base h)) a /\ shares (ev_loc r) (ev_loc (sc_base h)) i /\
    (Spec.Scorers.accepted (ioh_scorer cmp_str f32_half r (sc_base h)) <-> ev_query r = ev_query (sc_base h) /\ (0 < a)%Z /\ (a <= 2 * i)%Z)).
  { intros r h Jr J. destruct (Fh h J) as (F1 & a & Ca & La).
    assert (Sh := Scorers.shares_intro (ev_loc r) (ev_loc (sc_base h)) _ (Fr r Jr) F1 eq_refl). exists a. eexists. split; [exact Ca|]. split; [exact Sh|].
    destruct (Scorers.ioh_exact_rule cmp_str Order.total_order_str r (sc_base h) _ a (Fr r Jr) F1 Sh Ca La) as [[P K]|[P K]]; [tauto|].
    split; [|tauto]. intros A. rewrite A in K. discriminate (f_equal (fun e => f32_eq (me_fp e) f32_0) K). }
  intros r. rewrite Ik. unfold half_covered. split; intros [W (h & J & A)]; (split; [exact W|]); exists h; (split; [exact J|]);
    destruct (Rule r h (proj1 W) J) as (a & i & Ca & Sh & K).
  - apply K. destruct A as (Eq & a' & i' & Ca' & Sh' & P & Q).
    rewrite (Geometry.cell_count_unique _ _ _ Ca Ca'), (Geometry.cell_count_unique _ _ _ Sh Sh'). auto.
  - destruct (proj1 K A) as (Eq & P & Q). split; [exact Eq|]. exists a, i. auto.
Qed.
Print Assumptions c96_icdar17.

(** Three references, two of them found, and two false alarms; with the score
    of the second reference found below, level with and above the first false
    alarm. *)
Definition found_lines (s : string) : world :=
  tie_world (map lit ["a x"; "b x"; "b y"]) (map lit ["a x 3"; "b z 2"; "b x " ++ s; "a z 1"]%string).

Example c96_simple_case :
  (exists c refs hyps ln lk la, command (map lit ["r"; "h"]) c /\ no_bootstrap c /\ cf_sort c = lit "desc" /\ cf_interp c = true /\
    inputs str_event_text scored_str_event_text (found_lines "2.5") c refs hyps NoQueries /\ (Z.of_nat (strings refs hyps NoQueries) <= 2147483648)%Z /\
    lists (wanted NoQueries refs) ln /\ lists (found NoQueries refs hyps) lk /\ selects (false_alarms NoQueries refs) hyps la /\
    (Z.of_nat (List.length refs + List.length hyps) <= 2 ^ 19)%Z /\
    (List.length ln, List.length lk, List.length la) = (3, 2, 2)%nat /\ found_above NoQueries refs hyps) /\
  map (fun s => map (fun o => map snd (firstn 1 (printed (fst (tie_run TQ (found_lines s) (o ++ ["r"; "h"])))))) [[]; ["--collapse_matches"; "false"]])
    ["1"; "2"; "2.5"] = [[[1 # 2]; [5 # 9]]; [[11 # 18]; [5 # 9]]; [[2 # 3]; [2 # 3]]]%Q.
Proof.
  split.
  - eexists _, _, _, _, _, _. split; [apply Compute.config_for_ok; vm_compute; reflexivity|].
    split; [repeat split|]. split; [reflexivity|]. split; [reflexivity|].
    split; [apply Compute.simple_inputs_ok; vm_compute; reflexivity|].
    split; [vm_compute; discriminate|].
    assert (K : forall q : bytes, kept NoQueries q) by (intros q; right; intros q' g A; inversion A).
    split; [split; [|intros r; split; [intros I; split; [exact I|apply K]|intros [I _]; exact I]]; repeat constructor; intros I; repeat (destruct I as [I|I]; [discriminate|]); destruct I|].
    split; [split|].
    2:{ intros r. split.
        - intros I. instantiate (1 := [_; _]) in I. destruct I as [<-|[<-|[]]].
          + split; [split; [left; reflexivity|apply K]|left; reflexivity].
          + split; [split; [right; left; reflexivity|apply K]|right; right; left; reflexivity].
        - intros [[I _] J]. destruct J as [<-|[<-|[<-|[<-|[]]]]]; [left; reflexivity| |right; left; reflexivity|];
            exfalso; repeat (destruct I as [I|I]; [discriminate|]); destruct I. }
    { repeat constructor; intros I; repeat (destruct I as [I|I]; [discriminate|]); destruct I. }
    split; [|split; [vm_compute; discriminate|split]].
    + apply sel_no; [intros [_ N]; apply N; left; reflexivity|].
      apply sel_yes; [split; [apply K|intros I; repeat (destruct I as [I|I]; [discriminate|]); destruct I]|].
      apply sel_no; [intros [_ N]; apply N; right; left; reflexivity|].
      apply sel_yes; [split; [apply K|intros I; repeat (destruct I as [I|I]; [discriminate|]); destruct I]|constructor].
    + reflexivity.
    + intros r g Fr I [_ N]. destruct Fr as [[Ir _] J].
      destruct J as [<-|[<-|[<-|[<-|[]]]]]; try (exfalso; repeat (destruct Ir as [Ir|Ir]; [discriminate|]); now destruct Ir).
      * eexists. split; [left; reflexivity|]. split; [reflexivity|].
        destruct I as [<-|[<-|[<-|[<-|[]]]]]; [elim N; left; reflexivity|reflexivity|elim N; right; left; reflexivity|reflexivity].
      * eexists. split; [right; right; left; reflexivity|]. split; [reflexivity|].
        destruct I as [<-|[<-|[<-|[<-|[]]]]]; [elim N; left; reflexivity|reflexivity|elim N; right; left; reflexivity|reflexivity].
  - vm_compute. reflexivity.
Qed.

(** Two references of one query; one shares half of the first hypothesis, the
    other less than half of the second. *)
Definition found_boxes : world :=
  tie_world (map lit ["q d 0 0 10 10"; "q d 20 0 10 10"]) (map lit ["q d 5 0 10 10 2"; "q d 26 0 10 10 3"]).

Example c96_icdar17_case :
  (exists c refs hyps ln lk, command (map lit ["r"; "h"]) c /\ no_bootstrap c /\
    inputs shaped_text scored_shaped_text found_boxes c refs hyps NoQueries /\
    lists (wanted NoQueries refs) ln /\ lists (half_covered NoQueries refs hyps) lk /\
    (forall r, In r refs -> fits (ev_loc r)) /\
    (forall h, In h hyps -> fits (ev_loc (sc_base h)) /\ exists a, covers (ev_loc (sc_base h)) a /\ (a <= 2 ^ 24)%Z) /\
    (Z.of_nat (List.length refs + List.length hyps) <= 2 ^ 19)%Z /\ (List.length ln, List.length lk) = (2, 1)%nat) /\
  map snd (firstn 2 (printed (fst (icdar17 QArith_ TQ (@isort) (fun _ => stream (fun _ => O)) (fun _ => []) (fun _ => [])
    found_boxes (lit "prog") (map lit ["r"; "h"]))))) = [1 # 4; 1 # 4]%Q.
Proof.
  split.
  - eexists _, _, _, _, _. split; [apply Compute.config_for_ok; vm_compute; reflexivity|].
    split; [repeat split|].
    split; [apply Compute.icdar_inputs_ok; vm_compute; reflexivity|].
    assert (K : forall q : bytes, kept NoQueries q) by (intros q; right; intros q' g A; inversion A).
    split; [split; [|intros r; split; [intros I; split; [exact I|apply K]|intros [I _]; exact I]]; repeat constructor; intros I; repeat (destruct I as [I|I]; [discriminate|]); destruct I|].
    split; [split|].
    2:{ intros r. split.
        - intros I. instantiate (1 := [_]) in I. destruct I as [<-|[]]. split; [split; [left; reflexivity|apply K]|].
          eexists. split; [left; reflexivity|]. split; [reflexivity|]. exists 100%Z, 50%Z.
          split; [apply Scorers.covers_intro; [apply Scorers.fits_intro; easy|reflexivity]|].
          split; [apply Scorers.shares_intro; [apply Scorers.fits_intro; easy|apply Scorers.fits_intro; easy|reflexivity]|]. easy.
        - intros [[I _] (h & J & _ & a & i & Ca & Sh & P & Q)]. destruct I as [<-|[<-|[]]]; [left; reflexivity|exfalso].
          destruct J as [<-|[<-|[]]].
          + apply Scorers.fits_area in Ca; [|apply Scorers.fits_intro; easy]. apply Scorers.fits_shared in Sh; [|apply Scorers.fits_intro; easy|apply Scorers.fits_intro; easy].
            subst a i. vm_compute in Q. now apply Q.
          + apply Scorers.fits_area in Ca; [|apply Scorers.fits_intro; easy]. apply Scorers.fits_shared in Sh; [|apply Scorers.fits_intro; easy|apply Scorers.fits_intro; easy].
            subst a i. vm_compute in Q. now apply Q. }
    { repeat constructor. intros []. }
    split; [intros r [<-|[<-|[]]]; apply Scorers.fits_intro; easy|].
    split; [intros h [<-|[<-|[]]]; (split; [apply Scorers.fits_intro; easy|]); exists 100%Z;
      (split; [apply Scorers.covers_intro; [apply Scorers.fits_intro; easy|reflexivity]|easy])|].
    split; [vm_compute; discriminate|reflexivity].
  - vm_compute. reflexivity.
Qed.
