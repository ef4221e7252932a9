(** C110: with one group, the two curve files hold the same points. *)
From Coq Require Import Ascii String List Bool ZArith QArith Reals Lia Lra.
From Flocq Require Import Core BinarySingleNaN.
From Verif.Model Require Import Cpp Floats Events EventSets Matches Matcher Scorers Assessment Bootstrap Mapper Stream Reader Options Tool.
From Verif.Spec Require Import Order Matching Grouping Collapse Metrics Curves Double Reader Options Tool Results Parts Rounded.
From Verif.Proofs Require Compute OneCurve.
From Verif.Props Require Import P17_Tool P18_Results P25_Ties P26_Parts.
Import ListNotations.
Local Open Scope string_scope.
Local Open Scope list_scope.

(** C110.  If all the events kept are of one group, any two curves that
    Icdar17KwsEval writes are the same, in real arithmetic. *)
Theorem c110_icdar17 : forall (T : Trans RArith) srt rngs show_int show_f64 w pn args c refs hyps f l r name name' pts pts', sort_contract srt ->
  command args c -> no_bootstrap c -> inputs shaped_text scored_shaped_text w c refs hyps f -> one_group_only f refs hyps ->
  icdar17 RArith T srt rngs show_int show_f64 w pn args = (l, r) ->
  In (EWrite name (FCurve pts)) l -> In (EWrite name' (FCurve pts')) l -> pts = pts'.
Proof.
  intros T srt rngs si sf w pn args c refs hyps f l r n n' p p' Hs Cm NB I One E.
  destruct (OneCurve.icdar_one_reported T srt Hs rngs si sf w pn args c refs hyps f l r Cm NB I One E) as (ms & log & Rp & _).
  exact (OneCurve.same_real T srt w c ms log l r n n' p p' Rp).
Qed.
Print Assumptions c110_icdar17.

(** C110.  The same for SimpleKwsEval. *)
Theorem c110_simple : forall (T : Trans RArith) srt rngs show_int show_f64 qf w pn args c refs hyps f l r name name' pts pts', sort_contract srt ->
  command args c -> no_bootstrap c -> inputs str_event_text scored_str_event_text w c refs hyps f ->
  (Z.of_nat (strings refs hyps f) <= 2147483648)%Z -> one_group_only f refs hyps ->
  simple_kws RArith T srt rngs show_int show_f64 qf w pn args = (l, r) ->
  In (EWrite name (FCurve pts)) l -> In (EWrite name' (FCurve pts')) l -> pts = pts'.
Proof.
  intros T srt rngs si sf qf w pn args c refs hyps f l r n n' p p' Hs Cm NB I Ls One E.
  destruct (OneCurve.simple_one_reported T srt Hs rngs si sf qf w pn args c refs hyps f l r Cm NB I Ls One E) as (ms & log & Rp & _).
  exact (OneCurve.same_real T srt w c ms log l r n n' p p' Rp).
Qed.
Print Assumptions c110_simple.

(** C110.  In double arithmetic, up to the sign of a zero precision, for
    Icdar17KwsEval: the sum of one value and its quotient by 1 are exact. *)
Theorem c110_icdar17_double : forall (T : Trans DArith) srt rngs show_int show_f64 w pn args c refs hyps f l r name name' pts pts', sort_contract srt ->
  command args c -> no_bootstrap c -> inputs shaped_text scored_shaped_text w c refs hyps f -> one_group_only f refs hyps ->
  (Z.of_nat (List.length refs + List.length hyps) <= 2 ^ 53)%Z -> (cf_curve c <= 2 ^ 53)%Z ->
  icdar17 DArith T srt rngs show_int show_f64 w pn args = (l, r) ->
  In (EWrite name (FCurve pts)) l -> In (EWrite name' (FCurve pts')) l -> same_points pts pts'.
Proof.
  intros T srt rngs si sf w pn args c refs hyps f l r n n' p p' Hs Cm NB I One B Bc E.
  destruct (OneCurve.icdar_one_reported T srt Hs rngs si sf w pn args c refs hyps f l r Cm NB I One E) as (ms & log & Rp & Z01 & L).
  apply (OneCurve.same_double T srt w c ms log l r n n' p p' Z01); [lia|exact Bc|exact Rp].
Qed.
Print Assumptions c110_icdar17_double.

(** C110.  In double arithmetic, for SimpleKwsEval. *)
Theorem c110_simple_double : forall (T : Trans DArith) srt rngs show_int show_f64 qf w pn args c refs hyps f l r name name' pts pts', sort_contract srt ->
  command args c -> no_bootstrap c -> inputs str_event_text scored_str_event_text w c refs hyps f ->
  (Z.of_nat (strings refs hyps f) <= 2147483648)%Z -> one_group_only f refs hyps ->
  (Z.of_nat (List.length refs + List.length hyps) <= 2 ^ 53)%Z -> (cf_curve c <= 2 ^ 53)%Z ->
  simple_kws DArith T srt rngs show_int show_f64 qf w pn args = (l, r) ->
  In (EWrite name (FCurve pts)) l -> In (EWrite name' (FCurve pts')) l -> same_points pts pts'.
Proof.
  intros T srt rngs si sf qf w pn args c refs hyps f l r n n' p p' Hs Cm NB I Ls One B Bc E.
  destruct (OneCurve.simple_one_reported T srt Hs rngs si sf qf w pn args c refs hyps f l r Cm NB I Ls One E) as (ms & log & Rp & Z01 & L).
  apply (OneCurve.same_double T srt w c ms log l r n n' p p' Z01); [lia|exact Bc|exact Rp].
Qed.
Print Assumptions c110_simple_double.

(** The precisions in the curve files of a run. *)
Definition precisions {A RE HE} (l : list (effect A (RE := RE) (HE := HE))) : list (list (num A)) :=
  flat_map (fun e => match e with EWrite _ (FCurve pts) => [map snd pts] | _ => [] end) l.

Definition both_curves : list string := ["--output_grp"; "g"; "--output_mrp"; "m"; "--rp_curve_samples"; "3"].

(** The files of C88: three queries in one group, two equal files; each query in
    a group of its own, two different files. *)
Example c110_case :
  (exists c refs hyps f, command (map lit (both_curves ++ ["--query_groups"; "groups"; "r"; "h"])) c /\ no_bootstrap c /\
    inputs str_event_text scored_str_event_text one_group_world c refs hyps f /\ one_group_only f refs hyps /\
    (Z.of_nat (strings refs hyps f) <= 2147483648)%Z /\ (cf_curve c = 3)%Z) /\
  precisions (fst (tie_run TQ one_group_world (both_curves ++ ["--query_groups"; "groups"; "r"; "h"]))) = [[3 # 7; 3 # 7; 3 # 7]; [3 # 7; 3 # 7; 3 # 7]]%Q /\
  precisions (fst (tie_run TQ one_group_world (both_curves ++ ["r"; "h"]))) = [[3 # 7; 3 # 7; 3 # 7]; [5 # 9; 5 # 9; 5 # 9]]%Q.
Proof.
  split; [|split; vm_compute; reflexivity].
  eexists _, _, _, _. split; [apply Compute.config_for_ok; vm_compute; reflexivity|].
  split; [repeat split|]. split; [apply Compute.simple_inputs_ok; vm_compute; reflexivity|].
  split; [|split; [vm_compute; discriminate|reflexivity]].
  exists (lit "g"). split.
  + exists (lit "a"). assert (As : assigns (QueryGroups [map lit ["g"; "a"; "b"]; map lit ["g"; "c"]]) (lit "a") (lit "g")).
    { exists [], (map lit ["a"; "b"]), [map lit ["g"; "c"]]. split; [reflexivity|]. split; [simpl; auto|].
      intros g' qs' [E|[]]. injection E as _ <-. intros [F|[]]. discriminate F. }
    split; [left; eauto|]. split; [left; exact As|]. left. eexists. split; [left; reflexivity|reflexivity].
  + intros x (q & [[g As]|N] & Gq & _).
    * assert (E : forall z, assigns (QueryGroups [map lit ["g"; "a"; "b"]; map lit ["g"; "c"]]) q z -> z = lit "g").
      { intros z (l1 & qs & l2 & E & _). destruct l1 as [|? [|? [|]]]; try discriminate; now injection E as <-. }
      destruct Gq as [Gq|[N _]]; [exact (E _ Gq)|exfalso; exact (N _ As)].
    * exfalso. apply (N (lit "a") (lit "g")). exists [], (map lit ["a"; "b"]), [map lit ["g"; "c"]].
      split; [reflexivity|]. split; [simpl; auto|]. intros g' qs' [E|[]]. injection E as _ <-. intros [F|[]]. discriminate F.
Qed.

(** The second query of the example of Icdar17KwsEval. *)
Example c110_icdar17_case :
  (exists c refs hyps, command (map lit (both_curves ++ ["--query_set"; "only"; "r"; "h"])) c /\ no_bootstrap c /\
    inputs shaped_text scored_shaped_text (with_only here (lit "q2")) c refs hyps (QuerySet [lit "q2"]) /\
    one_group_only (QuerySet [lit "q2"]) refs hyps) /\
  precisions (fst (icdar17 QArith_ TQ (@isort) (fun _ => stream (fun _ => O)) (fun _ => []) (fun _ => []) (with_only here (lit "q2")) (lit "prog")
    (map lit (both_curves ++ ["--query_set"; "only"; "r"; "h"])))) = [[1 # 2; 0; 0]; [1 # 2; 0; 0]]%Q.
Proof.
  split; [|vm_compute; reflexivity].
  - eexists _, _, _. split; [apply Compute.config_for_ok; vm_compute; reflexivity|].
    split; [repeat split|]. split; [apply Compute.icdar_inputs_ok; vm_compute; reflexivity|].
    exists (lit "q2"). split.
    + exists (lit "q2"). split; [left; exists (lit "q2"); split; simpl; auto|]. split; [left; split; simpl; auto|].
      left. eexists. split; [do 2 right; left; reflexivity|reflexivity].
    + intros x (q & K & Gq & _). apply c89_single in K as [_ [[]|[_ <-]]]. destruct Gq as [[_ ->]|[N _]]; [reflexivity|].
      exfalso. apply (N (lit "q2")). split; simpl; auto.
Qed.
