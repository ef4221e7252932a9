(** C107: a higher score for a hypothesis that finds a reference for itself. *)
From Coq Require Import Ascii String List Bool ZArith QArith Reals Lia Lra.
From Flocq Require Import Core BinarySingleNaN.
From Verif.Model Require Import Cpp Floats Box Events EventSets Matches Matcher Scorers Assessment Bootstrap Mapper Stream
  Reader Options Tool.
From Verif.Spec Require Import Order Objects Sets Matching Scorers Grouping Collapse Metrics Curves Reader Options Tool Parts Better Again.
From Verif.Proofs Require Order Geometry Scorers Compute Uncontested.
From Verif.Props Require Import P17_Tool P18_Results P25_Ties P27_Better.
Import ListNotations.
Local Open Scope string_scope.
Local Open Scope list_scope.

(** C107.  Icdar17KwsEval with a higher score for a hypothesis that some
    reference accepts, where the references that accept it accept no other
    hypothesis.  Without collapsing, it lowers none of the four statistics with
    decreasing scores and raises none with increasing ones.  With collapsing,
    interpolation and decreasing scores, it lowers neither gAP nor mAP. *)
Theorem c107_icdar17_accepted : forall srt rngs show_int show_f64 w w' pn args c refs a b f e s s', sort_contract srt ->
  command args c -> no_bootstrap c ->
  inputs shaped_text scored_shaped_text w c refs (a ++ Scored e s :: b) f ->
  inputs shaped_text scored_shaped_text w' c refs (a ++ Scored e s' :: b) f -> f32_lt s s' = true ->
  (exists r, In r refs /\ Spec.Scorers.accepted (ioh_scorer cmp_str f32_half r e)) ->
  (forall r h, In r refs -> In h (a ++ b) -> Spec.Scorers.accepted (ioh_scorer cmp_str f32_half r e) ->
    ~ Spec.Scorers.accepted (ioh_scorer cmp_str f32_half r (sc_base h))) ->
  exists gap vap gndcg vndcg gap' vap' gndcg' vndcg' : R,
    prints (A := RArith) (fst (icdar17 RArith RTrans srt rngs show_int show_f64 w pn args)) gap vap gndcg vndcg /\
    prints (A := RArith) (fst (icdar17 RArith RTrans srt rngs show_int show_f64 w' pn args)) gap' vap' gndcg' vndcg' /\
    (cf_collapse c = false -> cf_sort c = lit "desc" -> gap <= gap' /\ vap <= vap' /\ gndcg <= gndcg' /\ vndcg <= vndcg')%R /\
    (cf_collapse c = false -> cf_sort c = lit "asc" -> gap' <= gap /\ vap' <= vap /\ gndcg' <= gndcg /\ vndcg' <= vndcg)%R /\
    (cf_collapse c = true -> cf_interp c = true -> cf_sort c = lit "desc" -> gap <= gap' /\ vap <= vap')%R.
Proof.
  intros srt rngs si sf w w' pn args c refs a b f e s s' Hs. exact (Uncontested.icdar_uncontested srt Hs rngs si sf w w' pn args c refs a b f e s s').
Qed.
Print Assumptions c107_icdar17_accepted.

(** C107.  The same by counting cells: some reference shares half of the cells of
    the hypothesis, and half of those of no other hypothesis. *)
Theorem c107_icdar17_right : forall srt rngs show_int show_f64 w w' pn args c refs a b f e s s', sort_contract srt ->
  command args c -> no_bootstrap c ->
  inputs shaped_text scored_shaped_text w c refs (a ++ Scored e s :: b) f ->
  inputs shaped_text scored_shaped_text w' c refs (a ++ Scored e s' :: b) f -> f32_lt s s' = true ->
  (forall r, In r refs -> fits (ev_loc r)) ->
  (forall x, In x (a ++ Scored e s :: b) -> fits (ev_loc (sc_base x)) /\ exists n, covers (ev_loc (sc_base x)) n /\ (n <= 2 ^ 24)%Z) ->
  (exists r, In r refs /\ shares_half r (Scored e s)) ->
  (forall r h, In r refs -> In h (a ++ b) -> shares_half r (Scored e s) -> ~ shares_half r h) ->
  exists gap vap gndcg vndcg gap' vap' gndcg' vndcg' : R,
    prints (A := RArith) (fst (icdar17 RArith RTrans srt rngs show_int show_f64 w pn args)) gap vap gndcg vndcg /\
    prints (A := RArith) (fst (icdar17 RArith RTrans srt rngs show_int show_f64 w' pn args)) gap' vap' gndcg' vndcg' /\
    (cf_collapse c = false -> cf_sort c = lit "desc" -> gap <= gap' /\ vap <= vap' /\ gndcg <= gndcg' /\ vndcg <= vndcg')%R /\
    (cf_collapse c = false -> cf_sort c = lit "asc" -> gap' <= gap /\ vap' <= vap /\ gndcg' <= gndcg /\ vndcg' <= vndcg)%R /\
    (cf_collapse c = true -> cf_interp c = true -> cf_sort c = lit "desc" -> gap <= gap' /\ vap <= vap')%R.
Proof.
  intros srt rngs si sf w w' pn args c refs a b f e s s' Hs Cm NB I I' Lt Fr Fh (r & Ir & Hf) Ot.
  assert (Rule : forall y x, In y refs -> In x (a ++ Scored e s :: b) -> Spec.Scorers.accepted (ioh_scorer cmp_str f32_half y (sc_base x)) <-> shares_half y x).
  { intros y x Jr J. destruct (Fh x J) as (F1 & n & Ca & La).
    assert (Sh := Scorers.shares_intro (ev_loc y) (ev_loc (sc_base x)) _ (Fr y Jr) F1 eq_refl). unfold shares_half.
    destruct (Scorers.ioh_exact_rule cmp_str Order.total_order_str y (sc_base x) _ n (Fr y Jr) F1 Sh Ca La) as [[P K]|[P K]].
    { split; [intros _|intros _; exact K]. destruct P as (P1 & P2 & P3). split; [exact P1|]. eexists _, _. split; [exact Ca|]. split; [exact Sh|]. auto. }
    split; [intros Ac; rewrite Ac in K; discriminate (f_equal (fun e => f32_eq (me_fp e) f32_0) K)|].
    intros (Eq & n' & i' & Ca' & Sh' & P1 & P2). exfalso. apply P.
    rewrite (Geometry.cell_count_unique _ _ _ Ca Ca'), (Geometry.cell_count_unique _ _ _ Sh Sh'). auto. }
  assert (Ie := in_elt (Scored e s) a b).
  apply (c107_icdar17_accepted srt rngs si sf w w' pn args c refs a b f e s s' Hs Cm NB I I' Lt).
  - exists r. split; [exact Ir|]. now apply (Rule r (Scored e s)).
  - intros x h Ix Ih Ax Ah. apply (Ot x h Ix Ih); [now apply (Rule x (Scored e s))|]. apply Rule; [exact Ix| |exact Ah].
    apply in_app_or in Ih as [Ih|Ih]; apply in_or_app; simpl; auto.
Qed.
Print Assumptions c107_icdar17_right.

(** C107.  SimpleKwsEval without collapsing and with increasing scores: a higher
    score for a hypothesis that is a reference and is given once raises none of
    the four statistics. *)
Theorem c107_simple_ascending : forall srt rngs show_int show_f64 qf w w' pn args c refs a b f e s s', sort_contract srt ->
  command args c -> no_bootstrap c -> cf_sort c = lit "asc" -> cf_collapse c = false ->
  inputs str_event_text scored_str_event_text w c refs (a ++ Scored e s :: b) f ->
  inputs str_event_text scored_str_event_text w' c refs (a ++ Scored e s' :: b) f ->
  (Z.of_nat (strings refs (a ++ Scored e s :: b) f) <= 2147483648)%Z -> f32_lt s s' = true -> In e refs -> (forall h, In h (a ++ b) -> sc_base h <> e) ->
  exists gap vap gndcg vndcg gap' vap' gndcg' vndcg' : R,
    prints (A := RArith) (fst (simple_kws RArith RTrans srt rngs show_int show_f64 qf w pn args)) gap vap gndcg vndcg /\
    prints (A := RArith) (fst (simple_kws RArith RTrans srt rngs show_int show_f64 qf w' pn args)) gap' vap' gndcg' vndcg' /\
    (gap' <= gap /\ vap' <= vap /\ gndcg' <= gndcg /\ vndcg' <= vndcg)%R.
Proof.
  intros srt rngs si sf qf w w' pn args c refs a b f e s s' Hs. exact (Uncontested.simple_uncontested srt Hs rngs si sf qf w w' pn args c refs a b f e s s').
Qed.
Print Assumptions c107_simple_ascending.

(** Two references, a hit, a hypothesis that covers too much and another hit with
    the score given. *)
Definition right_box (s : string) : world :=
  tie_world (map lit ["q d 0 0 10 10"; "q d 20 0 10 10"]) [lit "q d 20 0 10 10 3"; lit "q d 26 0 10 10 2"; lit "q d 0 0 10 9 " ++ lit s].

Example c107_case :
  (forall args, In args [["--collapse_matches"; "false"; "r"; "h"]; ["r"; "h"]; ["--collapse_matches"; "false"; "--sort"; "asc"; "r"; "h"]] ->
   exists c refs a b e s s', command (map lit args) c /\ no_bootstrap c /\ cf_interp c = true /\
    inputs shaped_text scored_shaped_text (right_box "1") c refs (a ++ Scored e s :: b) NoQueries /\
    inputs shaped_text scored_shaped_text (right_box "4") c refs (a ++ Scored e s' :: b) NoQueries /\ f32_lt s s' = true /\
    (forall r, In r refs -> fits (ev_loc r)) /\
    (forall x, In x (a ++ Scored e s :: b) -> fits (ev_loc (sc_base x)) /\ exists n, covers (ev_loc (sc_base x)) n /\ (n <= 2 ^ 24)%Z) /\
    (exists r, In r refs /\ shares_half r (Scored e s)) /\
    (forall r h, In r refs -> In h (a ++ b) -> shares_half r (Scored e s) -> ~ shares_half r h)) /\
  map (fun args => map (fun s => map snd (firstn 2 (printed (fst (icdar17 QArith_ TQ (@isort) (fun _ => stream (fun _ => O)) (fun _ => []) (fun _ => [])
    (right_box s) (lit "prog") (map lit args)))))) ["1"; "4"])
    [["--collapse_matches"; "false"; "r"; "h"]; ["r"; "h"]; ["--collapse_matches"; "false"; "--sort"; "asc"; "r"; "h"]] =
  [[[5 # 6; 5 # 6]; [1; 1]]; [[5 # 6; 5 # 6]; [1; 1]]; [[5 # 6; 5 # 6]; [2 # 3; 2 # 3]]]%Q.
Proof.
  split.
  - intros args [<-|[<-|[<-|[]]]]; (eexists _, _, [_; _], [], _, _, _; split; [apply Compute.config_for_ok; vm_compute; reflexivity|];
      split; [repeat split|]; split; [reflexivity|];
      split; [apply Compute.icdar_inputs_ok; vm_compute; reflexivity|]; split; [apply Compute.icdar_inputs_ok; vm_compute; reflexivity|];
      split; [vm_compute; reflexivity|];
      split; [intros r [<-|[<-|[]]]; apply Scorers.fits_intro; easy|];
      split; [intros x [<-|[<-|[<-|[]]]]; (split; [apply Scorers.fits_intro; easy|]); eexists; (split; [apply Scorers.covers_intro; [apply Scorers.fits_intro; easy|reflexivity]|vm_compute; discriminate])|];
      split;
      [eexists; split; [left; reflexivity|]; split; [reflexivity|]; exists 90%Z, 90%Z;
        split; [apply Scorers.covers_intro; [apply Scorers.fits_intro; easy|reflexivity]|];
        split; [apply Scorers.shares_intro; [apply Scorers.fits_intro; easy|apply Scorers.fits_intro; easy|reflexivity]|split; [reflexivity|vm_compute; discriminate]]|];
      intros r h [<-|[<-|[]]] [<-|[<-|[]]] (_ & n & i & _ & Sh & Hn & Hi) (_ & n' & i' & _ & Sh' & Hn' & Hi');
      (assert (K : (i = 0 \/ i' = 0)%Z);
        [first [left; apply (Geometry.cell_count_unique _ _ _ Sh); apply Scorers.shares_intro; [apply Scorers.fits_intro; easy|apply Scorers.fits_intro; easy|reflexivity]
               |right; apply (Geometry.cell_count_unique _ _ _ Sh'); apply Scorers.shares_intro; [apply Scorers.fits_intro; easy|apply Scorers.fits_intro; easy|reflexivity]]
        |clear - Hn Hi Hn' Hi' K; lia])).
  - vm_compute. reflexivity.
Qed.

(** The same with strings and increasing scores. *)
Definition right_word (s : string) : world :=
  tie_world (map lit ["a x"; "a y"]) [lit "a y 3"; lit "a z 2"; lit "a x " ++ lit s].

Example c107_simple_case :
  (exists c refs a b e s s', command (map lit ["--collapse_matches"; "false"; "--sort"; "asc"; "r"; "h"]) c /\ no_bootstrap c /\
    cf_sort c = lit "asc" /\ cf_collapse c = false /\
    inputs str_event_text scored_str_event_text (right_word "1") c refs (a ++ Scored e s :: b) NoQueries /\
    inputs str_event_text scored_str_event_text (right_word "4") c refs (a ++ Scored e s' :: b) NoQueries /\
    (Z.of_nat (strings refs (a ++ Scored e s :: b) NoQueries) <= 2147483648)%Z /\ f32_lt s s' = true /\ In e refs /\
    (forall h, In h (a ++ b) -> sc_base h <> e)) /\
  map (fun s => map snd (firstn 2 (printed (fst (tie_run TQ (right_word s) ["--collapse_matches"; "false"; "--sort"; "asc"; "r"; "h"])))))
    ["1"; "4"] = [[5 # 6; 5 # 6]; [2 # 3; 2 # 3]]%Q.
Proof.
  split; [|vm_compute; reflexivity].
  eexists _, _, [_; _], [], _, _, _. split; [apply Compute.config_for_ok; vm_compute; reflexivity|].
  split; [repeat split|]. split; [reflexivity|]. split; [reflexivity|].
  split; [apply Compute.simple_inputs_ok; vm_compute; reflexivity|]. split; [apply Compute.simple_inputs_ok; vm_compute; reflexivity|].
  split; [vm_compute; discriminate|]. split; [vm_compute; reflexivity|]. split; [left; reflexivity|].
  intros h [<-|[<-|[]]]; discriminate.
Qed.
