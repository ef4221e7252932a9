(** Runs of the evaluation tools. *)
From Coq Require Import Ascii String List Bool ZArith Lia Permutation Sorted.
From Flocq Require Import BinarySingleNaN.
From Verif.Model Require Import Cpp Floats Events EventSets Matches Matcher Assessment Bootstrap Mapper Stream
  Reader Options Tool.
From Verif.Spec Require Import Order Matching Grouping Collapse Metrics Curves Reader Tool.
From Verif.Proofs Require Import Queries.
From Verif.Proofs Require Reader Grouping Order Matching Curves MeanCurve Rescore Metrics.
Import ListNotations.

(** ** Effects *)

Section Effects.
  Context {A : Arith} {RE HE : Type}.
  Notation eff := (effect A (RE := RE) (HE := HE)).

  Lemma outputs_app (l l' : list eff) : outputs (l ++ l') = outputs l ++ outputs l'.
  Proof. apply filter_app. Qed.

  Lemma names_app (l l' : list eff) : stat_names (l ++ l') = stat_names l ++ stat_names l'.
  Proof. apply flat_map_app. Qed.

  Lemma names_outputs (l : list eff) : stat_names (outputs l) = stat_names l.
  Proof. induction l as [|[d|n v ci|n d] l IH]; simpl; rewrite ?IH; reflexivity. Qed.

  Lemma outputs_idem (l : list eff) : outputs (outputs l) = outputs l.
  Proof. induction l as [|[d|n v ci|n d] l IH]; simpl; rewrite ?IH; reflexivity. Qed.

  Lemma pbind_inl {X Y} (l : list eff) (x : X) (f : X -> prog A Y) :
    pbind A (l, inl x) f = (l ++ fst (f x), snd (f x)).
  Proof. simpl. now destruct (f x). Qed.

  Lemma pbind_nil {X Y} (x : X) (f : X -> prog A (RE := RE) (HE := HE) Y) : pbind A ([], inl x) f = f x.
  Proof. simpl. now destruct (f x). Qed.

  Lemma pbind_assoc {X Y Z} (p : prog A (RE := RE) (HE := HE) X) (f : X -> prog A Y) (g : Y -> prog A Z) :
    pbind A (pbind A p f) g = pbind A p (fun x => pbind A (f x) g).
  Proof.
    destruct p as [l [x|e]]; [|reflexivity]. simpl. destruct (f x) as [l' [y|e]]; [|reflexivity].
    simpl. destruct (g y) as [l'' r]. now rewrite app_assoc.
  Qed.
End Effects.

Lemma Forall2_impl {X Y} (P P' : X -> Y -> Prop) l l' : (forall x y, P x y -> P' x y) ->
  Forall2 P l l' -> Forall2 P' l l'.
Proof. intros H. induction 1; constructor; auto. Qed.

(** ** Input files *)

Lemma events_file_fun {E} rd (text : bytes -> E -> Prop) b es es' : format rd text ->
  events_file text b es -> events_file text b es' -> es = es'.
Proof.
  intros F (ls & L & H) (ls' & L' & H'). rewrite (Reader.file_lines_fun b ls' ls L' L) in H'.
  now destruct (Reader.format_events_fun rd text 1 ls es None es' None F H H').
Qed.

Lemma events_file_broken {E} rd (text : bytes -> E -> Prop) b es : format rd text ->
  events_file text b es -> ~ broken_file text b.
Proof.
  intros F (ls & L & H) (ls' & es' & n & L' & H'). rewrite (Reader.file_lines_fun b ls' ls L' L) in H'.
  now destruct (Reader.format_events_fun rd text 1 ls es None es' (Some n) F H H').
Qed.

Lemma file_cases {E} rd (text : bytes -> E -> Prop) b : format rd text ->
  (exists es, events_file text b es) \/ broken_file text b.
Proof.
  intros F. destruct (Reader.file_lines_exists b) as [ls L].
  destruct (Reader.format_events rd text 1 ls F) as (es & [n|] & H).
  - right. now exists ls, es, n.
  - left. exists es, ls. now split.
Qed.

Lemma queries_fun w c f f' : names_queries w c f -> names_queries w c f' -> f = f'.
Proof.
  intros [A B|b ws A B C D|b ls fs A B C D G] [A' B'|b' ws' A' B' C' D'|b' ls' fs' A' B' C' D' G'];
    try congruence.
  - rewrite C in C'. injection C' as <-. now rewrite (words_fun b ws ws' D D').
  - rewrite B in B'. injection B' as <-. rewrite (Reader.file_lines_fun b ls' ls C' C) in D'.
    now rewrite (words_forall_fun ls fs fs' D D').
Qed.

Lemma queries_broken w c f : names_queries w c f -> ~ broken_queries w c.
Proof.
  intros [A B|b ws A B C D|b ls fs A B C D G] [(A' & H)|(A' & B' & C')]; try congruence.
  destruct H as [H|(b' & ls' & l & ws & B' & C' & I & W & N)]; [congruence|].
  rewrite B in B'. injection B' as <-. rewrite (Reader.file_lines_fun b ls' ls C' C) in I.
  assert (exists u, In u fs /\ words l u) as (u & If & Wf).
  { clear - D I. induction D as [|x y ls fs A D IH]; [destruct I|]. destruct I as [<-|I].
    - exists y. simpl. auto.
    - destruct (IH I) as (f & If & Wf). exists f. simpl. auto. }
  rewrite (words_fun l ws u W Wf) in N. specialize (G u If). lia.
Qed.

Lemma inputs_not_rejected {ER EH} rd rd' (text_r : bytes -> ER -> Prop) (text_h : bytes -> EH -> Prop) w c refs hyps f :
  format rd text_r -> format rd' text_h -> inputs text_r text_h w c refs hyps f -> ~ rejected text_r text_h w c.
Proof.
  intros F F' [N (b & B & R) (b' & B' & H) Q D] [K|[K|[(x & K & L)|[K|[(x & K & L)|[K|(K & L)]]]]]].
  - contradiction.
  - congruence.
  - rewrite B in K. injection K as <-. exact (events_file_broken rd text_r b refs F R L).
  - congruence.
  - rewrite B' in K. injection K as <-. exact (events_file_broken rd' text_h b' hyps F' H L).
  - exact (queries_broken w c f Q K).
  - rewrite (D K) in L. discriminate.
Qed.

Lemma inputs_fun {ER EH} rd rd' (text_r : bytes -> ER -> Prop) (text_h : bytes -> EH -> Prop) w c refs hyps f refs' hyps' f' :
  format rd text_r -> format rd' text_h -> inputs text_r text_h w c refs hyps f ->
  inputs text_r text_h w c refs' hyps' f' -> refs = refs' /\ hyps = hyps' /\ f = f'.
Proof.
  intros F F' [N (b & B & R) (b' & B' & H) Q D] [N' (x & X & R') (x' & X' & H') Q' D'].
  rewrite B in X. injection X as <-. rewrite B' in X'. injection X' as <-.
  split; [exact (events_file_fun rd text_r b refs refs' F R R')|].
  split; [exact (events_file_fun rd' text_h b' hyps hyps' F' H H')|].
  exact (queries_fun w c f f' Q Q').
Qed.

(** Reading from a stream or a file. *)
Lemma read_good {E E2 S} rd (text : bytes -> E -> Prop) (m : S -> E -> outcome (E2 * S)) b st es old : format rd text ->
  events_file text b es ->
  read_stream rd m (open_stream b) old st =
    obind (map_all m st es) (fun r => Ok (ReadRes true (fst r) None (snd r))).
Proof.
  intros F (ls & L & H). rewrite (Reader.format_read rd text m b ls old st es None F L H).
  unfold Reader.result. now destruct (map_all m st es) as [[l st']| |x].
Qed.

Lemma read_broken {E E2 S} rd (text : bytes -> E -> Prop) (m : S -> E -> outcome (E2 * S)) b st old : format rd text ->
  broken_file text b -> exists es n,
  read_stream rd m (open_stream b) old st =
    obind (map_all m st es) (fun r => Ok (ReadRes false (fst r) (Some n) (snd r))).
Proof.
  intros F (ls & es & n & L & H). exists es, n. rewrite (Reader.format_read rd text m b ls old st es (Some n) F L H).
  unfold Reader.result. now destruct (map_all m st es) as [[l st']| |x].
Qed.

(** ** Mapping *)

(** What the mappers may do: succeed or, if [lim], run out of ids. *)
Definition tame (lim : bool) {X} (o : outcome X) : Prop :=
  (exists x, o = Ok x) \/ (lim = true /\ o = Throw RangeError).

Lemma map_all_tame lim {X Y S} (m : S -> X -> outcome (Y * S)) es : (forall st x, tame lim (m st x)) ->
  forall st, tame lim (map_all m st es).
Proof.
  intros H. induction es as [|e es IH]; intros st; simpl; [left; eauto|].
  destruct (H st e) as [[[y st'] ->]|[L ->]]; [|right; auto].
  destruct (IH st') as [[[l st''] ->]|[L ->]]; [left; eauto|right; auto].
Qed.

(** The file of queries after mapping. *)
Definition map_file {Q St} (mq : St -> bytes -> outcome (Q * St)) (st : St) (f : query_file bytes)
  : outcome (query_file Q * St) :=
  match f with
  | NoQueries => Ok (NoQueries, st)
  | QuerySet ws => obind (map_all mq st ws) (fun r => Ok (QuerySet (fst r), snd r))
  | QueryGroups fs => obind (map_all (map_all mq) st fs) (fun r => Ok (QueryGroups (fst r), snd r))
  end.

(** ** Phases before the results *)

Section Phases.
  Context {A : Arith} {RE HE : Type}.
  Variable lim : bool.

  (** A phase prints no statistic and writes no file.  It goes on with a
      result that satisfies [P], or stops with status 1 and a message because
      of [bad], or runs out of ids. *)
  Definition phase {X} (p : prog A (RE := RE) (HE := HE) X) (P : X -> Prop) (bad : Prop) : Prop :=
    outputs (fst p) = [] /\
    match snd p with
    | inl x => P x
    | inr (FExit s) => s = 1%Z /\ fst p <> [] /\ bad
    | inr (FThrow e) => lim = true /\ e = RangeError
    | inr FUB => False
    end.

  Lemma phase_bind {X Y} (p : prog A X) (f : X -> prog A Y) P P' bad :
    phase p P bad -> (forall x, P x -> phase (f x) P' bad) -> phase (pbind A p f) P' bad.
  Proof.
    intros [O H] K. destruct p as [l [x|e]]; [|exact (conj O H)].
    destruct (K x H) as [O' H']. rewrite pbind_inl. unfold phase. cbn [fst snd].
    split; [rewrite outputs_app, O'; cbn [fst] in O; rewrite O; reflexivity|].
    destruct (snd (f x)) as [y|[s|e|]]; [exact H'| |exact H'|exact H'].
    destruct H' as (H1 & H2 & H3). repeat split; auto. destruct l; simpl; [exact H2|discriminate].
  Qed.

  Lemma phase_weaken {X} (p : prog A X) (P P' : X -> Prop) (bad bad' : Prop) : phase p P bad ->
    (forall x, P x -> P' x) -> (bad -> bad') -> phase p P' bad'.
  Proof.
    intros [O H] K L. split; [exact O|]. destruct (snd p) as [x|[s|e|]]; auto. now destruct H as (? & ? & ?); auto.
  Qed.

  Lemma phase_ret {X} (x : X) (P : X -> Prop) bad : P x -> phase (pret A x) P bad.
  Proof. intros H. split; [reflexivity|exact H]. Qed.

  Lemma phase_diag d (P : unit -> Prop) bad : P tt -> phase (emit A (EDiag d)) P bad.
  Proof. intros H. split; [reflexivity|exact H]. Qed.

  Lemma phase_fail {X} d (P : X -> Prop) (bad : Prop) : bad -> phase (pbind A (emit A (EDiag d)) (fun _ => stop A 1)) P bad.
  Proof. intros H. split; [reflexivity|]. repeat split; [discriminate|exact H]. Qed.

  Lemma phase_run {X} (o : outcome X) (P : X -> Prop) bad : tame lim o -> (forall x, o = Ok x -> P x) ->
    phase (run A o) P bad.
  Proof. intros [[x ->]|[L ->]] H; (split; [reflexivity|]); simpl; auto. Qed.
End Phases.

Section Loading.
  Context {A : Arith} {Q RE E ER EE St : Type}.
  Notation HE := (scored E).
  Variable lim : bool.
  Variables (cq : Cmp Q) (Hq : total_order cq).
  Variables (rd_r : istream -> ER * istream) (text_r : bytes -> ER -> Prop).
  Variables (rd_h : istream -> scored EE * istream) (text_h : bytes -> scored EE -> Prop).
  Hypothesis Fr : format rd_r text_r.
  Hypothesis Fh : format rd_h text_h.
  Variable mr : St -> ER -> outcome (RE * St).
  Variable mh : St -> scored EE -> outcome (HE * St).
  Variable mq : St -> bytes -> outcome (Q * St).
  Hypothesis Tr : forall st x, tame lim (mr st x).
  Hypothesis Th : forall st x, tame lim (mh st x).
  Hypothesis Tq : forall st x, tame lim (mq st x).
  Variable w : world.
  Variable c : config.

  Notation Phase := (@phase A RE HE lim).
  Notation bad := (rejected text_r text_h w c).

  Lemma load_refs_phase st :
    Phase (load_refs A (fun f st => read_file rd_r mr f [] st) w c st)
      (fun r => exists raw b, cf_ref c <> [] /\ w_file w (cf_ref c) = Some b /\ events_file text_r b raw /\
                map_all mr st raw = Ok r) bad.
  Proof.
    unfold load_refs. destruct (cf_ref c) as [|x name] eqn:N.
    { apply phase_fail. left. exact N. }
    rewrite <- N. destruct (w_file w (cf_ref c)) as [b|] eqn:B; cbn [read_file].
    - destruct (file_cases rd_r text_r b Fr) as [[raw H]|H].
      + rewrite (read_good rd_r text_r mr b st raw [] Fr H).
        apply (phase_bind lim _ _ (fun r => exists p, map_all mr st raw = Ok p /\ r = ReadRes true (fst p) None (snd p))).
        * apply phase_run.
          -- destruct (map_all_tame lim mr raw Tr st) as [[p ->]|[L ->]]; [left|right]; simpl; eauto.
          -- intros r K. destruct (map_all mr st raw) as [p| |]; try discriminate. exists p. simpl in K.
             split; [reflexivity|congruence].
        * intros r (p & Hp & ->). cbn [rr_bad rr_ok rr_events rr_state report_bad_line].
          apply (phase_bind lim _ _ (fun _ => True)); [now apply phase_ret|]. intros _ _.
          apply (phase_bind lim _ _ (fun _ => True)); [now apply phase_diag|]. intros _ _.
          apply phase_ret. exists raw, b. rewrite Hp. repeat split; [congruence|exact H|now destruct p].
      + destruct (read_broken rd_r text_r mr b st [] Fr H) as (es & n & E1). rewrite E1.
        apply (phase_bind lim _ _ (fun r => rr_ok r = false)).
        * apply phase_run.
          -- destruct (map_all_tame lim mr es Tr st) as [[p ->]|[L ->]]; [left|right]; simpl; eauto.
          -- intros r K. destruct (map_all mr st es) as [p| |]; try discriminate. injection K as <-. reflexivity.
        * intros r Hr. apply (phase_bind lim _ _ (fun _ => True)).
          -- unfold report_bad_line. destruct (rr_bad r); [now apply phase_diag|now apply phase_ret].
          -- intros _ _. rewrite Hr. apply phase_fail. right. right. left. exists b. now split.
    - cbn [run]. rewrite pbind_nil. cbn [rr_bad rr_ok report_bad_line]. unfold pret.
      rewrite pbind_nil. apply phase_fail. right. left. exact B.
  Qed.

  Lemma load_hyps_phase argc2 st :
    Phase (load_hyps A (fun f st => read_file rd_h mh f [] st) (fun b st => read_stream rd_h mh (open_stream b) [] st)
             w argc2 c st)
      (fun r => exists raw b, hyp_source w c = Some b /\ events_file text_h b raw /\ map_all mh st raw = Ok r) bad.
  Proof.
    unfold load_hyps.
    replace (match cf_hyp c with [] => read_stream rd_h mh (open_stream (w_stdin w)) [] st
             | x :: l => read_file rd_h mh (w_file w (x :: l)) [] st end)
      with (read_file rd_h mh (hyp_source w c) [] st) by (unfold hyp_source; now destruct (cf_hyp c)).
    destruct (hyp_source w c) as [b|] eqn:B; cbn [read_file].
    - destruct (file_cases rd_h text_h b Fh) as [[raw H]|H].
      + rewrite (read_good rd_h text_h mh b st raw [] Fh H).
        apply (phase_bind lim _ _ (fun r => exists p, map_all mh st raw = Ok p /\ r = ReadRes true (fst p) None (snd p))).
        * apply phase_run.
          -- destruct (map_all_tame lim mh raw Th st) as [[p ->]|[L ->]]; [left|right]; simpl; eauto.
          -- intros r K. destruct (map_all mh st raw) as [p| |]; try discriminate. exists p. simpl in K.
             split; [reflexivity|congruence].
        * intros r (p & Hp & ->). cbn [rr_bad rr_ok rr_events rr_state report_bad_line].
          apply (phase_bind lim _ _ (fun _ => True)); [now apply phase_ret|]. intros _ _.
          apply (phase_bind lim _ _ (fun _ => True)); [now apply phase_diag|]. intros _ _.
          apply phase_ret. exists raw, b. rewrite Hp. repeat split; [exact H|now destruct p].
      + destruct (read_broken rd_h text_h mh b st [] Fh H) as (es & n & E1). rewrite E1.
        apply (phase_bind lim _ _ (fun r => rr_ok r = false)).
        * apply phase_run.
          -- destruct (map_all_tame lim mh es Th st) as [[p ->]|[L ->]]; [left|right]; simpl; eauto.
          -- intros r K. destruct (map_all mh st es) as [p| |]; try discriminate. injection K as <-. reflexivity.
        * intros r Hr. apply (phase_bind lim _ _ (fun _ => True)).
          -- unfold report_bad_line. destruct (rr_bad r); [now apply phase_diag|now apply phase_ret].
          -- intros _ _. rewrite Hr. destruct argc2; apply phase_fail; right; right; right; right; left; exists b; now split.
    - cbn [run]. rewrite pbind_nil. cbn [rr_bad rr_ok report_bad_line]. unfold pret.
      rewrite pbind_nil. destruct argc2; apply phase_fail; right; right; right; left; exact B.
  Qed.

  Lemma map_file_tame st f : tame lim (map_file mq st f).
  Proof.
    destruct f as [|ws|fs]; simpl.
    - left. eauto.
    - destruct (map_all_tame lim mq ws Tq st) as [[p ->]|[L ->]]; [left|right]; simpl; eauto.
    - destruct (map_all_tame lim (map_all mq) fs (fun st x => map_all_tame lim mq x Tq st) st) as [[p ->]|[L ->]];
        [left|right]; simpl; eauto.
  Qed.

  Lemma map_all_length {X Y S} (m : S -> X -> outcome (Y * S)) es : forall st p,
    map_all m st es = Ok p -> List.length (fst p) = List.length es.
  Proof.
    induction es as [|e es IH]; intros st p H; simpl in H; [injection H as <-; reflexivity|].
    destruct (m st e) as [[y st']| |]; try discriminate. destruct (map_all m st' es) as [[l st'']| |] eqn:K; try discriminate.
    injection H as <-. simpl. f_equal. exact (IH st' _ K).
  Qed.

  Lemma group_lines_phase name ls fs : Forall2 words ls fs ->
    (forall l ws, In l ls -> words l ws -> (List.length ws < 2)%nat -> bad) ->
    forall m st,
    Phase (group_lines A cq mq name ls m st)
      (fun r => (forall f, In f fs -> (2 <= List.length f)%nat) /\ exists gs,
         map_all (map_all mq) st fs = Ok (gs, snd r) /\ (forall g, In g gs -> (2 <= List.length g)%nat) /\
         fst r = fold_left (fun m l => add_group cq l m) gs m) bad.
  Proof.
    intros H. induction H as [|l ws ls fs W H IH]; intros Hb m st; cbn [group_lines].
    - apply phase_ret. split; [easy|]. exists []. repeat split; easy.
    - rewrite (words_of_ok l ws W). cbn [run]. rewrite pbind_nil. rewrite map_words_all.
      apply (phase_bind lim _ _ (fun p => map_all mq st ws = Ok p)).
      + apply phase_run; [apply map_all_tame, Tq|auto].
      + intros [fields st1] Hf. pose proof (map_all_length mq ws st _ Hf) as L. cbn [fst] in L.
        destruct (Nat.ltb_spec (List.length fields) 2) as [K|K].
        * apply phase_fail. apply (Hb l ws); [now left|exact W|lia].
        * eapply phase_weaken; [apply IH|..|auto].
          -- intros l' ws' I. apply Hb. now right.
          -- intros [m' st2] (N & gs & G1 & G2 & G3). cbn [fst snd] in *. split.
             ++ intros f [<-|I]; [lia|auto].
             ++ exists (fields :: gs). cbn [map_all]. rewrite Hf, G1. repeat split; [|exact G3].
                intros g [<-|I]; [exact K|auto].
  Qed.

  Lemma load_queries_phase st :
    Phase (load_queries A cq mq w c st)
      (fun r => exists f f', names_queries w c f /\ map_file mq st f = Ok (f', snd r) /\ holds (fst r) f') bad.
  Proof.
    unfold load_queries. destruct (cf_querygroups c) as [|x name] eqn:N.
    - destruct (cf_queryset c) as [|y name] eqn:M.
      + apply phase_ret. exists NoQueries, NoQueries. repeat split; [now constructor|constructor|easy|easy].
      + unfold load_query_set. assert (K' : cf_queryset c <> []) by congruence. rewrite <- M.
        destruct (w_file w (cf_queryset c)) as [b|] eqn:B.
        * destruct (words_exists b) as [ws W]. rewrite (words_of_ok b ws W). cbn [run]. rewrite pbind_nil, map_words_all.
          apply (phase_bind lim _ _ (fun p => map_all mq st ws = Ok p)).
          { apply phase_run; [apply map_all_tame, Tq|auto]. }
          intros [qs st1] Hf. apply (phase_bind lim _ _ (fun _ => True)); [now apply phase_diag|]. intros _ _.
          apply phase_ret. exists (QuerySet ws), (QuerySet qs). split; [now apply (nq_set w c b)|].
          simpl. rewrite Hf. split; [reflexivity|]. now apply holds_set.
        * apply phase_fail. right. right. right. right. right. left. right. now repeat split.
    - unfold load_query_groups. assert (K : cf_querygroups c <> []) by congruence. rewrite <- N.
      destruct (w_file w (cf_querygroups c)) as [b|] eqn:B.
      + destruct (Reader.file_lines_exists b) as [ls L]. destruct (words_forall ls) as [fs W].
        rewrite (lines_of_ok b ls L). cbn [run]. rewrite pbind_nil.
        eapply phase_bind; [apply (group_lines_phase (cf_querygroups c) ls fs W)|].
        * intros l ws I Wl Hl. right. right. right. right. right. left. left. split; [exact K|]. right.
          exists b, ls, l, ws. now repeat split.
        * intros [m st1] (H2 & gs & G1 & G2 & G3). cbn [fst snd] in *.
          apply (phase_bind lim _ _ (fun _ => True)); [now apply phase_diag|]. intros _ _.
          apply phase_ret. exists (QueryGroups fs), (QueryGroups gs). split; [now apply (nq_groups w c b ls)|].
          simpl. rewrite G1. split; [reflexivity|]. rewrite G3. now apply holds_groups.
      + apply phase_fail. right. right. right. right. right. left. left. split; [exact K|]. now left.
  Qed.
End Loading.

(** ** The whole run *)

Section Run.
  Context {A : Arith} (T : Trans A) {Q RE E ER EE St : Type}.
  Notation HE := (scored E).
  Variables (srt : sort_fn) (Hs : sort_contract srt).
  Variable rngs : Z -> rng.
  Variables (show_int : Z -> bytes) (show_f64 : f64 -> bytes).
  Variable lim : bool.
  Variables (cq : Cmp Q) (Hq : total_order cq).
  Variables (cr : Cmp RE) (Hr : total_order cr).
  Variables (ce : Cmp E) (He : total_order ce).
  Variables (rq : RE -> Q) (hq : E -> Q).
  Variables (S : EvSet RE HE) (R : list RE -> HE -> list RE -> Prop) (HS : finds S R).
  Variable scorer : RE -> HE -> match_error.
  Variables (rd_r : istream -> ER * istream) (text_r : bytes -> ER -> Prop).
  Variables (rd_h : istream -> scored EE * istream) (text_h : bytes -> scored EE -> Prop).
  Hypothesis Fr : format rd_r text_r.
  Hypothesis Fh : format rd_h text_h.
  Hypothesis Finite : forall b e, text_h b e -> is_finite (sc_score e) = true.
  Variable mr : St -> ER -> outcome (RE * St).
  Variable mh : St -> scored EE -> outcome (HE * St).
  Variable mq : St -> bytes -> outcome (Q * St).
  Hypothesis Tr : forall st x, tame lim (mr st x).
  Hypothesis Th : forall st x, tame lim (mh st x).
  Hypothesis Tq : forall st x, tame lim (mq st x).
  Hypothesis Keeps : forall st x y st', mh st x = Ok (y, st') -> sc_score y = sc_score x.
  Variable desc : bytes.
  Variable w : world.
  Variable c : config.
  Variable st0 : St.

  Notation M := (match_t RE HE).
  Notation hqs := (fun h : HE => hq (sc_base h)).
  Notation bad := (rejected text_r text_h w c).
  Notation Phase := (@phase A RE HE lim).
  Notation Prog := (prog A (RE := RE) (HE := HE)).

  (** From the matches on. *)
  Definition finish (m : list (Q * Q)) (n : nat) (ms log : list M) : Prog unit :=
    pbind A (dump_matches A w c ms log) (fun _ =>
    pbind A (check_hyps A n ms) (fun _ =>
    pbind A (report A T srt rngs cq rq hqs sc_score w c m ms) (fun _ => stop A 0))).

  (** After the command line. *)
  Definition body (argc2 : bool) : Prog unit :=
    pbind A (load_refs A (fun f st => read_file rd_r mr f [] st) w c st0) (fun '(refs, st1) =>
    pbind A (load_hyps A (fun f st => read_file rd_h mh f [] st)
               (fun b st => read_stream rd_h mh (open_stream b) [] st) w argc2 c st1) (fun '(hyps, st2) =>
    pbind A (load_queries A cq mq w c st2) (fun '(m, _) =>
    pbind A (filter_inputs A cq rq hqs c m refs hyps) (fun '(refs', hyps') =>
    pbind A (sort_hyps A srt (c_lt (cmp_scored ce)) (cf_sort c) hyps') (fun sorted =>
    pbind A (emit A (EDiag DMatching)) (fun _ =>
    pbind A (run A (match_inputs (c_lt cr) S scorer refs' sorted)) (fun '(matches, mt) =>
    pbind A (dump_matches A w c matches (mt_repeated mt)) (fun _ =>
    pbind A (check_hyps A (List.length sorted) matches) (fun _ =>
    pbind A (report A T srt rngs cq rq hqs sc_score w c m matches) (fun _ => stop A 0)))))))))).

  Definition Final (G : Prog unit -> Prop) (p : Prog unit) : Prop :=
    (snd p = inr (FExit 1) /\ outputs (fst p) = [] /\ fst p <> [] /\ bad) \/
    (lim = true /\ snd p = inr (FThrow RangeError) /\ outputs (fst p) = []) \/
    (exists D rest, p = (D ++ fst rest, snd rest) /\ outputs D = [] /\ D <> [] /\ G rest).

  Lemma final_bind {X} G (p : Prog X) (P : X -> Prop) f :
    Phase p P bad -> (forall x, P x -> Final G (f x)) -> Final G (pbind A p f).
  Proof.
    intros [O H] K. destruct p as [l [x|e]].
    - rewrite pbind_inl. unfold Final. cbn [fst snd] in *.
      destruct (K x H) as [(E1 & E2 & E3 & E4)|[(E1 & E2 & E3)|(D & rest & E1 & E2 & E3 & E4)]].
      + left. split; [exact E1|]. split; [rewrite outputs_app, O, E2; reflexivity|]. split; [|exact E4].
        intros C. apply app_eq_nil in C. tauto.
      + right. left. split; [exact E1|]. split; [exact E2|]. rewrite outputs_app, O, E3. reflexivity.
      + right. right. exists (l ++ D), rest. rewrite E1. cbn [fst snd]. rewrite app_assoc.
        split; [reflexivity|]. split; [rewrite outputs_app, O, E2; reflexivity|]. split; [|exact E4].
        intros C. apply app_eq_nil in C. tauto.
    - cbn [fst snd] in *. destruct e as [s|e|]; cbn [pbind].
      + destruct H as (-> & H1 & H2). left. repeat split; auto.
      + destruct H as [H ->]. right. left. repeat split; auto.
      + destruct H.
  Qed.

  Lemma filter_inputs_phase m f refs hyps : holds m f ->
    Phase (filter_inputs A cq rq hqs c m refs hyps)
      (fun r => selects (fun x => kept f (rq x)) refs (fst r) /\
                selects (fun h => kept f (hqs h)) hyps (snd r)) bad.
  Proof.
    intros H. unfold filter_inputs. pose proof (holds_nil m f H) as Hn.
    destruct m as [|kv m'] eqn:Em.
    - apply phase_ret. cbn [fst snd]. assert (K : forall q g, ~ assigns f q g) by now apply Hn.
      split; apply selects_all; intros; right; exact K.
    - rewrite <- Em in *. assert (NE : m <> []) by (rewrite Em; discriminate).
      apply (phase_bind lim _ _ (fun _ => True)).
      { destruct (Nat.eqb _ _); [now apply phase_ret|now apply phase_diag]. }
      intros _ _. apply (phase_bind lim _ _ (fun _ => True)).
      { destruct (Nat.eqb _ _); [now apply phase_ret|now apply phase_diag]. }
      intros _ _. apply (phase_bind lim _ _ (fun _ => True)).
      { destruct (cf_querygroups c); [now apply phase_ret|now apply phase_diag]. }
      intros _ _. apply phase_ret. cbn [fst snd].
      split; apply filter_events_ok; assumption.
  Qed.

  Lemma str_eq_iff a b : str_eq a b = true <-> a = b.
  Proof. exact (to_eq _ Order.total_order_str a b). Qed.

  Lemma not_below_lt a b : numeric a -> numeric b -> scored_lt ce a b = false -> not_below (c_lt ce) a b.
  Proof.
    intros Na Nb H. split.
    - destruct (f32_lt (sc_score a) (sc_score b)) eqn:L; [|reflexivity].
      rewrite <- H. symmetry. apply Order.scored_lt_spec; auto.
    - intros K. destruct (c_lt ce (sc_base a) (sc_base b)) eqn:L; [|reflexivity].
      rewrite <- H. symmetry. apply Order.scored_lt_spec; auto.
  Qed.

  Lemma sorted_imp {X} (P P' : X -> X -> Prop) l : (forall x y, In x l -> In y l -> P x y -> P' x y) ->
    StronglySorted P l -> StronglySorted P' l.
  Proof.
    intros H K. induction K as [|x l K IH F]; constructor.
    - apply IH. intros; apply H; simpl; auto.
    - rewrite Forall_forall in *. intros y I. apply H; simpl; auto.
  Qed.

  Lemma sort_hyps_phase crit hyps : (forall h, In h hyps -> numeric h) ->
    Phase (sort_hyps A srt (c_lt (cmp_scored ce)) crit hyps)
      (fun rank => ranking (c_lt ce) crit hyps rank) bad.
  Proof.
    intros N. unfold sort_hyps. change (c_lt (cmp_scored ce)) with (scored_lt ce).
    assert (W : swo_on (scored_lt ce) hyps) by (apply (Order.swo_scored ce He); exact N).
    destruct (str_eq crit (lit "desc")) eqn:E1.
    - apply str_eq_iff in E1. assert (W' := Order.swo_flip _ _ W).
      rewrite (Order.std_sort_ok srt _ _ W'). destruct (Hs HE _ hyps W') as [P So].
      split; [reflexivity|]. cbn [run snd]. left. split; [exact E1|]. split; [exact P|].
      revert So. apply sorted_imp. intros a b Ia Ib K.
      apply not_below_lt; [..|exact K]; apply N; eapply Permutation_in; try (apply Permutation_sym, P); assumption.
    - destruct (str_eq crit (lit "asc")) eqn:E2.
      + apply str_eq_iff in E2. rewrite (Order.std_sort_ok srt _ _ W). destruct (Hs HE _ hyps W) as [P So].
        split; [reflexivity|]. cbn [run snd]. right. left. split; [exact E2|]. split; [exact P|].
        revert So. apply sorted_imp. intros a b Ia Ib K.
        apply not_below_lt; [..|exact K]; apply N; eapply Permutation_in; try (apply Permutation_sym, P); assumption.
      + apply (phase_bind lim _ _ (fun _ => True)).
        { destruct (str_eq crit (lit "none")); [now apply phase_ret|now apply phase_diag]. }
        intros _ _. apply phase_ret. right. right. repeat split; intros ->; discriminate.
  Qed.

  Lemma map_all_scores es : (forall e, In e es -> is_finite (sc_score e) = true) -> forall st p,
    map_all mh st es = Ok p -> forall h, In h (fst p) -> is_finite (sc_score h) = true.
  Proof.
    induction es as [|e es IH]; intros F st p H h I; simpl in H; [injection H as <-; destruct I|].
    destruct (mh st e) as [[y st']| |] eqn:Y; try discriminate.
    destruct (map_all mh st' es) as [[l st'']| |] eqn:K; try discriminate.
    injection H as <-. destruct I as [<-|I].
    - rewrite (Keeps _ _ _ _ Y). apply F. now left.
    - apply (IH (fun e I => F e (or_intror I)) st' _ K h I).
  Qed.

  Lemma events_file_finite b raw : events_file text_h b raw -> forall e, In e raw -> is_finite (sc_score e) = true.
  Proof.
    intros (ls & _ & H) e I. pose proof (Reader.events_of_text text_h 1 ls raw None H) as K.
    rewrite Forall_forall in K. destruct (K e I) as [x X]. exact (Finite x e X).
  Qed.

  Lemma has_query_all ms : (forall m, In m ms -> m_ref m <> None \/ m_hyp m <> None) ->
    forall m, In m ms -> exists q, has_query rq hqs m q.
  Proof.
    intros H m I. unfold has_query. destruct (H m I) as [K|K]; destruct (m_ref m); eauto; try congruence;
      destruct (m_hyp m); eauto; congruence.
  Qed.

  (** What is known when the matches are there. *)
  Definition arrived (p : Prog unit) : Prop :=
    exists raw_r raw_h f refs hyps f' st1 st2 st3 m n ms log groups,
      cf_ref c <> [] /\
      (exists b, w_file w (cf_ref c) = Some b /\ events_file text_r b raw_r) /\
      (exists b, hyp_source w c = Some b /\ events_file text_h b raw_h) /\
      names_queries w c f /\
      map_all mr st0 raw_r = Ok (refs, st1) /\ map_all mh st1 raw_h = Ok (hyps, st2) /\
      map_file mq st2 f = Ok (f', st3) /\ holds m f' /\
      (forall h, In h hyps -> is_finite (sc_score h) = true) /\
      evaluation (c_lt ce) (c_lt cr) rq hq R scorer (cf_sort c) f' refs hyps ms log groups /\
      group_matches cq rq hqs ms m = Ok groups /\
      (total (fun x => me_nh (m_err x)) ms <= n)%nat /\
      p = finish m n ms log.

  Lemma body_final argc2 : Final arrived (body argc2).
  Proof.
    unfold body. eapply final_bind; [apply (load_refs_phase lim rd_r text_r text_h Fr mr Tr w c st0)|].
    intros [refs st1] (raw_r & br & N & Br & Er & Mr).
    eapply final_bind; [apply (load_hyps_phase lim text_r rd_h text_h Fh mh Th w c argc2 st1)|].
    intros [hyps st2] (raw_h & bh & Bh & Eh & Mh).
    eapply final_bind; [apply (load_queries_phase lim cq Hq text_r text_h mq Tq w c st2)|].
    intros [m st3] (f & f' & Nf & Mf & Hm). cbn [fst snd] in *.
    eapply final_bind; [apply (filter_inputs_phase m f' refs hyps Hm)|].
    intros [refs' hyps'] [Sr Sh]. cbn [fst snd] in *.
    assert (Fi : forall h, In h hyps -> is_finite (sc_score h) = true).
    { intros h I. exact (map_all_scores raw_h (events_file_finite bh raw_h Eh) st1 _ Mh h I). }
    assert (Fi' : forall h, In h hyps' -> is_finite (sc_score h) = true).
    { intros h I. apply Fi. exact (proj1 (proj1 (Grouping.selects_in _ _ _ Sh h) I)). }
    eapply final_bind; [apply (sort_hyps_phase (cf_sort c) hyps')|].
    { intros h I. apply Rescore.finite_not_nan. now apply Fi'. }
    intros rank Rk.
    destruct (Matching.result_shape cr Hr S R HS scorer (matcher_new S) refs' rank)
      as (taken & found & missed & mt & Run & Mt & Sm & Im).
    unfold Final. right. right.
    assert (Hq' : forall x, In x (found ++ map make_fn missed) -> exists q, has_query rq hqs x q).
    { apply has_query_all. intros x I.
      destruct (Matching.result_pairs cr Hr S R HS scorer _ _ _ _ _ Run x I)
        as [(r & h & l & -> & _)|[(h & l & -> & _)|(r & -> & _)]]; simpl; (left; discriminate) || (right; discriminate). }
    destruct (Grouping.forall_grouped cq Hq rq hqs m (proj1 Hm) _ Hq') as [ks Gk].
    destruct (Grouping.groups_spec cq Hq rq hqs m (proj1 Hm) _ ks Gk) as (keys & groups & Eg & Fs & Fg).
    assert (GE : forall x k, grouped rq hqs m x k <-> match_group rq hq f' x k).
    { intros x k. unfold grouped, match_group. split; intros (q & X1 & X2); exists q; split; auto;
        now apply (group_is_holds m f' q k Hm). }
    exists [EDiag DMatching], (finish m (List.length rank) (found ++ map make_fn missed) (mt_repeated mt)).
    split; [|split; [reflexivity|split; [discriminate|]]].
    - unfold match_inputs. rewrite Run. unfold emit. rewrite pbind_inl. cbn [run]. rewrite pbind_nil. reflexivity.
    - exists raw_r, raw_h, f, refs, hyps, f', st1, st2, st3, m, (List.length rank), (found ++ map make_fn missed), (mt_repeated mt), groups.
      split; [exact N|]. split; [eauto|]. split; [eauto|]. split; [exact Nf|]. split; [exact Mr|].
      split; [exact Mh|]. split; [exact Mf|]. split; [exact Hm|]. split; [exact Fi|]. split; [|split; [exact Eg|split; [|reflexivity]]].
      + exists refs', hyps', rank, taken, found, missed. repeat (split; [eassumption || reflexivity|]).
        exists ks, keys. split; [|split; [exact Fs|]].
        * revert Gk. apply Forall2_impl. intros x k. apply GE.
        * revert Fg. apply Forall2_impl. intros k g [NE Sel]. split; [exact NE|].
          revert Sel. clear - GE. intros H. induction H; constructor; auto; rewrite <- ?GE; auto.
      + exact (Matching.count_hyps cr Hr S R HS scorer _ _ _ _ _ Run).
  Qed.
End Run.
