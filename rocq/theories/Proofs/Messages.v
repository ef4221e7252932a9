(** The messages of runs. *)
From Coq Require Import Ascii String List Bool ZArith Lia Permutation Sorted.
From Flocq Require Import BinarySingleNaN.
From Verif.Model Require Import Cpp Floats Box Events EventSets Matches Scorers Matcher Assessment Bootstrap Mapper Stream
  Reader Options Tool Output Text.
From Verif.Spec Require Import Order Matching Grouping Collapse Metrics Curves Mapper Reader Options Tool Text Messages.
From Verif.Proofs Require Import Queries Tool Finish Programs.
From Verif.Proofs Require Reader Grouping Order Matching Objects Rescore Evaluation Results Ids Instances Dump.
Import ListNotations.

(** The text of the messages of a run. *)
Definition errs {A : Arith} {RE HE} (l : list (effect A (RE := RE) (HE := HE))) : bytes :=
  flat_map (fun e => match e with EDiag d => message d | _ => [] end) l.

Lemma errs_app {A : Arith} {RE HE} (l l' : list (effect A (RE := RE) (HE := HE))) : errs (l ++ l') = errs l ++ errs l'.
Proof. apply flat_map_app. Qed.

Lemma text_lines_app a b : text_lines (a ++ b) = text_lines a ++ text_lines b.
Proof. apply flat_map_app. Qed.

Lemma write_nat_form n : integer_form (write_nat n) (Z.of_nat n).
Proof. apply Dump.write_uint_form. lia. Qed.

(** The messages are single lines. *)
Definition line_of (d : diag) (l : bytes) : Prop := message d = l ++ [ascii_of_N 10].

Ltac line := unfold line_of, message, unreadable; change quoted with in_quotes;
  rewrite <- ?app_assoc; reflexivity.

Lemma line_count before n after d : message d = lit before ++ write_nat n ++ after ++ [nl] ->
  exists l, line_of d l /\ count_line before n after l.
Proof.
  intros H. exists (lit before ++ write_nat n ++ after). split.
  - unfold line_of. rewrite H, <- !app_assoc. reflexivity.
  - exists (write_nat n). split; [apply write_nat_form|reflexivity].
Qed.

Section Told.
  Context {A : Arith} {RE HE : Type}.
  Variable lim : bool.
  Notation Prog := (prog A (RE := RE) (HE := HE)).

  (** A part of a run: it goes on, stops with status 1, or runs out of ids. *)
  Definition told {X} (p : Prog X) (P : list bytes -> X -> Prop) (N : list bytes -> Prop) : Prop :=
    match snd p with
    | inl x => exists ls, errs (fst p) = text_lines ls /\ P ls x
    | inr (FExit s) => s = 1%Z /\ exists ls, errs (fst p) = text_lines ls /\ N ls
    | inr (FThrow e) => lim = true /\ e = RangeError
    | inr FUB => False
    end.

  Lemma told_bind {X Y} (p : Prog X) (f : X -> Prog Y) P P' N (N' : list bytes -> Prop) : told p P N -> (forall ls, N ls -> N' ls) ->
    (forall ls x, P ls x -> told (f x) (fun ls' y => P' (ls ++ ls') y) (fun ls' => N' (ls ++ ls'))) ->
    told (pbind A p f) P' N'.
  Proof.
    intros H HN K. destruct p as [l [x|e]].
    - destruct H as (ls & E1 & H). specialize (K ls x H). cbn [fst snd] in E1.
      rewrite pbind_inl. unfold told in *. cbn [fst snd]. rewrite errs_app, E1.
      destruct (snd (f x)) as [y|[s|e|]]; [| |exact K|exact K].
      + destruct K as (ls' & E2 & K). exists (ls ++ ls'). rewrite text_lines_app, E2. split; [reflexivity|exact K].
      + destruct K as (-> & ls' & E2 & K). split; [reflexivity|]. exists (ls ++ ls'). rewrite text_lines_app, E2.
        split; [reflexivity|exact K].
    - unfold told in *. cbn [pbind fst snd] in *. destruct e as [s|e|]; [|exact H|exact H].
      destruct H as (-> & ls & E1 & H). split; [reflexivity|]. eauto.
  Qed.

  Lemma told_weaken {X} (p : Prog X) P (P' : list bytes -> X -> Prop) N (N' : list bytes -> Prop) : told p P N -> (forall ls x, P ls x -> P' ls x) ->
    (forall ls, N ls -> N' ls) -> told p P' N'.
  Proof.
    unfold told. intros H K L. destruct (snd p) as [x|[s|e|]]; [| |exact H|exact H].
    - destruct H as (ls & E1 & H). eauto.
    - destruct H as (-> & ls & E1 & H). eauto.
  Qed.

  Lemma told_ret {X} (x : X) (P : _ -> _ -> Prop) N : P [] x -> told (pret A x) P N.
  Proof. intros H. exists []. split; [reflexivity|exact H]. Qed.

  Lemma told_diag d l (P : _ -> _ -> Prop) N : line_of d l -> P [l] tt -> told (emit A (EDiag d)) P N.
  Proof. intros E1 H. exists [l]. split; [|exact H]. cbn. rewrite E1, !app_nil_r. reflexivity. Qed.

  Lemma told_fail {X} d l (P : _ -> X -> Prop) (N : _ -> Prop) : line_of d l -> N [l] ->
    told (pbind A (emit A (EDiag d)) (fun _ => stop A 1)) P N.
  Proof. intros E1 H. split; [reflexivity|]. exists [l]. split; [|exact H]. cbn. rewrite E1, !app_nil_r. reflexivity. Qed.

  Lemma told_run {X} (o : outcome X) (P : _ -> _ -> Prop) N : tame lim o -> (forall x, o = Ok x -> P [] x) ->
    told (run A o) P N.
  Proof.
    intros [[x ->]|[L ->]] H; unfold told; cbn [run fst snd].
    - exists []. split; [reflexivity|auto].
    - auto.
  Qed.
End Told.

Section Loading.
  Context {A : Arith} {Q RE E ER EE St : Type}.
  Notation HE := (scored E).
  Variable lim : bool.
  Variables (cq : Cmp Q) (Hq : total_order cq).
  Variables (rd_r : istream -> ER * istream) (text_r : bytes -> ER -> Prop).
  Variables (rd_h : istream -> scored EE * istream) (text_h : bytes -> scored EE -> Prop).
  Hypothesis Fr : format rd_r text_r.
  Hypothesis Fh : format rd_h text_h.
  Variable mr : St -> ER -> outcome (RE * St).
  Variable mh : St -> scored EE -> outcome (HE * St).
  Variable mq : St -> bytes -> outcome (Q * St).
  Hypothesis Tr : forall st x, tame lim (mr st x).
  Hypothesis Th : forall st x, tame lim (mh st x).
  Hypothesis Tq : forall st x, tame lim (mq st x).
  Variable w : world.
  Variable c : config.

  Notation Told := (@told A RE HE lim).

  (** Reading events, in general. *)
  Lemma events_told_ok {X Y} rd (text : bytes -> X -> Prop) (m : St -> X -> outcome (Y * St)) src st d fl (cnt : nat -> diag) before :
    format rd text -> (forall st x, tame lim (m st x)) -> line_of d fl ->
    (forall n, message (cnt n) = lit before ++ write_nat n ++ [nl]) ->
    Told (pbind A (run A (read_file rd m src [] st)) (fun r =>
          pbind A (report_bad_line A (rr_bad r)) (fun _ =>
          if rr_ok r then pbind A (emit A (EDiag (cnt (List.length (rr_events r))))) (fun _ => pret A (rr_events r, rr_state r))
          else pbind A (emit A (EDiag d)) (fun _ => stop A 1))))
      (fun ls r => exists raw, events_told text src fl before ls (Some raw) /\ map_all m st raw = Ok r)
      (fun ls => events_told text src fl before ls None).
  Proof.
    intros F Tm Ld Lc. destruct src as [b|]; cbn [read_file].
    - destruct (file_cases rd text b F) as [[raw H]|H].
      + rewrite (read_good rd text m b st raw [] F H).
        apply (told_bind lim _ _ (fun ls r => ls = [] /\ exists p, map_all m st raw = Ok p /\ r = ReadRes true (fst p) None (snd p)) _ (fun _ => False)).
        * apply told_run.
          -- destruct (map_all_tame lim m raw Tm st) as [[p ->]|[L ->]]; [left|right]; simpl; eauto.
          -- intros r K. destruct (map_all m st raw) as [p| |]; try discriminate. split; [reflexivity|]. exists p. simpl in K.
             split; [reflexivity|congruence].
        * tauto.
        * intros ls r (-> & p & Hp & ->). cbn [rr_bad rr_ok rr_events rr_state report_bad_line]. unfold pret at 1. rewrite pbind_nil.
          rewrite (map_all_length m raw st p Hp).
          destruct (line_count before (List.length raw) [] (cnt (List.length raw))) as (l & Ll & Cl); [rewrite Lc; reflexivity|].
          apply (told_bind lim _ _ (fun ls _ => ls = [l]) _ (fun _ => False)); [now apply (told_diag lim _ l)|tauto|].
          intros ls _ ->. apply told_ret. exists raw. split; [|rewrite Hp; now destruct p].
          apply (et_fine _ _ _ _ b); [reflexivity|exact H|exact Cl].
      + assert (H' := H). destruct H' as (ls0 & es0 & n0 & L0 & Ev0).
        rewrite (Reader.format_read rd text m b ls0 [] st es0 (Some n0) F L0 Ev0).
        apply (told_bind lim _ _ (fun ls r => ls = [] /\ rr_ok r = false /\ rr_bad r = Some n0) _ (fun _ => False)).
        * unfold Reader.result. apply told_run.
          -- destruct (map_all_tame lim m es0 Tm st) as [[[u v] ->]|[L ->]]; [left|right]; simpl; eauto.
          -- intros r K. destruct (map_all m st es0) as [[u v]| |]; try discriminate. injection K as <-. auto.
        * tauto.
        * intros ls r (-> & Hr & Hb). rewrite Hr, Hb. cbn [report_bad_line].
          destruct (line_count "ERROR: Failed to read event from line " n0 [] (DBadLine n0)) as (l & Ll & Cl); [reflexivity|].
          apply (told_bind lim _ _ (fun ls _ => ls = [l]) _ (fun _ => False)); [now apply (told_diag lim _ l)|tauto|].
          intros ls _ ->. apply (told_fail lim _ fl); [exact Ld|]. cbn [app].
          apply (et_broken _ _ _ _ b ls0 es0 n0); [reflexivity|exact L0|exact Ev0|exact Cl].
    - cbn [run]. rewrite pbind_nil. cbn [rr_bad rr_ok report_bad_line]. unfold pret.
      rewrite pbind_nil. apply (told_fail lim _ fl); [exact Ld|]. now apply et_missing.
  Qed.

  Lemma load_refs_told st :
    Told (load_refs A (fun f st => read_file rd_r mr f [] st) w c st)
      (fun ls r => exists raw, refs_told text_r w c ls (Some raw) /\ map_all mr st raw = Ok r)
      (fun ls => refs_told text_r w c ls None).
  Proof.
    unfold load_refs. destruct (cf_ref c) as [|x name] eqn:N.
    { eapply told_fail; [line|]. now apply rt_empty. }
    rewrite <- N. assert (NE : cf_ref c <> []) by congruence.
    eapply told_weaken.
    - apply (events_told_ok rd_r text_r mr (w_file w (cf_ref c)) st (DReadFailed (cf_ref c)) (unreadable (cf_ref c))
        DNumRefs "INFO: Number of reference events read = " Fr Tr); [line|reflexivity].
    - intros ls r (raw & K1 & K2). exists raw. split; [now apply rt_file|exact K2].
    - intros ls K. now apply rt_file.
  Qed.

  Lemma load_hyps_told alone st :
    Told (load_hyps A (fun f st => read_file rd_h mh f [] st) (fun b st => read_stream rd_h mh (open_stream b) [] st)
             w alone c st)
      (fun ls r => exists raw, hyps_told text_h w c alone ls (Some raw) /\ map_all mh st raw = Ok r)
      (fun ls => hyps_told text_h w c alone ls None).
  Proof.
    unfold load_hyps.
    replace (match cf_hyp c with [] => read_stream rd_h mh (open_stream (w_stdin w)) [] st
             | x :: l => read_file rd_h mh (w_file w (x :: l)) [] st end)
      with (read_file rd_h mh (hyp_source w c) [] st) by (unfold hyp_source; now destruct (cf_hyp c)).
    unfold hyps_told. destruct alone.
    - apply (events_told_ok rd_h text_h mh _ st DStdinFailed _ DNumHyps _ Fh Th); [line|reflexivity].
    - apply (events_told_ok rd_h text_h mh _ st (DReadFailed (cf_hyp c)) _ DNumHyps _ Fh Th); [line|reflexivity].
  Qed.

  (** The number of keys of the map. *)
  Lemma number_keys (m : list (Q * Q)) f : holds m f -> number (fun q => exists g, assigns f q g) (List.length m).
  Proof.
    intros [ND H]. exists (map fst m). split; [exact ND|]. split; [|apply map_length].
    intros q. rewrite in_map_iff. split.
    - intros ([q' g] & <- & I). exists g. now apply H.
    - intros (g & I). exists (q, g). split; [reflexivity|]. now apply H.
  Qed.

  Lemma fold_emplace (l : list (Q * Q)) : forall s : list (Q * unit), NoDup (map fst s) ->
    let s' := fold_left (fun g kv => map_emplace (c_eq cq) (snd kv) tt g) l s in
    NoDup (map fst s') /\ forall g, In g (map fst s') <-> In g (map fst s) \/ In g (map snd l).
  Proof.
    induction l as [|[q g0] l IH]; intros s ND; simpl; [split; [exact ND|tauto]|].
    assert (K : NoDup (map fst (map_emplace (c_eq cq) g0 tt s)) /\
                forall g, In g (map fst (map_emplace (c_eq cq) g0 tt s)) <-> g = g0 \/ In g (map fst s)).
    { unfold map_emplace. destruct (map_find (c_eq cq) g0 s) as [[]|] eqn:F.
      - split; [exact ND|]. intros g. split; [auto|]. intros [->|I]; [|exact I].
        clear - F Hq. induction s as [|[k []] s IH]; [discriminate|]. simpl in *.
        destruct (c_eq cq k g0) eqn:E1; [left; now apply (to_eq _ Hq)|right; auto].
      - rewrite map_app. simpl. assert (NI : ~ In g0 (map fst s)).
        { clear - F Hq. induction s as [|[k []] s IH]; [intros []|]. simpl in *.
          destruct (c_eq cq k g0) eqn:E1; [discriminate|]. intros [->|I]; [|exact (IH F I)].
          rewrite (proj2 (to_eq _ Hq g0 g0) eq_refl) in E1. discriminate. }
        split.
        + apply Permutation_NoDup with (g0 :: map fst s); [|now constructor].
          apply Permutation_cons_append.
        + intros g. rewrite in_app_iff. simpl. intuition. }
    destruct K as [K1 K2]. destruct (IH _ K1) as [I1 I2]. split; [exact I1|].
    intros g. rewrite I2, K2. intuition.
  Qed.

  Lemma number_groups (m : list (Q * Q)) f : holds m f -> number (fun g => exists q, assigns f q g) (num_groups cq m).
  Proof.
    intros [ND H]. unfold num_groups. destruct (fold_emplace m [] (NoDup_nil _)) as [K1 K2].
    exists (map fst (fold_left (fun g kv => map_emplace (c_eq cq) (snd kv) tt g) m [])).
    split; [exact K1|]. split; [|apply map_length]. intros g. rewrite K2. simpl. rewrite in_map_iff. split.
    - intros [[]|([q g'] & <- & I)]. exists q. now apply H.
    - intros (q & I). right. exists (q, g). split; [reflexivity|]. now apply H.
  Qed.

  (** The queries.  The names are kept apart by the mapper. *)
  Definition queries_read (ls : list bytes) (m : list (Q * Q)) (f : query_file bytes) : Prop :=
    match f with
    | NoQueries => ls = []
    | QuerySet _ => exists l, ls = [l] /\ count_line "INFO: " (List.length m) (lit " queries were read from " ++ in_quotes (cf_queryset c)) l
    | QueryGroups _ => exists l, ls = [l] /\ count_line "INFO: " (List.length m) (lit " queries were read from " ++ in_quotes (cf_querygroups c)) l
    end.

  Lemma group_lines_told name ls fs : Forall2 words ls fs -> forall m st,
    Told (group_lines A cq mq name ls m st)
      (fun t r => t = [])
      (fun t => t = [lit "ERROR: Query groups file " ++ in_quotes name ++ lit " has a wrong format!"] /\
        exists l ws, In l ls /\ words l ws /\ (List.length ws < 2)%nat).
  Proof.
    intros H. induction H as [|l ws ls fs W H IH]; intros m st; cbn [group_lines].
    - now apply told_ret.
    - rewrite (words_of_ok l ws W). cbn [run]. rewrite pbind_nil. rewrite map_words_all.
      apply (told_bind lim _ _ (fun t p => t = [] /\ map_all mq st ws = Ok p) _ (fun _ => False)).
      + apply told_run; [apply map_all_tame, Tq|auto].
      + tauto.
      + intros t [fields st1] [-> Hf]. pose proof (map_all_length mq ws st _ Hf) as L. cbn [fst] in L. cbn [app].
        destruct (Nat.ltb_spec (List.length fields) 2) as [K|K].
        * apply (told_fail lim _ (lit "ERROR: Query groups file " ++ in_quotes name ++ lit " has a wrong format!")); [line|].
          split; [reflexivity|]. exists l, ws. split; [now left|]. split; [exact W|]. lia.
        * eapply told_weaken; [apply IH|..]; [auto|]. intros t [-> (l' & ws' & I & W' & L')].
          split; [reflexivity|]. exists l', ws'. split; [now right|]. auto.
  Qed.

  Lemma load_queries_told st :
    Told (load_queries A cq mq w c st)
      (fun ls r => exists f f', names_queries w c f /\ map_file mq st f = Ok (f', snd r) /\ holds (fst r) f' /\
         queries_read ls (fst r) f)
      (fun ls => queries_told w c ls None).
  Proof.
    (* what is read is known from the phase *)
    pose proof (load_queries_phase lim (A := A) (RE := RE) (E := E) cq Hq text_r text_h mq Tq w c st) as Ph.
    assert (G : Told (load_queries A cq mq w c st)
      (fun ls r => match cf_querygroups c with
                   | [] => match cf_queryset c with
                           | [] => ls = []
                           | _ => exists l, ls = [l] /\ count_line "INFO: " (List.length (fst r)) (lit " queries were read from " ++ in_quotes (cf_queryset c)) l
                           end
                   | _ => exists l, ls = [l] /\ count_line "INFO: " (List.length (fst r)) (lit " queries were read from " ++ in_quotes (cf_querygroups c)) l
                   end)
      (fun ls => queries_told w c ls None)).
    { clear Ph. unfold load_queries. destruct (cf_querygroups c) as [|x name] eqn:N.
      - destruct (cf_queryset c) as [|y name] eqn:M.
        + now apply told_ret.
        + unfold load_query_set. assert (K' : cf_queryset c <> []) by congruence. rewrite <- M.
          destruct (w_file w (cf_queryset c)) as [b|] eqn:B.
          * destruct (words_exists b) as [ws W]. rewrite (words_of_ok b ws W). cbn [run]. rewrite pbind_nil, map_words_all.
            apply (told_bind lim _ _ (fun t p => t = []) _ (fun _ => False)).
            { apply told_run; [apply map_all_tame, Tq|auto]. }
            { tauto. }
            intros t [qs st1] ->. cbn [app].
            set (m := fold_left (fun m q => map_set (c_eq cq) q q m) qs []).
            destruct (line_count "INFO: " (List.length m) (lit " queries were read from " ++ in_quotes (cf_queryset c))
                        (DNumQueries (List.length m) (cf_queryset c))) as (l & Ll & Cl).
            { unfold message. change quoted with in_quotes. rewrite <- !app_assoc. reflexivity. }
            apply (told_bind lim _ _ (fun ls _ => ls = [l]) _ (fun _ => False)); [now apply (told_diag lim _ l)|tauto|].
            intros ls _ ->. apply told_ret. exists l. split; [reflexivity|exact Cl].
          * apply (told_fail lim _ (lit "ERROR: Query set file " ++ in_quotes (cf_queryset c) ++ lit " could not be read!")); [line|].
            apply qt_no_set; auto.
      - unfold load_query_groups. assert (K : cf_querygroups c <> []) by congruence. rewrite <- N.
        destruct (w_file w (cf_querygroups c)) as [b|] eqn:B.
        + destruct (Reader.file_lines_exists b) as [ls L]. destruct (words_forall ls) as [fs W].
          rewrite (lines_of_ok b ls L). cbn [run]. rewrite pbind_nil.
          eapply told_bind; [apply (group_lines_told (cf_querygroups c) ls fs W)|..].
          * intros t [-> (l & ws & I & Wl & Hl)]. exact (qt_format w c b ls l ws K B L I Wl Hl).
          * intros t [m st1] ->. cbn [app].
            destruct (line_count "INFO: " (List.length m) (lit " queries were read from " ++ in_quotes (cf_querygroups c))
                        (DNumQueries (List.length m) (cf_querygroups c))) as (l & Ll & Cl).
            { unfold message. change quoted with in_quotes. rewrite <- !app_assoc. reflexivity. }
            apply (told_bind lim _ _ (fun ls _ => ls = [l]) _ (fun _ => False)); [now apply (told_diag lim _ l)|tauto|].
            intros ls' _ ->. apply told_ret. exists l. split; [reflexivity|exact Cl].
        + apply (told_fail lim _ (lit "ERROR: Query groups file " ++ in_quotes (cf_querygroups c) ++ lit " could not be read!")); [line|].
          apply qt_no_groups; auto. }
    unfold told in *. destruct Ph as [_ Ph]. destruct (snd (load_queries A cq mq w c st)) as [r|[s|e|]]; [|exact G|exact G|exact G].
    destruct G as (ls & E1 & G). exists ls. split; [exact E1|]. destruct Ph as (f & f' & Nf & Mf & Hf).
    exists f, f'. split; [exact Nf|]. split; [exact Mf|]. split; [exact Hf|].
    destruct Nf as [N1 N2|b ws N1 N2 B W|b ls' fs N1 B L W F]; unfold queries_read.
    - now rewrite N1, N2 in G.
    - rewrite N1 in G. destruct (cf_queryset c); [contradiction|exact G].
    - destruct (cf_querygroups c); [contradiction|exact G].
  Qed.
End Loading.

(** ** The whole run *)

Lemma line_if_no (P : Prop) F : ~ P -> line_if P F [].
Proof. right. auto. Qed.

Lemma line_if_yes (P : Prop) (F : bytes -> Prop) l : P -> F l -> line_if P F [l].
Proof. left. eauto. Qed.

Section Run.
  Context {A : Arith} (T : Trans A) {Q RE E ER EE St : Type}.
  Notation HE := (scored E).
  Variables (srt : sort_fn) (Hs : sort_contract srt).
  Variable rngs : Z -> rng.
  Variables (show_int : Z -> bytes) (show_f64 : f64 -> bytes).
  Variable lim : bool.
  Variables (cq : Cmp Q) (Hq : total_order cq).
  Variables (cr : Cmp RE) (Hr : total_order cr).
  Variables (ce : Cmp E) (He : total_order ce).
  Variables (rq : RE -> Q) (hq : E -> Q).
  Variables (S : EvSet RE HE) (R : list RE -> HE -> list RE -> Prop) (HS : finds S R).
  Variable scorer : RE -> HE -> match_error.
  Hypothesis One : forall r h, me_nh (scorer r h) = 1%nat.
  Variables (rd_r : istream -> ER * istream) (text_r : bytes -> ER -> Prop).
  Variables (rd_h : istream -> scored EE * istream) (text_h : bytes -> scored EE -> Prop).
  Hypothesis Fr : format rd_r text_r.
  Hypothesis Fh : format rd_h text_h.
  Hypothesis Finite : forall b e, text_h b e -> is_finite (sc_score e) = true.
  Variable mr : St -> ER -> outcome (RE * St).
  Variable mh : St -> scored EE -> outcome (HE * St).
  Variable mq : St -> bytes -> outcome (Q * St).
  Hypothesis Tr : forall st x, tame lim (mr st x).
  Hypothesis Th : forall st x, tame lim (mh st x).
  Hypothesis Tq : forall st x, tame lim (mq st x).
  Hypothesis Keeps : forall st x y st', mh st x = Ok (y, st') -> sc_score y = sc_score x.
  Variable desc : bytes.
  Variable w : world.
  Variable st0 : St.
  Variable c : config.

  Notation M := (match_t RE HE).
  Notation hqs := (fun h : HE => hq (sc_base h)).
  Notation Prog := (prog A (RE := RE) (HE := HE)).
  Notation Told := (@told A RE HE lim).

  Lemma told_cases {X Y} (p : Prog X) P N (f : X -> Prog Y) l r : Told p P N -> pbind A p f = (l, r) ->
    (lim = true /\ r = inr (FThrow RangeError)) \/
    (r = inr (FExit 1) /\ exists ls, errs l = text_lines ls /\ N ls) \/
    (exists l0 ls x l1, f x = (l1, r) /\ l = l0 ++ l1 /\ errs l0 = text_lines ls /\ P ls x).
  Proof.
    unfold told. destruct p as [l0 [x|e]]; cbn [fst snd pbind]; intros H K.
    - right. right. destruct H as (ls & E1 & H). destruct (f x) as [l1 r1] eqn:F. injection K as <- <-.
      exists l0, ls, x, l1. auto.
    - injection K as <- <-. destruct e as [s|e|]; [|left; destruct H as [? ->]; auto|destruct H].
      right. left. destruct H as [-> H]. auto.
  Qed.

  Lemma filter_inputs_told m f refs hyps : holds m f ->
    Told (filter_inputs A cq rq hqs c m refs hyps)
      (fun ls r => selects (fun x => kept f (rq x)) refs (fst r) /\ selects (fun h => kept f (hqs h)) hyps (snd r) /\
         exists k1 k2 g, ls = k1 ++ k2 ++ g /\
         line_if (List.length (fst r) <> List.length refs)
           (count_line "INFO: Number of kept reference events = " (List.length (fst r)) []) k1 /\
         line_if (List.length (snd r) <> List.length hyps)
           (count_line "INFO: Number of kept hypothesis events = " (List.length (snd r)) []) k2 /\
         line_if (cf_querygroups c <> [] /\ m <> [])
           (count_line "INFO: " (num_groups cq m) (lit " groups were read from " ++ in_quotes (cf_querygroups c))) g)
      (fun _ => False).
  Proof.
    intros H. unfold filter_inputs. pose proof (holds_nil m f H) as Hn.
    destruct m as [|kv m'] eqn:Em.
    - apply told_ret. cbn [fst snd]. assert (K : forall q g, ~ assigns f q g) by now apply Hn.
      split; [apply selects_all; intros; right; exact K|]. split; [apply selects_all; intros; right; exact K|].
      exists [], [], []. split; [reflexivity|]. split; [apply line_if_no; auto|]. split; [apply line_if_no; auto|].
      apply line_if_no. tauto.
    - rewrite <- Em in *. assert (NE : m <> []) by (rewrite Em; discriminate). clear Em kv m'.
      set (refs' := filter_events cq rq m refs). set (hyps' := filter_events cq hqs m hyps).
      apply (told_bind lim _ _ (fun ls _ => line_if (List.length refs' <> List.length refs)
           (count_line "INFO: Number of kept reference events = " (List.length refs') []) ls) _ (fun _ => False)).
      { destruct (Nat.eqb_spec (List.length refs) (List.length refs')) as [Eq|Ne].
        - apply told_ret. apply line_if_no. auto.
        - destruct (line_count "INFO: Number of kept reference events = " (List.length refs') [] (DKeptRefs (List.length refs')))
            as (l & Ll & Cl); [reflexivity|]. apply (told_diag lim _ l); [exact Ll|]. apply line_if_yes; auto. }
      { tauto. }
      intros k1 _ K1.
      apply (told_bind lim _ _ (fun ls _ => line_if (List.length hyps' <> List.length hyps)
           (count_line "INFO: Number of kept hypothesis events = " (List.length hyps') []) ls) _ (fun _ => False)).
      { destruct (Nat.eqb_spec (List.length hyps) (List.length hyps')) as [Eq|Ne].
        - apply told_ret. apply line_if_no. auto.
        - destruct (line_count "INFO: Number of kept hypothesis events = " (List.length hyps') [] (DKeptHyps (List.length hyps')))
            as (l & Ll & Cl); [reflexivity|]. apply (told_diag lim _ l); [exact Ll|]. apply line_if_yes; auto. }
      { tauto. }
      intros k2 _ K2.
      apply (told_bind lim _ _ (fun ls _ => line_if (cf_querygroups c <> [] /\ m <> [])
           (count_line "INFO: " (num_groups cq m) (lit " groups were read from " ++ in_quotes (cf_querygroups c))) ls) _ (fun _ => False)).
      { destruct (cf_querygroups c) as [|x nm] eqn:N.
        - apply told_ret. apply line_if_no. tauto.
        - destruct (line_count "INFO: " (num_groups cq m) (lit " groups were read from " ++ in_quotes (x :: nm))
            (DNumGroups (num_groups cq m) (x :: nm))) as (l & Ll & Cl).
          { unfold message. change quoted with in_quotes. rewrite <- !app_assoc. reflexivity. }
          apply (told_diag lim _ l); [exact Ll|]. apply line_if_yes; [split; [discriminate|exact NE]|exact Cl]. }
      { tauto. }
      intros g _ K3. apply told_ret. cbn [fst snd]. split; [apply filter_events_ok; assumption|].
      split; [apply filter_events_ok; assumption|].
      exists k1, k2, g. split; [now rewrite app_nil_r, !app_assoc|]. auto.
  Qed.

  Lemma sort_hyps_told hyps : (forall h, In h hyps -> numeric h) ->
    Told (sort_hyps A srt (c_lt (cmp_scored ce)) (cf_sort c) hyps)
      (fun ls rank => ranking (c_lt ce) (cf_sort c) hyps rank /\
         line_if (cf_sort c <> lit "desc" /\ cf_sort c <> lit "asc" /\ cf_sort c <> lit "none")
        (eq (lit "WARN: Ignoring sorting criterion " ++ in_quotes (cf_sort c) ++ lit ". Hypotheses won't be sorted.")) ls)
      (fun _ => False).
  Proof.
    intros N. pose proof (sort_hyps_phase srt Hs lim (A := A) (RE := RE) ce He text_r text_h w c
      (cf_sort c) hyps N) as Ph.
    assert (G : Told (sort_hyps A srt (c_lt (cmp_scored ce)) (cf_sort c) hyps)
      (fun ls rank => line_if (cf_sort c <> lit "desc" /\ cf_sort c <> lit "asc" /\ cf_sort c <> lit "none")
        (eq (lit "WARN: Ignoring sorting criterion " ++ in_quotes (cf_sort c) ++ lit ". Hypotheses won't be sorted.")) ls)
      (fun _ => False)).
    { clear Ph. unfold sort_hyps. change (c_lt (cmp_scored ce)) with (scored_lt ce).
      assert (W : swo_on (scored_lt ce) hyps) by (apply (Order.swo_scored ce He); exact N).
      destruct (str_eq (cf_sort c) (lit "desc")) eqn:E1.
      - apply str_eq_iff in E1. assert (W' := Order.swo_flip _ _ W). rewrite (Order.std_sort_ok srt _ _ W').
        exists []. split; [reflexivity|]. apply line_if_no. tauto.
      - assert (N1 : cf_sort c <> lit "desc") by (intros K; apply str_eq_iff in K; congruence).
        destruct (str_eq (cf_sort c) (lit "asc")) eqn:E2.
        + apply str_eq_iff in E2. rewrite (Order.std_sort_ok srt _ _ W).
          exists []. split; [reflexivity|]. apply line_if_no. tauto.
        + assert (N2 : cf_sort c <> lit "asc") by (intros K; apply str_eq_iff in K; congruence).
          destruct (str_eq (cf_sort c) (lit "none")) eqn:E3.
          * apply str_eq_iff in E3. unfold pret at 1. rewrite pbind_nil. apply told_ret. apply line_if_no. tauto.
          * assert (N3 : cf_sort c <> lit "none") by (intros K; apply str_eq_iff in K; congruence).
            set (l := lit "WARN: Ignoring sorting criterion " ++ in_quotes (cf_sort c) ++ lit ". Hypotheses won't be sorted.").
            apply (told_bind lim _ _ (fun ls _ => ls = [l]) _ (fun _ => False)); [|tauto|].
            { apply (told_diag lim _ l); [unfold l; line|reflexivity]. }
            intros ls _ ->. apply told_ret. apply line_if_yes; auto. }
    unfold told in *. destruct Ph as [_ Ph].
    destruct (snd (sort_hyps A srt (c_lt (cmp_scored ce)) (cf_sort c) hyps)) as [r|[s|e|]]; [|exact G|exact G|exact G].
    destruct G as (ls & E1 & G). exists ls. auto.
  Qed.

  (** No messages while results are computed and written. *)
  Definition silent {X} (p : Prog X) : Prop := errs (fst p) = [].

  Lemma silent_bind {X Y} (p : Prog X) (f : X -> Prog Y) : silent p -> (forall x, silent (f x)) -> silent (pbind A p f).
  Proof.
    intros H K. destruct p as [l [x|e]]; [|exact H]. unfold silent in *. rewrite pbind_inl. cbn [fst] in *.
    now rewrite errs_app, H, K.
  Qed.

  Lemma silent_run {X} (o : outcome X) : silent (run A o).
  Proof. destruct o; reflexivity. Qed.

  Lemma silent_statistic name ci (gs : list (list M)) plain on : silent (compute_statistic A srt rngs name c ci gs plain on).
  Proof.
    unfold compute_statistic. destruct ci; (apply silent_bind; [apply silent_run|]).
    - intros [[v lo] up]. reflexivity.
    - intros v. reflexivity.
  Qed.

  Lemma silent_report m (ms : list M) : silent (report A T srt rngs cq rq hqs sc_score w c m ms).
  Proof.
    unfold report. apply silent_bind; [apply silent_run|]. intros gs.
    do 4 (apply silent_bind; [apply silent_statistic|]; intros _).
    apply silent_bind; [|intros _].
    - destruct (cf_grp c) eqn:N; [reflexivity|]. unfold write_global_curve.
      destruct (precision_recall_matches A sc_score ms (cf_collapse c) (cf_interp c)).
      apply silent_bind; [apply silent_run|]. intros ys. apply silent_bind; [apply silent_run|]. reflexivity.
    - destruct (cf_mrp c) eqn:N; [reflexivity|]. unfold write_mean_curve.
      apply silent_bind; [apply silent_run|]. intros ys. apply silent_bind; [apply silent_run|]. intros zs.
      apply silent_bind; [apply silent_run|]. reflexivity.
  Qed.

  Lemma finish_told m n (ms log : list M) l r : (total (fun x => me_nh (m_err x)) ms <= n)%nat ->
    finish T srt rngs cq rq hq w c m n ms log = (l, r) ->
    (exists ls, errs l = text_lines ls /\ end_told w c n (total (fun x => me_nh (m_err x)) ms) ls) /\
    (w_writable w (cf_dump c) = true -> forall e, In e (dumped c ms log) -> In e l).
  Proof.
    intros L F. unfold finish in F. destruct (dump_cases (A := A) w c ms log) as [(N & W & E1)|(W & E1)]; rewrite E1 in F.
    - injection F as <- <-. split; [|congruence]. set (x := lit "ERROR: Dump matches file " ++ in_quotes (cf_dump c) ++ lit " could not be opened for write!").
      exists [x]. split.
      + unfold errs. cbn [flat_map]. rewrite app_nil_r. unfold text_lines. cbn [flat_map]. rewrite app_nil_r.
        change (line_of (DDumpFailed (cf_dump c)) x). unfold x. line.
      + exists [x], []. split; [reflexivity|]. split; [apply line_if_yes; auto|]. apply line_if_no. intros [K _]. discriminate.
    - rewrite pbind_inl in F. injection F as <- <-. split; [|intros _ e I; apply in_or_app; now left]. rewrite errs_app.
      replace (errs (dumped c ms log)) with (@nil ascii) by (unfold dumped; destruct (cf_dump c); reflexivity). cbn [app].
      assert (ND : ~ (cf_dump c <> [] /\ w_writable w (cf_dump c) = false)) by (intros [K K']; rewrite (W K) in K'; discriminate).
      assert (Sil : silent (pbind A (report A T srt rngs cq rq hqs sc_score w c m ms) (fun _ => stop A (X := unit) 0))).
      { apply silent_bind; [apply silent_report|]. reflexivity. }
      unfold check_hyps. rewrite fold_total. simpl (0 + _)%nat.
      destruct (Nat.ltb_spec (total (fun x => me_nh (m_err x)) ms) n) as [K|K].
      + destruct (line_count "INFO: Effective number of hypotheses is " (total (fun x => me_nh (m_err x)) ms)
          (lit ". The rest of hypotheses were considered repetitions of some other match, and ignored.")
          (DFewerHyps (total (fun x => me_nh (m_err x)) ms))) as (x & Lx & Cx); [unfold message; rewrite <- ?app_assoc; reflexivity|].
        exists [x]. split.
        * unfold emit. rewrite pbind_inl. cbn [fst]. rewrite errs_app.
          rewrite Sil, app_nil_r. unfold errs. cbn [flat_map]. rewrite Lx. reflexivity.
        * exists [], [x]. split; [reflexivity|]. split; [now apply line_if_no|]. apply line_if_yes; [split; [reflexivity|lia]|exact Cx].
      + destruct (Nat.ltb_spec n (total (fun x => me_nh (m_err x)) ms)) as [K'|K']; [lia|].
        exists []. split.
        * unfold pret. rewrite pbind_nil. exact Sil.
        * exists [], []. split; [reflexivity|]. split; [now apply line_if_no|]. apply line_if_no. lia.
  Qed.

  Lemma total_hyps refs rank taken (found log : list M) missed : matching R scorer refs rank taken found log ->
    total (fun x => me_nh (m_err x)) (found ++ map make_fn missed) = List.length (hyps_of (found ++ map make_fn missed)).
  Proof.
    intros Mt. rewrite Matching.total_app, Matching.fn_nh, Matching.hyps_app, Matching.hyps_fn, app_nil_r, Nat.add_0_r.
    assert (K : forall m, In m found -> me_nh (m_err m) = 1%nat /\ exists h, m_hyp m = Some h).
    { intros m I. destruct (Matching.matching_members R scorer _ _ _ _ _ Mt m I) as (h & _ & [(r & l & -> & _)|(l & -> & _)]).
      - split; [apply One|]. simpl. eauto.
      - split; [reflexivity|]. simpl. eauto. }
    clear Mt. unfold total. induction found as [|m found IH]; [reflexivity|].
    destruct (K m (or_introl eq_refl)) as [K1 [h K2]]. simpl. rewrite K1, K2. simpl. f_equal. apply IH.
    intros x I. apply K. now right.
  Qed.

  (** Everything up to the results, in terms of what was read. *)
  Definition told_all (alone : bool) (l : list (effect A (RE := RE) (HE := HE))) (r : unit + fin) : Prop :=
    exists raw_r raw_h f refs hyps f' st1 st2 st3 m refs' hyps' ms log groups l1 l2 l3 l4 l5,
      refs_told text_r w c l1 (Some raw_r) /\ hyps_told text_h w c alone l2 (Some raw_h) /\
      names_queries w c f /\ queries_read c l3 m f /\
      map_all mr st0 raw_r = Ok (refs, st1) /\ map_all mh st1 raw_h = Ok (hyps, st2) /\
      map_file mq st2 f = Ok (f', st3) /\ holds m f' /\
      selects (fun x => kept f' (rq x)) refs refs' /\ selects (fun h => kept f' (hqs h)) hyps hyps' /\
      evaluation (c_lt ce) (c_lt cr) rq hq R scorer (cf_sort c) f' refs hyps ms log groups /\
      (exists k1 k2 g s, l4 = k1 ++ k2 ++ g ++ s ++ [lit "INFO: Computing matches..."] /\
        line_if (List.length refs' <> List.length raw_r)
           (count_line "INFO: Number of kept reference events = " (List.length refs') []) k1 /\
        line_if (List.length hyps' <> List.length raw_h)
           (count_line "INFO: Number of kept hypothesis events = " (List.length hyps') []) k2 /\
        line_if (cf_querygroups c <> [] /\ m <> [])
           (count_line "INFO: " (num_groups cq m) (lit " groups were read from " ++ in_quotes (cf_querygroups c))) g /\
        line_if (cf_sort c <> lit "desc" /\ cf_sort c <> lit "asc" /\ cf_sort c <> lit "none")
          (eq (lit "WARN: Ignoring sorting criterion " ++ in_quotes (cf_sort c) ++ lit ". Hypotheses won't be sorted.")) s) /\
      end_told w c (List.length hyps') (List.length (hyps_of ms)) l5 /\
      errs l = text_lines (l1 ++ l2 ++ l3 ++ l4 ++ l5) /\
      (w_writable w (cf_dump c) = true -> forall e, In e (dumped c ms log) -> In e l) /\
      (r = inr (FExit 1) <-> cf_dump c <> [] /\ w_writable w (cf_dump c) = false).

  Lemma body_told alone l r :
    body T srt rngs cq cr ce rq hq S scorer rd_r rd_h mr mh mq w c st0 alone = (l, r) ->
    (lim = true /\ r = inr (FThrow RangeError)) \/
    (r = inr (FExit 1) /\ exists ls, errs l = text_lines ls /\ inputs_told text_r text_h w c alone ls None) \/
    told_all alone l r.
  Proof.
    intros B. unfold body in B.
    destruct (told_cases _ _ _ _ _ _ (load_refs_told lim rd_r text_r Fr mr Tr w c st0) B)
      as [K|[(K & ls & E1 & K')|(d1 & l1 & [refs st1] & p1 & B1 & -> & E1 & raw_r & K1 & M1)]]; [auto| |].
    { right. left. split; [exact K|]. exists ls. split; [exact E1|]. now apply it_refs. }
    clear B. destruct (told_cases _ _ _ _ _ _ (load_hyps_told lim rd_h text_h Fh mh Th w c alone st1) B1)
      as [K|[(K & ls & E2 & K')|(d2 & l2 & [hyps st2] & p2 & B2 & -> & E2 & raw_h & K2 & M2)]]; [auto| |].
    { right. left. split; [exact K|]. exists (l1 ++ ls). split; [now rewrite errs_app, E1, E2, text_lines_app|].
      now apply (it_hyps _ _ _ _ _ _ raw_r). }
    clear B1. destruct (told_cases _ _ _ _ _ _ (load_queries_told lim cq Hq text_r text_h mq Tq w c st2) B2)
      as [K|[(K & ls & E3 & K')|(d3 & l3 & [m st3] & p3 & B3 & -> & E3 & f & f' & Nf & Mf & Hm & Qr)]]; [auto| |].
    { right. left. split; [exact K|]. exists (l1 ++ l2 ++ ls). split; [now rewrite !errs_app, E1, E2, E3, !text_lines_app|].
      now apply (it_queries _ _ _ _ _ _ raw_r _ raw_h). }
    clear B2. cbn [fst snd] in *. destruct (told_cases _ _ _ _ _ _ (filter_inputs_told m f' refs hyps Hm) B3)
      as [K|[(K & ls & E4 & K')|(d4 & l4 & [refs' hyps'] & p4 & B4 & -> & E4 & Sr & Sh & k1 & k2 & g & -> & Lk1 & Lk2 & Lg)]];
      [auto|tauto|].
    clear B3. cbn [fst snd] in *.
    assert (Fi : forall h, In h hyps -> is_finite (sc_score h) = true).
    { intros h I. assert (exists b, events_file text_h b raw_h) as [b Eh] by (inversion K2; subst; eauto).
      exact (map_all_scores mh Keeps raw_h (events_file_finite text_h Finite b raw_h Eh) st1 _ M2 h I). }
    destruct (told_cases _ _ _ _ _ _ (sort_hyps_told hyps' ltac:(intros h I; apply Rescore.finite_not_nan, Fi;
        exact (proj1 (proj1 (Grouping.selects_in _ _ _ Sh h) I)))) B4)
      as [K|[(K & ls & E5 & K')|(d5 & s & rank & p5 & B5 & -> & E5 & Rk & Ls)]]; [auto|tauto|].
    clear B4. right. right.
    destruct (Matching.result_shape cr Hr S R HS scorer (matcher_new S) refs' rank)
      as (taken & found & missed & mt & Run & Mt & Sm & Im).
    assert (Hq' : forall x, In x (found ++ map make_fn missed) -> exists q, has_query rq hqs x q).
    { apply has_query_all. intros x I.
      destruct (Matching.result_pairs cr Hr S R HS scorer _ _ _ _ _ Run x I)
        as [(y & h & z & -> & _)|[(h & z & -> & _)|(y & -> & _)]]; simpl; (left; discriminate) || (right; discriminate). }
    destruct (Grouping.forall_grouped cq Hq rq hqs m (proj1 Hm) _ Hq') as [ks Gk].
    destruct (Grouping.groups_spec cq Hq rq hqs m (proj1 Hm) _ ks Gk) as (keys & groups & Eg & Fs & Fg).
    assert (GE : forall x k, grouped rq hqs m x k <-> match_group rq hq f' x k).
    { intros x k. unfold grouped, match_group. split; intros (q & X1 & X2); exists q; split; auto;
        now apply (group_is_holds m f' q k Hm). }
    unfold match_inputs in B5. rewrite Run in B5. unfold emit in B5. rewrite pbind_inl in B5. cbn [run] in B5.
    rewrite pbind_nil in B5. apply pair_equal_spec in B5 as [<- B5].
    assert (Len : List.length rank = List.length hyps') by (apply (Evaluation.ranking_in (c_lt ce) (cf_sort c)); exact Rk).
    assert (TH := total_hyps refs' rank taken found (mt_repeated mt) missed Mt).
    destruct (finish T srt rngs cq rq hq w c m (List.length rank) (found ++ map make_fn missed) (mt_repeated mt)) as [l6 r6] eqn:Fn.
    assert (B6 : l6 = fst (finish T srt rngs cq rq hq w c m (List.length rank) (found ++ map make_fn missed) (mt_repeated mt)))
      by (rewrite Fn; reflexivity).
    unfold finish in B6. rewrite <- B6 in *. clear B6.
    destruct (finish_told _ _ _ _ _ _ (Matching.count_hyps cr Hr S R HS scorer _ _ _ _ _ Run) Fn) as ((l5 & E6 & End) & Dm).
    assert (r = r6) as -> by (rewrite <- B5; unfold finish in Fn; now rewrite Fn).
    destruct (finish_any T srt rngs cq rq hq w c m (List.length rank) (found ++ map make_fn missed) (mt_repeated mt) groups Eg
      (Matching.count_hyps cr Hr S R HS scorer _ _ _ _ _ Run)) as (lf & ef & Ff & St6). rewrite Fn in Ff.
    apply pair_equal_spec in Ff as [<- ->].
    rewrite TH, Len in End.
    exists raw_r, raw_h, f, refs, hyps, f', st1, st2, st3, m, refs', hyps', (found ++ map make_fn missed), (mt_repeated mt), groups,
      l1, l2, l3, (k1 ++ k2 ++ g ++ s ++ [lit "INFO: Computing matches..."]), l5.
    split; [exact K1|]. split; [exact K2|]. split; [exact Nf|]. split; [exact Qr|]. split; [exact M1|]. split; [exact M2|].
    split; [exact Mf|]. split; [exact Hm|]. split; [exact Sr|]. split; [exact Sh|]. split; [|split; [|split; [exact End|split; [|split]]]].
    - exists refs', hyps', rank, taken, found, missed. repeat (split; [eassumption || reflexivity|]).
      exists ks, keys. split; [|split; [exact Fs|]].
      + revert Gk. apply Forall2_impl. intros x k. apply GE.
      + revert Fg. apply Forall2_impl. intros k z [NE Sel]. split; [exact NE|].
        revert Sel. clear - GE. intros H. induction H; constructor; auto; rewrite <- ?GE; auto.
    - assert (Lr := map_all_length mr raw_r st0 _ M1). assert (Lh := map_all_length mh raw_h st1 _ M2). cbn [fst] in Lr, Lh.
      exists k1, k2, g, s. rewrite <- Lr, <- Lh. auto 10.
    - rewrite !errs_app, E1, E2, E3, E4, E5, E6, !text_lines_app, <- !app_assoc. do 6 f_equal.
    - intros W e I. rewrite !in_app_iff. right. right. right. right. right. right. auto.
    - clear - St6. destruct St6 as [(N & W & -> & _)|(W & rest & _ & St6)]; [tauto|].
      split; [|intros [N K]; rewrite (W N) in K; discriminate].
      intros K. destruct St6 as [[-> _]|[->|[x ->]]]; discriminate.
  Qed.
End Run.

(** ** Names and their ids *)

Section Back.
  Context {Q : Type} (k : bytes -> Q) (Inj : forall x y, k x = k y -> x = y).
  Variables (cq : Cmp Q) (Hq : total_order cq).

  Lemma number_image (P : bytes -> Prop) (P' : Q -> Prop) n : (forall y, P' y <-> exists x, y = k x /\ P x) ->
    number P' n -> number P n.
  Proof.
    intros H (l & ND & I & <-).
    assert (exists s, l = map k s) as [s ->].
    { assert (K : forall y, In y l -> exists x, y = k x) by (intros y Iy; apply I, H in Iy as (x & -> & _); eauto).
      clear - K. induction l as [|y l IH]; [now exists []|]. destruct IH as [s ->]; [intros z Iz; apply K; now right|].
      destruct (K y (or_introl eq_refl)) as [x ->]. now exists (x :: s). }
    exists s. split; [now apply NoDup_map_inv in ND|]. split; [|symmetry; apply map_length].
    intros x. rewrite <- (Ids.in_back k Inj x s), I, H. split; [|eauto]. intros (x' & E0 & K). now rewrite (Inj _ _ E0).
  Qed.

  Lemma number_iff {X} (P P' : X -> Prop) n : (forall x, P x <-> P' x) -> number P n -> number P' n.
  Proof. intros H (l & ND & I & L). exists l. split; [exact ND|]. split; [|exact L]. intros x. now rewrite I, H. Qed.

  Lemma listed_back f y : (exists g, assigns (map_queries k f) y g) <-> exists x, y = k x /\ exists g, assigns f x g.
  Proof.
    split.
    - intros [g H]. destruct (Ids.assigns_image k _ _ _ H) as (q' & g' & -> & _ & K). eauto.
    - intros (x & -> & g & H). exists (k g). now apply Ids.assigns_map.
  Qed.

  Lemma groups_back f y : (exists q, assigns (map_queries k f) q y) <-> exists g, y = k g /\ exists q, assigns f q g.
  Proof.
    split.
    - intros [g H]. destruct (Ids.assigns_image k _ _ _ H) as (q' & g' & _ & -> & K). eauto.
    - intros (x & -> & g & H). exists (k g). now apply Ids.assigns_map.
  Qed.

  Lemma queries_back w c ls m f : names_queries w c f -> queries_read c ls m f -> holds m (map_queries k f) ->
    queries_told w c ls (Some f).
  Proof.
    intros N R H. pose proof (number_keys m _ H) as K.
    apply (number_image (fun q => exists g, assigns f q g)) in K; [|apply listed_back].
    destruct f as [|qs|gs]; cbn [queries_read] in R.
    - subst. now apply qt_none.
    - destruct R as (l & -> & L). apply (qt_set _ _ _ (List.length m)); [exact N| |exact L].
      revert K. apply number_iff. intros q. simpl. split; [now intros (g & I & _)|eauto].
    - destruct R as (l & -> & L). apply (qt_groups _ _ _ (List.length m)); [exact N| |exact L].
      revert K. apply number_iff. intros q. apply Results.exists_named, (list_eq_dec ascii_dec).
  Qed.

  Lemma selection_back {ER EH} c m f (refs : list ER) (hyps : list EH) nr nh ls : holds m (map_queries k f) ->
    (exists k1 k2 g s, ls = k1 ++ k2 ++ g ++ s ++ [lit "INFO: Computing matches..."] /\
        line_if (nr <> List.length refs) (count_line "INFO: Number of kept reference events = " nr []) k1 /\
        line_if (nh <> List.length hyps) (count_line "INFO: Number of kept hypothesis events = " nh []) k2 /\
        line_if (cf_querygroups c <> [] /\ m <> [])
           (count_line "INFO: " (num_groups cq m) (lit " groups were read from " ++ in_quotes (cf_querygroups c))) g /\
        line_if (cf_sort c <> lit "desc" /\ cf_sort c <> lit "asc" /\ cf_sort c <> lit "none")
          (eq (lit "WARN: Ignoring sorting criterion " ++ in_quotes (cf_sort c) ++ lit ". Hypotheses won't be sorted.")) s) ->
    selection_told c f refs hyps nr nh ls.
  Proof.
    intros H (k1 & k2 & g & s & -> & L1 & L2 & L3 & L4). exists k1, k2, g, s. split; [reflexivity|]. split; [exact L1|].
    split; [exact L2|]. split; [|exact L4].
    pose proof (number_groups cq Hq m _ H) as K.
    apply (number_image (fun g => exists q, assigns f q g)) in K; [|apply groups_back].
    assert (NE : m <> [] <-> exists q g, assigns f q g).
    { destruct H as [_ H]. split.
      - intros NE. destruct m as [|[q y] m]; [easy|]. assert (I : assigns (map_queries k f) q y) by (apply H; now left).
        destruct (Ids.assigns_image k _ _ _ I) as (q' & g' & _ & _ & I'). eauto.
      - intros (q & g0 & I) ->. apply (Ids.assigns_map k) in I; [|assumption]. apply H in I. destruct I. }
    destruct L3 as [((N1 & N2) & l & -> & C)|(N & ->)].
    - left. split; [tauto|]. exists l. split; [reflexivity|]. eauto.
    - right. split; [tauto|reflexivity].
  Qed.
End Back.

(** ** The programs *)

Section Instances.
  Context {A : Arith} (T : Trans A) (srt : sort_fn) (Hs : sort_contract srt) (rngs : Z -> rng).
  Variables (show_int : Z -> bytes) (show_f64 : f64 -> bytes).

  Lemma tool_body {Q RE E ER EE St} cq cr ce rq hq (S : EvSet RE (scored E)) scorer (rd_r : istream -> ER * istream)
    (rd_h : istream -> scored EE * istream) mr mh (mq : St -> bytes -> outcome (Q * St)) desc w st0 pn args c : command args c ->
    tool T srt rngs show_int show_f64 cq cr ce rq hq S scorer rd_r rd_h mr mh mq desc w st0 pn args =
    body T srt rngs cq cr ce rq hq S scorer rd_r rd_h mr mh mq w c st0 (Nat.eqb (List.length args) 1).
  Proof.
    intros C. apply command_parse in C as (s & P & ->). unfold tool, tool_main, parse_command_line. cbv zeta.
    rewrite parse_same, P. unfold pret at 1. rewrite pbind_nil. reflexivity.
  Qed.

  Lemma icdar_told w pn args c l r : command args c ->
    icdar17 A T srt rngs show_int show_f64 w pn args = (l, r) ->
    exists ls o, inputs_told shaped_text scored_shaped_text w c (Nat.eqb (List.length args) 1) ls o /\
    match o with
    | None => r = inr (FExit 1) /\ errs l = text_lines ls
    | Some (refs, hyps, f) => exists ms log groups ls',
        icdar17_evaluation (cf_sort c) f refs hyps ms log groups /\
        rest_told w c ev_query (fun h => ev_query (sc_base h)) f refs hyps (List.length (hyps_of ms)) ls' /\
        errs l = text_lines (ls ++ ls') /\
        (w_writable w (cf_dump c) = true -> forall e, In e (dumped c ms log) -> In e l) /\
        (r = inr (FExit 1) <-> cf_dump c <> [] /\ w_writable w (cf_dump c) = false)
    end.
  Proof.
    intros C Et. rewrite Instances.icdar17_tool, (tool_body _ _ _ _ _ _ _ _ _ _ _ _ _ _ _ _ _ c C) in Et.
    destruct (body_told T srt Hs rngs false cmp_str Order.total_order_str
      cmp_shaped Order.total_order_shaped cmp_shaped Order.total_order_shaped ev_query ev_query
      (evset_docbox srt cmp_str) (box_search cmp_str) (Matching.finds_docbox srt cmp_str Hs Order.total_order_str)
      (fun r h => ioh_scorer cmp_str f32_half r (sc_base h)) ltac:(intros; unfold ioh_scorer; repeat (match goal with |- context [if ?b then _ else _] => destruct b end); reflexivity)
      read_shaped shaped_text (read_scored read_shaped) scored_shaped_text Reader.fm_shaped Reader.fm_scored_shaped Instances.finite_shaped
      identity_mapper identity_mapper identity_mapper Instances.tame_identity Instances.tame_identity Instances.tame_identity Instances.keeps_identity
      w tt c _ _ _ Et) as [[K _]|[(K & ls & E1 & I)|H]]; [discriminate| |].
    { exists ls, None. auto. }
    destruct H as (refs0 & hyps0 & f0 & refs & hyps & f & st1 & st2 & st3 & m & refs' & hyps' & ms & log & groups & l1 & l2 & l3 & l4 & l5 &
      T1 & T2 & Nq & Qr & M1 & M2 & M3 & Hm & Sr & Sh & Ev & Sel & End & E0 & D & St).
    rewrite Instances.map_all_id in M1. injection M1 as <- <-. rewrite Instances.map_all_id in M2. injection M2 as <- <-.
    rewrite Instances.map_file_id in M3. injection M3 as <- <-.
    assert (f0 = map_queries (fun x => x) f0) as E2.
    { destruct f0 as [|qs|gs]; simpl; rewrite ?map_id; [reflexivity..|]. f_equal. rewrite <- (map_id gs) at 1. apply map_ext. intros x. now rewrite map_id. }
    rewrite E2 in Hm.
    exists (l1 ++ l2 ++ l3), (Some (refs0, hyps0, f0)). split.
    { apply it_all; [exact T1|exact T2|]. now apply (queries_back (fun x => x) ltac:(auto) w c l3 m). }
    exists ms, log, groups, (l4 ++ l5). split; [exact Ev|]. split; [|split; [now rewrite <- !app_assoc|split; [exact D|exact St]]].
    exists refs', hyps', l4, l5. split; [exact Sr|]. split; [exact Sh|]. split; [|split; [exact End|reflexivity]].
    exact (selection_back (fun x => x) ltac:(auto) cmp_str Order.total_order_str c m f0 refs0 hyps0 _ _ _ Hm Sel).
  Qed.

  Lemma hyps_renamed {X Y Z0 W} (f : X -> Y) (g : Z0 -> W) (ms : list (match_t X Z0)) :
    List.length (hyps_of (map (map_match f g) ms)) = List.length (hyps_of ms).
  Proof.
    induction ms as [|[a [h|] e] ms IH]; simpl; [reflexivity| |]; unfold hyps_of in *; simpl; rewrite IH; reflexivity.
  Qed.

  Lemma simple_told qf w pn args c l r : command args c ->
    simple_kws A T srt rngs show_int show_f64 qf w pn args = (l, r) ->
    r = inr (FThrow RangeError) \/
    exists ls o, inputs_told str_event_text scored_str_event_text w c (Nat.eqb (List.length args) 1) ls o /\
    match o with
    | None => r = inr (FExit 1) /\ errs l = text_lines ls
    | Some (refs, hyps, f) => exists id ms log groups ls', (forall s s', id s = id s' -> s = s') /\
        simple_evaluation id (cf_sort c) f refs hyps ms log groups /\
        rest_told w c ev_query (fun h => ev_query (sc_base h)) f refs hyps (List.length (hyps_of ms)) ls' /\
        errs l = text_lines (ls ++ ls') /\
        (w_writable w (cf_dump c) = true ->
         forall e, In e (dumped c (map (renamed_match id) ms) (map (renamed_match id) log)) -> In e l) /\
        (r = inr (FExit 1) <-> cf_dump c <> [] /\ w_writable w (cf_dump c) = false)
    end.
  Proof.
    intros C Et. rewrite Instances.simple_tool, (tool_body _ _ _ _ _ _ _ _ _ _ _ _ _ _ _ _ _ c C) in Et.
    destruct (body_told T srt Hs rngs true cmp_Z Order.total_order_Z
      cmp_int_event Instances.total_order_int_event cmp_int_event Instances.total_order_int_event ev_query ev_query
      (evset_generic cmp_int_event) exact_search (Matching.finds_generic cmp_int_event Instances.total_order_int_event)
      (fun r h => trivial_scorer cmp_Z cmp_Z r (sc_base h))
      ltac:(intros; unfold trivial_scorer; repeat (match goal with |- context [if ?b then _ else _] => destruct b end); reflexivity)
      read_str_event str_event_text (read_scored read_str_event) scored_str_event_text Reader.fm_str_event Reader.fm_scored_str_event Instances.finite_str
      (event_to_int qf Instances.int_max) (scored_mapper (event_to_int qf Instances.int_max)) (string_to_int Instances.int_max)
      (Instances.tame_event qf) (Instances.tame_scored qf) Instances.tame_string (Instances.keeps_scored qf)
      w [] c _ _ _ Et) as [[_ K]|[(K & ls & E1 & I)|H]]; [now left| |]; right.
    { exists ls, None. auto. }
    destruct H as (refs0 & hyps0 & f0 & refs & hyps & f & st1 & st2 & st3 & m & refs' & hyps' & ms & log & groups & l1 & l2 & l3 & l4 & l5 &
      T1 & T2 & Nq & Qr & M1 & M2 & M3 & Hm & Sr & Sh & Ev & Sel & End & E0 & D & St).
    destruct (Ids.run_ids Instances.int_max qf _ _ _ _ _ _ _ _ _ M1 M2 M3) as (id & Inj & -> & -> & ->).
    destruct (Instances.simple_back id _ _ _ _ _ _ _ Inj Ev) as (ms' & log' & groups' & -> & -> & -> & Ev').
    exists (l1 ++ l2 ++ l3), (Some (refs0, hyps0, f0)). split.
    { apply it_all; [exact T1|exact T2|]. now apply (queries_back id Inj w c l3 m). }
    exists id, ms', log', groups', (l4 ++ l5). split; [exact Inj|].
    split; [exact Ev'|]. split; [|split; [now rewrite <- !app_assoc|split; [exact D|exact St]]].
    apply (Ids.selects_back (renamed id) _ (fun x => kept f0 (ev_query x))) in Sr as (sr & -> & Sr);
      [|intros x; apply (Ids.kept_back id Inj)].
    apply (Ids.selects_back (map_scored (renamed id)) _ (fun x => kept f0 (ev_query (sc_base x)))) in Sh as (sh & -> & Sh);
      [|intros x; apply (Ids.kept_back id Inj)].
    unfold renamed_match in End. rewrite hyps_renamed in End. rewrite !map_length in *.
    exists sr, sh, l4, l5. split; [exact Sr|]. split; [exact Sh|]. split; [|split; [exact End|reflexivity]].
    exact (selection_back id Inj cmp_Z Order.total_order_Z c m f0 refs0 hyps0 _ _ _ Hm Sel).
  Qed.
End Instances.

(** ** Lines with errors *)

Definition says_error (l : bytes) : Prop := exists t, l = lit "ERROR: " ++ t.

Lemma error_lines_in ls l : In l ls -> says_error l -> error_line (text_lines ls).
Proof.
  intros I [t ->]. apply in_split in I as (l1 & l2 & ->). rewrite text_lines_app.
  exists (text_lines l1), (t ++ [ascii_of_N 10] ++ text_lines l2). split.
  - f_equal. unfold text_lines. cbn [flat_map]. rewrite <- !app_assoc. reflexivity.
  - destruct l1 as [|x l1] using rev_ind; [now left|right]. rewrite text_lines_app. unfold text_lines at 2. cbn [flat_map].
    rewrite app_nil_r, app_assoc. eauto.
Qed.

Lemma error_one_line : one_line (lit "ERROR: ").
Proof. unfold one_line, lit. cbn. intros H. repeat (destruct H as [H|H]; [discriminate|]). exact H. Qed.

Lemma error_lines ls : Forall one_line ls -> error_line (text_lines ls) -> exists l, In l ls /\ says_error l.
Proof.
  intros F. induction F as [|a ls Ha F IH]; intros (x & t & E0 & B).
  - destruct x; discriminate.
  - unfold text_lines in E0. cbn [flat_map] in E0. fold (text_lines ls) in E0. rewrite <- app_assoc in E0.
    destruct B as [->|(y & ->)].
    + cbn [app] in E0. change (a ++ [ascii_of_N 10] ++ text_lines ls = lit "ERROR: " ++ t) in E0.
      apply app_eq_app in E0 as (u & [[-> _]|[E1 E2]]).
      * exists (lit "ERROR: " ++ u). split; [now left|]. now exists u.
      * destruct u as [|z u].
        -- exists a. split; [now left|]. exists []. now rewrite app_nil_r in *.
        -- exfalso. change ([ascii_of_N 10] ++ text_lines ls) with (ascii_of_N 10 :: text_lines ls) in E2.
           change ((z :: u) ++ t) with (z :: (u ++ t)) in E2.
           assert (z = ascii_of_N 10) as -> by congruence. apply error_one_line. rewrite E1. apply in_or_app. right. now left.
    + rewrite <- app_assoc in E0. apply app_eq_app in E0 as (u & [[E1 E2]|[E1 E2]]).
      * destruct u as [|z u].
        -- rewrite app_nil_l in E2. injection E2 as E2. destruct IH as (l & I & K); [|exists l; split; [now right|exact K]].
           exists [], t. split; [|now left]. cbn [app]. symmetry. exact E2.
        -- exfalso. change ([ascii_of_N 10] ++ lit "ERROR: " ++ t) with (ascii_of_N 10 :: (lit "ERROR: " ++ t)) in E2.
           change ((z :: u) ++ [ascii_of_N 10] ++ text_lines ls) with (z :: (u ++ [ascii_of_N 10] ++ text_lines ls)) in E2.
           assert (z = ascii_of_N 10) as -> by congruence. apply Ha. rewrite E1. apply in_or_app. right. now left.
      * destruct u as [|z u].
        -- rewrite app_nil_l in E2. injection E2 as E2. destruct IH as (l & I & K); [|exists l; split; [now right|exact K]].
           exists [], t. split; [|now left]. exact E2.
        -- change ((z :: u) ++ [ascii_of_N 10] ++ lit "ERROR: " ++ t) with (z :: (u ++ [ascii_of_N 10] ++ lit "ERROR: " ++ t)) in E2.
           change ([ascii_of_N 10] ++ text_lines ls) with (ascii_of_N 10 :: text_lines ls) in E2.
           injection E2 as _ E2. destruct IH as (l & I & K); [|exists l; split; [now right|exact K]].
           exists (u ++ [ascii_of_N 10]), t. split; [now rewrite <- app_assoc|]. right. eauto.
Qed.

Definition fine (l : bytes) : Prop := one_line l /\ ~ says_error l.

Lemma one_line_app a b : one_line a -> one_line b -> one_line (a ++ b).
Proof. unfold one_line. intros H K I. apply in_app_or in I. tauto. Qed.

Lemma one_line_lit s : existsb (Ascii.eqb (ascii_of_N 10)) (list_ascii_of_string s) = false -> one_line (lit s).
Proof.
  intros H I. assert (K : existsb (Ascii.eqb (ascii_of_N 10)) (lit s) = true).
  { apply existsb_exists. exists (ascii_of_N 10). split; [exact I|apply Ascii.eqb_refl]. }
  unfold lit in K. congruence.
Qed.

Lemma one_line_quotes b : one_line b -> one_line (in_quotes b).
Proof.
  intros H. unfold in_quotes. change (""""%char :: b ++ [""""%char]) with (lit """" ++ b ++ lit """").
  repeat apply one_line_app; try exact H; now apply one_line_lit.
Qed.

Lemma one_line_integer t z : integer_form t z -> one_line t.
Proof. intros H. exact (Dump.not_white_nl _ (Dump.integer_not_white t z H)). Qed.

Lemma fine_count b n a l : count_line (String "I" b) n a l ->
  existsb (Ascii.eqb (ascii_of_N 10)) (list_ascii_of_string (String "I" b)) = false -> one_line a -> fine l.
Proof.
  intros (t & F & ->) H K. split.
  - apply one_line_app; [now apply one_line_lit|]. apply one_line_app; [exact (one_line_integer _ _ F)|exact K].
  - intros [x E0]. discriminate.
Qed.

Lemma fine_line_if P F ls : line_if P F ls -> (forall l, F l -> fine l) -> Forall fine ls.
Proof. intros [(_ & l & -> & K)|[_ ->]] H; repeat constructor; apply (H l K). Qed.

Section Errors.
  Context {ER EH : Type}.
  Variables (text_r : bytes -> ER -> Prop) (text_h : bytes -> EH -> Prop).
  Variables (w : world) (c : config) (alone : bool).

  Lemma told_error ls : inputs_told text_r text_h w c alone ls None -> exists l, In l ls /\ says_error l.
  Proof.
    intros I. remember (@None (list ER * list EH * query_file bytes)) as o eqn:Eo.
    destruct I as [l1 H|l1 refs l2 _ H|l1 refs l2 hyps l3 _ _ H|]; [| | |discriminate].
    - inversion H as [N E0|? ? N K]; subst; [eexists; split; [now left|eexists; reflexivity]|].
      inversion K as [|b x es n l ? ? ? (t & _ & ->)|]; subst.
      + eexists. split; [now left|]. eexists. reflexivity.
      + eexists. split; [now left|]. exists (lit "Failed to read event from line " ++ t ++ []). reflexivity.
    - unfold hyps_told in H. inversion H as [|b x es n l ? ? ? (t & _ & ->)|]; subst.
      + eexists. split; [apply in_or_app; right; now left|]. destruct alone; eexists; reflexivity.
      + eexists. split; [apply in_or_app; right; now left|]. exists (lit "Failed to read event from line " ++ t ++ []). reflexivity.
    - inversion H; subst; (eexists; split; [apply in_or_app; right; apply in_or_app; right; now left|eexists; reflexivity]).
  Qed.

  Hypothesis N1 : one_line (cf_queryset c).
  Hypothesis N2 : one_line (cf_querygroups c).
  Hypothesis N3 : one_line (cf_sort c).

  Lemma nil_one_line : one_line []. Proof. intros []. Qed.

  Lemma told_fine ls x : inputs_told text_r text_h w c alone ls (Some x) -> Forall fine ls.
  Proof.
    intros I. inversion I as [| | |l1 refs l2 hyps l3 f R H Qt]; subst. repeat (apply Forall_app; split).
    - inversion R; subst. match goal with K : events_told _ _ _ _ _ _ |- _ => inversion K; subst end.
      repeat constructor; eapply fine_count; eauto using nil_one_line; reflexivity.
    - unfold hyps_told in H. inversion H; subst. constructor; [|constructor]. eapply fine_count; eauto using nil_one_line; reflexivity.
    - assert (K : forall n name l, one_line name -> count_line "INFO: " n (lit " queries were read from " ++ in_quotes name) l -> fine l).
      { intros n name l Hn C. eapply fine_count; [exact C|reflexivity|]. apply one_line_app; [now apply one_line_lit|now apply one_line_quotes]. }
      inversion Qt; subst; constructor; eauto.
  Qed.

  Lemma selection_fine f (refs : list ER) (hyps : list EH) nr nh ls : selection_told c f refs hyps nr nh ls -> Forall fine ls.
  Proof.
    intros (k1 & k2 & g & s & -> & L1 & L2 & L3 & L4). repeat (apply Forall_app; split).
    - apply (fine_line_if _ _ _ L1). intros l C. eapply fine_count; eauto using nil_one_line; reflexivity.
    - apply (fine_line_if _ _ _ L2). intros l C. eapply fine_count; eauto using nil_one_line; reflexivity.
    - apply (fine_line_if _ _ _ L3). intros l (n & _ & C). eapply fine_count; [exact C|reflexivity|].
      apply one_line_app; [now apply one_line_lit|now apply one_line_quotes].
    - apply (fine_line_if _ _ _ L4). intros l <-. split; [|intros [t K]; discriminate].
      repeat apply one_line_app; try (now apply one_line_lit). now apply one_line_quotes.
    - constructor; [|constructor]. split; [now apply one_line_lit|]. intros [t K]. discriminate.
  Qed.

  Lemma end_fine nh n ls : end_told w c nh n ls -> ~ (cf_dump c <> [] /\ w_writable w (cf_dump c) = false) -> Forall fine ls.
  Proof.
    intros (d & e & -> & D & E0) K. destruct D as [[D _]|[_ ->]]; [tauto|]. cbn [app].
    apply (fine_line_if _ _ _ E0). intros l C. eapply fine_count; [exact C|reflexivity|]. now apply one_line_lit.
  Qed.

  Lemma end_error nh n ls : end_told w c nh n ls -> cf_dump c <> [] /\ w_writable w (cf_dump c) = false ->
    exists l, In l ls /\ says_error l.
  Proof.
    intros (d & e & -> & D & E0) K. destruct D as [(_ & l & -> & <-)|[D _]]; [|tauto].
    eexists. split; [now left|]. eexists. reflexivity.
  Qed.
End Errors.

Lemma fine_no_error ls : Forall fine ls -> ~ error_line (text_lines ls).
Proof.
  intros F K. apply error_lines in K as (l & I & K); [|revert F; apply Forall_impl; intros x []; assumption].
  rewrite Forall_forall in F. destruct (F l I) as [_ N]. tauto.
Qed.

Lemma in_error ls : (exists l, In l ls /\ says_error l) -> error_line (text_lines ls).
Proof. intros (l & I & K). now apply (error_lines_in ls l). Qed.

(** ** Exit status and messages *)

Section Status.
  Context {A : Arith} (T : Trans A) (srt : sort_fn) (Hs : sort_contract srt) (rngs : Z -> rng).
  Variables (show_int : Z -> bytes) (show_f64 : f64 -> bytes).

  Lemma tool_bad {Q RE E ER EE St} cq cr ce rq hq (S : EvSet RE (scored E)) scorer (rd_r : istream -> ER * istream)
    (rd_h : istream -> scored EE * istream) mr mh (mq : St -> bytes -> outcome (Q * St)) desc w st0 pn args l r :
    tool T srt rngs show_int show_f64 cq cr ce rq hq S scorer rd_r rd_h mr mh mq desc w st0 pn args = (l, r) ->
    r = inr (FExit 1) -> error_line (errs l) \/ exists c, command args c.
  Proof.
    unfold tool, tool_main, parse_command_line. cbv zeta. rewrite parse_same.
    destruct (parse tool_options args initial_store) as [s|e s|s] eqn:P; intros E0 K.
    - right. exists (config_of s). apply command_parse. eauto.
    - left. cbn [pbind emit stop app] in E0. apply pair_equal_spec in E0 as [<- _].
      match goal with |- error_line (errs ?l) => assert (Eq : exists t, errs l = parse_message e ++ t) end.
      { unfold errs. cbn [flat_map message]. rewrite <- !app_assoc. eexists. reflexivity. }
      destruct Eq as [t ->].
      assert (Eq : exists t, parse_message e = lit "ERROR: " ++ t) by (destruct e; eexists; reflexivity).
      destruct Eq as [u ->]. exists [], (u ++ t). split; [now rewrite <- app_assoc|now left].
    - exfalso. cbn in E0. apply pair_equal_spec in E0 as [_ <-]. discriminate.
  Qed.

  Lemma transcript {ER EH} (text_r : bytes -> ER -> Prop) (text_h : bytes -> EH -> Prop) w c alone rq hq ls o
    (l : bytes) (r : unit + fin) :
    inputs_told text_r text_h w c alone ls o ->
    match o with
    | None => r = inr (FExit 1) /\ l = text_lines ls
    | Some (refs, hyps, f) => exists n ls', rest_told w c rq hq f refs hyps n ls' /\ l = text_lines (ls ++ ls') /\
        (r = inr (FExit 1) <-> cf_dump c <> [] /\ w_writable w (cf_dump c) = false)
    end ->
    (r = inr (FExit 1) -> error_line l) /\
    (one_line (cf_queryset c) -> one_line (cf_querygroups c) -> one_line (cf_sort c) -> error_line l -> r = inr (FExit 1)).
  Proof.
    intros I H. destruct o as [[[refs hyps] f]|].
    - destruct H as (n & ls' & (refs' & hyps' & l4 & l5 & _ & _ & Sel & End & ->) & -> & St). split.
      + intros K. apply St in K. destruct (end_error w c _ _ _ End K) as (x & Ix & Ex).
        apply in_error. exists x. split; [|exact Ex]. rewrite !in_app_iff. auto.
      + intros N1 N2 N3 K. apply St. destruct (cf_dump c) as [|y nm] eqn:N; [exfalso|].
        * revert K. apply fine_no_error. repeat (apply Forall_app; split).
          -- exact (told_fine text_r text_h w c alone N1 N2 _ _ I).
          -- exact (selection_fine c N2 N3 _ _ _ _ _ _ Sel).
          -- apply (end_fine w c _ _ _ End). rewrite N. intros [X _]. now apply X.
        * split; [discriminate|]. destruct (w_writable w (y :: nm)) eqn:W; [exfalso|reflexivity].
          revert K. apply fine_no_error. repeat (apply Forall_app; split).
          -- exact (told_fine text_r text_h w c alone N1 N2 _ _ I).
          -- exact (selection_fine c N2 N3 _ _ _ _ _ _ Sel).
          -- apply (end_fine w c _ _ _ End). rewrite N, W. intros [_ X]. discriminate.
    - destruct H as [-> ->]. split; [|auto]. intros _. exact (in_error _ (told_error text_r text_h w c alone _ I)).
  Qed.

  Lemma icdar_errors w pn args l r : icdar17 A T srt rngs show_int show_f64 w pn args = (l, r) ->
    (r = inr (FExit 1) -> error_line (errs l)) /\
    (forall c, command args c -> one_line (cf_queryset c) -> one_line (cf_querygroups c) -> one_line (cf_sort c) ->
     error_line (errs l) -> r = inr (FExit 1)).
  Proof.
    intros Et. assert (K : forall c, command args c -> (r = inr (FExit 1) -> error_line (errs l)) /\
      (one_line (cf_queryset c) -> one_line (cf_querygroups c) -> one_line (cf_sort c) -> error_line (errs l) -> r = inr (FExit 1))).
    { intros c C. destruct (icdar_told T srt Hs rngs show_int show_f64 w pn args c l r C Et) as (ls & o & I & H).
      apply (transcript _ _ w c _ ev_query (fun h => ev_query (sc_base h)) ls o (errs l) r I).
      destruct o as [[[refs hyps] f]|]; [|exact H]. destruct H as (ms & log & groups & ls' & _ & H1 & H2 & _ & H3). eauto 6. }
    split; [|intros c C; exact (proj2 (K c C))].
    intros R. rewrite Instances.icdar17_tool in Et. destruct (tool_bad _ _ _ _ _ _ _ _ _ _ _ _ _ _ _ _ _ _ _ Et R) as [H|[c C]]; [exact H|].
    exact (proj1 (K c C) R).
  Qed.

  Lemma simple_errors qf w pn args l r : simple_kws A T srt rngs show_int show_f64 qf w pn args = (l, r) ->
    (r = inr (FExit 1) -> error_line (errs l)) /\
    (forall c, command args c -> one_line (cf_queryset c) -> one_line (cf_querygroups c) -> one_line (cf_sort c) ->
     error_line (errs l) -> r = inr (FExit 1) \/ r = inr (FThrow RangeError)).
  Proof.
    intros Et. assert (K : forall c, command args c -> (r = inr (FExit 1) -> error_line (errs l)) /\
      (one_line (cf_queryset c) -> one_line (cf_querygroups c) -> one_line (cf_sort c) -> error_line (errs l) ->
       r = inr (FExit 1) \/ r = inr (FThrow RangeError))).
    { intros c C. destruct (simple_told T srt Hs rngs show_int show_f64 qf w pn args c l r C Et) as [->|(ls & o & I & H)]; [split; [discriminate|auto]|].
      destruct (transcript str_event_text scored_str_event_text w c _ ev_query (fun h => ev_query (sc_base h)) ls o (errs l) r I) as [H1 H2].
      - destruct o as [[[refs hyps] f]|]; [|exact H]. destruct H as (id & ms & log & groups & ls' & _ & _ & H1 & H2 & _ & H3). eauto 6.
      - auto. }
    split; [|intros c C; exact (proj2 (K c C))].
    intros R. rewrite Instances.simple_tool in Et. destruct (tool_bad _ _ _ _ _ _ _ _ _ _ _ _ _ _ _ _ _ _ _ Et R) as [H|[c C]]; [exact H|].
    exact (proj1 (K c C) R).
  Qed.
End Status.
