(** Files with their lines in another order. *)
From Coq Require Import Ascii String List Bool ZArith Lia Permutation FunctionalExtensionality.
From Verif.Model Require Import Cpp Floats Events Stream Reader Options Tool.
From Verif.Spec Require Import Matching Reader Options Tool.
From Verif.Proofs Require Reader Queries Tool Runs.
Import ListNotations.

Section Lines.
  Context {E : Type}.
  Variables (rd : istream -> E * istream) (text : bytes -> E -> Prop).
  Hypothesis F : format rd text.

  Lemma events_perm ls ls' : Permutation ls ls' -> forall n es, events_of text n ls es None ->
    exists es', events_of text n ls' es' None /\ Permutation es es'.
  Proof.
    induction 1 as [|x l l' P IH|x y l|l1 l2 l3 P1 IH1 P2 IH2]; intros n es H.
    - exists es. split; [exact H|reflexivity].
    - inversion H; subst.
      + destruct (IH _ _ H6) as (es' & H' & P'). exists es'. split; [now constructor|exact P'].
      + destruct (IH _ _ H6) as (es' & H' & P'). exists (e :: es'). split; [now constructor|now constructor].
    - inversion H; subst.
      + inversion H6; subst.
        * exists es. split; [|reflexivity]. apply eo_skip; [assumption|]. apply eo_skip; assumption.
        * exists (e :: es0). split; [|reflexivity]. apply eo_event; [assumption|]. apply eo_skip; assumption.
      + inversion H6; subst.
        * exists (e :: es0). split; [|reflexivity]. apply eo_skip; [assumption|]. apply eo_event; assumption.
        * eexists. split; [apply eo_event; [eassumption|]; apply eo_event; eassumption|]. constructor.
    - destruct (IH1 _ _ H) as (es' & H' & P'). destruct (IH2 _ _ H') as (es'' & H'' & P'').
      exists es''. split; [exact H''|]. now transitivity es'.
  Qed.

  Lemma events_members ls : forall n es, events_of text n ls es None ->
    (forall l, In l ls -> no_event l \/ exists e, event_line text l e) /\
    (forall e, In e es <-> exists l, In l ls /\ ~ no_event l /\ event_line text l e).
  Proof.
    intros n es H. remember None as b eqn:Eb. induction H as [n|n l ls es b N H IH|n l e ls es b V H IH|n l ls N V]; subst.
    - split; [intros l []|]. intros e. split; [intros []|intros (l & [] & _)].
    - destruct (IH eq_refl) as [I1 I2]. split.
      + intros k [<-|K]; auto.
      + intros e. rewrite I2. split.
        * intros (k & K & V). exists k. split; [right; exact K|exact V].
        * intros (k & [<-|K] & N' & V); [contradiction|]. exists k. auto.
    - destruct (IH eq_refl) as [I1 I2].
      destruct (Reader.format_reads rd text F) as (Ps & Pc & R & W & _).
      assert (NN := Reader.event_line_not_skip rd text Ps Pc R W l e V).
      split.
      + intros k [<-|K]; eauto.
      + intros x. split.
        * intros [<-|K]; [exists l; simpl; auto|]. apply I2 in K as (k & K & V'). exists k. split; [right; exact K|exact V'].
        * intros (k & [<-|K] & N' & V'); [|right; apply I2; eauto].
          left. exact (Reader.event_line_fun rd text Ps Pc R W l e x V V').
    - discriminate.
  Qed.
End Lines.

Lemma reordered_events {E} rd (text : bytes -> E -> Prop) b b' ls ls' es : format rd text -> file_lines b ls -> file_lines b' ls' ->
  events_file text b es ->
  (Permutation ls ls' -> exists es', events_file text b' es' /\ Permutation es es') /\
  (same_elements ls ls' -> exists es', events_file text b' es' /\ same_elements es es').
Proof.
  intros F L L' (ls2 & L2 & H). rewrite (Reader.file_lines_fun b ls2 ls L2 L) in H. clear ls2 L2. split.
  - intros P. destruct (events_perm text ls ls' P 1 es H) as (es' & H' & P').
    exists es'. split; [|exact P']. now exists ls'.
  - intros Se. destruct (events_members rd text F ls 1 es H) as [M1 M2].
    destruct (Reader.format_events rd text 1 ls' F) as (es' & [n|] & H').
    + exfalso. clear - H' M1 Se. assert (exists l, In l ls' /\ ~ no_event l /\ forall e, ~ event_line text l e) as (l & I & N & V).
      { clear - H'. remember (Some n) as b eqn:Eb. induction H' as [k|k l ls es b N H IH|k l e ls es b V H IH|k l ls N V].
        - discriminate.
        - destruct (IH Eb) as (x & I & K). exists x. split; [right; exact I|exact K].
        - destruct (IH Eb) as (x & I & K). exists x. split; [right; exact I|exact K].
        - exists l. split; [left; reflexivity|]. split; assumption. }
      destruct (M1 l (proj2 (Se l) I)) as [K|(e & K)]; [contradiction|exact (V e K)].
    + exists es'. split; [now exists ls'|]. destruct (events_members rd text F ls' 1 es' H') as [_ M2'].
      intros e. rewrite M2, M2'. split; intros (l & I & K); exists l; (split; [now apply Se|exact K]).
Qed.

Lemma reordered_inputs {ER EH} rd rd' (text_r : bytes -> ER -> Prop) (text_h : bytes -> EH -> Prop) w w' c refs hyps f :
  format rd text_r -> format rd' text_h -> reordered w w' c -> inputs text_r text_h w c refs hyps f ->
  exists refs' hyps', inputs text_r text_h w' c refs' hyps' f /\ same_elements refs refs' /\ Permutation hyps hyps'.
Proof.
  intros Fr Fh [(b & b' & ls & ls' & B & B' & L & L' & Se) (d & d' & ks & ks' & D & D' & K & K' & P) Qs Qg Wr]
    [N (x & X & R) (y & Y & H) Q W].
  rewrite B in X. injection X as <-. rewrite D in Y. injection Y as <-.
  destruct (reordered_events rd text_r b b' ls ls' refs Fr L L' R) as [_ R'].
  destruct (R' Se) as (refs' & R1 & R2). clear R'.
  destruct (reordered_events rd' text_h d d' ks ks' hyps Fh K K' H) as [H' _].
  destruct (H' P) as (hyps' & H1 & H2). clear H'.
  exists refs', hyps'. split; [|auto]. constructor; eauto.
  - destruct Q as [A1 A2|q ws A1 A2 A3 A4|q qs fs A1 A2 A3 A4 A5].
    + now constructor.
    + apply (nq_set w' c q); auto; congruence.
    + apply (nq_groups w' c q qs); auto; congruence.
Qed.

(** The lines of a text, by computation. *)
Lemma lines_by b ls : lines_of b = Ok ls -> file_lines b ls.
Proof.
  intros E. destruct (Reader.file_lines_exists b) as [ls' L]. rewrite (Queries.lines_of_ok b ls' L) in E.
  injection E as <-. exact L.
Qed.

Lemma same_writable w w' c : reordered w w' c -> w_writable w = w_writable w'.
Proof. intros R. apply FunctionalExtensionality.functional_extensionality. exact (ro_writable w w' c R). Qed.
