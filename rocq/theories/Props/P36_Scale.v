(** C100: other resolutions of the documents. *)
From Coq Require Import Ascii String List Bool ZArith QArith Lia Permutation.
From Flocq Require Import Core BinarySingleNaN.
From Verif.Model Require Import Cpp Floats Box Events EventSets Matches Matcher Scorers Assessment Bootstrap Mapper Stream
  Reader Options Tool.
From Verif.Spec Require Import Order Objects Sets Matching Scorers Grouping Reader Options Tool Parts Names Scale.
From Verif.Proofs Require Order Geometry Scorers Runs Compute Names Scale.
From Verif.Props Require Import P17_Tool P18_Results P25_Ties.
Import ListNotations.
Local Open Scope string_scope.
Local Open Scope list_scope.

(** ** C100 *)

(** C100.  Icdar17KwsEval ends in the same way with the same statistics and
    curves if all coordinates of each document are multiplied by a factor, as
    long as nothing wraps around, and each factor is a power of two or the
    hypotheses have no more than 2^24 cells then; the matches written are the
    resized ones, up to the sign of zero scores. *)
Theorem c100_icdar17 : forall A (T : Trans A) srt rngs show_int show_f64 w w' pn args c refs hyps f s l r l' r', sort_contract srt ->
  command args c -> no_bootstrap c ->
  inputs shaped_text scored_shaped_text w c refs hyps f ->
  inputs shaped_text scored_shaped_text w' c (map (map_event (fun q => q) (resized s)) refs) (map (map_scored (map_event (fun q => q) (resized s))) hyps) f ->
  w_writable w = w_writable w' -> (forall d, documents_of refs hyps d -> 1 <= s d)%Z ->
  (forall r, In r refs -> fits (ev_loc r) /\ fits (resized s (ev_loc r))) ->
  (forall h, In h hyps -> fits (ev_loc (sc_base h)) /\ fits (resized s (ev_loc (sc_base h))) /\
    ((exists n, covers (resized s (ev_loc (sc_base h))) n /\ (n <= 2 ^ 24)%Z) \/ (exists j, (0 <= j)%Z /\ s (db_doc (ev_loc (sc_base h))) = (2 ^ j)%Z))) ->
  icdar17 A T srt rngs show_int show_f64 w pn args = (l, r) -> icdar17 A T srt rngs show_int show_f64 w' pn args = (l', r') ->
  r = r' /\ exists ms log ms' log' rest,
    Forall2 equal_matches (map (map_match (map_event (fun q => q) (resized s)) (map_scored (map_event (fun q => q) (resized s)))) ms) ms' /\
    outputs l = dumped c ms log ++ rest /\ outputs l' = dumped c ms' log' ++ rest.
Proof.
  intros A T srt rngs si sf w w' pn args c refs hyps f s l r l' r' Hs.
  exact (Scale.icdar_resized T srt Hs rngs si sf w w' pn args c refs hyps f s l r l' r').
Qed.
Print Assumptions c100_icdar17.

(** C100.  In particular the statistics are the same. *)
Theorem c100_printed : forall A (T : Trans A) srt rngs show_int show_f64 w w' pn args c refs hyps f s, sort_contract srt ->
  command args c -> no_bootstrap c ->
  inputs shaped_text scored_shaped_text w c refs hyps f ->
  inputs shaped_text scored_shaped_text w' c (map (map_event (fun q => q) (resized s)) refs) (map (map_scored (map_event (fun q => q) (resized s))) hyps) f ->
  w_writable w = w_writable w' -> (forall d, documents_of refs hyps d -> 1 <= s d)%Z ->
  (forall r, In r refs -> fits (ev_loc r) /\ fits (resized s (ev_loc r))) ->
  (forall h, In h hyps -> fits (ev_loc (sc_base h)) /\ fits (resized s (ev_loc (sc_base h))) /\
    ((exists n, covers (resized s (ev_loc (sc_base h))) n /\ (n <= 2 ^ 24)%Z) \/ (exists j, (0 <= j)%Z /\ s (db_doc (ev_loc (sc_base h))) = (2 ^ j)%Z))) ->
  printed (fst (icdar17 A T srt rngs show_int show_f64 w pn args)) = printed (fst (icdar17 A T srt rngs show_int show_f64 w' pn args)).
Proof.
  intros A T srt rngs si sf w w' pn args c refs hyps f s Hs Cm NB I I' Hw Sp Sr Sh.
  destruct (icdar17 A T srt rngs si sf w pn args) as [l r] eqn:E. destruct (icdar17 A T srt rngs si sf w' pn args) as [l' r'] eqn:E'.
  destruct (c100_icdar17 A T srt rngs si sf w w' pn args c refs hyps f s l r l' r' Hs Cm NB I I' Hw Sp Sr Sh E E')
    as (_ & ms & log & ms' & log' & rest & _ & O & O').
  cbn [fst]. rewrite <- (Runs.printed_outputs l), <- (Runs.printed_outputs l'), O, O'.
  rewrite !Runs.printed_app, !Runs.printed_dumped. reflexivity.
Qed.
Print Assumptions c100_printed.

(** One document three times as large, the other one 4096 times: exactly one half
    of the first hypothesis is in the reference. *)
Definition scale_before : world :=
  tie_world (map lit ["a d 0 0 10 10"; "b e 1 2 3 4"]) (map lit ["a d 5 0 10 10 2"; "b d 0 0 3 3 1.5"; "b e 1 2 4 4 1"]).
(** See [scale_before]. *)
Definition scale_after : world :=
  tie_world (map lit ["a d 0 0 30 30"; "b e 4096 8192 12288 16384"]) (map lit ["a d 15 0 30 30 2"; "b d 0 0 9 9 1.5"; "b e 4096 8192 16384 16384 1"]).
(** See [scale_before]. *)
Definition scale_by (d : bytes) : Z := if str_eq (lit "d") d then 3 else 4096.

Example c100_icdar17_case :
  (exists c refs hyps, command (map lit ["r"; "h"]) c /\ no_bootstrap c /\
    let k := map_event (fun q => q) (resized scale_by) in
    inputs shaped_text scored_shaped_text scale_before c refs hyps NoQueries /\
    inputs shaped_text scored_shaped_text scale_after c (map k refs) (map (map_scored k) hyps) NoQueries /\
    w_writable scale_before = w_writable scale_after /\ (forall d, documents_of refs hyps d -> 1 <= scale_by d)%Z /\
    (forall r, In r refs -> fits (ev_loc r) /\ fits (resized scale_by (ev_loc r))) /\
    (forall h, In h hyps -> fits (ev_loc (sc_base h)) /\ fits (resized scale_by (ev_loc (sc_base h))) /\
      ((exists n, covers (resized scale_by (ev_loc (sc_base h))) n /\ (n <= 2 ^ 24)%Z) \/ (exists j, (0 <= j)%Z /\ scale_by (db_doc (ev_loc (sc_base h))) = (2 ^ j)%Z)))) /\
  map (fun w => map snd (firstn 2 (printed (fst (icdar17 QArith_ TQ (@isort) (fun _ => stream (fun _ => O)) (fun _ => []) (fun _ => [])
    w (lit "prog") (map lit ["r"; "h"])))))) [scale_before; scale_after] = [[5 # 6; 3 # 4]; [5 # 6; 3 # 4]]%Q.
Proof.
  split.
  - eexists _, _, _. split; [apply Compute.config_for_ok; vm_compute; reflexivity|]. split; [repeat split|]. cbv zeta.
    split; [apply Compute.icdar_inputs_ok; vm_compute; reflexivity|].
    split; [apply Compute.icdar_inputs_ok; vm_compute; reflexivity|].
    split; [reflexivity|]. split; [intros d _; unfold scale_by; now destruct str_eq|]. split.
    + intros r [<-|[<-|[]]]; split; apply Scorers.fits_intro; easy.
    + intros h [<-|[<-|[<-|[]]]]; (split; [apply Scorers.fits_intro; easy|]); (split; [apply Scorers.fits_intro; easy|]);
        [left|left|right; now exists 12%Z]; eexists; (split; [apply Scorers.covers_intro; [apply Scorers.fits_intro; easy|reflexivity]|easy]).
  - vm_compute. reflexivity.
Qed.

(** A hypothesis of 2^24 - 1 cells and a reference that covers one cell less
    than half of it. *)
Definition scale_odd : world := tie_world (map lit ["a d 0 0 8388607 1"]) (map lit ["a d 0 0 16777215 1 2"]).
(** The same three times as large. *)
Definition scale_odd_3 : world := tie_world (map lit ["a d 0 0 25165821 3"]) (map lit ["a d 0 0 50331645 3 2"]).

(** C100.  Without the bound, rounding can make the difference. *)
Theorem c100_large_refuted : ~ forall srt w w' c refs hyps s, sort_contract srt ->
  let args := map lit ["r"; "h"] in
  command args c -> inputs shaped_text scored_shaped_text w c refs hyps NoQueries ->
  inputs shaped_text scored_shaped_text w' c (map (map_event (fun q => q) (resized s)) refs) (map (map_scored (map_event (fun q => q) (resized s))) hyps) NoQueries ->
  w_writable w = w_writable w' -> (forall d, 1 <= s d)%Z ->
  (forall r, In r refs -> fits (ev_loc r) /\ fits (resized s (ev_loc r))) ->
  (forall h, In h hyps -> fits (ev_loc (sc_base h)) /\ fits (resized s (ev_loc (sc_base h)))) ->
  let run w := icdar17 QArith_ TQ srt (fun _ => stream (fun _ => O)) (fun _ => []) (fun _ => []) w (lit "prog") args in
  printed (fst (run w)) = printed (fst (run w')).
Proof.
  intros K.
  assert (X : exists c refs hyps, let k := map_event (fun q => q) (resized (fun _ => 3%Z)) in
    command (map lit ["r"; "h"]) c /\ inputs shaped_text scored_shaped_text scale_odd c refs hyps NoQueries /\
    inputs shaped_text scored_shaped_text scale_odd_3 c (map k refs) (map (map_scored k) hyps) NoQueries /\
    (forall r, In r refs -> fits (ev_loc r) /\ fits (resized (fun _ => 3%Z) (ev_loc r))) /\
    (forall h, In h hyps -> fits (ev_loc (sc_base h)) /\ fits (resized (fun _ => 3%Z) (ev_loc (sc_base h))))).
  { eexists _, _, _. cbv zeta. split; [apply Compute.config_for_ok; vm_compute; reflexivity|].
    split; [apply Compute.icdar_inputs_ok; vm_compute; reflexivity|]. split; [apply Compute.icdar_inputs_ok; vm_compute; reflexivity|].
    split.
    - intros r [<-|[]]; split; apply Scorers.fits_intro; easy.
    - intros h [<-|[]]; split; apply Scorers.fits_intro; easy. }
  destruct X as (c & refs & hyps & Cm & I & I' & Fr & Fh).
  assert (E := K (@isort) scale_odd scale_odd_3 c refs hyps _ Order.isort_contract Cm I I' eq_refl (fun _ => ltac:(easy)) Fr Fh). clear K.
  cbv zeta in E. apply (f_equal (fun l => map snd (firstn 1 l))) in E. vm_compute in E. discriminate.
Qed.
Print Assumptions c100_large_refuted.
