(** C57-C61: reading event files. *)
From Coq Require Import Ascii String List Bool ZArith Reals Lra.
From Flocq Require Import Core BinarySingleNaN.
From Verif.Model Require Import Cpp Floats Box Events Mapper Stream Reader Output.
From Verif.Spec Require Import Reader.
From Verif.Proofs Require Reader FloatFacts.
Import ListNotations.
Local Open Scope string_scope.
Local Open Scope list_scope.
Local Open Scope Z_scope.

(** ** C57 *)

(** C57.  Events written one per line are read back: boxes in documents. *)
Theorem c57_shaped : forall S (st : S) es old,
  Forall (fun e => word (ev_query e) /\ hashed (ev_query e) = false /\ word (db_doc (ev_loc e)) /\
    u32_box (db_box (ev_loc e))) es ->
  read_stream read_shaped identity_mapper (open_stream (text_of write_shaped es)) old st =
  Ok (ReadRes true es None st).
Proof.
  intros S st es old F.
  rewrite (Reader.format_read _ _ _ _ (map write_shaped es) old st es None fm_shaped).
  - unfold Reader.result. now rewrite Reader.map_all_identity.
  - apply Reader.text_of_lines. revert F. apply Forall_impl. intros e (H1 & _ & H2 & H3).
    apply Reader.write_shaped_no_nl; try apply Reader.word_no_nl; assumption.
  - apply Reader.written_all. revert F. apply Forall_impl.
    intros e (H1 & H & H2 & H3). apply Reader.text_line; [now apply Reader.write_shaped_text|].
    apply Reader.hashed_not. unfold write_shaped, write_event. now rewrite Reader.hashed_app by apply H1.
Qed.
Print Assumptions c57_shaped.

(** C57.  The same for events with a location name. *)
Theorem c57_strings : forall S (st : S) es old,
  Forall (fun e => word (ev_query e) /\ hashed (ev_query e) = false /\ word (ev_loc e)) es ->
  read_stream read_str_event identity_mapper (open_stream (text_of write_str_event es)) old st =
  Ok (ReadRes true es None st).
Proof.
  intros S st es old F.
  rewrite (Reader.format_read _ _ _ _ (map write_str_event es) old st es None fm_str_event).
  - unfold Reader.result. now rewrite Reader.map_all_identity.
  - apply Reader.text_of_lines. revert F. apply Forall_impl. intros e (H1 & _ & H2).
    apply Reader.write_str_event_no_nl; apply Reader.word_no_nl; assumption.
  - apply Reader.written_all. revert F. apply Forall_impl.
    intros e (H1 & H & H2). apply Reader.text_line; [now apply Reader.write_str_event_text|].
    apply Reader.hashed_not. unfold write_str_event, write_event. now rewrite Reader.hashed_app by apply H1.
Qed.
Print Assumptions c57_strings.

(** C57.  The conditions are needed: any other event is not read back. *)
Theorem c57_necessary : forall S (st : S) e old r,
  read_stream read_shaped identity_mapper (open_stream (text_of write_shaped [e])) old st =
    Ok (ReadRes true [e] r st) ->
  word (ev_query e) /\ hashed (ev_query e) = false /\ word (db_doc (ev_loc e)) /\ u32_box (db_box (ev_loc e)).
Proof.
  intros S st e old r H.
  destruct (Reader.read_back _ _ st _ old [e] r fm_shaped H) as (ls & L & EO).
  apply Reader.events_of_text in EO. inversion EO as [|? ? [x X] _]; subst.
  apply Reader.shaped_text_fields in X as (X1 & X2 & X3). split; [exact X1|]. split; [|now split].
  destruct (hashed (ev_query e)) eqn:HQ; [|reflexivity]. exfalso.
  apply (Reader.read_one _ shaped_text st write_shaped e old r fm_shaped) in H.
  - apply H. apply Reader.hashed_true in HQ as [q HQ]. right. exists [], (q ++ sp ++ write_docbox (ev_loc e)).
    split; [|constructor]. unfold write_shaped, write_event. now rewrite HQ.
  - apply Reader.write_shaped_no_nl; try apply Reader.word_no_nl; assumption.
Qed.
Print Assumptions c57_necessary.

(** Two events with coordinates up to the largest. *)
Example c57_case :
  let es := [Event (lit "q1") (DocBox (lit "doc#2") (Box 0 7 4294967295 10));
             Event (lit "+") (DocBox (lit "-1") (Box 12 34 56 78))] in
  Forall (fun e => word (ev_query e) /\ hashed (ev_query e) = false /\ word (db_doc (ev_loc e)) /\
    u32_box (db_box (ev_loc e))) es /\
  text_of write_shaped es = lit "q1 doc#2 0 7 4294967295 10" ++ [ascii_of_N 10] ++ lit "+ -1 12 34 56 78" ++ [ascii_of_N 10] /\
  read_stream read_shaped identity_mapper (open_stream (text_of write_shaped es)) [] tt = Ok (ReadRes true es None tt).
Proof.
  split; [|split; vm_compute; reflexivity].
  assert (W : forall b, b <> [] -> forallb (fun c => negb (is_space c)) b = true -> word b).
  { intros b N H. split; [exact N|]. apply Forall_forall. intros c I. rewrite forallb_forall in H.
    apply Reader.is_space_false. specialize (H c I). now destruct (is_space c). }
  apply Forall_cons; [|apply Forall_cons; [|constructor]].
  - split; [now apply W|]. split; [reflexivity|]. split; [now apply W|]. repeat split; discriminate.
  - split; [now apply W|]. split; [reflexivity|]. split; [now apply W|]. repeat split; discriminate.
Qed.

(** ** C58 *)

(** Two reads with the same result except for the line number reported. *)
Definition same_read {E S} (r r' : outcome (read_res (E2 := E) (S := S))) : Prop :=
  match r, r' with
  | Ok a, Ok b => rr_ok a = rr_ok b /\ rr_events a = rr_events b /\ rr_state a = rr_state b
  | UB, UB => True
  | Throw x, Throw y => x = y
  | _, _ => False
  end.

(** C58.  Files that differ in comments, blank lines and white space at the
    ends of lines (which includes CR) are read in the same way. *)
Theorem c58_layout : forall E E2 S rd (text : bytes -> E -> Prop) (m : S -> E -> outcome (E2 * S)) b b' ls ls' old old' st,
  format rd text -> file_lines b ls -> file_lines b' ls' -> same_lines ls ls' ->
  same_read (read_stream rd m (open_stream b) old st) (read_stream rd m (open_stream b') old' st).
Proof.
  intros E E2 S rd text m b b' ls ls' old old' st F L L' SL.
  destruct (Reader.format_events rd text 1 ls F) as (es & bad & EO).
  destruct (Reader.format_events rd text 1 ls' F) as (es' & bad' & EO').
  rewrite (Reader.format_read rd text m b ls old st es bad F L EO).
  rewrite (Reader.format_read rd text m b' ls' old' st es' bad' F L' EO').
  destruct (Reader.format_same rd text ls ls' 1 1 es bad es' bad' F SL EO EO') as [<- K].
  unfold Reader.result. destruct (map_all m st es) as [[l st']| |x]; simpl; try reflexivity.
  repeat split. now destruct bad, bad'.
Qed.
Print Assumptions c58_layout.

(** C58.  The newline at the end of the file makes no difference at all. *)
Theorem c58_last_newline : forall E E2 S rd (text : bytes -> E -> Prop) (m : S -> E -> outcome (E2 * S)) b old old' st,
  format rd text -> b <> [] -> (forall x, b <> x ++ [ascii_of_N 10]) ->
  read_stream rd m (open_stream (b ++ [ascii_of_N 10])) old' st = read_stream rd m (open_stream b) old st.
Proof.
  intros E E2 S rd text m b old old' st F NE NX.
  destruct (Reader.file_lines_exists b) as [ls L].
  destruct (Reader.format_events rd text 1 ls F) as (es & bad & EO).
  rewrite (Reader.format_read rd text m b ls old st es bad F L EO).
  exact (Reader.format_read rd text m _ ls old' st es bad F (Reader.file_lines_newline b ls L NE NX) EO).
Qed.
Print Assumptions c58_last_newline.

(** A line with CR and an indented comment after it. *)
Example c58_case :
  let cr := ascii_of_N 13 in
  let l1 := lit "q d 1 2 3 4" in let l2 := lit " q d 1 2 3 4 " ++ [cr] in let l3 := lit "  # a comment" in
  file_lines (l1 ++ ascii_of_N 10 :: l1) [l1; l1] /\ file_lines (l2 ++ ascii_of_N 10 :: l3 ++ ascii_of_N 10 :: l1) [l2; l3; l1] /\
  same_lines [l1; l1] [l2; l3; l1] /\
  read_stream read_shaped identity_mapper (open_stream (l2 ++ ascii_of_N 10 :: l3 ++ ascii_of_N 10 :: l1)) [] tt =
    Ok (ReadRes true [Event (lit "q") (DocBox (lit "d") (Box 1 2 3 4)); Event (lit "q") (DocBox (lit "d") (Box 1 2 3 4))] None tt).
Proof.
  assert (N : forall b, forallb (fun c => negb (Ascii.eqb c (ascii_of_N 10))) b = true -> ~ In (ascii_of_N 10) b).
  { intros b H I. rewrite forallb_forall in H. specialize (H _ I). now rewrite Ascii.eqb_refl in H. }
  assert (W : forall b, forallb is_space b = true -> white b).
  { intros b H. apply Forall_forall. intros c I. rewrite forallb_forall in H. now apply Reader.is_space_iff, H. }
  intros cr l1 l2 l3. split; [|split; [|split; [|vm_compute; reflexivity]]].
  - apply fl_line; [now apply N|]. apply fl_last; [discriminate|now apply N].
  - apply fl_line; [now apply N|]. apply fl_line; [now apply N|]. apply fl_last; [discriminate|now apply N].
  - apply sl_line.
    + exists [], [], l1, (lit " "), (lit " " ++ [cr]). repeat split; (now apply W) || constructor.
    + apply sl_skip_r; [right; exists (lit "  "), (lit " a comment"); split; [reflexivity|now apply W]|].
      apply sl_line; [|constructor]. exists [], [], l1, [], []. repeat split; constructor.
Qed.

(** ** C59 *)

(** C59.  What is read from a file: the events of the lines before the
    first line that is no event, mapped one after the other; the read
    succeeds if there is no such line and reports its number otherwise.
    Whatever the vector contained before is gone. *)
Theorem c59_result : forall E E2 S rd (text : bytes -> E -> Prop) (m : S -> E -> outcome (E2 * S)) b ls old st es bad,
  format rd text -> file_lines b ls -> events_of text 1 ls es bad ->
  read_stream rd m (open_stream b) old st =
  match map_all m st es with
  | Ok (l, st') => Ok (ReadRes (match bad with None => true | Some _ => false end) l bad st')
  | UB => UB
  | Throw x => Throw x
  end.
Proof. intros E E2 S rd text m b ls old st es bad. apply Reader.format_read. Qed.
Print Assumptions c59_result.

(** C59.  This covers every file, in one way. *)
Theorem c59_every_file : forall E rd (text : bytes -> E -> Prop) b, format rd text ->
  (exists! ls, file_lines b ls) /\
  (forall ls, exists es bad, events_of text 1 ls es bad) /\
  (forall ls es bad es' bad', events_of text 1 ls es bad -> events_of text 1 ls es' bad' -> es = es' /\ bad = bad').
Proof.
  intros E rd text b F. split; [|split].
  - destruct (Reader.file_lines_exists b) as [ls L]. exists ls. split; [exact L|].
    intros ls'. now apply Reader.file_lines_fun.
  - intros ls. now apply (Reader.format_events rd text 1 ls).
  - intros ls es bad es' bad'. now apply (Reader.format_events_fun rd text).
Qed.
Print Assumptions c59_every_file.

(** C59.  The read succeeds iff every line that is not blank or a comment
    is an event. *)
Theorem c59_success : forall E E2 S rd (text : bytes -> E -> Prop) (m : S -> E -> outcome (E2 * S)) b ls old st r,
  format rd text -> file_lines b ls -> read_stream rd m (open_stream b) old st = Ok r ->
  (rr_ok r = true <-> Forall (fun l => no_event l \/ exists e, event_line text l e) ls).
Proof.
  intros E E2 S rd text m b ls old st r F L H.
  destruct (Reader.format_events rd text 1 ls F) as (es & bad & EO).
  rewrite (Reader.format_read rd text m b ls old st es bad F L EO) in H. unfold Reader.result in H.
  rewrite <- (Reader.events_of_bad text 1 ls es bad EO).
  destruct (map_all m st es) as [[l st']| |x]; try discriminate. injection H as <-. simpl. destruct bad; easy.
Qed.
Print Assumptions c59_success.

(** C59.  A file that cannot be opened fails the read, but leaves the
    earlier events in place. *)
Theorem c59_unopened_refuted : forall E E2 S (rd : istream -> E * istream) (m : S -> E -> outcome (E2 * S)) old st,
  read_file rd m None old st = Ok (ReadRes false old None st).
Proof. reflexivity. Qed.
Print Assumptions c59_unopened_refuted.

(** The third line lacks a coordinate; the second one has no white space
    between its numbers. *)
Example c59_case :
  let l1 := lit "q d 1 2 3 4" in let l2 := lit "q d 1+2-3+4" in let l3 := lit "q d 1 2 3" in
  file_lines (l1 ++ ascii_of_N 10 :: l2 ++ ascii_of_N 10 :: l3 ++ ascii_of_N 10 :: l1) [l1; l2; l3; l1] /\
  read_stream read_shaped identity_mapper
    (open_stream (l1 ++ ascii_of_N 10 :: l2 ++ ascii_of_N 10 :: l3 ++ ascii_of_N 10 :: l1)) [Event [] (DocBox [] (Box 0 0 0 0))] tt =
  Ok (ReadRes false [Event (lit "q") (DocBox (lit "d") (Box 1 2 3 4)); Event (lit "q") (DocBox (lit "d") (Box 1 2 4294967293 4))]
    (Some 3%nat) tt).
Proof.
  assert (N : forall b, forallb (fun c => negb (Ascii.eqb c (ascii_of_N 10))) b = true -> ~ In (ascii_of_N 10) b).
  { intros b H I. rewrite forallb_forall in H. specialize (H _ I). now rewrite Ascii.eqb_refl in H. }
  intros l1 l2 l3. split; [|vm_compute; reflexivity].
  apply fl_line; [now apply N|]. apply fl_line; [now apply N|]. apply fl_line; [now apply N|].
  apply fl_last; [discriminate|now apply N].
Qed.

(** ** C60 *)

(** C60.  A score read is finite: the float nearest to the decimal number
    in the text. *)
Theorem c60_value : forall s v s', read_f32 s = (v, s') -> is_fail s' = false ->
  exists i x rest neg m e, is_buf s = i ++ x ++ rest /\ is_buf s' = rest /\ white i /\ decimal_text x neg m e /\
    is_finite v = true /\ B2R v = nearest_f32 (decimal_value neg m e).
Proof.
  intros s v s' H F. destruct (Reader.rd_sound _ _ _ _ Reader.reads_score s v s' H F) as (i & x & rest & -> & -> & W & X & _).
  destruct X as (neg & m & e & D & FV & _ & BV). now exists i, x, rest, neg, m, e.
Qed.
Print Assumptions c60_value.

(** C60.  Larger numbers are never read as smaller scores. *)
Theorem c60_monotone : forall b neg m e v b' neg' m' e' v' t t',
  decimal_text b neg m e -> decimal_text b' neg' m' e' ->
  (decimal_value neg m e <= decimal_value neg' m' e')%R ->
  read_f32 (open_stream b) = (v, t) -> is_fail t = false ->
  read_f32 (open_stream b') = (v', t') -> is_fail t' = false ->
  f32_lt v' v = false.
Proof.
  intros b neg m e v b' neg' m' e' v' t t' D D' H R1 F1 R2 F2.
  assert (K : forall b neg m e v t, decimal_text b neg m e -> read_f32 (open_stream b) = (v, t) -> is_fail t = false ->
    is_finite v = true /\ B2R v = nearest_f32 (decimal_value neg m e)).
  { clear. intros b neg m e v t D R F.
    pose proof (Reader.decimal_nonneg _ _ _ _ D) as POS.
    pose proof (Reader.of_decimal_correct 24 128 prec32 emax32 neg m e POS) as OD. cbv zeta in OD.
    rewrite <- Reader.f32_fexp in OD. destruct (Rlt_bool_spec (Rabs (nearest_f32 (decimal_value neg m e))) (bpow radix2 128)) as [L|G].
    - destruct OD as (O1 & O2 & O3).
      assert (X : score_text b (of_decimal 24 128 neg m e)) by (exists neg, m, e; now repeat split).
      pose proof (Reader.rd_comp _ _ _ _ Reader.reads_score [] b [] _ ltac:(constructor) X (Reader.head_not_nil _)) as C.
      simpl in C. rewrite app_nil_r in C. rewrite C in R. injection R as <- _. now split.
    - pose proof (Reader.read_f32_overflow [] b [] neg m e ltac:(constructor) D (Reader.head_not_nil _) G) as C.
      simpl in C. rewrite app_nil_r, R in C. simpl in C. congruence. }
  destruct (K _ _ _ _ _ _ D R1 F1) as [FV BV]. destruct (K _ _ _ _ _ _ D' R2 F2) as [FV' BV'].
  pose proof (Reader.scores_monotone neg m e neg' m' e' v v' b b' D D' H BV BV') as LE.
  destruct (f32_lt v' v) eqn:LT; [|reflexivity]. apply FloatFacts.f32_lt_R in LT; try assumption. lra.
Qed.
Print Assumptions c60_monotone.

(** C60.  A number that rounds to infinity is refused. *)
Theorem c60_too_large : forall i x neg m e, white i -> decimal_text x neg m e ->
  (bpow radix2 128 <= Rabs (nearest_f32 (decimal_value neg m e)))%R ->
  is_fail (snd (read_f32 (open_stream (i ++ x)))) = true.
Proof.
  intros i x neg m e W D H. rewrite <- (app_nil_r x).
  apply (Reader.read_f32_overflow i x [] neg m e W D (Reader.head_not_nil _) H).
Qed.
Print Assumptions c60_too_large.

(** C60.  So every event read has a finite score. *)
Theorem c60_events : forall S b (st : S),
  (forall old r, read_stream (read_scored read_shaped) identity_mapper (open_stream b) old st = Ok r ->
     Forall (fun e => is_finite (sc_score e) = true) (rr_events r)) /\
  (forall old r, read_stream (read_scored read_str_event) identity_mapper (open_stream b) old st = Ok r ->
     Forall (fun e => is_finite (sc_score e) = true) (rr_events r)).
Proof.
  assert (K : forall S b (st : S) E rd (text : bytes -> scored E -> Prop) old r, format rd text ->
    (forall x e, text x e -> is_finite (sc_score e) = true) ->
    read_stream rd identity_mapper (open_stream b) old st = Ok r ->
    Forall (fun e => is_finite (sc_score e) = true) (rr_events r)).
  { intros S b st E rd text old r F KT H. destruct (Reader.file_lines_exists b) as [ls L].
    destruct (Reader.format_events rd text 1 ls F) as (es & bad & EO).
    rewrite (Reader.format_read rd text identity_mapper b ls old st es bad F L EO) in H.
    unfold Reader.result in H. rewrite Reader.map_all_identity in H. injection H as <-. simpl.
    apply Reader.events_of_text in EO. revert EO. apply Forall_impl. intros e [x X]. apply (KT x e X). }
  intros S b st. split; intros old r H; revert H; eapply K.
  - apply fm_scored_shaped.
  - intros x e (l & g & t & _ & _ & _ & (neg & m & ex & _ & FV & _)). exact FV.
  - apply fm_scored_str_event.
  - intros x e (l & g & t & _ & _ & _ & _ & (neg & m & ex & _ & FV & _)). exact FV.
Qed.
Print Assumptions c60_events.

(** Scores that are read, and some that are refused.  A point right after
    the last coordinate begins the score. *)
Example c60_case :
  let ok b := negb (is_fail (snd (read_f32 (open_stream (lit b))))) in
  let val b := B2SF (fst (read_f32 (open_stream (lit b)))) in
  map ok ["0.5"; "-.25e1"; "7."; "1e-60"; "3.4028235e38"; "nan"; "inf"; "1e39"; "."; "1e"; "-"] =
    [true; true; true; true; true; false; false; false; false; false; false] /\
  map val ["0.5"; "-.25e1"; "7."] = map B2SF [f32_half; f32_div (f32_of_Z (-5)) (f32_of_Z 2); f32_of_Z 7] /\
  (exists m e, decimal_text (lit "-.25e1") true m e /\ m = 25 /\ e = -1) /\
  read_line (read_scored read_shaped) (lit "q d 1 2 3 4.5") =
    LEvent (Scored (Event (lit "q") (DocBox (lit "d") (Box 1 2 3 4))) (fst (read_f32 (open_stream (lit ".5"))))).
Proof.
  split; [vm_compute; reflexivity|]. split; [vm_compute; reflexivity|]. split.
  - exists 25, (-1). split; [|now split].
    exists (lit "-"), [], (lit ".25"), (lit "e1"), 1. split; [reflexivity|]. split; [constructor|]. split.
    + exists (lit "25"). split; [now right|]. split; [|reflexivity].
      apply (nm_more (lit "2") 2 "5"%char 5); [apply nm_one|]; repeat split; discriminate.
    + right. exists "e"%char, [], false, (lit "1"), 1. split; [reflexivity|]. split; [now left|]. split; [constructor|].
      split; [apply nm_one; repeat split; discriminate|reflexivity].
  - vm_compute. reflexivity.
Qed.

(** ** C61 *)

(** C61.  Events whose query begins with # are written and then dropped
    without complaint on reading. *)
Theorem c61_hash_refuted : forall S (st : S) es old,
  Forall (fun e => word (ev_query e) /\ word (db_doc (ev_loc e)) /\ u32_box (db_box (ev_loc e))) es ->
  read_stream read_shaped identity_mapper (open_stream (text_of write_shaped es)) old st =
  Ok (ReadRes true (filter (fun e => negb (hashed (ev_query e))) es) None st).
Proof.
  intros S st es old F.
  rewrite (Reader.format_read _ _ _ _ (map write_shaped es) old st (filter (fun e => negb (hashed (ev_query e))) es) None fm_shaped).
  - unfold Reader.result. now rewrite Reader.map_all_identity.
  - apply Reader.text_of_lines. revert F. apply Forall_impl. intros e (H1 & H2 & H3).
    apply Reader.write_shaped_no_nl; try apply Reader.word_no_nl; assumption.
  - apply (Reader.written_events shaped_text write_shaped (fun e => hashed (ev_query e))). revert F. apply Forall_impl.
    intros e (H1 & H2 & H3). destruct (hashed (ev_query e)) eqn:H.
    + apply Reader.hashed_true in H as [q H]. exists (q ++ sp ++ write_docbox (ev_loc e)).
      unfold write_shaped, write_event. now rewrite H.
    + apply Reader.text_line; [now apply Reader.write_shaped_text|].
      apply Reader.hashed_not. unfold write_shaped, write_event. now rewrite Reader.hashed_app by apply H1.
Qed.
Print Assumptions c61_hash_refuted.

(** The same for events with a location name. *)
Theorem c61_hash_strings_refuted : forall S (st : S) es old,
  Forall (fun e => word (ev_query e) /\ word (ev_loc e)) es ->
  read_stream read_str_event identity_mapper (open_stream (text_of write_str_event es)) old st =
  Ok (ReadRes true (filter (fun e => negb (hashed (ev_query e))) es) None st).
Proof.
  intros S st es old F.
  rewrite (Reader.format_read _ _ _ _ (map write_str_event es) old st (filter (fun e => negb (hashed (ev_query e))) es) None fm_str_event).
  - unfold Reader.result. now rewrite Reader.map_all_identity.
  - apply Reader.text_of_lines. revert F. apply Forall_impl. intros e (H1 & H2).
    apply Reader.write_str_event_no_nl; apply Reader.word_no_nl; assumption.
  - apply (Reader.written_events str_event_text write_str_event (fun e => hashed (ev_query e))). revert F. apply Forall_impl.
    intros e (H1 & H2). destruct (hashed (ev_query e)) eqn:H.
    + apply Reader.hashed_true in H as [q H]. exists (q ++ sp ++ ev_loc e).
      unfold write_str_event, write_event. now rewrite H.
    + apply Reader.text_line; [now apply Reader.write_str_event_text|].
      apply Reader.hashed_not. unfold write_str_event, write_event. now rewrite Reader.hashed_app by apply H1.
Qed.
Print Assumptions c61_hash_strings_refuted.

Example c61_case :
  let e := Event (lit "#hashtag") (DocBox (lit "d") (Box 1 2 3 4)) in
  let e' := Event (lit "q#") (DocBox (lit "#d") (Box 1 2 3 4)) in
  read_stream read_shaped identity_mapper (open_stream (text_of write_shaped [e; e'; e])) [] tt = Ok (ReadRes true [e'] None tt).
Proof. vm_compute. reflexivity. Qed.
