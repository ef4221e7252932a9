(** Facts about reading events. *)
From Coq Require Import Ascii String List Bool ZArith NArith Lia Reals Lra.
From Flocq Require Import Core BinarySingleNaN Calc.Div.
From Verif.Model Require Import Cpp Floats Box Events Mapper Stream Reader Output.
From Verif.Spec Require Import Reader.
Import ListNotations.
Local Open Scope list_scope.
Local Open Scope Z_scope.

(** ** Characters *)

Lemma is_space_iff c : is_space c = true <-> white_char c.
Proof.
  unfold is_space, white_char, code. generalize (N_of_ascii c). intros n.
  rewrite orb_true_iff, andb_true_iff, N.eqb_eq, !N.leb_le. simpl. lia.
Qed.

Lemma is_space_false c : is_space c = false <-> ~ white_char c.
Proof. rewrite <- is_space_iff. now destruct (is_space c). Qed.

Lemma is_digit_iff c : is_digit c = true <-> digit_is c (digit_val c).
Proof.
  unfold is_digit, digit_is, digit_val, code. generalize (N_of_ascii c). intros n.
  rewrite andb_true_iff, !N.leb_le. lia.
Qed.

Lemma digit_is_val c d : digit_is c d -> digit_val c = d.
Proof. unfold digit_is, digit_val, code. lia. Qed.

Lemma digit_is_digit c d : digit_is c d -> is_digit c = true.
Proof. intros H. apply is_digit_iff. now rewrite (digit_is_val _ _ H). Qed.

Lemma is_digit_false c : is_digit c = false <-> forall d, ~ digit_is c d.
Proof.
  split.
  - intros H d K. apply digit_is_digit in K. congruence.
  - intros H. destruct (is_digit c) eqn:E; [|easy]. apply is_digit_iff in E. now apply H in E.
Qed.

Lemma digit_not_white c d : digit_is c d -> ~ white_char c.
Proof. unfold digit_is, white_char. generalize (N_of_ascii c). intros n H. simpl. lia. Qed.

Lemma white_char_dec c : {white_char c} + {~ white_char c}.
Proof. destruct (is_space c) eqn:E; [left; now apply is_space_iff|right; now apply is_space_false]. Qed.

(** No character at the beginning with some property. *)
Definition head_not (P : ascii -> Prop) (b : bytes) : Prop := forall c t, b = c :: t -> ~ P c.

Lemma head_not_nil P : head_not P [].
Proof. intros c t H. discriminate. Qed.

Lemma head_not_app P x r : x <> [] -> head_not P x -> head_not P (x ++ r).
Proof. destruct x as [|c x]; [easy|]. intros _ H d t E. injection E as <- _. now apply (H c x). Qed.

Lemma head_not_cons (P : ascii -> Prop) c t : ~ P c -> head_not P (c :: t).
Proof. intros H d t' E. now injection E as <- _. Qed.

Lemma head_not_app_inv P x r : x <> [] -> head_not P (x ++ r) -> head_not P x.
Proof. destruct x as [|c x]; [easy|]. intros _ H. apply head_not_cons. now apply (H c (x ++ r)). Qed.

(** ** Scanning *)

Lemma skip_ws_split b : exists i, b = i ++ skip_ws b /\ white i /\ head_not white_char (skip_ws b).
Proof.
  induction b as [|c b [i (E & W & H)]]; simpl.
  - exists []. repeat split; [constructor|apply head_not_nil].
  - destruct (is_space c) eqn:S.
    + exists (c :: i). simpl. split; [now f_equal|]. split; [|exact H].
      constructor; [now apply is_space_iff|exact W].
    + exists []. repeat split; [constructor|]. apply head_not_cons. now apply is_space_false.
Qed.

Lemma skip_ws_app i r : white i -> head_not white_char r -> skip_ws (i ++ r) = r.
Proof.
  intros W H. induction W as [|c i Hc W IH]; simpl.
  - destruct r as [|c r]; [easy|]. simpl.
    now rewrite (proj2 (is_space_false c)) by now apply (H c r).
  - now rewrite (proj2 (is_space_iff c)).
Qed.

Lemma skip_ws_white i : white i -> skip_ws i = [].
Proof. intros W. rewrite <- (app_nil_r i). apply skip_ws_app; [exact W|apply head_not_nil]. Qed.

Lemma span_nonspace_split b : let '(w, r) := span_nonspace b in
  b = w ++ r /\ Forall (fun c => ~ white_char c) w /\ head_not (fun c => ~ white_char c) r.
Proof.
  induction b as [|c b IH]; simpl.
  - repeat split; [constructor|apply head_not_nil].
  - destruct (is_space c) eqn:S.
    + repeat split; [constructor|]. apply head_not_cons. apply is_space_iff in S. tauto.
    + destruct (span_nonspace b) as [w r]. destruct IH as (E & W & H). simpl.
      split; [now f_equal|]. split; [|exact H]. constructor; [now apply is_space_false|exact W].
Qed.

Lemma span_nonspace_app w r : Forall (fun c => ~ white_char c) w -> head_not (fun c => ~ white_char c) r ->
  span_nonspace (w ++ r) = (w, r).
Proof.
  intros W H. induction W as [|c w Hc W IH]; simpl.
  - destruct r as [|c r]; [easy|]. simpl. destruct (is_space c) eqn:S; [easy|].
    apply is_space_false in S. now destruct (H c r eq_refl).
  - rewrite (proj2 (is_space_false c)) by exact Hc. now rewrite IH.
Qed.

Definition digit_char_p (c : ascii) : Prop := exists d, digit_is c d.

Lemma digit_char_p_iff c : digit_char_p c <-> is_digit c = true.
Proof. split; [intros [d H]; eapply digit_is_digit, H|]. intros H. exists (digit_val c). now apply is_digit_iff. Qed.

Lemma span_digits_split b : let '(w, r) := span_digits b in
  b = w ++ r /\ Forall digit_char_p w /\ head_not digit_char_p r.
Proof.
  induction b as [|c b IH]; simpl.
  - repeat split; [constructor|apply head_not_nil].
  - destruct (is_digit c) eqn:S.
    + destruct (span_digits b) as [w r]. destruct IH as (E & W & H). simpl.
      split; [now f_equal|]. split; [|exact H]. constructor; [now apply digit_char_p_iff|exact W].
    + repeat split; [constructor|]. apply head_not_cons. rewrite digit_char_p_iff. congruence.
Qed.

Lemma span_digits_app w r : Forall digit_char_p w -> head_not digit_char_p r ->
  span_digits (w ++ r) = (w, r).
Proof.
  intros W H. induction W as [|c w Hc W IH]; simpl.
  - destruct r as [|c r]; [easy|]. simpl. destruct (is_digit c) eqn:S; [|easy].
    apply digit_char_p_iff in S. now destruct (H c r eq_refl).
  - rewrite (proj1 (digit_char_p_iff c)) by exact Hc. now rewrite IH.
Qed.

(** ** Numbers *)

Lemma digits_val_snoc b c : digits_val (b ++ [c]) = 10 * digits_val b + digit_val c.
Proof. unfold digits_val. now rewrite fold_left_app. Qed.

Lemma numeral_iff b n : numeral b n <-> b <> [] /\ Forall digit_char_p b /\ n = digits_val b.
Proof.
  split.
  - intros H. induction H as [c d H|b n c d H IH K].
    + split; [easy|]. split; [repeat constructor; now exists d|].
      unfold digits_val. simpl. now rewrite (digit_is_val _ _ H).
    + destruct IH as (_ & F & ->). split; [now destruct b|]. split.
      * apply Forall_app. split; [exact F|]. repeat constructor. now exists d.
      * now rewrite digits_val_snoc, (digit_is_val _ _ K).
  - intros (NE & F & ->). induction b as [|c b IH] using rev_ind; [easy|].
    apply Forall_app in F as [F K]. inversion K as [|? ? D _]; subst.
    apply digit_char_p_iff, is_digit_iff in D. rewrite digits_val_snoc.
    destruct b as [|a b].
    + replace (10 * digits_val [] + digit_val c) with (digit_val c) by (unfold digits_val; simpl; lia).
      now constructor.
    + apply nm_more; [|exact D]. apply IH; [easy|exact F].
Qed.

Lemma numeral_nonneg b n : numeral b n -> 0 <= n.
Proof. induction 1 as [c d H|b n c d H IH K]; unfold digit_is in *; lia. Qed.

Lemma read_sign_split b : exists s, b = s ++ snd (read_sign b) /\ sign s (fst (read_sign b)).
Proof.
  destruct b as [|c t]; simpl; [exists []; now split; [|constructor]|].
  destruct (Ascii.eqb_spec c "-"%char) as [->|N1]; [exists ["-"%char]; now split; [|constructor]|].
  destruct (Ascii.eqb_spec c "+"%char) as [->|N2]; [exists ["+"%char]; now split; [|constructor]|].
  exists []. now split; [|constructor].
Qed.

Lemma read_sign_app s neg b : sign s neg -> head_not (fun c => c = "-"%char \/ c = "+"%char) b ->
  read_sign (s ++ b) = (neg, b).
Proof.
  intros S H. inversion S; subst; simpl; try easy.
  destruct b as [|c t]; [easy|]. simpl. specialize (H c t eq_refl).
  destruct (Ascii.eqb_spec c "-"%char); [tauto|]. destruct (Ascii.eqb_spec c "+"%char); [tauto|easy].
Qed.

Lemma digit_not_sign c : digit_char_p c -> ~ (c = "-"%char \/ c = "+"%char).
Proof.
  intros [d [H K]] [->| ->].
  - change (Z.of_N (N_of_ascii "-")) with 45 in K. lia.
  - change (Z.of_N (N_of_ascii "+")) with 43 in K. lia.
Qed.

Lemma digits_head_not (P : ascii -> Prop) b r : (forall c, digit_char_p c -> ~ P c) ->
  b <> [] -> Forall digit_char_p b -> head_not P (b ++ r).
Proof.
  intros I NE F. destruct F as [|c b D F]; [easy|]. apply head_not_cons. now apply I.
Qed.

Lemma sign_nil_or s neg : sign s neg -> s = [] \/ exists c, s = [c] /\ (c = "-"%char \/ c = "+"%char).
Proof. intros H. inversion H; [now left|right; eexists; split; [reflexivity|now right]|right; eexists; split; [reflexivity|now left]]. Qed.

(** ** Streams *)

Definition nilb (b : bytes) : bool := match b with [] => true | _ => false end.
(** The stream after a successful extraction. *)
Definition done (rest : bytes) : istream := IStream rest (nilb rest) false.

(** The reader [rd] extracts the texts of [T]: what follows does not begin
    with a character of [Ps], and it is enough that it does not begin with
    one of [Pc]. *)
Record Reads {A} (rd : istream -> A * istream) (T : bytes -> A -> Prop) (Ps Pc : ascii -> Prop) : Prop := {
  rd_sound : forall s v s', rd s = (v, s') -> is_fail s' = false ->
    exists i x rest, s = open_stream (i ++ x ++ rest) /\ s' = done rest /\ white i /\ T x v /\ head_not Ps rest;
  rd_comp : forall i x rest v, white i -> T x v -> head_not Pc rest ->
    rd (open_stream (i ++ x ++ rest)) = (v, done rest);
  rd_first : forall x v, T x v -> x <> [] /\ head_not white_char x
}.

Lemma sentry_sound s : fst (sentry true s) = true ->
  exists i b, s = open_stream (i ++ b) /\ white i /\ b <> [] /\ head_not white_char b /\
    sentry true s = (true, open_stream b).
Proof.
  destruct s as [b e f]. unfold sentry, is_good. simpl. destruct e, f; simpl; try discriminate.
  destruct (skip_ws_split b) as [i (E & W & H)]. destruct (skip_ws b) as [|c r] eqn:K; [discriminate|].
  intros _. exists i, (c :: r). repeat split; try assumption; try easy. now rewrite E at 1.
Qed.

Lemma sentry_fail s : fst (sentry true s) = false -> is_fail (snd (sentry true s)) = true.
Proof.
  destruct s as [b e f]. unfold sentry, is_good. simpl. destruct e, f; simpl; try easy.
  now destruct (skip_ws b).
Qed.

Lemma sentry_comp i b : white i -> b <> [] -> head_not white_char b ->
  sentry true (open_stream (i ++ b)) = (true, open_stream b).
Proof.
  intros W N H. unfold sentry, is_good. simpl. rewrite (skip_ws_app i b W H). now destruct b.
Qed.

Lemma reads_word : Reads (read_string []) word_text (fun c => ~ white_char c) (fun c => ~ white_char c).
Proof.
  split.
  - intros s v s'. unfold read_string. destruct (sentry true s) as [ok s1] eqn:E.
    destruct ok.
    + destruct (sentry_sound s) as (i & b & -> & W & NE & H & E'); [now rewrite E|].
      rewrite E in E'. injection E' as ->. simpl.
      pose proof (span_nonspace_split b) as K. destruct (span_nonspace b) as [w r].
      destruct K as (K1 & K2 & K3). intros EQ F. injection EQ as <- <-.
      exists i, w, r. rewrite <- K1.
      assert (w <> []) as NW by (destruct w; [discriminate F|easy]).
      split; [easy|]. split; [unfold done, nilb; now destruct w, r|].
      split; [exact W|]. split; [|exact K3]. split; [split; assumption|reflexivity].
    + intros EQ F. injection EQ as <- <-. pose proof (sentry_fail s) as K. rewrite E in K. simpl in K.
      rewrite K in F by reflexivity. discriminate.
  - intros i x rest v W [[NE Fx] ->] H. unfold read_string.
    rewrite sentry_comp.
    + simpl. rewrite (span_nonspace_app x rest Fx H). unfold done, nilb. now destruct x, rest.
    + exact W.
    + now destruct x.
    + destruct Fx as [|c x Hc Fx]; [easy|]. now apply head_not_cons.
  - intros x v [[NE Fx] _]. split; [exact NE|]. destruct Fx as [|c x Hc Fx]; [easy|]. now apply head_not_cons.
Qed.

Lemma reads_u32 : Reads (read_int fmt_u32 true 0) u32_text digit_char_p digit_char_p.
Proof.
  assert (FIRST : forall x v, u32_text x v -> x <> [] /\ head_not white_char x).
  { intros x v (s & neg & ds & n & -> & S & N & _). apply numeral_iff in N as (NE & Fd & _).
    destruct (sign_nil_or _ _ S) as [->|(c & -> & C)]; simpl.
    - split; [exact NE|]. rewrite <- (app_nil_r ds). apply digits_head_not; [|exact NE|exact Fd].
      intros c [d D]. eapply digit_not_white, D.
    - split; [easy|]. apply head_not_cons. destruct C as [->| ->]; unfold white_char; simpl; lia. }
  split; [| |exact FIRST].
  - intros s v s'. unfold read_int. destruct (sentry true s) as [ok s1] eqn:E.
    destruct ok.
    + destruct (sentry_sound s) as (i & b & -> & W & NE & H & E'); [now rewrite E|].
      rewrite E in E'. injection E' as ->. simpl. unfold extract_int.
      destruct (read_sign_split b) as (sg & B & SG). destruct (read_sign b) as [neg b1]. simpl in B, SG.
      pose proof (span_digits_split b1) as K. destruct (span_digits b1) as [ds rest].
      destruct K as (K1 & K2 & K3). destruct ds as [|c ds].
      { intros EQ F. injection EQ as <- <-. discriminate. }
      intros EQ F.
      exists i, (sg ++ c :: ds), rest. rewrite <- app_assoc, <- K1, <- B. split; [easy|].
      assert (N : numeral (c :: ds) (digits_val (c :: ds))) by (apply numeral_iff; repeat split; [easy|exact K2]).
      pose proof (numeral_nonneg _ _ N) as POS.
      cbv beta iota zeta in EQ. simpl if_signed in EQ. simpl if_max in EQ. simpl if_min in EQ.
      destruct neg.
      * destruct (Z.leb_spec (digits_val (c :: ds)) 4294967295) as [LE|GT];
          injection EQ as <- <-; [|discriminate].
        split; [reflexivity|]. split; [exact W|]. split; [|exact K3].
        exists sg, true, (c :: ds), (digits_val (c :: ds)). repeat (split; [easy || exact N || lia|]).
        change (4294967295 + 1) with (2 ^ 32).
        rewrite <- (Z_mod_plus_full (- _) 1 (2 ^ 32)). f_equal. lia.
      * destruct (Z.leb_spec (digits_val (c :: ds)) 4294967295) as [LE|GT];
          injection EQ as <- <-; [|discriminate].
        split; [reflexivity|]. split; [exact W|]. split; [|exact K3].
        exists sg, false, (c :: ds), (digits_val (c :: ds)). repeat (split; [easy || exact N || lia|]). reflexivity.
    + intros EQ F. injection EQ as <- <-. pose proof (sentry_fail s) as K. rewrite E in K. simpl in K.
      rewrite K in F by reflexivity. discriminate.
  - intros i x rest v W TX H. unfold read_int. destruct (FIRST x v TX) as [NE HW].
    rewrite sentry_comp; [|exact W|now destruct x|now apply head_not_app].
    destruct TX as (s & neg & ds & n & -> & S & N & LT & ->).
    pose proof (numeral_nonneg _ _ N) as POS.
    apply numeral_iff in N as (ND & Fd & ->).
    simpl is_buf. unfold extract_int. rewrite <- app_assoc.
    rewrite (read_sign_app s neg (ds ++ rest) S) by (apply digits_head_not; [apply digit_not_sign|exact ND|exact Fd]).
    rewrite (span_digits_app ds rest Fd H). destruct ds as [|c ds]; [easy|].
    cbv beta iota zeta. simpl if_signed. simpl if_max.
    rewrite (proj2 (Z.leb_le _ 4294967295)) by lia. destruct neg; [|reflexivity].
    unfold done, nilb. f_equal. change (4294967295 + 1) with (2 ^ 32).
    rewrite <- (Z_mod_plus_full (- _) 1 (2 ^ 32)). f_equal. lia.
Qed.

(** One reader after the other. *)
Lemma reads_seq {A B C} rd1 (T1 : bytes -> A -> Prop) P1 rd2 (T2 : bytes -> B -> Prop) Ps Pc
  (mk : A -> B -> C) (a : C -> A) (b : C -> B) (T : bytes -> C -> Prop) :
  (forall x y, a (mk x y) = x) -> (forall x y, b (mk x y) = y) -> (forall z, mk (a z) (b z) = z) ->
  Reads rd1 T1 P1 P1 -> Reads rd2 T2 Ps Pc ->
  (forall z v, T z v <-> exists l g r, z = l ++ g ++ r /\ T1 l (a v) /\ white g /\ head_not P1 (g ++ r) /\ T2 r (b v)) ->
  Reads (fun s => let (x, s1) := rd1 s in let (y, s2) := rd2 s1 in (mk x y, s2)) T Ps Pc.
Proof.
  intros Ha Hb Hm R1 R2 HT. split.
  - intros s v s'. destruct (rd1 s) as [x s1] eqn:E1, (rd2 s1) as [y s2] eqn:E2.
    intros EQ F. injection EQ as <- <-.
    destruct (rd_sound _ _ _ _ R2 _ _ _ E2 F) as (i2 & x2 & r2 & -> & -> & W2 & X2 & H2).
    destruct (rd_sound _ _ _ _ R1 _ _ _ E1 eq_refl) as (i1 & x1 & r1 & -> & D & W1 & X1 & H1).
    injection D as <- _. exists i1, (x1 ++ i2 ++ x2), r2.
    split; [now rewrite <- !app_assoc|]. split; [reflexivity|]. split; [exact W1|]. split; [|exact H2].
    apply HT. exists x1, i2, x2. rewrite Ha, Hb. split; [reflexivity|]. split; [exact X1|]. split; [exact W2|].
    split; [|exact X2]. apply (head_not_app_inv P1 _ r2).
    + destruct (rd_first _ _ _ _ R2 _ _ X2) as [K _]. now destruct i2, x2.
    + now rewrite <- app_assoc.
  - intros i x rest v W X H. apply HT in X as (l & g & r & -> & X1 & W2 & G & X2).
    destruct (rd_first _ _ _ _ R2 _ _ X2) as [NE _].
    rewrite <- !app_assoc.
    rewrite (rd_comp _ _ _ _ R1 i l (g ++ r ++ rest) (a v) W X1).
    + replace (done (g ++ r ++ rest)) with (open_stream (g ++ r ++ rest)) by now destruct g, r.
      now rewrite (rd_comp _ _ _ _ R2 g r rest (b v) W2 X2 H), Hm.
    + rewrite app_assoc. apply head_not_app; [now destruct g, r|exact G].
  - intros x v X. apply HT in X as (l & g & r & -> & X1 & _).
    destruct (rd_first _ _ _ _ R1 _ _ X1) as [NE H]. split; [now destruct l|]. now apply head_not_app.
Qed.

(** A gap after a word. *)
Lemma gap_word g r : r <> [] -> head_not white_char r ->
  (white g /\ head_not (fun c => ~ white_char c) (g ++ r) <-> g <> [] /\ white g).
Proof.
  intros NE H. split.
  - intros [W K]. split; [|exact W]. intros ->. simpl in K. destruct r as [|c r]; [easy|].
    destruct (K c r eq_refl). now apply (H c r).
  - intros [N W]. split; [exact W|]. apply head_not_app; [exact N|].
    destruct W as [|c g Hc W]; [easy|]. apply head_not_cons. tauto.
Qed.

(** A gap after a number. *)
Lemma gap_number g r : white g /\ head_not digit_char_p (g ++ r) <-> gap g r.
Proof.
  unfold gap. split; intros [W K]; (split; [exact W|]).
  - intros -> c t d E D. apply (K c t E). now exists d.
  - destruct W as [|c g Hc W].
    + intros c t E [d D]. now apply (K eq_refl c t d E).
    + apply head_not_cons. intros [d D]. now apply digit_not_white in D.
Qed.

Lemma reads_two {A B C} rd1 (T1 : bytes -> A -> Prop) rd2 (T2 : bytes -> B -> Prop) Ps Pc
  (mk : A -> B -> C) (a : C -> A) (b : C -> B) :
  (forall x y, a (mk x y) = x) -> (forall x y, b (mk x y) = y) -> (forall z, mk (a z) (b z) = z) ->
  Reads rd1 T1 (fun c => ~ white_char c) (fun c => ~ white_char c) -> Reads rd2 T2 Ps Pc ->
  Reads (fun s => let (x, s1) := rd1 s in let (y, s2) := rd2 s1 in (mk x y, s2))
    (fun z v => two_texts T1 T2 z (a v) (b v)) Ps Pc.
Proof.
  intros Ha Hb Hm R1 R2. apply (reads_seq rd1 T1 (fun c => ~ white_char c) rd2 T2 Ps Pc mk a b); auto.
  intros z v. unfold two_texts. split; intros (l & g & r & E & X1 & K); exists l, g, r.
  - destruct K as (N & W & X2). destruct (rd_first _ _ _ _ R2 _ _ X2) as [NE HF].
    destruct (proj2 (gap_word g r NE HF) (conj N W)). tauto.
  - destruct K as (W & G & X2). destruct (rd_first _ _ _ _ R2 _ _ X2) as [NE HF].
    destruct (proj1 (gap_word g r NE HF) (conj W G)). tauto.
Qed.

Lemma reads_num {A B C} rd1 (T1 : bytes -> A -> Prop) rd2 (T2 : bytes -> B -> Prop) Ps Pc
  (mk : A -> B -> C) (a : C -> A) (b : C -> B) :
  (forall x y, a (mk x y) = x) -> (forall x y, b (mk x y) = y) -> (forall z, mk (a z) (b z) = z) ->
  Reads rd1 T1 digit_char_p digit_char_p -> Reads rd2 T2 Ps Pc ->
  Reads (fun s => let (x, s1) := rd1 s in let (y, s2) := rd2 s1 in (mk x y, s2))
    (fun z v => exists l g r, z = l ++ g ++ r /\ T1 l (a v) /\ gap g r /\ T2 r (b v)) Ps Pc.
Proof.
  intros Ha Hb Hm R1 R2. apply (reads_seq rd1 T1 digit_char_p rd2 T2 Ps Pc mk a b); auto.
  intros z v. split; intros (l & g & r & E & X1 & K); exists l, g, r.
  - destruct K as (G & X2). apply gap_number in G. tauto.
  - destruct K as (W & G & X2). pose proof (proj1 (gap_number g r) (conj W G)). tauto.
Qed.

Lemma reads_ext {A} rd rd' (T T' : bytes -> A -> Prop) Ps Pc :
  (forall s, rd s = rd' s) -> (forall b v, T b v <-> T' b v) -> Reads rd T Ps Pc -> Reads rd' T' Ps Pc.
Proof.
  intros E ET [S C F]. split.
  - intros s v s' H K. rewrite <- E in H. destruct (S _ _ _ H K) as (i & x & r & H1 & H2 & H3 & H4 & H5).
    exists i, x, r. rewrite <- ET. tauto.
  - intros i x rest v W X H. rewrite <- E. apply C; [exact W|now apply ET|exact H].
  - intros x v X. apply (F x v). now apply ET.
Qed.

Lemma reads_box : Reads read_box box_text digit_char_p digit_char_p.
Proof.
  pose proof (reads_num _ _ _ _ _ _ pair fst snd ltac:(easy) ltac:(easy) ltac:(now intros [])
    reads_u32 reads_u32) as R2.
  pose proof (reads_num _ _ _ _ _ _ pair fst snd ltac:(easy) ltac:(easy) ltac:(now intros [])
    reads_u32 R2) as R3.
  pose proof (reads_num _ _ _ _ _ _ (fun x p => Box x (fst p) (fst (snd p)) (snd (snd p)))
    bx (fun b => (by_ b, (bw b, bh b))) ltac:(easy) ltac:(now intros x [y [w h]]) ltac:(now intros []) reads_u32 R3) as R4.
  revert R4. apply reads_ext.
  - intros s. unfold read_box. destruct (read_int fmt_u32 true 0 s) as [x s1], (read_int fmt_u32 true 0 s1) as [y s2],
      (read_int fmt_u32 true 0 s2) as [w s3]. now destruct (read_int fmt_u32 true 0 s3) as [h s4].
  - intros b v. unfold box_text. cbn [fst snd]. split.
    + intros (x & g1 & z & -> & X & G1 & y & g2 & z' & -> & Y & G2 & w & g3 & h & -> & Wd & G3 & H).
      exists x, g1, y, g2, w, g3, h. split; [easy|]. split; [exact X|].
      assert (NY : y <> []) by (destruct (rd_first _ _ _ _ reads_u32 _ _ Y); assumption).
      assert (NW : w <> []) by (destruct (rd_first _ _ _ _ reads_u32 _ _ Wd); assumption).
      split; [|split; [exact Y|split; [|tauto]]].
      * destruct G1 as [W1 G1]. split; [exact W1|]. intros E c t d -> D.
        apply (G1 E c (t ++ g2 ++ w ++ g3 ++ h) d); [reflexivity|exact D].
      * destruct G2 as [W1 G2]. split; [exact W1|]. intros E c t d -> D.
        apply (G2 E c (t ++ g3 ++ h) d); [reflexivity|exact D].
    + intros (x & g1 & y & g2 & w & g3 & h & -> & X & G1 & Y & G2 & Wd & G3 & H).
      assert (NY : y <> []) by (destruct (rd_first _ _ _ _ reads_u32 _ _ Y); assumption).
      assert (NW : w <> []) by (destruct (rd_first _ _ _ _ reads_u32 _ _ Wd); assumption).
      exists x, g1, (y ++ g2 ++ w ++ g3 ++ h). split; [easy|]. split; [exact X|]. split.
      * destruct G1 as [W1 G1]. split; [exact W1|]. intros E c t d EQ D. destruct y as [|c' y]; [easy|].
        injection EQ as <- _. now apply (G1 E c' y d).
      * exists y, g2, (w ++ g3 ++ h). split; [easy|]. split; [exact Y|]. split.
        -- destruct G2 as [W1 G2]. split; [exact W1|]. intros E c t d EQ D. destruct w as [|c' w]; [easy|].
           injection EQ as <- _. now apply (G2 E c' w d).
        -- exists w, g3, h. tauto.
Qed.

Lemma reads_docbox : Reads read_docbox docbox_text digit_char_p digit_char_p.
Proof.
  apply (reads_two (read_string []) word_text read_box box_text _ _ DocBox db_doc db_box);
    [easy|easy|now intros []|apply reads_word|apply reads_box].
Qed.

Lemma reads_shaped : Reads read_shaped shaped_text digit_char_p digit_char_p.
Proof.
  apply (reads_two (read_string []) word_text read_docbox docbox_text _ _ Event ev_query ev_loc);
    [easy|easy|now intros []|apply reads_word|apply reads_docbox].
Qed.

Lemma reads_str_event : Reads read_str_event str_event_text (fun c => ~ white_char c) (fun c => ~ white_char c).
Proof.
  apply (reads_two (read_string []) word_text (read_string []) word_text _ _ Event ev_query ev_loc);
    [easy|easy|now intros []|apply reads_word|apply reads_word].
Qed.

(** ** Scores *)

Section Decimal.
  Variables (prec emax : Z).
  Context (Hp : Prec_gt_0 prec) (He : Prec_lt_emax prec emax).
  Notation fexp := (SpecFloat.fexp prec emax).
  Notation rnd := (round radix2 fexp ZnearestE).

  Lemma round_ratio_correct (neg : bool) (n d : positive) :
    let x := ((if neg then -1 else 1) * (IZR (Zpos n) / IZR (Zpos d)))%R in
    let v := round_ratio prec emax neg n d in
    if Rlt_bool (Rabs (rnd x)) (bpow radix2 emax)
    then is_finite v = true /\ Bsign v = neg /\ B2R v = rnd x
    else v = B754_infinity neg.
  Proof.
    intros x v.
    assert (P : (0 < IZR (Zpos n) / IZR (Zpos d))%R).
    { apply Rdiv_lt_0_compat; now apply IZR_lt. }
    assert (EN : F2R (Float radix2 (Zpos n) 0) = IZR (Zpos n)) by (unfold F2R; simpl; ring).
    assert (ED : F2R (Float radix2 (Zpos d) 0) = IZR (Zpos d)) by (unfold F2R; simpl; ring).
    pose proof (Fdiv_correct (beta := radix2) fexp (Float radix2 (Zpos n) 0) (Float radix2 (Zpos d) 0)) as F.
    rewrite EN, ED in F. specialize (F ltac:(now apply IZR_lt) ltac:(now apply IZR_lt)).
    subst v. unfold round_ratio.
    destruct (Fdiv fexp (Float radix2 (Zpos n) 0) (Float radix2 (Zpos d) 0)) as [[m e] l].
    destruct F as [F1 F2].
    assert (AX : Rabs x = (IZR (Zpos n) / IZR (Zpos d))%R).
    { unfold x. rewrite Rabs_mult, (Rabs_pos_eq (_ / _)) by lra. destruct neg.
      - rewrite Rabs_left; lra.
      - rewrite Rabs_pos_eq; lra. }
    assert (NX : (x <> 0)%R) by (intros K; rewrite K, Rabs_R0 in AX; lra).
    assert (SX : Rlt_bool x 0 = neg).
    { unfold x. destruct neg; [apply Rlt_bool_true|apply Rlt_bool_false]; lra. }
    assert (CX : cexp radix2 fexp x = cexp radix2 fexp (IZR (Zpos n) / IZR (Zpos d))).
    { now rewrite <- AX, cexp_abs. }
    pose proof (binary_round_aux_correct' prec emax Hp He mode_NE x m e l NX) as R.
    rewrite AX, CX, SX in R. specialize (R F2 F1). cbv zeta in R. destruct R as [V R].
    destruct (Bool.bool_dec _ true) as [H|H]; [|contradiction].
    change (round_mode mode_NE) with ZnearestE in R.
    destruct (Rlt_bool (Rabs (rnd x)) (bpow radix2 emax)).
    - destruct R as (R1 & R2 & R3).
      now rewrite is_finite_SF2B, Bsign_SF2B, B2R_SF2B.
    - revert V H. rewrite R. unfold binary_overflow. simpl. easy.
  Qed.

  Lemma pow10_pos e : 0 < 10 ^ Z.max e 0.
  Proof. apply Z.pow_pos_nonneg; lia. Qed.

  Lemma pow10_ratio m e :
    (IZR (Zpos (m * Z.to_pos (10 ^ Z.max e 0))) / IZR (Zpos (Z.to_pos (10 ^ Z.max (- e) 0))))%R
    = (IZR (Zpos m) * powerRZ 10 e)%R.
  Proof.
    pose proof (pow10_pos e) as P1. pose proof (pow10_pos (- e)) as P2.
    rewrite Pos2Z.inj_mul, !Z2Pos.id, mult_IZR by assumption. unfold Rdiv. rewrite Rmult_assoc. f_equal.
    destruct e as [|p|p].
    - simpl. field.
    - change (Z.max (Z.pos p) 0) with (Z.pos p). change (Z.max (- Z.pos p) 0) with 0.
      rewrite Z.pow_0_r, Rinv_1, Rmult_1_r. rewrite <- (Z2Nat.id (Z.pos p)) by easy.
      rewrite <- pow_IZR, pow_powerRZ. reflexivity.
    - change (Z.max (Z.neg p) 0) with 0. change (Z.max (- Z.neg p) 0) with (Z.pos p).
      rewrite Z.pow_0_r, Rmult_1_l. unfold powerRZ. f_equal.
      rewrite <- (Z2Nat.id (Z.pos p)) by easy. rewrite <- pow_IZR. reflexivity.
  Qed.

  Lemma of_decimal_correct neg m e : 0 <= m ->
    let x := decimal_value neg m e in
    let v := of_decimal prec emax neg m e in
    if Rlt_bool (Rabs (rnd x)) (bpow radix2 emax)
    then is_finite v = true /\ Bsign v = neg /\ B2R v = rnd x
    else v = B754_infinity neg.
  Proof.
    intros P x v. destruct m as [|m|m]; [| |lia].
    - assert (EX : x = 0%R) by (unfold x, decimal_value; ring).
      rewrite EX, round_0, Rabs_R0 by apply valid_rnd_N. rewrite Rlt_bool_true by apply bpow_gt_0. easy.
    - pose proof (round_ratio_correct neg (m * Z.to_pos (10 ^ Z.max e 0)) (Z.to_pos (10 ^ Z.max (- e) 0))) as R.
      cbv zeta in R. rewrite pow10_ratio in R.
      replace ((if neg then -1 else 1) * (IZR (Z.pos m) * powerRZ 10 e))%R with x in R
        by (unfold x, decimal_value; ring).
      exact R.
  Qed.
End Decimal.

Definition neb (b : bytes) : bool := negb (nilb b).

Lemma scan_mant_true b : forall m f any, scan_mant m f any true b =
  let (ds, r) := span_digits b in
  (fold_left (fun a c => 10 * a + digit_val c) ds m, f + Z.of_nat (List.length ds), any || neb ds, true, r).
Proof.
  induction b as [|c b IH]; intros m f any; simpl.
  - now rewrite orb_false_r, Z.add_0_r.
  - destruct (is_digit c) eqn:D.
    + rewrite IH. destruct (span_digits b) as [ds r]. cbn [fold_left List.length].
      rewrite Nat2Z.inj_succ. replace (f + Z.succ (Z.of_nat (List.length ds))) with (f + 1 + Z.of_nat (List.length ds)) by lia.
      unfold neb. cbn [nilb negb]. now rewrite orb_true_r.
    + rewrite andb_false_r, orb_false_r. simpl. now rewrite Z.add_0_r.
Qed.

Lemma scan_mant_false b : forall m any, scan_mant m 0 any false b =
  let (d1, r1) := span_digits b in
  let m1 := fold_left (fun a c => 10 * a + digit_val c) d1 m in
  match r1 with
  | c :: t =>
      if Ascii.eqb c "."%char then
        let (d2, r2) := span_digits t in
        (fold_left (fun a c => 10 * a + digit_val c) d2 m1, Z.of_nat (List.length d2), any || neb d1 || neb d2, true, r2)
      else (m1, 0, any || neb d1, false, r1)
  | [] => (m1, 0, any || neb d1, false, r1)
  end.
Proof.
  induction b as [|c b IH]; intros m any; simpl.
  - now rewrite orb_false_r.
  - destruct (is_digit c) eqn:D.
    + rewrite IH. destruct (span_digits b) as [ds r]. simpl. now rewrite orb_true_r.
    + simpl. rewrite andb_true_r. destruct (Ascii.eqb c "."%char); [|now rewrite orb_false_r].
      rewrite scan_mant_true. destruct (span_digits b) as [d2 r2]. now rewrite orb_false_r.
Qed.

Definition exp_mark (c : ascii) : Prop := c = "e"%char \/ c = "E"%char.

Lemma scan_float_split b : let '(a, rest) := scan_float b in
  fa_any a && (negb (fa_sci a) || fa_eany a) = true ->
  forall s neg, sign s neg -> exists x, s ++ b = x ++ rest /\ decimal_text x neg (fa_mant a) (fa_exp a - fa_frac a).
Proof.
  unfold scan_float. rewrite scan_mant_false.
  pose proof (span_digits_split b) as K. destruct (span_digits b) as [d1 r1]. destruct K as (-> & F1 & H1).
  assert (EXP : forall fp f rest,
    (fp = [] /\ f = [] \/ fp = "."%char :: f) -> Forall digit_char_p f ->
    let a := FlAcc (digits_val (d1 ++ f)) (Z.of_nat (List.length f)) (neb (d1 ++ f)) (nilb fp) false false 0 in
    let '(a', rest') := match rest with
      | c :: t =>
          if (Ascii.eqb c "e"%char || Ascii.eqb c "E"%char) && neb (d1 ++ f) then
            let (eneg, t1) := read_sign t in
            let (ds, rest') := span_digits t1 in
            (FlAcc (digits_val (d1 ++ f)) (Z.of_nat (List.length f)) (neb (d1 ++ f)) (nilb fp) true
               (match ds with [] => false | _ => true end)
               (if eneg then - digits_val ds else digits_val ds), rest')
          else (a, rest)
      | [] => (a, rest)
      end in
    fa_any a' && (negb (fa_sci a') || fa_eany a') = true ->
    forall s neg, sign s neg -> exists x, s ++ d1 ++ fp ++ rest = x ++ rest' /\
      decimal_text x neg (fa_mant a') (fa_exp a' - fa_frac a')).
  { intros fp f rest FP Ff a.
    assert (MANT : neb (d1 ++ f) = true -> numeral (d1 ++ f) (digits_val (d1 ++ f))).
    { intros N. apply numeral_iff. split; [now destruct (d1 ++ f)|]. split; [|reflexivity].
      now apply Forall_app. }
    assert (STOP : fa_any a && (negb (fa_sci a) || fa_eany a) = true ->
      forall s neg, sign s neg -> exists x, s ++ d1 ++ fp ++ rest = x ++ rest /\
      decimal_text x neg (fa_mant a) (fa_exp a - fa_frac a)).
    { simpl. rewrite andb_true_r. intros N s neg S. exists (s ++ d1 ++ fp). split; [now rewrite <- !app_assoc|].
      exists s, d1, fp, [], 0. rewrite app_nil_r. split; [reflexivity|]. split; [exact S|].
      split; [|now left]. exists f. split; [exact FP|]. split; [now apply MANT|reflexivity]. }
    destruct rest as [|c t]; [exact STOP|].
    destruct ((Ascii.eqb c "e"%char || Ascii.eqb c "E"%char) && neb (d1 ++ f)) eqn:C; [|exact STOP].
    apply andb_prop in C as [C N].
    destruct (read_sign_split t) as (s' & T & S'). destruct (read_sign t) as [neg' t1]. simpl in T, S'.
    pose proof (span_digits_split t1) as K. destruct (span_digits t1) as [ds rest']. destruct K as (E1 & F2 & H2).
    simpl. intros V s neg S. rewrite N in V. simpl in V. destruct ds as [|d ds]; [discriminate|].
    exists (s ++ d1 ++ fp ++ c :: s' ++ d :: ds). rewrite T, E1. split; [now rewrite <- !app_assoc; simpl; rewrite <- !app_assoc|].
    eexists s, d1, fp, (c :: s' ++ d :: ds), _. split; [reflexivity|]. split; [exact S|]. split.
    - exists f. split; [exact FP|]. split; [now apply MANT|reflexivity].
    - right. exists c, s', neg', (d :: ds), (digits_val (d :: ds)). split; [reflexivity|].
      split. { apply orb_prop in C as [C|C]; apply Ascii.eqb_eq in C; auto. }
      split; [exact S'|]. split; [|reflexivity]. apply numeral_iff. now split. }
  destruct r1 as [|c t].
  - specialize (EXP [] [] [] (or_introl (conj eq_refl eq_refl)) ltac:(constructor)). simpl in EXP.
    rewrite !app_nil_r in EXP. rewrite !app_nil_r. simpl. exact EXP.
  - destruct (Ascii.eqb_spec c "."%char) as [->|NC].
    + pose proof (span_digits_split t) as K. destruct (span_digits t) as [d2 r2]. destruct K as (-> & F2 & H2).
      specialize (EXP ("."%char :: d2) d2 r2 (or_intror eq_refl) F2). cbv zeta in EXP.
      assert (E1 : fold_left (fun a c => 10 * a + digit_val c) d2 (fold_left (fun a c => 10 * a + digit_val c) d1 0)
        = digits_val (d1 ++ d2)) by (unfold digits_val; now rewrite fold_left_app).
      assert (E2 : false || neb d1 || neb d2 = neb (d1 ++ d2)) by (destruct d1; reflexivity).
      cbv zeta. rewrite E1, E2. cbn [app] in EXP. cbn [nilb] in EXP.
      destruct r2 as [|c2 t2]; [exact EXP|].
      destruct ((_ || _) && _); [|exact EXP]. now destruct (read_sign t2) as [? t3], (span_digits t3).
    + specialize (EXP [] [] (c :: t) (or_introl (conj eq_refl eq_refl)) ltac:(constructor)). cbv zeta in EXP.
      cbn [nilb] in EXP. rewrite !app_nil_r in EXP. simpl List.length in EXP. simpl Z.of_nat in EXP. cbn [app] in EXP.
      change (fold_left (fun a c0 => 10 * a + digit_val c0) d1 0) with (digits_val d1).
      cbn [orb]. destruct ((_ || _) && neb d1).
      * now destruct (read_sign t) as [? t3], (span_digits t3).
      * exact EXP.
Qed.

Lemma digit_not_dot c : digit_char_p c -> c <> "."%char.
Proof. intros [d [H K]] ->. change (Z.of_N (N_of_ascii ".")) with 46 in K. lia. Qed.

Lemma mark_not_digit c : exp_mark c -> ~ digit_char_p c.
Proof.
  intros [->| ->] [d [H K]].
  - change (Z.of_N (N_of_ascii "e")) with 101 in K. lia.
  - change (Z.of_N (N_of_ascii "E")) with 69 in K. lia.
Qed.

Lemma mark_not_dot c : exp_mark c -> c <> "."%char.
Proof. now intros [->| ->]. Qed.

Lemma white_not_mark c : white_char c -> ~ exp_mark c.
Proof. unfold white_char. intros H [->| ->]; vm_compute in H; intuition discriminate. Qed.

Lemma white_not_dot c : white_char c -> c <> "."%char.
Proof. unfold white_char. intros H ->. vm_compute in H; intuition discriminate. Qed.

Lemma white_not_digit c : white_char c -> ~ digit_char_p c.
Proof. intros W [d D]. now apply digit_not_white in D. Qed.

Lemma stop_head c t rest : head_not (fun c => ~ white_char c) rest -> rest = c :: t -> white_char c.
Proof. intros H ->. destruct (white_char_dec c) as [W|W]; [exact W|]. now destruct (H c t eq_refl). Qed.

Lemma scan_float_app ip fp f x k m rest :
  (fp = [] /\ f = [] \/ fp = "."%char :: f) -> numeral (ip ++ f) m ->
  (x = [] /\ k = 0 \/
   exists c s' neg' ds n, x = c :: s' ++ ds /\ exp_mark c /\ sign s' neg' /\
     numeral ds n /\ k = if neg' then - n else n) ->
  head_not (fun c => ~ white_char c) rest ->
  exists a, scan_float (ip ++ fp ++ x ++ rest) = (a, rest) /\ fa_any a && (negb (fa_sci a) || fa_eany a) = true /\
    fa_mant a = m /\ fa_exp a - fa_frac a = k - Z.of_nat (List.length f).
Proof.
  intros FP NM X H. apply numeral_iff in NM as (NE & FD & ->). apply Forall_app in FD as [F1 F2].
  assert (NB : neb (ip ++ f) = true) by now destruct (ip ++ f).
  (* what follows the digits *)
  assert (HX : forall c t, x ++ rest = c :: t -> exp_mark c \/ white_char c).
  { intros c t E. destruct X as [[-> _]|(c' & s' & neg' & ds & n & -> & M & _)].
    - right. now apply (stop_head c t rest).
    - left. now injection E as <- _. }
  assert (H1 : head_not digit_char_p (x ++ rest)).
  { intros c t E. destruct (HX c t E) as [M|W]; [now apply mark_not_digit|now apply white_not_digit]. }
  assert (H2 : head_not (fun c => c = "."%char) (x ++ rest)).
  { intros c t E. destruct (HX c t E) as [M|W]; [now apply mark_not_dot|now apply white_not_dot]. }
  assert (EXP : forall dot, exists a,
    match x ++ rest with
    | c :: t =>
        if (Ascii.eqb c "e"%char || Ascii.eqb c "E"%char) && true then
          let (eneg, t1) := read_sign t in
          let (ds, rest') := span_digits t1 in
          (FlAcc (digits_val (ip ++ f)) (Z.of_nat (List.length f)) true dot true
             (match ds with [] => false | _ => true end)
             (if eneg then - digits_val ds else digits_val ds), rest')
        else (FlAcc (digits_val (ip ++ f)) (Z.of_nat (List.length f)) true dot false false 0, x ++ rest)
    | [] => (FlAcc (digits_val (ip ++ f)) (Z.of_nat (List.length f)) true dot false false 0, x ++ rest)
    end = (a, rest) /\ fa_any a && (negb (fa_sci a) || fa_eany a) = true /\
    fa_mant a = digits_val (ip ++ f) /\ fa_exp a - fa_frac a = k - Z.of_nat (List.length f)).
  { intros dot. destruct X as [[-> ->]|(c & s' & neg' & ds & n & -> & M & S & N & ->)].
    - eexists. split; [|split; [|split]]; cycle 1.
      + instantiate (1 := FlAcc (digits_val (ip ++ f)) (Z.of_nat (List.length f)) true dot false false 0). reflexivity.
      + reflexivity.
      + reflexivity.
      + simpl. destruct rest as [|c t]; [reflexivity|].
        assert (W : white_char c) by now apply (stop_head c t (c :: t)).
        destruct (Ascii.eqb_spec c "e"%char) as [->|]; [now apply white_not_mark in W; destruct W; left|].
        destruct (Ascii.eqb_spec c "E"%char) as [->|]; [now apply white_not_mark in W; destruct W; right|]. reflexivity.
    - apply numeral_iff in N as (NE' & F' & ->). simpl.
      replace ((c =? "e")%char || (c =? "E")%char) with true by (destruct M as [->| ->]; reflexivity). cbv iota.
      rewrite <- app_assoc.
      rewrite (read_sign_app s' neg' (ds ++ rest) S) by (apply digits_head_not; [apply digit_not_sign|exact NE'|exact F']).
      rewrite (span_digits_app ds rest F') by (intros c' t E; apply white_not_digit; now apply (stop_head c' t rest)).
      eexists. split; [reflexivity|]. simpl. destruct ds; [easy|]. now repeat split. }
  unfold scan_float. rewrite scan_mant_false. destruct FP as [[-> ->]| ->].
  - simpl app. rewrite (span_digits_app ip (x ++ rest) F1 H1). cbv zeta.
    rewrite app_nil_r in *. simpl List.length in *. simpl Z.of_nat in *.
    change (fold_left (fun a c => 10 * a + digit_val c) ip 0) with (digits_val ip).
    cbn [orb]. rewrite NB.
    destruct (EXP false) as (a & E & R). exists a. split; [|exact R]. rewrite <- E.
    destruct (x ++ rest) as [|c t] eqn:XR; [reflexivity|].
    destruct (Ascii.eqb_spec c "."%char) as [->|]; [now destruct (H2 "."%char t)|]. reflexivity.
  - simpl app. rewrite (span_digits_app ip ("."%char :: f ++ x ++ rest) F1)
      by (apply head_not_cons; intros K; now apply digit_not_dot in K).
    cbv zeta. change (Ascii.eqb "." ".") with true. cbv iota.
    rewrite (span_digits_app f (x ++ rest) F2 H1).
    replace (fold_left (fun a c => 10 * a + digit_val c) f (fold_left (fun a c => 10 * a + digit_val c) ip 0))
      with (digits_val (ip ++ f)) by (unfold digits_val; now rewrite fold_left_app).
    replace (false || neb ip || neb f) with (neb (ip ++ f)) by (destruct ip; reflexivity). rewrite NB.
    destruct (EXP true) as (a & E & R). exists a. split; [|exact R]. exact E.
Qed.

Lemma f32_fexp x : nearest_f32 x = round radix2 (SpecFloat.fexp 24 128) ZnearestE x.
Proof. reflexivity. Qed.

Lemma decimal_nonneg b neg m e : decimal_text b neg m e -> 0 <= m.
Proof. intros (s & ip & fp & x & k & _ & _ & (f & _ & N & _) & _). eapply numeral_nonneg, N. Qed.

Lemma decimal_first b neg m e : decimal_text b neg m e -> b <> [] /\ head_not white_char b.
Proof.
  intros (s & ip & fp & x & k & -> & S & (f & FP & N & _) & _).
  destruct (sign_nil_or _ _ S) as [->|(c & -> & C)]; simpl.
  - apply numeral_iff in N as (NE & FD & _). destruct ip as [|c ip].
    + destruct FP as [[_ ->]| ->]; [easy|]. simpl. split; [easy|]. apply head_not_cons.
      intros W. now apply white_not_dot in W.
    + simpl. split; [easy|]. apply head_not_cons. inversion FD; subst. intros W. now apply white_not_digit in W.
  - split; [easy|]. apply head_not_cons. destruct C as [->| ->]; unfold white_char; simpl; lia.
Qed.

Lemma reads_score : Reads read_f32 score_text (fun _ => False) (fun c => ~ white_char c).
Proof.
  split.
  - intros s v s'. unfold read_f32, read_float. destruct (sentry true s) as [ok s1] eqn:E.
    destruct ok.
    + destruct (sentry_sound s) as (i & b & -> & W & NE & H & E'); [now rewrite E|].
      rewrite E in E'. injection E' as ->. simpl is_buf. unfold extract_float.
      destruct (read_sign_split b) as (sg & B & SG). destruct (read_sign b) as [neg b1]. simpl in B, SG.
      pose proof (scan_float_split b1) as K. destruct (scan_float b1) as [a rest].
      destruct (fa_any a && (negb (fa_sci a) || fa_eany a)) eqn:OK;
        [|intros EQ F; injection EQ as <- <-; discriminate].
      destruct (K eq_refl sg neg SG) as (x & XR & D).
      pose proof (decimal_nonneg _ _ _ _ D) as POS.
      pose proof (of_decimal_correct 24 128 prec32 emax32 neg (fa_mant a) (fa_exp a - fa_frac a) POS) as OD.
      cbv zeta in OD. rewrite <- f32_fexp in OD.
      destruct (of_decimal 24 128 neg (fa_mant a) (fa_exp a - fa_frac a)) as [sz|si| |sf mf ef bf] eqn:V;
        intros EQ F; injection EQ as <- <-; try discriminate;
        (destruct (Rlt_bool _ _); [|discriminate]); destruct OD as (O1 & O2 & O3); try discriminate;
        exists i, x, rest; (split; [now rewrite <- XR, <- B|]; split; [reflexivity|]; split; [exact W|]; split;
          [|intros c t _ []]; exists neg, (fa_mant a), (fa_exp a - fa_frac a); now repeat split).
    + intros EQ F. injection EQ as <- <-. pose proof (sentry_fail s) as K. rewrite E in K. simpl in K.
      rewrite K in F by reflexivity. discriminate.
  - intros i x rest v W (neg & m & e & D & FV & SV & RV) H. unfold read_f32, read_float.
    destruct (decimal_first _ _ _ _ D) as [NE HW].
    rewrite sentry_comp; [|exact W|now destruct x|now apply head_not_app].
    pose proof (decimal_nonneg _ _ _ _ D) as POS.
    pose proof (of_decimal_correct 24 128 prec32 emax32 neg m e POS) as OD. cbv zeta in OD. rewrite <- f32_fexp in OD.
    rewrite Rlt_bool_true in OD by (rewrite <- RV; apply abs_B2R_lt_emax).
    destruct OD as (O1 & O2 & O3).
    assert (EV : of_decimal 24 128 neg m e = v) by (apply B2R_Bsign_inj; congruence).
    destruct D as (s & ip & fp & xx & k & -> & S & (f & FP & NM & ->) & X).
    simpl is_buf. unfold extract_float. rewrite <- !app_assoc.
    rewrite (read_sign_app s neg (ip ++ fp ++ xx ++ rest) S).
    + destruct (scan_float_app ip fp f xx k m rest FP NM X H) as (a & -> & OK & EM & EE).
      rewrite OK, EM, EE, EV. destruct v; try discriminate FV; reflexivity.
    + apply numeral_iff in NM as (NN & FD & _). destruct ip as [|c ip].
      * destruct FP as [[_ ->]| ->]; [easy|]. simpl. apply head_not_cons. now intros [?|?].
      * simpl. apply head_not_cons. inversion FD; subst. now apply digit_not_sign.
  - intros x v (neg & m & e & D & _). apply (decimal_first _ _ _ _ D).
Qed.

Lemma reads_scored_shaped : Reads (read_scored read_shaped) scored_shaped_text (fun _ => False) (fun c => ~ white_char c).
Proof.
  apply (reads_num read_shaped shaped_text read_f32 score_text _ _ Scored sc_base sc_score);
    [easy|easy|now intros []|apply reads_shaped|apply reads_score].
Qed.

Lemma reads_scored_str_event :
  Reads (read_scored read_str_event) scored_str_event_text (fun _ => False) (fun c => ~ white_char c).
Proof.
  apply (reads_two read_str_event str_event_text read_f32 score_text _ _ Scored sc_base sc_score);
    [easy|easy|now intros []|apply reads_str_event|apply reads_score].
Qed.

(** ** Lines *)

Lemma open_done b : b <> [] -> open_stream b = done b.
Proof. now destruct b. Qed.

Lemma read_ws_white b : white b -> read_ws (open_stream b) = IStream [] true false.
Proof.
  intros W. unfold read_ws, sentry. change (is_good (open_stream b)) with true. cbv iota beta.
  change (is_buf (open_stream b)) with b. now rewrite (skip_ws_white b W).
Qed.

Section Line.
  Context {E1 : Type}.
  Variables (rd : istream -> E1 * istream) (T : bytes -> E1 -> Prop) (Ps Pc : ascii -> Prop).
  Hypothesis R : Reads rd T Ps Pc.
  Hypothesis Wc : forall c, white_char c -> ~ Pc c.

  Lemma white_ok t : white t -> head_not Pc t.
  Proof. intros W. destruct W as [|c t Hc W]; [apply head_not_nil|]. apply head_not_cons. now apply Wc. Qed.

  (** The two branches of [read_line] in one. *)
  Lemma read_line_alt b : read_line rd b =
    match skip_ws b with
    | [] => LSkip
    | c :: t =>
        if Ascii.eqb c "#"%char then LSkip
        else
          let (e, iss) := rd (open_stream (c :: t)) in
          let iss := if is_eof iss then iss else read_ws iss in
          if is_fail iss || negb (is_eof iss) then LBad else LEvent e
    end.
  Proof.
    unfold read_line, read_ws, sentry. simpl. destruct (skip_ws b) as [|c t]; reflexivity.
  Qed.

  Lemma line_event b e : read_line rd b = LEvent e <-> event_line T b e.
  Proof.
    rewrite read_line_alt. destruct (skip_ws_split b) as (i & EB & W & H). split.
    - destruct (skip_ws b) as [|c t]; [discriminate|].
      destruct (Ascii.eqb_spec c "#"%char) as [->|NC]; [discriminate|].
      destruct (rd (open_stream (c :: t))) as [e' s'] eqn:ER. intros EQ.
      destruct (is_fail s') eqn:FS.
      { exfalso. destruct s' as [r eo fl]. simpl in FS. subst fl. simpl in EQ.
        destruct eo; simpl in EQ; [discriminate|]. unfold read_ws, sentry, is_good in EQ. simpl in EQ. discriminate. }
      destruct (rd_sound _ _ _ _ R _ _ _ ER FS) as (i2 & x & rest & OP & -> & W2 & X & _).
      injection OP as OP.
      assert (i2 = []) as ->.
      { destruct W2 as [|c' i2 Hc W2]; [reflexivity|]. injection OP as <- _. now destruct (H c t). }
      simpl in OP.
      assert (WR : white rest /\ e' = e).
      { destruct rest as [|c' r']; [simpl in EQ; injection EQ as <-; now split; [constructor|]|].
        unfold done, nilb, read_ws, sentry, is_good in EQ. simpl is_eof in EQ. simpl in EQ.
        destruct (skip_ws_split (c' :: r')) as (j & EJ & WJ & _). simpl in EJ.
        destruct (if is_space c' then skip_ws r' else c' :: r') as [|c2 r2]; simpl in EQ; [|discriminate].
        injection EQ as <-. rewrite app_nil_r in EJ. rewrite EJ. now split. }
      destruct WR as [WR <-].
      exists i, x, rest. rewrite EB, OP. repeat (split; [easy || assumption|]).
      intros r ->. injection OP as OP _. contradiction.
    - intros (i' & x & t & -> & Wi & Wt & X & NH).
      destruct (rd_first _ _ _ _ R _ _ X) as [NE HX].
      rewrite skip_ws_app by (assumption || now apply head_not_app).
      destruct x as [|c x]; [easy|]. change ((c :: x) ++ t) with (c :: x ++ t). cbv iota.
      destruct (Ascii.eqb_spec c "#"%char) as [->|NC]; [now destruct (NH x)|].
      pose proof (rd_comp _ _ _ _ R [] (c :: x) t e ltac:(constructor) X (white_ok t Wt)) as C.
      simpl in C. rewrite C. unfold done, nilb. destruct t as [|c' t]; simpl is_eof; cbv iota; [reflexivity|].
      fold (open_stream (c' :: t)). now rewrite (read_ws_white (c' :: t) Wt).
  Qed.

  Lemma line_skip b : read_line rd b = LSkip <-> no_event b.
  Proof.
    rewrite read_line_alt. destruct (skip_ws_split b) as (i & EB & W & H). split.
    - destruct (skip_ws b) as [|c t].
      + intros _. left. now rewrite EB, app_nil_r.
      + destruct (Ascii.eqb_spec c "#"%char) as [->|NC].
        * intros _. right. now exists i, t.
        * destruct (rd (open_stream (c :: t))) as [e' s']. cbv zeta.
          destruct (is_fail _ || _); discriminate.
    - intros [Wb|(j & t & -> & Wj)].
      + now rewrite (skip_ws_white b Wb).
      + rewrite (skip_ws_app j ("#"%char :: t) Wj); [reflexivity|].
        apply head_not_cons. unfold white_char. simpl. lia.
  Qed.

  Lemma line_bad b : read_line rd b = LBad <-> ~ no_event b /\ forall e, ~ event_line T b e.
  Proof.
    pose proof (line_skip b) as KS. split.
    - intros E. split; [rewrite <- KS; congruence|]. intros e. rewrite <- line_event. congruence.
    - intros [N1 N2]. destruct (read_line rd b) as [| |e] eqn:E; [tauto|reflexivity|].
      apply line_event in E. now apply N2 in E.
  Qed.

  Lemma event_line_fun b e e' : event_line T b e -> event_line T b e' -> e = e'.
  Proof. rewrite <- !line_event. congruence. Qed.

  Lemma event_line_not_skip b e : event_line T b e -> ~ no_event b.
  Proof. rewrite <- line_event, <- line_skip. congruence. Qed.

  Lemma events_of_exists ls : forall n, exists es bad, events_of T n ls es bad.
  Proof.
    induction ls as [|l ls IH]; intros n; [exists [], None; constructor|].
    destruct (IH (S n)) as (es & bad & K). destruct (read_line rd l) as [| |e] eqn:E.
    - apply line_skip in E. exists es, bad. now apply eo_skip.
    - apply line_bad in E as [? ?]. exists [], (Some n). now apply eo_bad.
    - apply line_event in E. exists (e :: es), bad. now apply eo_event.
  Qed.

  Lemma events_of_fun n ls es bad es' bad' :
    events_of T n ls es bad -> events_of T n ls es' bad' -> es = es' /\ bad = bad'.
  Proof.
    intros H. revert es' bad'. induction H as [n|n l ls es b K H IH|n l e ls es b K H IH|n l ls K1 K2];
      intros es' bad' H'; inversion H'; subst; auto;
      repeat match goal with
      | A : no_event ?l, B : event_line T ?l ?x |- _ => destruct (event_line_not_skip l x B A)
      | A : no_event ?l, B : ~ no_event ?l |- _ => destruct (B A)
      | A : event_line T ?l ?x, B : forall e, ~ event_line T ?l e |- _ => destruct (B x A)
      end.
    match goal with A : event_line T l ?x, B : events_of T (S n) ls _ _ |- _ =>
      destruct (IH _ _ B) as [<- <-]; rewrite (event_line_fun _ _ _ K A) end.
    now split.
  Qed.
End Line.

(** ** Files *)

Lemma split_at_split d b : match split_at d b with
  | (l, Some r) => b = l ++ d :: r /\ ~ In d l
  | (l, None) => b = l /\ ~ In d l
  end.
Proof.
  induction b as [|c b IH]; simpl; [easy|].
  destruct (Ascii.eqb_spec c d) as [->|N]; [easy|].
  destruct (split_at d b) as [l [r|]]; destruct IH as [-> IH]; (split; [reflexivity|]); intros [K|K]; auto.
Qed.

Lemma split_at_line d l b : ~ In d l -> split_at d (l ++ d :: b) = (l, Some b).
Proof.
  induction l as [|c l IH]; simpl; intros N.
  - now rewrite Ascii.eqb_refl.
  - destruct (Ascii.eqb_spec c d) as [->|NC]; [tauto|]. rewrite IH by tauto. reflexivity.
Qed.

Lemma split_at_none d l : ~ In d l -> split_at d l = (l, None).
Proof.
  induction l as [|c l IH]; simpl; intros N; [reflexivity|].
  destruct (Ascii.eqb_spec c d) as [->|NC]; [tauto|]. now rewrite IH by tauto.
Qed.

Lemma file_lines_exists b : exists ls, file_lines b ls.
Proof.
  assert (K : forall n b, (List.length b <= n)%nat -> exists ls, file_lines b ls).
  { intros n. induction n as [|n IH]; intros b' L.
    - destruct b'; [exists []; constructor|simpl in L; lia].
    - destruct b' as [|c b'']; [exists []; constructor|]. pose proof (split_at_split nl (c :: b'')) as S.
      destruct (split_at nl (c :: b'')) as [l [r|]]; destruct S as [E N].
      + rewrite E. destruct (IH r) as [ls F].
        { apply (f_equal (@List.length ascii)) in E. rewrite app_length in E. simpl in E, L. lia. }
        exists (l :: ls). now apply fl_line.
      + exists [c :: b'']. apply fl_last; [easy|]. now rewrite E. }
  now apply (K (List.length b)).
Qed.

Lemma file_lines_fun b ls ls' : file_lines b ls -> file_lines b ls' -> ls = ls'.
Proof.
  intros H. revert ls'. induction H as [|l NE N|l b ls N H IH]; intros ls' H'.
  - inversion H' as [| |l b ls NL H1 E1]; subst; [reflexivity|easy|now destruct l].
  - inversion H' as [|l' NE' N' E1|l' b ls0 N' H1 E1]; subst; [easy|reflexivity|].
    exfalso. apply N. apply in_app_iff. right. now left.
  - inversion H' as [E1|l' NE' N' E1|l' b' ls0 N' H1 E1]; subst.
    + now destruct l.
    + exfalso. apply N'. apply in_app_iff. right. now left.
    + pose proof (split_at_line nl l b N) as S1. pose proof (split_at_line nl l' b' N') as S2.
      assert (E2 : l' ++ nl :: b' = l ++ nl :: b) by exact E1. rewrite E2, S1 in S2. injection S2 as <- <-. f_equal. now apply IH.
Qed.

Lemma getline_line old l b : ~ In nl l -> getline nl old (open_stream (l ++ nl :: b)) = (l, open_stream b).
Proof.
  intros N. unfold getline, sentry. change (is_good (open_stream (l ++ nl :: b))) with true. cbv iota beta.
  change (is_buf (open_stream (l ++ nl :: b))) with (l ++ nl :: b). rewrite (split_at_line nl l b N). now destruct l.
Qed.

Lemma getline_last old l : l <> [] -> ~ In nl l -> getline nl old (open_stream l) = (l, IStream [] true false).
Proof.
  intros NE N. unfold getline, sentry. change (is_good (open_stream l)) with true. cbv iota beta.
  change (is_buf (open_stream l)) with l. rewrite (split_at_none nl l N). now destruct l.
Qed.

Section File.
  Context {E1 E2 S : Type}.
  Variables (rd : istream -> E1 * istream) (T : bytes -> E1 -> Prop) (Ps Pc : ascii -> Prop).
  Variable m : S -> E1 -> outcome (E2 * S).
  Hypothesis R : Reads rd T Ps Pc.
  Hypothesis Wc : forall c, white_char c -> ~ Pc c.

  Definition result (evs : list E2) (st : S) (es : list E1) (bad : option nat) : outcome read_res :=
    match map_all m st es with
    | Ok (l, st') => Ok (ReadRes (match bad with None => true | Some _ => false end) (evs ++ l) bad st')
    | UB => UB
    | Throw x => Throw x
    end.

  Lemma result_nil evs st : result evs st [] None = Ok (ReadRes true evs None st).
  Proof. unfold result. simpl. now rewrite app_nil_r. Qed.

  Lemma result_cons evs st e es bad :
    result evs st (e :: es) bad =
    obind (m st e) (fun '(e2, st') => result (evs ++ [e2]) st' es bad).
  Proof.
    unfold result. simpl. destruct (m st e) as [[e2 st']| |x]; simpl; try reflexivity.
    destruct (map_all m st' es) as [[l st'']| |x]; try reflexivity. now rewrite <- app_assoc.
  Qed.

  Lemma read_loop_end fuel buff n evs st : read_loop rd m (Datatypes.S fuel) (IStream [] true false) buff n evs st
    = Ok (ReadRes true evs None st).
  Proof. reflexivity. Qed.

  Lemma read_loop_S fuel is buff n evs st : read_loop rd m (Datatypes.S fuel) is buff n evs st =
    let (buff, is) := getline nl buff is in
    if is_fail is then Ok (ReadRes (is_eof is) evs None st)
    else match read_line rd buff with
      | LSkip => read_loop rd m fuel is buff (n + 1) evs st
      | LBad => Ok (ReadRes false evs (Some n) st)
      | LEvent e => obind (m st e) (fun '(e2, st') => read_loop rd m fuel is buff (n + 1) (evs ++ [e2]) st')
      end.
  Proof. reflexivity. Qed.

  Lemma read_loop_ok b ls : file_lines b ls -> forall fuel buff n evs st es bad,
    (List.length b + 1 < fuel)%nat -> events_of T n ls es bad ->
    read_loop rd m fuel (open_stream b) buff n evs st = result evs st es bad.
  Proof.
    intros H. induction H as [|l NE N|l b ls N H IH]; intros fuel buff n evs st es bad L EO.
    - inversion EO; subst. destruct fuel; [lia|]. simpl. now rewrite result_nil.
    - destruct fuel as [|[|fuel]]; [lia|simpl in L; lia|].
      rewrite read_loop_S.
      rewrite (getline_last buff l NE N). cbv iota beta. simpl is_fail. cbv iota.
      destruct l as [|c l]; [easy|].
      inversion EO as [|? ? ? ? ? K H1|? ? ? ? ? ? K H1|? ? ? K1 K2]; subst.
      + rewrite (proj2 (line_skip rd (c :: l)) K), read_loop_end. inversion H1; subst. now rewrite result_nil.
      + rewrite (proj2 (line_event rd T Ps Pc R Wc (c :: l) e) K), result_cons.
        destruct (m st e) as [[e2 st']| |x]; try reflexivity. cbv beta iota delta [obind].
        rewrite read_loop_end. inversion H1; subst. now rewrite result_nil.
      + rewrite (proj2 (line_bad rd T Ps Pc R Wc (c :: l)) (conj K1 K2)). unfold result. simpl. now rewrite app_nil_r.
    - destruct fuel as [|fuel]; [lia|]. rewrite app_length in L. simpl in L.
      change (ascii_of_N 10) with nl. rewrite read_loop_S.
      rewrite (getline_line buff l b N). cbv iota beta. simpl is_fail. cbv iota.
      replace (n + 1)%nat with (Datatypes.S n) by lia.
      inversion EO as [|? ? ? ? ? K H1|? ? ? ? ? ? K H1|? ? ? K1 K2]; subst.
      + rewrite (proj2 (line_skip rd l) K). apply IH; [lia|exact H1].
      + rewrite (proj2 (line_event rd T Ps Pc R Wc l e) K), result_cons.
        destruct (m st e) as [[e2 st']| |x]; try reflexivity. cbv beta iota delta [obind].
        apply IH; [lia|exact H1].
      + rewrite (proj2 (line_bad rd T Ps Pc R Wc l) (conj K1 K2)). unfold result. simpl. now rewrite app_nil_r.
  Qed.

  Lemma read_stream_ok b ls old st es bad : file_lines b ls -> events_of T 1 ls es bad ->
    read_stream rd m (open_stream b) old st = result [] st es bad.
  Proof. intros F EO. unfold read_stream. apply (read_loop_ok b ls F); [simpl; lia|exact EO]. Qed.
End File.

(** ** Ends of texts *)

Definition Ends {A} (T : bytes -> A -> Prop) : Prop :=
  forall x v, T x v -> exists y c, x = y ++ [c] /\ ~ white_char c.

Lemma ends_app y x z : (exists y c, x = y ++ [c] /\ ~ white_char c) ->
  (exists t c, (y ++ z ++ x) = t ++ [c] /\ ~ white_char c).
Proof. intros (t & c & -> & H). exists (y ++ z ++ t), c. now rewrite <- !app_assoc. Qed.

Lemma ends_numeral b n : numeral b n -> exists y c, b = y ++ [c] /\ ~ white_char c.
Proof.
  intros [c d D|y m c d _ D]; [exists [], c|exists y, c]; (split; [reflexivity|]); eapply digit_not_white, D.
Qed.

Lemma ends_word : Ends word_text.
Proof.
  intros x v [[NE F] _]. destruct (exists_last NE) as (y & c & ->). exists y, c. split; [reflexivity|].
  apply Forall_app in F as [_ F]. now inversion F.
Qed.

Lemma ends_u32 : Ends u32_text.
Proof.
  intros x v (s & neg & ds & n & -> & _ & N & _). apply (ends_app s ds []), (ends_numeral ds n N).
Qed.

Lemma ends_two {A B} (ta : bytes -> A -> Prop) (tb : bytes -> B -> Prop) b x y :
  Ends tb -> two_texts ta tb b x y -> exists t c, b = t ++ [c] /\ ~ white_char c.
Proof. intros E (l & g & r & -> & _ & _ & _ & K). apply ends_app, (E r y K). Qed.

Lemma ends_box : Ends box_text.
Proof.
  intros x v (a & g1 & y & g2 & w & g3 & h & -> & _ & _ & _ & _ & _ & _ & K).
  destruct (ends_u32 _ _ K) as (t & c & -> & N). exists (a ++ g1 ++ y ++ g2 ++ w ++ g3 ++ t), c.
  now rewrite <- !app_assoc.
Qed.

Lemma ends_docbox : Ends docbox_text.
Proof. intros x v. apply ends_two, ends_box. Qed.

Lemma ends_shaped : Ends shaped_text.
Proof. intros x v. apply ends_two, ends_docbox. Qed.

Lemma ends_str_event : Ends str_event_text.
Proof. intros x v. apply ends_two, ends_word. Qed.

Lemma ends_score : Ends score_text.
Proof.
  intros z v (neg & m & e & (s & ip & fp & x & k & -> & _ & (f & FP & N & _) & X) & _).
  destruct X as [[-> _]|(c & s' & neg' & ds & n & -> & _ & _ & N' & _)].
  - rewrite app_nil_r. destruct FP as [[-> ->]| ->].
    + rewrite app_nil_r in *. apply (ends_app s ip []), (ends_numeral _ _ N).
    + destruct f as [|c f].
      * exists (s ++ ip), "."%char. rewrite <- app_assoc. split; [reflexivity|]. intros W. now apply white_not_dot in W.
      * apply numeral_iff in N as (_ & F & _). apply Forall_app in F as [_ F].
        destruct (exists_last (l := c :: f) ltac:(easy)) as (y & d & E). rewrite E in *.
        exists (s ++ ip ++ "."%char :: y), d. split; [now rewrite <- !app_assoc|].
        apply Forall_app in F as [_ F]. inversion F; subst. intros W. now apply white_not_digit in W.
  - destruct (ends_numeral _ _ N') as (y & d & -> & H).
    exists (s ++ ip ++ fp ++ c :: s' ++ y), d. split; [|exact H].
    rewrite <- !app_assoc. simpl. now rewrite <- !app_assoc.
Qed.

Lemma ends_scored_shaped : Ends scored_shaped_text.
Proof. intros x v (l & g & r & -> & _ & _ & K). apply ends_app, (ends_score _ _ K). Qed.

Lemma ends_scored_str_event : Ends scored_str_event_text.
Proof. intros x v. apply ends_two, ends_score. Qed.

(** ** White space around *)

Lemma white_app i j : white (i ++ j) <-> white i /\ white j.
Proof. apply Forall_app. Qed.

Lemma white_rev i : white i -> white (rev i).
Proof. apply Forall_rev. Qed.

Lemma trim_unique a y t i z j :
  white a -> white t -> white i -> white j -> y <> [] -> z <> [] ->
  head_not white_char y -> head_not white_char z -> head_not white_char (rev y) -> head_not white_char (rev z) ->
  a ++ y ++ t = i ++ z ++ j -> y = z.
Proof.
  intros Wa Wt Wi Wj Ny Nz Hy Hz Ey Ez E.
  apply (f_equal skip_ws) in E.
  rewrite !skip_ws_app in E by (assumption || now apply head_not_app).
  apply (f_equal (fun b => rev (skip_ws (rev b)))) in E. rewrite !rev_app_distr in E.
  rewrite !skip_ws_app in E by (assumption || now apply white_rev). now rewrite !rev_involutive in E.
Qed.

(** Every text is white, or white space around something that is not. *)
Lemma trim_exists b : white b \/ exists i z j, b = i ++ z ++ j /\ white i /\ white j /\ z <> [] /\
  head_not white_char z /\ head_not white_char (rev z).
Proof.
  destruct (skip_ws_split b) as (i & E & W & H). destruct (skip_ws b) as [|c r].
  - left. now rewrite E, app_nil_r.
  - right. destruct (skip_ws_split (rev (c :: r))) as (j & EJ & WJ & HJ).
    set (z := rev (skip_ws (rev (c :: r)))).
    assert (EZ : c :: r = z ++ rev j).
    { unfold z. rewrite <- (rev_involutive (c :: r)), EJ at 1. now rewrite rev_app_distr. }
    assert (NZ : z <> []).
    { intros K. rewrite K in EZ. apply (H c r eq_refl). simpl in EZ.
      assert (white (c :: r)) as W2 by (rewrite EZ; now apply white_rev). now inversion W2. }
    exists i, z, (rev j). split; [now rewrite <- EZ|]. split; [exact W|]. split; [now apply white_rev|].
    split; [exact NZ|]. split.
    + rewrite EZ in H. now apply head_not_app_inv in H.
    + unfold z. now rewrite rev_involutive.
Qed.

Section Trim.
  Context {E1 : Type}.
  Variables (rd : istream -> E1 * istream) (T : bytes -> E1 -> Prop) (Ps Pc : ascii -> Prop).
  Hypothesis R : Reads rd T Ps Pc.
  Hypothesis Wc : forall c, white_char c -> ~ Pc c.
  Hypothesis EN : Ends T.

  Lemma text_ends x v : T x v -> head_not white_char (rev x).
  Proof. intros H. destruct (EN x v H) as (y & c & -> & N). rewrite rev_app_distr. now apply head_not_cons. Qed.

  Lemma event_line_core i z j e : white i -> white j -> z <> [] -> head_not white_char z ->
    head_not white_char (rev z) -> (event_line T (i ++ z ++ j) e <-> T z e /\ forall r, z <> "#"%char :: r).
  Proof.
    intros Wi Wj NZ H1 H2. split.
    - intros (a & y & t & E & Wa & Wt & TY & NH). destruct (rd_first _ _ _ _ R _ _ TY) as [NY HY].
      assert (y = z) as <- by (apply (trim_unique a y t i z j); auto; eapply text_ends, TY). now split.
    - intros [TZ NH]. now exists i, z, j.
  Qed.

  Lemma no_event_core i z j : white i -> z <> [] -> head_not white_char z ->
    (no_event (i ++ z ++ j) <-> exists r, z = "#"%char :: r).
  Proof.
    intros Wi NZ H1.
    assert (HH : ~ white_char "#"%char) by (unfold white_char; simpl; lia). split.
    - intros [W|(a & t & E & Wa)].
      + exfalso. rewrite !white_app in W. destruct W as (_ & W & _). destruct z as [|c z]; [easy|].
        inversion W; subst. now apply (H1 c z).
      + apply (f_equal skip_ws) in E.
        rewrite !skip_ws_app in E by (assumption || now apply head_not_app || now apply head_not_cons).
        destruct z as [|c z]; [easy|]. injection E as -> _. now exists z.
    - intros [r ->]. right. now exists i, (r ++ j).
  Qed.

  Lemma white_no_event b e : white b -> ~ event_line T b e.
  Proof. intros W H. apply (event_line_not_skip rd T Ps Pc R Wc b e H). now left. Qed.

  Lemma same_line_events l l' e : same_line l l' -> (event_line T l e <-> event_line T l' e).
  Proof.
    intros (i & j & x & i' & j' & -> & -> & Wi & Wj & Wi' & Wj').
    destruct (trim_exists x) as [W|(a & z & b & -> & Wa & Wb & NZ & H1 & H2)].
    - split; intros H; exfalso; revert H; apply white_no_event; rewrite !white_app; tauto.
    - replace (i ++ (a ++ z ++ b) ++ j) with ((i ++ a) ++ z ++ (b ++ j)) by now rewrite !app_assoc.
      replace (i' ++ (a ++ z ++ b) ++ j') with ((i' ++ a) ++ z ++ (b ++ j')) by now rewrite !app_assoc.
      rewrite !event_line_core by (assumption || now apply white_app). reflexivity.
  Qed.

  Lemma same_line_none l l' : same_line l l' -> (no_event l <-> no_event l').
  Proof.
    intros (i & j & x & i' & j' & -> & -> & Wi & Wj & Wi' & Wj').
    destruct (trim_exists x) as [W|(a & z & b & -> & Wa & Wb & NZ & H1 & H2)].
    - split; intros _; left; rewrite !white_app; tauto.
    - replace (i ++ (a ++ z ++ b) ++ j) with ((i ++ a) ++ z ++ (b ++ j)) by now rewrite !app_assoc.
      replace (i' ++ (a ++ z ++ b) ++ j') with ((i' ++ a) ++ z ++ (b ++ j')) by now rewrite !app_assoc.
      rewrite !no_event_core by (assumption || now apply white_app). reflexivity.
  Qed.

  Definition is_none {X} (o : option X) : bool := match o with None => true | Some _ => false end.

  Lemma same_lines_events ls ls' : same_lines ls ls' -> forall n n' es bad es' bad',
    events_of T n ls es bad -> events_of T n' ls' es' bad' -> es = es' /\ is_none bad = is_none bad'.
  Proof.
    intros H. induction H as [|l ls ls' K H IH|l ls ls' K H IH|l l' ls ls' K H IH]; intros n n' es bad es' bad' H1 H2.
    - inversion H1; subst; inversion H2; subst. easy.
    - inversion H1; subst; try contradiction; [eapply IH; eassumption|].
      exfalso. eapply (event_line_not_skip rd T Ps Pc R Wc); eassumption.
    - inversion H2; subst; try contradiction; [eapply IH; eassumption|].
      exfalso. eapply (event_line_not_skip rd T Ps Pc R Wc); eassumption.
    - inversion H1; subst; inversion H2; subst;
        repeat match goal with
        | A : no_event l |- _ => apply (same_line_none l l' K) in A
        | A : event_line T l ?x |- _ => apply (same_line_events l l' x K) in A
        | A : ~ no_event l |- _ => rewrite (same_line_none l l' K) in A
        | A : forall e, ~ event_line T l e |- _ =>
            assert (forall e, ~ event_line T l' e) by (intros e0 H0; apply (A e0), (same_line_events l l' e0 K), H0); clear A
        end;
        repeat match goal with
        | A : no_event ?l, B : event_line T ?l ?x |- _ => destruct (event_line_not_skip rd T Ps Pc R Wc l x B A)
        | A : no_event ?l, B : ~ no_event ?l |- _ => destruct (B A)
        | A : event_line T ?l ?x, B : forall e, ~ event_line T ?l e |- _ => destruct (B x A)
        end.
      + eapply IH; eassumption.
      + match goal with A : event_line T l' ?x, B : event_line T l' ?y |- ?x :: _ = ?y :: _ /\ _ =>
          rewrite (event_line_fun rd T Ps Pc R Wc _ _ _ A B) end.
        match goal with A : events_of T (S n) _ _ _, B : events_of T (S n') _ _ _ |- _ => destruct (IH _ _ _ _ _ _ A B) as [-> ->] end.
        easy.
      + easy.
  Qed.
End Trim.

(** ** Writing *)

Lemma digit_char_is d : 0 <= d <= 9 -> digit_is (digit_char d) d.
Proof.
  intros H. split; [exact H|].
  assert (K : d = 0 \/ d = 1 \/ d = 2 \/ d = 3 \/ d = 4 \/ d = 5 \/ d = 6 \/ d = 7 \/ d = 8 \/ d = 9) by lia.
  repeat destruct K as [->|K]; try reflexivity. now subst.
Qed.

Lemma dec_digits_numeral fuel : forall n, 0 <= n -> Z.log2 n <= Z.of_nat fuel -> numeral (dec_digits fuel n) n.
Proof.
  induction fuel as [|fuel IH]; intros n P L; simpl.
  - apply nm_one, digit_char_is. destruct (Z.le_gt_cases n 1) as [K|K]; [lia|].
    pose proof (Z.log2_pos n K). simpl in L. lia.
  - destruct (Z.ltb_spec n 10) as [K|K]; [apply nm_one, digit_char_is; lia|].
    pose proof (Z.div_mod n 10 ltac:(lia)) as D. pose proof (Z.mod_pos_bound n 10 ltac:(lia)) as M.
    refine (eq_ind _ (numeral _) _ _ (eq_sym D)). apply nm_more; [|apply digit_char_is; lia].
    apply IH; [apply Z.div_pos; lia|].
    assert (LE : n / 10 <= n / 2) by (apply Z.div_le_compat_l; lia).
    apply Z.log2_le_mono in LE. pose proof (Z.log2_shiftr n 1 ltac:(lia)) as SH.
    rewrite Z.shiftr_div_pow2 in SH by lia. change (2 ^ 1) with 2 in SH. rewrite SH in LE. lia.
Qed.

Lemma write_uint_numeral n : 0 <= n -> numeral (write_uint n) n.
Proof.
  intros H. apply dec_digits_numeral; [exact H|]. rewrite Z2Nat.id; [lia|apply Z.log2_nonneg].
Qed.

Lemma write_uint_text n : is_u32 n -> u32_text (write_uint n) n.
Proof.
  intros [P L]. exists [], false, (write_uint n), n. repeat split; [constructor|now apply write_uint_numeral|exact L].
Qed.

Lemma sp_white : white sp.
Proof. constructor; [vm_compute; tauto|constructor]. Qed.

Lemma sp_gap r : gap sp r.
Proof. split; [apply sp_white|discriminate]. Qed.

Lemma write_box_text b : u32_box b -> box_text (write_box b) b.
Proof.
  intros (H1 & H2 & H3 & H4).
  exists (write_uint (bx b)), sp, (write_uint (by_ b)), sp, (write_uint (bw b)), sp, (write_uint (bh b)).
  split; [reflexivity|]. do 6 (split; [first [apply sp_gap|now apply write_uint_text]|]). now apply write_uint_text.
Qed.

Lemma write_two {A B} (ta : bytes -> A -> Prop) (tb : bytes -> B -> Prop) l r x y :
  ta l x -> tb r y -> two_texts ta tb (l ++ sp ++ r) x y.
Proof. intros H K. exists l, sp, r. repeat split; auto; [discriminate|apply sp_white]. Qed.

Lemma write_shaped_text e : word (ev_query e) -> word (db_doc (ev_loc e)) -> u32_box (db_box (ev_loc e)) ->
  shaped_text (write_shaped e) e.
Proof.
  intros H1 H2 H3. apply write_two; [now split|]. apply write_two; [now split|]. now apply write_box_text.
Qed.

Lemma write_str_event_text e : word (ev_query e) -> word (ev_loc e) -> str_event_text (write_str_event e) e.
Proof. intros H1 H2. apply write_two; now split. Qed.

(** A text in a line. *)
Lemma text_line {E} (T : bytes -> E -> Prop) x e : T x e -> (forall r, x <> "#"%char :: r) -> event_line T x e.
Proof. intros H N. exists [], x, []. rewrite app_nil_r. repeat split; auto; constructor. Qed.

Lemma nl_white : white_char nl.
Proof. vm_compute. tauto. Qed.

Lemma word_no_nl b : word b -> ~ In nl b.
Proof. intros [_ F] K. rewrite Forall_forall in F. apply (F _ K), nl_white. Qed.

Lemma numeral_no_nl b n : numeral b n -> ~ In nl b.
Proof.
  intros N K. apply numeral_iff in N as (_ & F & _). rewrite Forall_forall in F.
  apply (white_not_digit nl nl_white), (F _ K).
Qed.

Lemma sp_no_nl : ~ In nl sp.
Proof. intros [H|[]]. discriminate. Qed.

Lemma no_nl_app a b : ~ In nl a -> ~ In nl b -> ~ In nl (a ++ b).
Proof. rewrite in_app_iff. tauto. Qed.

Lemma write_box_no_nl b : u32_box b -> ~ In nl (write_box b).
Proof.
  intros ([H1 _] & [H2 _] & [H3 _] & [H4 _]). unfold write_box.
  repeat apply no_nl_app; try apply sp_no_nl; eapply numeral_no_nl; now apply write_uint_numeral.
Qed.

Lemma write_shaped_no_nl e : ~ In nl (ev_query e) -> ~ In nl (db_doc (ev_loc e)) -> u32_box (db_box (ev_loc e)) ->
  ~ In nl (write_shaped e).
Proof.
  intros H1 H2 H3. unfold write_shaped, write_event, write_docbox. pose proof (write_box_no_nl _ H3) as K.
  pose proof sp_no_nl as KS. cbv beta. rewrite !in_app_iff. tauto.
Qed.

Lemma write_str_event_no_nl e : ~ In nl (ev_query e) -> ~ In nl (ev_loc e) -> ~ In nl (write_str_event e).
Proof.
  intros H1 H2. unfold write_str_event, write_event. pose proof sp_no_nl as KS. cbv beta. rewrite !in_app_iff. tauto.
Qed.

Lemma text_of_lines {E} (w : E -> bytes) es : Forall (fun e => ~ In nl (w e)) es ->
  file_lines (text_of w es) (map w es).
Proof.
  intros F. induction F as [|e es N F IH]; simpl; [constructor|]. rewrite <- app_assoc. now apply fl_line.
Qed.

(** Those written as comments are dropped. *)
Lemma written_events {E} (T : bytes -> E -> Prop) (w : E -> bytes) (hash : E -> bool) es :
  Forall (fun e => if hash e then exists r, w e = "#"%char :: r else event_line T (w e) e) es ->
  forall n, events_of T n (map w es) (filter (fun e => negb (hash e)) es) None.
Proof.
  intros F. induction F as [|e es H F IH]; intros n; simpl; [constructor|].
  destruct (hash e); simpl.
  - apply eo_skip; [|apply IH]. destruct H as [r ->]. right. exists [], r. split; [reflexivity|constructor].
  - apply eo_event; [exact H|apply IH].
Qed.

Lemma hashed_not b : hashed b = false -> forall r, b <> "#"%char :: r.
Proof. intros H r ->. discriminate. Qed.

Lemma hashed_app b c : b <> [] -> hashed (b ++ c) = hashed b.
Proof. now destruct b. Qed.

Lemma hashed_true b : hashed b = true -> exists r, b = "#"%char :: r.
Proof. destruct b as [|c b]; [discriminate|]. simpl. intros H. apply Ascii.eqb_eq in H as ->. now exists b. Qed.

(** ** Scores *)

Lemma scores_monotone neg m e neg' m' e' (v v' : f32) b b' :
  decimal_text b neg m e -> decimal_text b' neg' m' e' ->
  (decimal_value neg m e <= decimal_value neg' m' e')%R ->
  B2R v = nearest_f32 (decimal_value neg m e) -> B2R v' = nearest_f32 (decimal_value neg' m' e') ->
  (B2R v <= B2R v')%R.
Proof.
  intros _ _ H -> ->. unfold nearest_f32. apply round_le; [apply FLT_exp_valid; reflexivity|apply valid_rnd_N|exact H].
Qed.

(** What the fields of a text are like. *)
Lemma u32_text_range b v : u32_text b v -> is_u32 v.
Proof.
  intros (s & neg & ds & n & _ & _ & N & L & ->). apply numeral_nonneg in N. unfold is_u32, two32.
  change (2 ^ 32) with 4294967296 in *. destruct neg; [apply Z.mod_pos_bound; lia|lia].
Qed.

Lemma shaped_text_fields b e : shaped_text b e ->
  word (ev_query e) /\ word (db_doc (ev_loc e)) /\ u32_box (db_box (ev_loc e)).
Proof.
  intros (l & g & r & -> & [H1 ->] & _ & _ & (l' & g' & r' & -> & [H2 ->] & _ & _ & H3)).
  split; [exact H1|]. split; [exact H2|].
  destruct H3 as (x & g1 & y & g2 & w & g3 & h & _ & X & _ & Y & _ & Wd & _ & H).
  repeat split; eapply u32_text_range; eassumption.
Qed.

Lemma str_event_text_fields b e : str_event_text b e -> word (ev_query e) /\ word (ev_loc e).
Proof. intros (l & g & r & -> & [H1 ->] & _ & _ & [H2 ->]). now split. Qed.

(** The events read come from texts. *)
Lemma events_of_text {E} (T : bytes -> E -> Prop) n ls es bad :
  events_of T n ls es bad -> Forall (fun e => exists x, T x e) es.
Proof.
  induction 1 as [n|n l ls es b K H IH|n l e ls es b K H IH|n l ls K1 K2]; try (now constructor); [assumption|].
  constructor; [|exact IH]. destruct K as (i & x & t & _ & _ & _ & X & _). now exists x.
Qed.

(** A number too large for a float is refused. *)
Lemma read_f32_overflow i x rest neg m e : white i -> decimal_text x neg m e ->
  head_not (fun c => ~ white_char c) rest -> (bpow radix2 128 <= Rabs (nearest_f32 (decimal_value neg m e)))%R ->
  is_fail (snd (read_f32 (open_stream (i ++ x ++ rest)))) = true.
Proof.
  intros W D H OV. unfold read_f32, read_float.
  destruct (decimal_first _ _ _ _ D) as [NE HW].
  rewrite sentry_comp; [|exact W|now destruct x|now apply head_not_app].
  pose proof (decimal_nonneg _ _ _ _ D) as POS.
  pose proof (of_decimal_correct 24 128 prec32 emax32 neg m e POS) as OD. cbv zeta in OD. rewrite <- f32_fexp in OD.
  rewrite Rlt_bool_false in OD by exact OV.
  destruct D as (s & ip & fp & xx & k & -> & S & (f & FP & NM & ->) & X).
  simpl is_buf. unfold extract_float. rewrite <- !app_assoc.
  rewrite (read_sign_app s neg (ip ++ fp ++ xx ++ rest) S).
  - destruct (scan_float_app ip fp f xx k m rest FP NM X H) as (a & -> & OK & EM & EE).
    now rewrite OK, EM, EE, OD.
  - apply numeral_iff in NM as (NN & FD & _). destruct ip as [|c ip].
    + destruct FP as [[_ ->]| ->]; [easy|]. simpl. apply head_not_cons. now intros [?|?].
    + simpl. apply head_not_cons. inversion FD; subst. now apply digit_not_sign.
Qed.

(** ** The formats *)

Lemma format_reads {E} rd (T : bytes -> E -> Prop) : format rd T ->
  exists Ps Pc, Reads rd T Ps Pc /\ (forall c, white_char c -> ~ Pc c) /\ Ends T.
Proof.
  intros F. destruct F.
  - exists digit_char_p, digit_char_p. split; [apply reads_shaped|]. split; [apply white_not_digit|apply ends_shaped].
  - exists (fun _ => False), (fun c => ~ white_char c).
    split; [apply reads_scored_shaped|]. split; [tauto|apply ends_scored_shaped].
  - exists (fun c => ~ white_char c), (fun c => ~ white_char c).
    split; [apply reads_str_event|]. split; [tauto|apply ends_str_event].
  - exists (fun _ => False), (fun c => ~ white_char c).
    split; [apply reads_scored_str_event|]. split; [tauto|apply ends_scored_str_event].
Qed.

Lemma format_read {E E2 S} rd (T : bytes -> E -> Prop) (m : S -> E -> outcome (E2 * S)) b ls old st es bad :
  format rd T -> file_lines b ls -> events_of T 1 ls es bad ->
  read_stream rd m (open_stream b) old st = result m [] st es bad.
Proof.
  intros F L EO. destruct (format_reads rd T F) as (Ps & Pc & R & W & _).
  now apply (read_stream_ok rd T Ps Pc m R W b ls).
Qed.

Lemma format_events {E} rd (T : bytes -> E -> Prop) n ls : format rd T -> exists es bad, events_of T n ls es bad.
Proof.
  intros F. destruct (format_reads rd T F) as (Ps & Pc & R & W & _). now apply (events_of_exists rd T Ps Pc).
Qed.

Lemma format_events_fun {E} rd (T : bytes -> E -> Prop) n ls es bad es' bad' : format rd T ->
  events_of T n ls es bad -> events_of T n ls es' bad' -> es = es' /\ bad = bad'.
Proof.
  intros F. destruct (format_reads rd T F) as (Ps & Pc & R & W & _). now apply (events_of_fun rd T Ps Pc).
Qed.

Lemma format_same {E} rd (T : bytes -> E -> Prop) ls ls' n n' es bad es' bad' : format rd T -> same_lines ls ls' ->
  events_of T n ls es bad -> events_of T n' ls' es' bad' -> es = es' /\ is_none bad = is_none bad'.
Proof.
  intros F SL. destruct (format_reads rd T F) as (Ps & Pc & R & W & EN).
  now apply (same_lines_events rd T Ps Pc R W EN ls ls' SL).
Qed.

Lemma map_all_identity {E S} (st : S) (es : list E) : map_all identity_mapper st es = Ok (es, st).
Proof. induction es as [|e es IH]; simpl; [reflexivity|]. now rewrite IH. Qed.

Lemma events_of_bad {E} (T : bytes -> E -> Prop) n ls es bad : events_of T n ls es bad ->
  (bad = None <-> Forall (fun l => no_event l \/ exists e, event_line T l e) ls).
Proof.
  induction 1 as [n|n l ls es b K H IH|n l e ls es b K H IH|n l ls K1 K2].
  - now split.
  - rewrite IH. split; [intros F; constructor; [now left|exact F]|intros F; now inversion F].
  - rewrite IH. split; [intros F; constructor; [right; now exists e|exact F]|intros F; now inversion F].
  - split; [discriminate|]. intros F. inversion F as [|? ? [A|[e A]]]; subst; [easy|now apply K2 in A].
Qed.

Lemma file_lines_newline b ls : file_lines b ls -> b <> [] -> (forall x, b <> x ++ [nl]) -> file_lines (b ++ [nl]) ls.
Proof.
  induction 1 as [|l NE N|l b ls N H IH]; intros NB NX; [easy| |].
  - apply (fl_line l [] []); [exact N|constructor].
  - rewrite <- app_assoc. simpl. apply fl_line; [exact N|]. apply IH.
    + intros ->. now apply (NX l).
    + intros x ->. apply (NX (l ++ nl :: x)). now rewrite <- app_assoc.
Qed.

Lemma written_all {E} (T : bytes -> E -> Prop) (w : E -> bytes) es :
  Forall (fun e => event_line T (w e) e) es -> forall n, events_of T n (map w es) es None.
Proof.
  intros F. induction F as [|e es H F IH]; intros n; simpl; [constructor|]. apply eo_event; [exact H|apply IH].
Qed.

(** What is read back is what the texts say. *)
Lemma read_back {E S} rd (T : bytes -> E -> Prop) (st : S) b old es r : format rd T ->
  read_stream rd identity_mapper (open_stream b) old st = Ok (ReadRes true es r st) ->
  exists ls, file_lines b ls /\ events_of T 1 ls es r.
Proof.
  intros F H. destruct (file_lines_exists b) as [ls L]. destruct (format_events rd T 1 ls F) as (es' & bad & EO).
  exists ls. split; [exact L|]. rewrite (format_read rd T identity_mapper b ls old st es' bad F L EO) in H.
  unfold result in H. rewrite map_all_identity in H. injection H as _ <- <-. exact EO.
Qed.

Lemma read_one {E S} rd (T : bytes -> E -> Prop) (st : S) (w : E -> bytes) (e : E) old r : format rd T -> ~ In nl (w e) ->
  read_stream rd identity_mapper (open_stream (text_of w [e])) old st = Ok (ReadRes true [e] r st) ->
  ~ no_event (w e).
Proof.
  intros F N H. destruct (read_back rd T st _ old [e] r F H) as (ls & L & EO).
  rewrite (file_lines_fun _ _ _ L (text_of_lines w [e] ltac:(constructor; [exact N|constructor]))) in EO.
  destruct (format_reads rd T F) as (Ps & Pc & R & W & _).
  simpl in EO. intros K. inversion EO as [|? ? ? ? ? _ H1|? ? ? ? ? ? K1 H1|]; subst.
  - inversion H1.
  - now apply (event_line_not_skip rd T Ps Pc R W (w e) e).
Qed.
