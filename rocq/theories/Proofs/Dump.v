(** The text of matches. *)
From Coq Require Import Ascii String List Bool ZArith Lia Lra Reals.
From Flocq Require Import Core BinarySingleNaN.
From Verif.Model Require Import Cpp Floats Box Events Matches Stream Output Text.
From Verif.Spec Require Import Reader Text.
From Verif.Proofs Require Import FloatFacts Reader Text Digits.
From Verif.Proofs Require Objects.
Import ListNotations.
Local Open Scope Z_scope.

(** ** Cutting at a character *)

Definition cnt (c : ascii) (b : bytes) : nat := count_occ ascii_dec b c.

Lemma cnt_app c a b : cnt c (a ++ b) = (cnt c a + cnt c b)%nat.
Proof. apply count_occ_app. Qed.

Lemma cnt_cons c x b : cnt c (x :: b) = ((if ascii_dec x c then 1 else 0) + cnt c b)%nat.
Proof. unfold cnt. cbn. now destruct (ascii_dec x c). Qed.

Lemma cnt_0 c b : ~ In c b -> cnt c b = O.
Proof. apply count_occ_not_In. Qed.

Lemma cut c a : forall a' x x', cnt c a = cnt c a' -> a ++ c :: x = a' ++ c :: x' -> a = a' /\ x = x'.
Proof.
  induction a as [|d a IH]; intros [|d' a'] x x' C E; cbn [app] in E.
  - now injection E as <-.
  - injection E as <- E. rewrite cnt_cons in C. destruct (ascii_dec c c); [discriminate|easy].
  - injection E as -> E. rewrite cnt_cons in C. destruct (ascii_dec c c); [discriminate|easy].
  - injection E as <- E. rewrite !cnt_cons in C. destruct (IH a' x x' ltac:(lia) E) as [-> ->]. auto.
Qed.

(** ** The characters of numbers *)

Definition not_white (b : bytes) : Prop := forall c, In c b -> ~ white_char c.

Lemma not_white_app a b : not_white a -> not_white b -> not_white (a ++ b).
Proof. intros H K c I. apply in_app_or in I as [I|I]; auto. Qed.

Lemma numeral_not_white b n : numeral b n -> not_white b.
Proof.
  intros N c I W. apply numeral_iff in N as (_ & F & _). rewrite Forall_forall in F.
  exact (white_not_digit c W (F c I)).
Qed.

Lemma minus_not_white neg : not_white (minus neg).
Proof. intros c I. destruct neg; [|easy]. destruct I as [<-|[]]. unfold white_char. cbn. lia. Qed.

Lemma word_not_white b : word b -> not_white b.
Proof. intros [_ F] c I. rewrite Forall_forall in F. auto. Qed.

Lemma integer_not_white b z : integer_form b z -> not_white b.
Proof. intros (ds & -> & N & _). apply not_white_app; [apply minus_not_white|now apply numeral_not_white with (Z.abs z)]. Qed.

Lemma decimal_not_white b neg m e : decimal_text b neg m e -> not_white b.
Proof.
  assert (S : forall s n, sign s n -> not_white s).
  { intros s n H c I. destruct H; [easy| |]; destruct I as [<-|[]]; unfold white_char; cbn; lia. }
  intros (s & ip & fp & x & k & -> & Sg & (f & FP & N & _) & X).
  assert (NW := numeral_not_white _ _ N).
  apply not_white_app; [exact (S _ _ Sg)|]. apply not_white_app; [intros c I; apply NW, in_or_app; auto|].
  apply not_white_app.
  - destruct FP as [[-> _]| ->]; [intros c []|]. intros c [<-|I]; [unfold white_char; cbn; lia|apply NW, in_or_app; auto].
  - destruct X as [[-> _]|(c & s' & neg' & ds & n & -> & Cc & S' & N' & _)]; [intros d []|]. intros d [<-|I].
    + destruct Cc as [->| ->]; unfold white_char; cbn; lia.
    + revert d I. apply not_white_app; [exact (S _ _ S')|exact (numeral_not_white _ _ N')].
Qed.

Lemma float_not_white b v : float_form b v -> not_white b.
Proof. intros [_ H]. apply short_form_decimal in H as (m & e & D & _). exact (decimal_not_white _ _ _ _ D). Qed.

Lemma not_white_blank b : not_white b -> cnt " " b = O.
Proof. intros H. apply cnt_0. intros I. apply (H _ I). unfold white_char. cbn. lia. Qed.

Lemma not_white_nl b : not_white b -> ~ In nl b.
Proof. intros H I. exact (H _ I nl_white). Qed.

(** ** Values are unique *)

Lemma numeral_fun b n n' : numeral b n -> numeral b n' -> n = n'.
Proof. intros N N'. apply numeral_iff in N as (_ & _ & ->). now apply numeral_iff in N' as (_ & _ & ->). Qed.

Lemma integer_fun b z z' : integer_form b z -> integer_form b z' -> z = z'.
Proof.
  assert (W : forall b z z', z < 0 -> 0 <= z' -> integer_form b z -> integer_form b z' -> False).
  { clear. intros b z z' L L' (ds & E & N & _) (ds' & E' & N' & _).
    replace (z <? 0) with true in E by (symmetry; apply Z.ltb_lt; lia).
    replace (z' <? 0) with false in E' by (symmetry; apply Z.ltb_ge; lia). subst b. cbn [minus app] in E'. subst ds'.
    apply numeral_iff in N' as (_ & F & _). inversion F as [|? ? [d [H1 H2]] _]. change (45 = 48 + d) in H2. lia. }
  intros H H'. destruct (Z.lt_ge_cases z 0) as [L|L], (Z.lt_ge_cases z' 0) as [L'|L'];
    [|now destruct (W b z z')|now destruct (W b z' z)|];
    destruct H as (ds & E & N & _), H' as (ds' & E' & N' & _).
  - replace (z <? 0) with true in E by (symmetry; apply Z.ltb_lt; lia).
    replace (z' <? 0) with true in E' by (symmetry; apply Z.ltb_lt; lia). subst b. cbn [minus app] in E'.
    injection E' as <-. assert (K := numeral_fun _ _ _ N N'). lia.
  - replace (z <? 0) with false in E by (symmetry; apply Z.ltb_ge; lia).
    replace (z' <? 0) with false in E' by (symmetry; apply Z.ltb_ge; lia). subst b. cbn [minus app] in E'. subst ds'.
    assert (K := numeral_fun _ _ _ N N'). lia.
Qed.

Lemma float_fun b v v' : float_form b v -> float_form b v' -> same_float v v'.
Proof.
  intros [_ H] [_ H']. apply short_form_decimal in H as (m & e & D & V). apply short_form_decimal in H' as (m' & e' & D' & V').
  exact (decimal_same _ _ _ _ _ _ _ _ _ D V D' V').
Qed.

(** ** Forms with a fixed number of blanks *)

Definition blanks {E} (n : nat) (F : bytes -> E -> Prop) : Prop := forall b e, F b e -> cnt " " b = n.

Ltac blank_count := repeat first [rewrite cnt_app | rewrite cnt_cons]; cbn [cnt count_occ];
  repeat match goal with
  | H : integer_form ?b _ |- _ => rewrite (not_white_blank b (integer_not_white _ _ H)); clear H
  | H : word ?b |- _ => rewrite (not_white_blank b (word_not_white _ H)); clear H
  | H : float_form ?b _ |- _ => rewrite (not_white_blank b (float_not_white _ _ H)); clear H
  end.

Lemma shaped_blanks : blanks 5 shaped_form.
Proof.
  intros b e (x & y & w & h & -> & H1 & H2 & H3 & H4 & H5 & H6). unfold blank. blank_count. reflexivity.
Qed.

Lemma id_blanks : blanks 1 id_form.
Proof. intros b e (x & y & -> & H1 & H2). unfold blank. blank_count. reflexivity. Qed.

Lemma scored_blanks {E} n (F : bytes -> E -> Prop) : blanks n F -> blanks (S n) (scored_form F).
Proof. intros H b e (l & s & -> & H1 & H2). unfold blank. rewrite !cnt_app, (H _ _ H1). blank_count. cbn. lia. Qed.

(** Two words or numbers and a blank between. *)
Lemma cut_word a a' x x' : not_white a -> not_white a' -> a ++ blank ++ x = a' ++ blank ++ x' -> a = a' /\ x = x'.
Proof. intros H H'. apply cut. now rewrite !not_white_blank. Qed.

Lemma shaped_fun b e e' : shaped_form b e -> shaped_form b e' -> e = e'.
Proof.
  intros (x & y & w & h & -> & H1 & H2 & H3 & H4 & H5 & H6) (x' & y' & w' & h' & E & H1' & H2' & H3' & H4' & H5' & H6').
  apply cut_word in E as [E1 E]; try now apply word_not_white.
  apply cut_word in E as [E2 E]; try now apply word_not_white.
  apply cut_word in E as [-> E]; try (now apply integer_not_white with (1 := H3)); try (now apply integer_not_white with (1 := H3')).
  apply cut_word in E as [-> E]; try (now apply integer_not_white with (1 := H4)); try (now apply integer_not_white with (1 := H4')).
  apply cut_word in E as [-> ->]; try (now apply integer_not_white with (1 := H5)); try (now apply integer_not_white with (1 := H5')).
  assert (K1 := integer_fun _ _ _ H3 H3'). assert (K2 := integer_fun _ _ _ H4 H4').
  assert (K3 := integer_fun _ _ _ H5 H5'). assert (K4 := integer_fun _ _ _ H6 H6').
  destruct e as [q [d [a1 a2 a3 a4]]], e' as [q' [d' [b1 b2 b3 b4]]]. cbn in *. congruence.
Qed.

Lemma id_fun b e e' : id_form b e -> id_form b e' -> e = e'.
Proof.
  intros (x & y & -> & H1 & H2) (x' & y' & E & H1' & H2').
  apply cut_word in E as [-> ->]; try (now apply integer_not_white with (1 := H1)); try (now apply integer_not_white with (1 := H1')).
  assert (K1 := integer_fun _ _ _ H1 H1'). assert (K2 := integer_fun _ _ _ H2 H2').
  destruct e, e'. cbn in *. congruence.
Qed.

Lemma scored_fun {E} n (F : bytes -> E -> Prop) : blanks n F -> (forall b e e', F b e -> F b e' -> e = e') ->
  forall b e e', scored_form F b e -> scored_form F b e' -> same_scored e e'.
Proof.
  intros B U b e e' (l & s & -> & H1 & H2) (l' & s' & Q & H1' & H2'). apply cut in Q as [-> ->].
  - split; [exact (U _ _ _ H1 H1')|exact (float_fun _ _ _ H2 H2')].
  - now rewrite (B _ _ H1), (B _ _ H1').
Qed.

Section Match.
  Context {RE E : Type}.
  Variables (Fr : bytes -> RE -> Prop) (Fe : bytes -> E -> Prop) (n : nat).
  Hypothesis Br : blanks n Fr.
  Hypothesis Be : blanks n Fe.
  Hypothesis Ur : forall b e e', Fr b e -> Fr b e' -> e = e'.
  Hypothesis Ue : forall b e e', Fe b e -> Fe b e' -> e = e'.
  Notation Fh := (scored_form Fe).

  Lemma optional_blanks {X} name (F : bytes -> X -> Prop) k b e : cnt " " (lit name) = O -> blanks k F ->
    optional_form name F b e -> cnt " " b = match e with Some _ => S k | None => O end.
  Proof.
    intros N B H. unfold optional_form in H. destruct e as [x|]; [|now rewrite H]. destruct H as (t & -> & T).
    rewrite !cnt_app, N, (B _ _ T). cbn. lia.
  Qed.

  Lemma optional_cut {X} name (F : bytes -> X -> Prop) k (x x' : X) b b' t t' : blanks k F ->
    optional_form name F b (Some x) -> optional_form name F b' (Some x') -> b ++ t = b' ++ t' -> exists a, F a x /\ F a x' /\ t = t'.
  Proof.
    intros B (a & -> & H) (a' & -> & H') E0. rewrite <- !app_assoc in E0. apply app_inv_head, app_inv_head in E0.
    change (lit ", " ++ t) with ([","%char] ++ " "%char :: t) in E0. change (lit ", " ++ t') with ([","%char] ++ " "%char :: t') in E0.
    rewrite !app_assoc in E0. apply cut in E0 as [E0 ->]; [|now rewrite !cnt_app, (B _ _ H), (B _ _ H')].
    apply app_inj_tail in E0 as [<- _]. eauto.
  Qed.

  Lemma comma_cut (a a' : bytes) x x' : not_white a -> not_white a' -> a ++ lit ", " ++ x = a' ++ lit ", " ++ x' -> a = a' /\ x = x'.
  Proof.
    intros H H' E0. change (lit ", " ++ x) with ([","%char] ++ " "%char :: x) in E0. change (lit ", " ++ x') with ([","%char] ++ " "%char :: x') in E0.
    rewrite !app_assoc in E0. apply cut in E0 as [E0 ->]; [|now rewrite !cnt_app, (not_white_blank a), (not_white_blank a')].
    apply app_inj_tail in E0 as [<- _]. auto.
  Qed.

  Theorem match_unique b (m m' : match_t RE (scored E)) : match_form Fr Fh b m -> match_form Fr Fh b m' -> same_match m m'.
  Proof.
    intros (h & r & fp & fn & nh & nr & Q & H1 & H2 & H3 & H4 & H5 & H6) (h' & r' & fp' & fn' & nh' & nr' & Q' & H1' & H2' & H3' & H4' & H5' & H6').
    assert (Bh := scored_blanks n Fe Be).
    assert (C := optional_blanks "Hyp" Fh (S n) _ _ eq_refl Bh H1). assert (C' := optional_blanks "Hyp" Fh (S n) _ _ eq_refl Bh H1').
    assert (D := optional_blanks "Ref" Fr n _ _ eq_refl Br H2). assert (D' := optional_blanks "Ref" Fr n _ _ eq_refl Br H2').
    assert (W3 := float_not_white _ _ H3). assert (W3' := float_not_white _ _ H3').
    assert (W4 := float_not_white _ _ H4). assert (W4' := float_not_white _ _ H4').
    assert (W5 := integer_not_white _ _ H5). assert (W5' := integer_not_white _ _ H5').
    assert (W6 := integer_not_white _ _ H6). assert (W6' := integer_not_white _ _ H6').
    assert (K : (cnt " " h + cnt " " r = cnt " " h' + cnt " " r')%nat).
    { assert (K := f_equal (cnt " ") Q). rewrite Q' in K. rewrite !cnt_app in K.
      rewrite !(not_white_blank fp), !(not_white_blank fn), !(not_white_blank nh), !(not_white_blank nr),
        !(not_white_blank fp'), !(not_white_blank fn'), !(not_white_blank nh'), !(not_white_blank nr') in K by assumption.
      cbn [lit cnt] in K. lia. }
    rewrite C, C', D, D' in K. rewrite Q in Q'. clear Q b.
    assert (T : (same_option same_scored (m_hyp m) (m_hyp m') /\ m_ref m = m_ref m') /\
      lit "Error=MatchError[fp=" ++ fp ++ lit ", fn=" ++ fn ++ lit ", nh=" ++ nh ++ lit ", nr=" ++ nr ++ lit "]]" =
      lit "Error=MatchError[fp=" ++ fp' ++ lit ", fn=" ++ fn' ++ lit ", nh=" ++ nh' ++ lit ", nr=" ++ nr' ++ lit "]]").
    { apply app_inv_head in Q'.
      destruct (m_hyp m) as [x|], (m_hyp m') as [x'|], (m_ref m) as [y|], (m_ref m') as [y'|]; try lia.
      - destruct (optional_cut _ _ _ _ _ _ _ _ _ Bh H1 H1' Q') as (a & A1 & A2 & Q2).
        destruct (optional_cut _ _ _ _ _ _ _ _ _ Br H2 H2' Q2) as (a' & A3 & A4 & Q3).
        split; [|exact Q3]. split; [exact (scored_fun n Fe Be Ue _ _ _ A1 A2)|]. f_equal. exact (Ur _ _ _ A3 A4).
      - destruct (optional_cut _ _ _ _ _ _ _ _ _ Bh H1 H1' Q') as (a & A1 & A2 & Q2). cbn in H2, H2'. subst r r'.
        split; [|exact Q2]. split; [exact (scored_fun n Fe Be Ue _ _ _ A1 A2)|reflexivity].
      - cbn in H1, H1'. subst h h'. destruct (optional_cut _ _ _ _ _ _ _ _ _ Br H2 H2' Q') as (a' & A3 & A4 & Q3).
        split; [|exact Q3]. split; [exact I|]. f_equal. exact (Ur _ _ _ A3 A4).
      - cbn in H1, H1', H2, H2'. subst h h' r r'. split; [|exact Q']. now split. }
    destruct T as [[T1 T2] T3]. apply app_inv_head in T3.
    change (lit ", fn=") with (lit ", " ++ lit "fn=") in T3. change (lit ", nh=") with (lit ", " ++ lit "nh=") in T3.
    rewrite <- !app_assoc in T3.
    apply comma_cut in T3 as [<- T3]; [|assumption..]. apply app_inv_head in T3. apply comma_cut in T3 as [<- T3]; [|assumption..].
    split; [exact T2|]. split; [exact T1|]. split; [exact (float_fun _ _ _ H3 H3')|exact (float_fun _ _ _ H4 H4')].
  Qed.
End Match.

(** ** Files of matches *)

Lemma lines_inj ls : forall ls', Forall (fun l => ~ In nl l) ls -> Forall (fun l => ~ In nl l) ls' ->
  flat_map (fun l => l ++ [nl]) ls = flat_map (fun l => l ++ [nl]) ls' -> ls = ls'.
Proof.
  induction ls as [|l ls IH]; intros [|l' ls'] F F' E; cbn [flat_map] in E; trivial.
  - destruct l'; discriminate.
  - destruct l; discriminate.
  - rewrite <- !app_assoc in E. inversion F; inversion F'; subst. apply cut in E as [-> E].
    + f_equal. now apply IH.
    + now rewrite !cnt_0.
Qed.

Lemma separated {A} (P : A -> Prop) (s : A) (a : list A) : ~ P s -> Forall P a -> forall a' b b', Forall P a' ->
  a ++ s :: b = a' ++ s :: b' -> a = a' /\ b = b'.
Proof.
  intros N. induction 1 as [|x a H F IH]; intros [|x' a'] b b' F' E; cbn [app] in E.
  - now injection E as ->.
  - injection E as <- _. now inversion F'.
  - now injection E as -> _.
  - injection E as <- E. inversion F'; subst. destruct (IH a' b b') as [-> ->]; auto.
Qed.

Lemma Forall2_functional {A B B'} (R : A -> B -> Prop) (R' : A -> B' -> Prop) (S : B -> B' -> Prop) l :
  (forall x y y', R x y -> R' x y' -> S y y') -> forall m m', Forall2 R l m -> Forall2 R' l m' -> Forall2 S m m'.
Proof.
  intros H m m' F. revert m'. induction F; intros m' F'; inversion F'; subst; constructor; eauto.
Qed.

Lemma match_begin {RE HE} (Fr : bytes -> RE -> Prop) (Fh : bytes -> HE -> Prop) b m : match_form Fr Fh b m -> exists t, b = "M"%char :: t.
Proof. intros (h & r & fp & fn & nh & nr & -> & _). cbn. eauto. Qed.

Lemma sep_no_nl : ~ In nl (lit "#### REPEATED MATCHES ####").
Proof. intros H. cbn in H. decompose [or] H; try discriminate; contradiction. Qed.

Lemma tag_no_nl l : ~ In nl l -> ~ In nl (lit "## " ++ l).
Proof. intros N H. cbn in H. decompose [or] H; try discriminate; contradiction. Qed.

Lemma dump_lines_no_nl ls ls' : Forall (fun l => ~ In nl l) (ls ++ ls') ->
  Forall (fun l => ~ In nl l) (ls ++ lit "#### REPEATED MATCHES ####" :: map (app (lit "## ")) ls').
Proof.
  intros F. apply Forall_app in F as [F F']. apply Forall_app. split; [exact F|]. constructor; [apply sep_no_nl|].
  apply Forall_map. revert F'. apply Forall_impl. apply tag_no_nl.
Qed.

Lemma dump_unique {RE E} (Fr : bytes -> RE -> Prop) (Fe : bytes -> E -> Prop) (same : match_t RE (scored E) -> match_t RE (scored E) -> Prop) :
  (forall b m m', match_form Fr (scored_form Fe) b m -> match_form Fr (scored_form Fe) b m' -> same m m') ->
  forall b ms rs ms' rs', dump_form Fr (scored_form Fe) b ms rs -> dump_form Fr (scored_form Fe) b ms' rs' ->
  Forall2 same ms ms' /\ Forall2 same rs rs'.
Proof.
  intros U b ms rs ms' rs' (l1 & l2 & -> & F1 & F2 & N) (k1 & k2 & E0 & G1 & G2 & N').
  assert (B : forall (l : list bytes) ms, Forall2 (match_form Fr (scored_form Fe)) l ms -> Forall (fun b => exists t, b = "M"%char :: t) l).
  { clear. intros l ms F. induction F; constructor; auto. now apply match_begin in H. }
  apply lines_inj in E0; try now apply dump_lines_no_nl.
  apply (separated (fun b => exists t, b = "M"%char :: t)) in E0 as [-> E0]; [|now intros [t H]|eauto|eauto].
  assert (l2 = k2) as ->.
  { clear - E0. revert k2 E0. induction l2 as [|l l2 IH]; intros [|k k2] E0; try discriminate; trivial. cbn [map] in E0.
    injection E0 as E0 E1. f_equal; [exact E0|now apply IH]. }
  split; eapply Forall2_functional; eauto.
Qed.

(** ** What is written *)

Lemma write_uint_form n : 0 <= n -> integer_form (write_uint n) n.
Proof.
  intros H. exists (write_uint n). replace (n <? 0) with false by (symmetry; apply Z.ltb_ge; lia).
  split; [reflexivity|]. split; [rewrite Z.abs_eq by lia; now apply write_uint_numeral|].
  intros t E. destruct (Z.eq_dec n 0) as [->|]; [now injection E as <-|]. now apply write_uint_head in E; [|lia].
Qed.

Lemma write_int_form z : integer_form (write_int z) z.
Proof.
  unfold write_int. destruct (Z.ltb_spec z 0) as [L|L]; [|now apply write_uint_form].
  destruct (write_uint_form (- z) ltac:(lia)) as (ds & E & N & H). exists (write_uint (- z)).
  replace (z <? 0) with true by (symmetry; apply Z.ltb_lt; lia). split; [reflexivity|].
  replace (- z <? 0) with false in E by (symmetry; apply Z.ltb_ge; lia). cbn in E. subst ds.
  rewrite Z.abs_opp in N. auto.
Qed.

Lemma write_shaped_form e : word (ev_query e) -> word (db_doc (ev_loc e)) -> u32_box (db_box (ev_loc e)) ->
  shaped_form (write_shaped e) e.
Proof.
  intros H1 H2 ([B1 _] & [B2 _] & [B3 _] & [B4 _]). eexists _, _, _, _. split; [reflexivity|].
  repeat split; try apply H1; try apply H2; try now apply write_uint_form.
Qed.

Lemma write_id_form e : id_form (write_int_event e) e.
Proof. eexists _, _. split; [reflexivity|]. split; apply write_int_form. Qed.

Lemma write_float_form nan v : is_finite v = true -> float_form (write_float nan v) v.
Proof. intros F. split; [exact F|]. now apply write_float_spec. Qed.

Lemma write_scored_form {E} nan (F : bytes -> E -> Prop) wb (e : scored E) : F (wb (sc_base e)) (sc_base e) ->
  is_finite (sc_score e) = true -> scored_form F (write_scored nan wb e) e.
Proof. intros H K. eexists _, _. split; [reflexivity|]. split; [exact H|now apply write_float_form]. Qed.

Section Written.
  Context {RE HE : Type}.
  Variables (nan : bytes) (Fr : bytes -> RE -> Prop) (Fh : bytes -> HE -> Prop) (wr : RE -> bytes) (wh : HE -> bytes).
  Hypothesis Nr : forall b r, Fr b r -> ~ In nl b.
  Hypothesis Nh : forall b h, Fh b h -> ~ In nl b.

  Definition writable (m : match_t RE HE) : Prop :=
    match m_ref m with Some r => Fr (wr r) r | None => True end /\
    match m_hyp m with Some h => Fh (wh h) h | None => True end /\
    is_finite (me_fp (m_err m)) = true /\ is_finite (me_fn (m_err m)) = true.

  Lemma lt_bool x y : is_finite x = true -> is_finite y = true -> f32_lt x y = if Rlt_dec (B2R x) (B2R y) then true else false.
  Proof.
    intros Fx Fy. assert (H := f32_lt_R x y Fx Fy). destruct (Rlt_dec _ _) as [L|L]; [now apply H|].
    destruct (f32_lt x y); [|reflexivity]. now destruct L; apply H.
  Qed.

  Lemma write_match_form m : writable m -> match_form Fr Fh (write_match nan wr wh m) m.
  Proof.
    intros (H1 & H2 & H3 & H4). unfold write_match, write_error.
    exists (match m_hyp m with Some h => lit "Hyp=" ++ wh h ++ lit ", " | None => [] end),
      (match m_ref m with Some r => lit "Ref=" ++ wr r ++ lit ", " | None => [] end),
      (write_float nan (me_fp (m_err m))), (write_float nan (me_fn (m_err m))),
      (write_uint (Z.of_nat (me_nh (m_err m)))), (write_uint (Z.of_nat (me_nr (m_err m)))).
    split; [|split; [|split; [|split; [|split; [|split]]]]].
    - change (lit "]]") with (lit "]" ++ lit "]"). change (lit "Error=MatchError[fp=") with (lit "Error=" ++ lit "MatchError[fp=").
      rewrite <- !app_assoc. reflexivity.
    - destruct (m_hyp m) as [h|]; [|reflexivity]. exists (wh h). split; [reflexivity|exact H2].
    - destruct (m_ref m) as [r|]; [|reflexivity]. exists (wr r). split; [reflexivity|exact H1].
    - now apply write_float_form.
    - now apply write_float_form.
    - unfold me_nh. rewrite !lt_bool by (assumption || reflexivity). rewrite Objects.B2R_f32_1, Objects.B2R_f32_0.
      destruct (Rlt_dec 0 _); [now apply write_uint_form|]. destruct (Rlt_dec _ 1); now apply write_uint_form.
    - unfold me_nr. rewrite !lt_bool by (assumption || reflexivity). rewrite Objects.B2R_f32_1, Objects.B2R_f32_0.
      destruct (Rlt_dec _ 1); [now apply write_uint_form|]. destruct (Rlt_dec 0 _); now apply write_uint_form.
  Qed.

  Lemma optional_no_nl {X} name (F : bytes -> X -> Prop) b x : ~ In nl (lit name) -> (forall b x, F b x -> ~ In nl b) ->
    optional_form name F b x -> ~ In nl b.
  Proof.
    intros N H K. unfold optional_form in K. destruct x as [x|]; [|now subst b]. destruct K as (t & -> & T).
    rewrite !in_app_iff. specialize (H _ _ T). intros [I|[I|[I|I]]]; try contradiction; cbn in I; decompose [or] I; try discriminate; contradiction.
  Qed.

  Lemma match_no_nl b m : match_form Fr Fh b m -> ~ In nl b.
  Proof.
    intros (h & r & fp & fn & nh & nr & -> & H1 & H2 & H3 & H4 & H5 & H6).
    assert (K1 : ~ In nl h) by (apply (optional_no_nl "Hyp" Fh h (m_hyp m)); auto; cbn; intros I; decompose [or] I; try discriminate; contradiction).
    assert (K2 : ~ In nl r) by (apply (optional_no_nl "Ref" Fr r (m_ref m)); auto; cbn; intros I; decompose [or] I; try discriminate; contradiction).
    assert (K3 := not_white_nl _ (float_not_white _ _ H3)). assert (K4 := not_white_nl _ (float_not_white _ _ H4)).
    assert (K5 := not_white_nl _ (integer_not_white _ _ H5)). assert (K6 := not_white_nl _ (integer_not_white _ _ H6)).
    assert (L : forall s, forallb (fun c => negb (Ascii.eqb c nl)) (lit s) = true -> ~ In nl (lit s)).
    { intros s F I. rewrite forallb_forall in F. specialize (F _ I). now rewrite Ascii.eqb_refl in F. }
    rewrite !in_app_iff. intros D. repeat (destruct D as [D|D]; [try contradiction; revert D; now apply L|]). revert D. now apply L.
  Qed.

  Theorem write_dump_form ms rs : Forall writable ms -> Forall writable rs -> dump_form Fr Fh (write_dump nan wr wh ms rs) ms rs.
  Proof.
    intros F G. assert (L : forall l, Forall writable l -> Forall2 (match_form Fr Fh) (map (write_match nan wr wh) l) l).
    { induction 1; constructor; auto. now apply write_match_form. }
    assert (NL : forall l, Forall writable l -> Forall (fun b => ~ In nl b) (map (write_match nan wr wh) l)).
    { induction 1; constructor; auto. eapply match_no_nl. now apply write_match_form. }
    exists (map (write_match nan wr wh) ms), (map (write_match nan wr wh) rs). split; [|split; [auto|split; [auto|]]].
    - assert (FM : forall {X Y} (f : X -> Y) (g : Y -> bytes) l, flat_map g (map f l) = flat_map (fun x => g (f x)) l)
        by (intros X Y f g l; induction l as [|x l IH]; [reflexivity|cbn [map flat_map]; now rewrite IH]).
      unfold write_dump. rewrite flat_map_app. cbn [flat_map]. rewrite !FM, <- !app_assoc. reflexivity.
    - apply Forall_app. auto.
  Qed.
End Written.

Lemma shaped_no_nl b e : shaped_form b e -> ~ In nl b.
Proof.
  intros (x & y & w & h & -> & H1 & H2 & H3 & H4 & H5 & H6).
  assert (K1 := not_white_nl _ (word_not_white _ H1)). assert (K2 := not_white_nl _ (word_not_white _ H2)).
  assert (K3 := not_white_nl _ (integer_not_white _ _ H3)). assert (K4 := not_white_nl _ (integer_not_white _ _ H4)).
  assert (K5 := not_white_nl _ (integer_not_white _ _ H5)). assert (K6 := not_white_nl _ (integer_not_white _ _ H6)).
  assert (K7 : ~ In nl blank) by now intros [H|[]]. rewrite !in_app_iff. tauto.
Qed.

Lemma id_no_nl b e : id_form b e -> ~ In nl b.
Proof.
  intros (x & y & -> & H3 & H4).
  assert (K3 := not_white_nl _ (integer_not_white _ _ H3)). assert (K4 := not_white_nl _ (integer_not_white _ _ H4)).
  assert (K7 : ~ In nl blank) by now intros [H|[]]. rewrite !in_app_iff. tauto.
Qed.

Lemma scored_no_nl {E} (F : bytes -> E -> Prop) : (forall b e, F b e -> ~ In nl b) -> forall b e, scored_form F b e -> ~ In nl b.
Proof.
  intros H b e (l & s & -> & H1 & H2). specialize (H _ _ H1). assert (K := not_white_nl _ (float_not_white _ _ H2)).
  assert (K7 : ~ In nl blank) by now intros [I|[]]. rewrite !in_app_iff. tauto.
Qed.
