(** Runs of SimpleKwsEval on lines in another order: with equal scores
    collapsed the order of the ids does not matter. *)
From Coq Require Import Ascii String List Bool ZArith Lia Reals Lra Permutation Sorted.
From Flocq Require Import BinarySingleNaN.
From Verif.Model Require Import Cpp Floats Events EventSets Matches Matcher Scorers Assessment Bootstrap Mapper Stream
  Reader Options Tool.
From Verif.Spec Require Import Order Sets Matching Grouping Collapse Metrics Curves Reader Options Tool.
From Verif.Proofs Require Import Queries Tool Finish Programs.
From Verif.Proofs Require Grouping Mapper Sets Order Matching Rescore Collapse Evaluation Instances Runs Errors.
Import ListNotations.
Local Open Scope nat_scope.
Local Open Scope list_scope.

Lemma sorted_app {X} (P : X -> X -> Prop) a b : StronglySorted P a -> StronglySorted P b ->
  (forall x y, In x a -> In y b -> P x y) -> StronglySorted P (a ++ b).
Proof.
  intros Sa Sb H. induction Sa as [|x a Sa IH Fx]; [exact Sb|]. cbn [app]. constructor.
  - apply IH. intros; apply H; simpl; auto.
  - apply Forall_app. split; [exact Fx|]. apply Forall_forall. intros y I. apply H; simpl; auto.
Qed.

Lemma sorted_app_inv {X} (P : X -> X -> Prop) a b : StronglySorted P (a ++ b) ->
  StronglySorted P a /\ StronglySorted P b /\ forall x y, In x a -> In y b -> P x y.
Proof.
  induction a as [|u a IH]; cbn [app]; intros S; [repeat split; [constructor|exact S|intros ? ? []]|].
  inversion S as [|? ? S1 F1]; subst. apply Forall_app in F1 as [F1 F2]. destruct (IH S1) as (A & B & C).
  split; [now constructor|]. split; [exact B|]. intros x y [<-|I] J; [|now apply C]. rewrite Forall_forall in F2. auto.
Qed.

Lemma sorted_map {X Y} (P : Y -> Y -> Prop) (f : X -> Y) l : StronglySorted (fun x y => P (f x) (f y)) l -> StronglySorted P (map f l).
Proof. induction 1 as [|x l S IH F]; cbn [map]; constructor; auto. apply Forall_map. exact F. Qed.

Lemma sorted_weaken {X} (P P' : X -> X -> Prop) l : (forall x y, In x l -> In y l -> P x y -> P' x y) -> StronglySorted P l -> StronglySorted P' l.
Proof.
  intros H S. induction S as [|x l S IH F]; constructor.
  - apply IH. intros; apply H; simpl; auto.
  - rewrite Forall_forall in *. intros y I. apply H; simpl; auto.
Qed.

Lemma sorted_nodup {X} (lt : X -> X -> bool) l : (forall x, lt x x = false) -> StronglySorted (fun x y => lt x y = true) l -> NoDup l.
Proof.
  intros Ir S. induction S as [|x l S IH F]; constructor; [|exact IH].
  intros I. rewrite Forall_forall in F. specialize (F x I). rewrite Ir in F. discriminate.
Qed.

(** ** Scores up to the sign of zero, reversed for the ascending order *)

(** Without the sign of zero. *)
Definition unsigned (x : f32) : f32 := match x with B754_zero _ => B754_zero false | _ => x end.

(** What is needed of a change of the scores of a ranking. *)
Record flattens (crit : bytes) (adj : f32 -> f32) : Prop := {
  fl_finite : forall x, is_finite x = true -> is_finite (adj x) = true;
  fl_same : forall x y, is_finite x = true -> is_finite y = true -> (f32_eq x y = true <-> adj x = adj y);
  fl_eq : forall x y, is_finite x = true -> is_finite y = true -> f32_eq (adj x) (adj y) = true -> adj x = adj y;
  fl_rank : forall E (lte : E -> E -> bool) hyps rank, (forall h, In h hyps -> is_finite (sc_score h) = true) -> ranking lte crit hyps rank ->
    Permutation hyps rank /\ StronglySorted (fun a b => f32_lt (adj (sc_score a)) (adj (sc_score b)) = false) rank
}.

Lemma unsigned_same x y : is_finite x = true -> is_finite y = true -> f32_eq x y = true -> unsigned x = unsigned y.
Proof. intros _ _ H. apply Errors.f32_eq_same in H as (_ & _ & [->|(s & s' & -> & ->)]); reflexivity. Qed.

Lemma unsigned_eq x : is_finite x = true -> f32_eq x (unsigned x) = true.
Proof.
  intros F. apply Errors.f32_eq_same. destruct x as [s|s| |s m e B]; try discriminate F; repeat split; [right|left]; cbn; eauto.
Qed.

Lemma unsigned_lt x y : f32_lt (unsigned x) (unsigned y) = f32_lt x y.
Proof. destruct x as [s|s| |[] m e B], y as [s'|s'| |[] m' e' B']; reflexivity. Qed.

Lemma opp_lt (x y : f32) : f32_lt (Bopp x) (Bopp y) = f32_lt y x.
Proof.
  destruct x as [s|s| |s m e B], y as [s'|s'| |s' m' e' B']; try reflexivity; try (destruct s; reflexivity); try (destruct s'; reflexivity); try (destruct s, s'; reflexivity).
  destruct s, s'; cbn; try reflexivity.
  - rewrite Z.compare_antisym. destruct (e' ?= e)%Z eqn:C; cbn; try reflexivity.
    change (Pos.compare_cont Eq) with Pos.compare. rewrite (Pos.compare_antisym m' m). destruct (Pos.compare m' m); reflexivity.
  - rewrite Z.compare_antisym. destruct (e' ?= e)%Z eqn:C; cbn; try reflexivity.
    change (Pos.compare_cont Eq) with Pos.compare. rewrite (Pos.compare_antisym m' m). destruct (Pos.compare m' m); reflexivity.
Qed.

Lemma flattens_desc : flattens (lit "desc") unsigned.
Proof.
  constructor.
  - intros [s|s| |s m e B]; auto.
  - intros x y Fx Fy. split; [now apply unsigned_same|]. intros E. assert (Ux := unsigned_eq x Fx). assert (Uy := unsigned_eq y Fy).
    rewrite E in Ux. rewrite Order.f32_eq_sym in Uy. exact (Order.f32_eq_trans _ _ _ Ux Uy).
  - intros x y Fx Fy H. apply Errors.f32_eq_same in H as (_ & _ & [E|(s & s' & E & E')]); [exact E|].
    destruct x, y; cbn in *; congruence.
  - intros E lte hyps rank Fi [(_ & P & S)|[(K & _)|(K & _)]]; [|discriminate|now elim K].
    split; [exact P|]. revert S. apply sorted_weaken. intros a b _ _ [L _]. now rewrite unsigned_lt.
Qed.

Lemma opp_same x y : f32_eq x y = true -> f32_eq (Bopp x) (Bopp y) = true.
Proof.
  intros H. apply Errors.f32_eq_same in H as (N & N' & [->|(s & s' & -> & ->)]); apply Errors.f32_eq_same.
  - split; [rewrite is_nan_Bopp; exact N'|]. split; [rewrite is_nan_Bopp; exact N'|]. now left.
  - repeat split. right. cbn. eauto.
Qed.

Lemma flattens_asc : flattens (lit "asc") (fun x => unsigned (Bopp x)).
Proof.
  assert (D := flattens_desc).
  assert (F : forall x : f32, is_finite x = true -> is_finite (Bopp x) = true) by (intros x; now rewrite is_finite_Bopp).
  constructor.
  - intros x Fx. apply (fl_finite _ _ D). auto.
  - intros x y Fx Fy. rewrite <- (fl_same _ _ D) by auto. split; [apply opp_same|].
    intros H. apply opp_same in H. now rewrite !Bopp_involutive in H.
  - intros x y Fx Fy. apply (fl_eq _ _ D); auto.
  - intros E lte hyps rank Fi [(K & _)|[(_ & P & S)|(_ & K & _)]]; [discriminate| |now elim K].
    split; [exact P|]. revert S. apply sorted_weaken. intros a b _ _ [L _]. rewrite unsigned_lt, opp_lt. exact L.
Qed.

Lemma flattens_exists crit : crit = lit "desc" \/ crit = lit "asc" -> exists adj, flattens crit adj.
Proof. intros [-> | ->]; eexists; [apply flattens_desc|apply flattens_asc]. Qed.

(** ** First hypotheses of an event *)

(** The hypothesis is a reference and the first of its event. *)
Definition leads {E} (refs : list E) (rank : list (scored E)) (h : scored E) : Prop :=
  In (sc_base h) refs /\ exists a b, rank = a ++ h :: b /\ forall h', In h' a -> sc_base h' <> sc_base h.

(** A hit. *)
Definition hit {E} (h : scored E) : match_t E (scored E) := match_pair (sc_base h) h (MatchError (f32_of_Z 0) (f32_of_Z 0)).

Section First.
  Context {E : Type}.
  Notation H := (scored E).
  Notation M := (match_t E H).

  Lemma leads_snoc (refs : list E) (rank : list H) h x : leads refs (rank ++ [h]) x <->
    leads refs rank x \/ (x = h /\ In (sc_base h) refs /\ forall h', In h' rank -> sc_base h' <> sc_base h).
  Proof.
    split.
    - intros (I & a & b & Er & N). destruct (exists_last (l := x :: b)) as (b' & y & Eb); [discriminate|].
      rewrite Eb, app_assoc in Er. apply app_inj_tail in Er as [Er <-].
      destruct b' as [|z b'].
      + cbn in Eb. injection Eb as -> ->. right. rewrite app_nil_r in Er. subst a. auto.
      + left. cbn in Eb. injection Eb as <- Eb. split; [exact I|]. eauto.
    - intros [(I & a & b & -> & N)|(-> & I & N)].
      + split; [exact I|]. exists a, (b ++ [h]). split; [now rewrite <- app_assoc|exact N].
      + split; [exact I|]. exists rank, []. auto.
  Qed.

  Lemma leads_in (refs : list E) (rank : list H) h : leads refs rank h -> In h rank.
  Proof. intros (_ & a & b & -> & _). apply in_elt. Qed.

  (** The matches: one hit for each event with a hypothesis, and the false alarms. *)
  Lemma first_rules_parts refs rank (ms log : list M) : first_rules refs rank ms log ->
    exists hits fps, Permutation ms (map hit hits ++ map make_fp fps) /\ NoDup hits /\
      (forall h, In h hits <-> leads refs rank h) /\ selects (fun h => ~ In (sc_base h) refs) rank fps.
  Proof.
    assert (App : forall (P : H -> Prop) l s l' s', selects P l s -> selects P l' s' -> selects P (l ++ l') (s ++ s')).
    { intros P l s l' s' S S'. induction S; cbn [app]; [exact S'| |]; now constructor. }
    induction 1 as [|rank ms log h m g Hr (hits & fps & P & N & L & S) Hf].
    - exists [], []. split; [constructor|]. split; [constructor|]. split; [|constructor].
      intros h. split; [intros []|]. intros (_ & [|? a] & b & K & _); discriminate.
    - destruct Hf as [Ir Fs|Ir Ol|Ir].
      + exists (h :: hits), fps. split; [|split; [|split]].
        * cbn [map app]. rewrite <- Permutation_cons_append. now constructor.
        * constructor; [|exact N]. intros I. apply L in I. apply leads_in in I. now apply (Fs h I).
        * intros x. rewrite leads_snoc. cbn [In]. rewrite L. intuition congruence.
        * rewrite <- (app_nil_r fps). apply App; [exact S|]. constructor; [tauto|constructor].
      + exists hits, fps. rewrite app_nil_r. split; [exact P|]. split; [exact N|]. split.
        * intros x. rewrite leads_snoc, L. split; [auto|]. intros [K|(-> & _ & K)]; [exact K|].
          destruct Ol as (h' & I & E'). destruct (K h' I E').
        * rewrite <- (app_nil_r fps). apply App; [exact S|]. constructor; [tauto|constructor].
      + exists hits, (fps ++ [h]). split; [|split; [exact N|split]].
        * rewrite map_app, app_assoc, P. reflexivity.
        * intros x. rewrite leads_snoc, L. intuition congruence.
        * apply App; [exact S|]. constructor; [exact Ir|constructor].
  Qed.

  (** The matches keep the order of the ranking. *)
  Lemma first_rules_hyps refs rank (ms log : list M) : first_rules refs rank ms log ->
    forall m, In m ms -> exists h, m_hyp m = Some h /\ In h rank.
  Proof.
    induction 1 as [|rank ms log h m g Hr IH Hf]; [intros ? []|]. intros x I. apply in_app_or in I as [I|I].
    - destruct (IH x I) as (h' & K & J). exists h'. split; [exact K|]. apply in_or_app. auto.
    - exists h. split; [|apply in_elt]. destruct Hf; [|destruct I|]; destruct I as [<-|[]]; reflexivity.
  Qed.

  Lemma first_rules_sorted (P : H -> H -> Prop) refs rank (ms log : list M) : first_rules refs rank ms log -> StronglySorted P rank ->
    StronglySorted (fun x y => forall h h', m_hyp x = Some h -> m_hyp y = Some h' -> P h h') ms.
  Proof.
    induction 1 as [|rank ms log h m g Hr IH Hf]; intros S; [constructor|].
    apply sorted_app_inv in S as (S1 & _ & S2). apply sorted_app; [now apply IH| |].
    - destruct Hf; repeat constructor.
    - intros x y I J k k' Ek Ek'. destruct (first_rules_hyps _ _ _ _ Hr x I) as (k0 & E0 & I0).
      rewrite Ek in E0. injection E0 as <-. apply S2; [exact I0|].
      destruct Hf; [|destruct J|]; destruct J as [<-|[]]; cbn in Ek'; injection Ek' as <-; simpl; auto.
  Qed.
End First.

Section Leads.
  Context {E : Type} (Edec : forall x y : E, {x = y} + {x <> y}).
  Notation H := (scored E).

  Lemma leads_cons (refs : list E) (rank : list H) x h : leads refs (x :: rank) h <->
    (h = x /\ In (sc_base h) refs) \/ (sc_base x <> sc_base h /\ leads refs rank h).
  Proof.
    split.
    - intros (I & [|y a] & b & Er & N); injection Er as -> Er; [left; auto|right].
      split; [apply N; simpl; auto|]. split; [exact I|]. exists a, b. split; [exact Er|]. intros; apply N; simpl; auto.
    - intros [[-> I]|[N (I & a & b & -> & K)]].
      + split; [exact I|]. exists [], rank. split; [reflexivity|intros ? []].
      + split; [exact I|]. exists (x :: a), b. split; [reflexivity|]. intros h' [<-|J]; auto.
  Qed.

  Lemma leads_fun (refs : list E) (rank : list H) h h' : leads refs rank h -> leads refs rank h' -> sc_base h = sc_base h' -> h = h'.
  Proof.
    induction rank as [|x rank IH]; [intros (_ & [|? ?] & ? & K & _); discriminate|].
    intros L L' B. apply leads_cons in L as [[-> _]|[N L]], L' as [[-> _]|[N' L']]; auto; congruence.
  Qed.

  Lemma leads_some (refs : list E) (rank : list H) h : In h rank -> In (sc_base h) refs ->
    exists h', leads refs rank h' /\ sc_base h' = sc_base h.
  Proof.
    induction rank as [|x rank IH]; [intros []|]. intros I R.
    destruct (Edec (sc_base x) (sc_base h)) as [B|B].
    - exists x. split; [|exact B]. apply leads_cons. left. rewrite B. auto.
    - destruct I as [<-|I]; [now elim B|]. destruct (IH I R) as (h' & L & B'). exists h'. split; [|exact B'].
      apply leads_cons. right. split; [congruence|exact L].
  Qed.

  Lemma leads_best (P : H -> H -> Prop) (refs : list E) rank h h' : (forall x, P x x) -> StronglySorted P rank ->
    leads refs rank h -> In h' rank -> sc_base h' = sc_base h -> P h h'.
  Proof.
    intros Rf. induction 1 as [|x rank S IH F]; [intros _ []|]. intros L I B. rewrite Forall_forall in F.
    apply leads_cons in L as [[-> _]|[N L]].
    - destruct I as [<-|I]; auto.
    - destruct I as [<-|I]; [congruence|auto].
  Qed.
End Leads.

Lemma selects_sorted {X} (P : X -> X -> Prop) (Q : X -> Prop) l s : selects Q l s -> StronglySorted P l -> StronglySorted P s.
Proof.
  induction 1 as [|x l s Q1 S IH|x l s Q1 S IH]; intros K; [constructor| |]; inversion K as [|? ? K1 K2]; subst; auto.
  constructor; [auto|]. rewrite Forall_forall in *. intros y I. apply K2. now apply (Grouping.selects_in _ _ _ S) in I.
Qed.

Lemma selects_ext {X} (P P' : X -> Prop) l s : (forall x, P x <-> P' x) -> selects P l s -> selects P' l s.
Proof. intros H. induction 1; constructor; auto; now rewrite <- H. Qed.

Lemma selects_map {X Y} (f : X -> Y) (P : X -> Prop) (P' : Y -> Prop) l s : (forall x, P x <-> P' (f x)) ->
  selects P l s -> selects P' (map f l) (map f s).
Proof. intros H. induction 1; cbn [map]; constructor; auto; now rewrite <- H. Qed.

Section Flat.
  Context {E : Type} (Edec : forall x y : E, {x = y} + {x <> y}).
  Variables (crit : bytes) (adj : f32 -> f32) (Fl : flattens crit adj).
  Notation H := (scored E).
  Notation M := (match_t E H).

  Definition adjh (h : H) : H := Scored (sc_base h) (adj (sc_score h)).
  Definition adjm : M -> M := map_match (fun x => x) adjh.
  Definition finite (h : H) : Prop := is_finite (sc_score h) = true.
  Definition above (a b : H) : Prop := f32_lt (adj (sc_score a)) (adj (sc_score b)) = false.

  Lemma above_both a b : finite a -> finite b -> above a b -> above b a -> adj (sc_score a) = adj (sc_score b).
  Proof.
    intros Fa Fb A B. apply (fl_eq _ _ Fl _ _ Fa Fb).
    destruct (Order.f32_total (adj (sc_score a)) (adj (sc_score b))) as [K|[K|K]]; auto; unfold above in *; try congruence;
      apply Rescore.finite_not_nan, (fl_finite _ _ Fl); assumption.
  Qed.

  Lemma leads_same refs refs' rank rank' h : same_elements refs refs' -> Permutation rank rank' -> (forall h, In h rank -> finite h) ->
    StronglySorted above rank -> StronglySorted above rank' -> leads refs rank h -> exists h', leads refs' rank' h' /\ adjh h' = adjh h.
  Proof.
    intros Se P Fi S S' L. assert (I := leads_in _ _ _ L).
    destruct (leads_some Edec refs' rank' h) as (h' & L' & B).
    - now apply (Permutation_in _ P).
    - apply Se. apply L.
    - exists h'. split; [exact L'|]. assert (I' := Permutation_in _ (Permutation_sym P) (leads_in _ _ _ L')).
      unfold adjh. rewrite B. f_equal. apply above_both; auto.
      + apply (leads_best above refs' rank' h' h); auto; [intros x; apply Order.f32_lt_irrefl|now apply (Permutation_in _ P)].
      + apply (leads_best above refs rank h h'); auto. intros x; apply Order.f32_lt_irrefl.
  Qed.

  Lemma map_hits (l : list H) : map adjm (map hit l) = map hit (map adjh l).
  Proof. rewrite !map_map. reflexivity. Qed.

  Lemma map_alarms (l : list H) : map adjm (map make_fp l) = map make_fp (map adjh l).
  Proof. rewrite !map_map. reflexivity. Qed.

  Lemma hits_nodup refs rank hits : (forall h, In h hits -> leads refs rank h) -> NoDup hits -> NoDup (map adjh hits).
  Proof.
    intros L N. induction N as [|x l I N IH]; cbn [map]; constructor; [|apply IH; intros; apply L; simpl; auto].
    intros K. apply in_map_iff in K as (y & Ey & J). apply I.
    rewrite <- (leads_fun refs rank y x); [exact J| | |now injection Ey]; apply L; simpl; auto.
  Qed.

  Lemma found_perm refs refs' rank rank' ms log ms' log' : same_elements refs refs' -> Permutation rank rank' ->
    (forall h, In h rank -> finite h) -> StronglySorted above rank -> StronglySorted above rank' ->
    first_rules refs rank ms log -> first_rules refs' rank' ms' log' -> Permutation (map adjm ms) (map adjm ms').
  Proof.
    intros Se P Fi S S' R R'.
    destruct (first_rules_parts _ _ _ _ R) as (hits & fps & P1 & N1 & L1 & S1).
    destruct (first_rules_parts _ _ _ _ R') as (hits' & fps' & P2 & N2 & L2 & S2).
    rewrite P1, P2, !map_app, !map_hits, !map_alarms. apply Permutation_app; apply Permutation_map.
    - assert (Fi' : forall h, In h rank' -> finite h) by (intros h I; apply Fi; now apply (Permutation_in _ (Permutation_sym P))).
      apply NoDup_Permutation; [apply (hits_nodup refs rank); auto; intros h; apply L1|apply (hits_nodup refs' rank'); auto; intros h; apply L2|].
      intros x. rewrite !in_map_iff. split; intros (h & <- & I).
      + apply L1 in I. destruct (leads_same _ _ _ _ h Se P Fi S S' I) as (h' & L & K). exists h'. split; [exact K|now apply L2].
      + apply L2 in I. destruct (leads_same refs' refs rank' rank h) as (h' & L & K); auto; [intros y; symmetry; apply Se|now symmetry|].
        exists h'. split; [exact K|now apply L1].
    - apply Permutation_map. destruct (Runs.selects_perm _ _ _ P _ S1) as (s & Ss & Ps). rewrite Ps.
      rewrite (selects_fun (fun h => ~ In (sc_base h) refs') rank' s fps'); auto.
      revert Ss. apply selects_ext. intros x. now rewrite (Se (sc_base x)).
  Qed.

  (** What the statistics need of a list of matches. *)
  Definition flat (l : list M) : Prop :=
    StronglySorted (fun x y => f32_lt (rank sc_score (adjm x)) (rank sc_score (adjm y)) = false) l /\
    (forall m, In m l -> zero_one (m_err m) /\ forall h, m_hyp m = Some h -> finite h).

  Lemma flat_selects (P : M -> Prop) l s : selects P l s -> flat l -> flat s.
  Proof.
    intros S [F1 F2]. split; [exact (selects_sorted _ _ _ _ S F1)|]. intros m I. apply F2. now apply (Grouping.selects_in _ _ _ S) in I.
  Qed.

  Definition rel (x y : f32) : Prop := (is_finite x = true /\ y = adj x) \/ (x = f32_ninf /\ y = f32_ninf).

  Lemma rel_tie x y x' y' : rel x x' -> rel y y' -> f32_eq x y = f32_eq x' y'.
  Proof.
    intros [[Fx ->]|[-> ->]] [[Fy ->]|[-> ->]]; [| | |reflexivity].
    - apply eq_true_iff_eq. rewrite (fl_same _ _ Fl _ _ Fx Fy). split; [|apply (fl_eq _ _ Fl); assumption].
      intros ->. apply Order.f32_eq_refl, Rescore.finite_not_nan, (fl_finite _ _ Fl). exact Fy.
    - rewrite !Rescore.finite_ninf; auto. now apply (fl_finite _ _ Fl).
    - rewrite !(Order.f32_eq_sym f32_ninf), !Rescore.finite_ninf; auto. now apply (fl_finite _ _ Fl).
  Qed.

  Lemma points_adj l : (forall m, In m l -> forall h, m_hyp m = Some h -> finite h) ->
    points sc_score true l = points sc_score true (map adjm l).
  Proof.
    intros Fi. apply (Rescore.sim_points (fun h h' => finite h /\ h' = adjh h) sc_score sc_score rel rel_tie).
    - intros h h' [F ->]. left. auto.
    - right. auto.
    - induction l as [|m l IH]; constructor; [|apply IH; intros; eapply Fi; simpl; eauto].
      assert (K := Fi m (or_introl eq_refl)). split; [|split].
      + cbn. now destruct (m_ref m).
      + reflexivity.
      + cbn. destruct (m_hyp m) as [h|]; cbn; auto.
  Qed.

  Lemma points_perm l l' : flat l -> flat l' -> Permutation (map adjm l) (map adjm l') ->
    points sc_score true l = points sc_score true l'.
  Proof.
    intros [S F] [S' F'] P. rewrite (points_adj l), (points_adj l'); [|intros m I; apply (F' m I)|intros m I; apply (F m I)].
    cbn [points]. apply Collapse.collapse_ties; auto.
    - intros m I. apply in_map_iff in I as (x & <- & I). unfold rank, adjm, map_match. cbn [m_hyp].
      destruct (m_hyp x) as [h|] eqn:Eh; cbn; [|reflexivity]. apply Rescore.finite_not_nan, (fl_finite _ _ Fl). exact (proj2 (F x I) h Eh).
    - apply sorted_map. exact S.
    - apply sorted_map. exact S'.
    - intros m I. apply in_map_iff in I as (x & <- & I). apply (F x I).
  Qed.
End Flat.

(** ** Groups of permuted matches *)

Lemma Forall2_perm {X Y} (P : X -> Y -> Prop) l l' : Permutation l l' -> forall k, Forall2 P l k ->
  exists k', Permutation k k' /\ Forall2 P l' k'.
Proof.
  induction 1 as [|x l l' H IH|x y l|l l2 l3 H1 IH1 H2 IH2]; intros k F.
  - inversion F; subst. exists []. auto.
  - inversion F as [|? b ? k0 Hb F0]; subst. destruct (IH _ F0) as (k' & A & B). exists (b :: k'). split; now constructor.
  - inversion F as [|? b ? k0 Hb F0]; subst. inversion F0 as [|? b' ? k1 Hb' F1]; subst.
    exists (b' :: b :: k1). split; [constructor|]. now repeat constructor.
  - destruct (IH1 _ F) as (k2 & A & B). destruct (IH2 _ B) as (k3 & A' & B'). exists k3. split; [now transitivity k2|exact B'].
Qed.

Section Groups.
  Context {Q RE E : Type} (rq : RE -> Q) (hq : E -> Q).
  Variable f : query_file Q.
  Notation M := (match_t RE (scored E)).

  Lemma grouping_perm (ms ms' : list M) groups groups' : Permutation ms ms' ->
    grouping rq hq f ms groups -> grouping rq hq f ms' groups' ->
    exists gs, Permutation groups gs /\ Forall2 (@Permutation M) gs groups'.
  Proof.
    intros P (ks & keys & F1 & Fs & F2) (ks' & keys' & F1' & Fs' & F2').
    destruct (Forall2_perm _ _ _ P _ F1) as (ks2 & Pk & F3).
    assert (ks2 = ks').
    { clear - F3 F1'. revert ks' F1'. induction F3 as [|m k ms ks Hm F IH]; intros ks' F1'; inversion F1' as [|? k' ? ks0 Hk Hks]; subst; auto.
      f_equal; [|auto]. exact (Evaluation.match_group_fun rq hq f m k k' Hm Hk). }
    subst ks2. assert (Pe : Permutation keys keys').
    { apply NoDup_Permutation; [exact (Grouping.first_seen_nodup _ _ Fs)|exact (Grouping.first_seen_nodup _ _ Fs')|].
      intros x. rewrite (Grouping.first_seen_in _ _ Fs), (Grouping.first_seen_in _ _ Fs').
      split; apply Permutation_in; [exact Pk|now symmetry]. }
    destruct (Forall2_perm _ _ _ Pe _ F2) as (gs & Pg & F4). exists gs. split; [exact Pg|].
    clear - P F2' F4. revert groups' F2'. induction F4 as [|k g keys gs [_ S] F IH]; intros groups' F2'; inversion F2' as [|? g' ? gs' [_ S'] F3]; subst; constructor; auto.
    destruct (Runs.selects_perm _ _ _ P _ S) as (s & Ss & Ps). now rewrite (selects_fun _ _ _ _ S' Ss).
  Qed.
End Groups.

Section Evaluations.
  Notation Ev := (event bytes bytes).
  Notation H := (scored Ev).
  Notation M := (match_t Ev H).

  Lemma event_dec (x y : Ev) : {x = y} + {x <> y}.
  Proof. repeat decide equality. Qed.

  Lemma query_adj adj f (m : M) k : match_group ev_query ev_query f m k <-> match_group ev_query ev_query f (adjm adj m) k.
  Proof.
    unfold match_group, has_query, adjm, map_match. cbn [m_ref m_hyp].
    destruct (m_ref m); cbn; [reflexivity|]. destruct (m_hyp m); cbn; reflexivity.
  Qed.

  Lemma grouping_adj adj f (ms : list M) groups : grouping ev_query ev_query f ms groups ->
    grouping ev_query ev_query f (map (adjm adj) ms) (map (map (adjm adj)) groups).
  Proof.
    intros (ks & keys & F1 & Fs & F2). exists ks, keys. split; [|split; [exact Fs|]].
    - clear - F1. induction F1; cbn [map]; constructor; auto. now apply query_adj.
    - clear - F2. induction F2 as [|k g keys groups [N S] F IH]; cbn [map]; constructor; auto. split.
      + destruct g; [now elim N|discriminate].
      + revert S. apply selects_map. intros x. apply query_adj.
  Qed.

  Lemma rules_errors (refs : list Ev) rank ms log : first_rules refs rank ms log -> forall m, In m ms -> zero_one (m_err m).
  Proof.
    induction 1 as [|rank ms log h m g Hr IH Hf]; [intros ? []|]. intros x I. apply in_app_or in I as [I|I]; [auto|].
    destruct Hf; [|destruct I|]; destruct I as [<-|[]]; split; cbn; auto.
  Qed.

  (** The parts of an evaluation. *)
  Lemma evaluation_parts id crit adj f refs hyps ms log groups : flattens crit adj -> (forall s s', id s = id s' -> s = s') ->
    (forall h, In h hyps -> is_finite (sc_score h) = true) -> simple_evaluation id crit f refs hyps ms log groups ->
    exists refs' hyps' rank found missed, ms = found ++ map make_fn missed /\
      selects (fun r => kept f (ev_query r)) refs refs' /\ selects (fun h => kept f (ev_query (sc_base h))) hyps hyps' /\
      Permutation hyps' rank /\ StronglySorted (above adj) rank /\ first_rules refs' rank found log /\
      NoDup missed /\ (forall r, In r missed <-> In r refs' /\ ~ exists h, In h rank /\ sc_base h = r) /\
      flat adj ms /\ grouping ev_query ev_query f ms groups.
  Proof.
    intros Fl Inj Fi (refs' & hyps' & rank & taken & found & missed & Sr & Sh & Rk & Mt & So & Mi & -> & G).
    assert (Fi' : forall h, In h hyps' -> is_finite (sc_score h) = true) by (intros h I; apply Fi; now apply (Grouping.selects_in _ _ _ Sh) in I).
    destruct (fl_rank _ _ Fl _ _ _ _ Fi' Rk) as [P S].
    destruct (Runs.first_rules_spec cmp_str Order.total_order_str cmp_str Order.total_order_str _ _ _ _ _ Mt) as [Fr Tk].
    exists refs', hyps', rank, found, missed. split; [reflexivity|]. split; [exact Sr|]. split; [exact Sh|]. split; [exact P|].
    split; [exact S|]. split; [exact Fr|]. split; [|split; [|split; [|exact G]]].
    - apply (sorted_nodup (fun x y => c_lt cmp_int_event (renamed id x) (renamed id y))); [|exact So].
      intros x. apply (to_irrefl _ Instances.total_order_int_event).
    - intros r. rewrite Mi, Tk. split; intros [I K]; split; auto; tauto.
    - assert (Fr' : forall h, In h rank -> is_finite (sc_score h) = true) by (intros h I; apply Fi'; now apply (Permutation_in _ (Permutation_sym P))).
      assert (Nf : forall h, f32_lt h f32_ninf = false) by (intros [s|[]| |[] m e B]; reflexivity). split.
      + apply sorted_app.
        * assert (K := first_rules_sorted _ _ _ _ _ Fr S). revert K. apply sorted_weaken. intros x y Ix Iy K.
          destruct (first_rules_hyps _ _ _ _ Fr x Ix) as (h & Eh & _). destruct (first_rules_hyps _ _ _ _ Fr y Iy) as (h' & Eh' & _).
          unfold Collapse.rank, adjm, map_match. cbn [m_hyp]. rewrite Eh, Eh'. exact (K h h' Eh Eh').
        * clear - Nf. induction missed as [|x l IH]; cbn [map]; constructor; [exact IH|]. apply Forall_map, Forall_forall. intros y _. apply Nf.
        * intros x y _ I. apply in_map_iff in I as (r & <- & _). apply Nf.
      + intros m I. apply in_app_or in I as [I|I].
        * split; [exact (rules_errors _ _ _ _ Fr m I)|]. intros h Eh.
          destruct (first_rules_hyps _ _ _ _ Fr m I) as (h' & Eh' & J). rewrite Eh in Eh'. injection Eh' as <-. exact (Fr' h J).
        * apply in_map_iff in I as (r & <- & _). split; [split; cbn; auto|discriminate].
  Qed.

  Lemma evaluations_ties id id' crit f refs refs' hyps hyps' ms log groups ms' log' groups' :
    crit = lit "desc" \/ crit = lit "asc" -> (forall s s', id s = id s' -> s = s') -> (forall s s', id' s = id' s' -> s = s') ->
    same_elements refs refs' -> Permutation hyps hyps' -> (forall h, In h hyps -> is_finite (sc_score h) = true) ->
    simple_evaluation id crit f refs hyps ms log groups -> simple_evaluation id' crit f refs' hyps' ms' log' groups' ->
    points sc_score true ms = points sc_score true ms' /\
    exists gs, Permutation groups gs /\ Forall2 (fun g g' => points sc_score true g = points sc_score true g') gs groups'.
  Proof.
    intros C Inj Inj' Se P Fi Ev Ev'. destruct (flattens_exists crit C) as [adj Fl].
    assert (Fi2 : forall h, In h hyps' -> is_finite (sc_score h) = true) by (intros h I; apply Fi; now apply (Permutation_in _ (Permutation_sym P))).
    destruct (evaluation_parts _ _ _ _ _ _ _ _ _ Fl Inj Fi Ev) as (r1 & h1 & rank & found & missed & -> & Sr & Sh & Pr & So & Fr & Nm & Mi & Ft & G).
    destruct (evaluation_parts _ _ _ _ _ _ _ _ _ Fl Inj' Fi2 Ev') as (r2 & h2 & rank' & found' & missed' & -> & Sr' & Sh' & Pr' & So' & Fr' & Nm' & Mi' & Ft' & G').
    assert (Ser : same_elements r1 r2).
    { intros x. rewrite (Grouping.selects_in _ _ _ Sr), (Grouping.selects_in _ _ _ Sr'), (Se x). reflexivity. }
    destruct (Runs.selects_perm _ _ _ P _ Sh) as (h2' & Sh2 & Ph). rewrite (selects_fun _ _ _ _ Sh2 Sh') in Ph. clear h2' Sh2.
    assert (Pk : Permutation rank rank') by (rewrite <- Pr, <- Pr'; exact Ph).
    assert (Fk : forall h, In h rank -> finite h).
    { intros h I. apply Fi. apply (Permutation_in _ (Permutation_sym Pr)) in I. now apply (Grouping.selects_in _ _ _ Sh) in I. }
    assert (Pm : Permutation missed missed').
    { apply NoDup_Permutation; auto. intros x. rewrite Mi, Mi', (Ser x). split; intros [I K]; split; auto;
      intros (h & J & B); apply K; exists h; (split; [|exact B]); [now apply (Permutation_in _ (Permutation_sym Pk))|now apply (Permutation_in _ Pk)]. }
    assert (PM : Permutation (map (adjm adj) (found ++ map make_fn missed)) (map (adjm adj) (found' ++ map make_fn missed'))).
    { rewrite !map_app. apply Permutation_app; [|now do 2 apply Permutation_map].
      exact (found_perm event_dec crit adj Fl r1 r2 rank rank' found log found' log' Ser Pk Fk So So' Fr Fr'). }
    split; [exact (points_perm crit adj Fl _ _ Ft Ft' PM)|].
    destruct (grouping_perm ev_query ev_query f _ _ _ _ PM (grouping_adj adj f _ _ G) (grouping_adj adj f _ _ G')) as (gs & Pg & Fg).
    destruct (Permutation_map_inv _ _ (Permutation_sym Pg)) as (gs0 & Eg & Pg0). subst gs.
    exists gs0. split; [exact (Permutation_sym Pg0) || exact Pg0|].
    assert (Fgs : forall g, In g gs0 -> flat adj g).
    { intros g I. assert (I' : In g groups) by (eapply Permutation_in; [|exact I]; (exact Pg0 || exact (Permutation_sym Pg0))).
      destruct G as (ks & keys & _ & _ & F2). clear - F2 I' Ft. induction F2 as [|k g' keys groups [_ S] F IH]; [destruct I'|].
      destruct I' as [<-|I']; [exact (flat_selects adj _ _ _ S Ft)|auto]. }
    assert (Fgs' : forall g, In g groups' -> flat adj g).
    { intros g I'. destruct G' as (ks & keys & _ & _ & F2). clear - F2 I' Ft'. induction F2 as [|k g' keys groups [_ S] F IH]; [destruct I'|].
      destruct I' as [<-|I']; [exact (flat_selects adj _ _ _ S Ft')|auto]. }
    clear - Fg Fgs Fgs' Fl. revert groups' Fg Fgs'. induction gs0 as [|g gs0 IH]; intros [|g' groups'] Fg Fgs'; inversion Fg; subst; constructor.
    - apply (points_perm crit adj Fl); [apply Fgs|apply Fgs'|assumption]; simpl; auto.
    - apply IH; auto; intros; [apply Fgs|apply Fgs']; simpl; auto.
  Qed.
End Evaluations.

(** ** Statistics of the same points *)

Section SamePoints.
  Context {RE HE : Type} (score : HE -> f32) (cb : bool).
  Context {A : Arith} (T : Trans A).
  Notation M := (match_t RE HE).
  Definition same_points (l l' : list M) : Prop := points score cb l = points score cb l'.

  Lemma same_pr l l' i : same_points l l' -> precision_recall_matches A score l cb i = precision_recall_matches A score l' cb i.
  Proof. intros H. unfold precision_recall_matches. now rewrite H. Qed.

  Lemma same_global_ap l l' i t : same_points l l' -> global_ap A score l cb i t = global_ap A score l' cb i t.
  Proof. intros H. unfold global_ap. now rewrite (same_pr l l' i H). Qed.

  Lemma same_global_ndcg l l' : same_points l l' -> global_ndcg A T score l cb = global_ndcg A T score l' cb.
  Proof. intros H. unfold global_ndcg. now rewrite H. Qed.

  Lemma same_mean_ap srt gs gs' i t : Forall2 same_points gs gs' ->
    mean_ap A score srt gs cb i t false = mean_ap A score srt gs' cb i t false.
  Proof.
    intros H. unfold mean_ap. rewrite (Curves.Forall2_len _ _ _ H). f_equal.
    generalize (a0 A). induction H as [|g g' gs gs' Hg HF IH]; intros s; [reflexivity|]. cbn [ofold maybe_sort obind].
    rewrite (same_global_ap g g' i t Hg). destruct global_ap; cbn [obind]; auto.
  Qed.

  Lemma same_mean_ndcg srt gs gs' : Forall2 same_points gs gs' ->
    mean_ndcg A T score srt gs cb false = mean_ndcg A T score srt gs' cb false.
  Proof.
    intros H. unfold mean_ndcg. rewrite (Curves.Forall2_len _ _ _ H). f_equal.
    generalize (a0 A). induction H as [|g g' gs gs' Hg HF IH]; intros s; [reflexivity|]. cbn [ofold maybe_sort obind].
    rewrite (same_global_ndcg g g' Hg). auto.
  Qed.

  Lemma same_mean_curve w w' c gs gs' : w_writable w = w_writable w' -> cf_collapse c = cb -> Forall2 same_points gs gs' ->
    write_mean_curve A score w c gs = write_mean_curve A score w' c gs'.
  Proof.
    intros Hw Co H. unfold write_mean_curve. rewrite (Curves.Forall2_len _ _ _ H), Hw, Co.
    match goal with |- pbind A (run A (omap ?f gs)) _ = _ => assert (O : omap f gs = omap f gs') end.
    { induction H as [|g g' gs gs' Hg H IH]; [reflexivity|]. cbn [omap]. rewrite (same_pr g g' _ Hg), IH. reflexivity. }
    rewrite O. reflexivity.
  Qed.
End SamePoints.

(** ** Sums of real numbers in another order *)

Lemma sum_perm {X} (f : X -> outcome R) l l' : (forall x, f x = UB \/ exists v, f x = Ok v) -> Permutation l l' ->
  forall s, ofold (fun s x => obind (f x) (fun y => Ok (a_add RArith s y))) l s =
            ofold (fun s x => obind (f x) (fun y => Ok (a_add RArith s y))) l' s.
Proof.
  intros F. induction 1 as [|x l l' H IH|x y l|l l2 l3 H1 IH1 H2 IH2]; intros s; [reflexivity| | |].
  - cbn [ofold]. destruct (f x); cbn [obind]; auto.
  - cbn [ofold]. destruct (F x) as [Ex|[v Ex]], (F y) as [Ey|[u Ey]]; rewrite ?Ex, ?Ey; cbn [obind]; rewrite ?Ex, ?Ey; cbn [obind]; try reflexivity.
    f_equal. cbn. lra.
  - now rewrite IH1.
Qed.

Lemma omap_perm {X Y} (f : X -> outcome Y) l l' : Permutation l l' -> forall ys, omap f l = Ok ys ->
  exists ys', omap f l' = Ok ys' /\ Permutation ys ys'.
Proof.
  assert (Inv : forall x l ys, omap f (x :: l) = Ok ys -> exists y t, f x = Ok y /\ omap f l = Ok t /\ ys = y :: t).
  { intros x k ys K. cbn [omap] in K. destruct (f x) as [y| |]; try discriminate K. cbn [obind] in K.
    destruct (omap f k) as [t| |]; try discriminate K. cbn [obind] in K. injection K as <-. eauto. }
  induction 1 as [|x l l' H IH|x y l|l l2 l3 H1 IH1 H2 IH2]; intros ys K.
  - exists ys. auto.
  - apply Inv in K as (y & t & E1 & E2 & ->). destruct (IH t E2) as (t' & E3 & P). exists (y :: t'). cbn [omap]. rewrite E1. cbn [obind]. rewrite E3. auto.
  - apply Inv in K as (u & t & E1 & E2 & ->). apply Inv in E2 as (v & t' & E2 & E3 & ->).
    exists (v :: u :: t'). cbn [omap]. rewrite E1, E2. cbn [obind]. rewrite E3. split; [reflexivity|constructor].
  - destruct (IH1 ys K) as (y2 & E1 & P1). destruct (IH2 y2 E1) as (y3 & E2 & P2). exists y3. split; [exact E2|now transitivity y2].
Qed.

Section RealMeans.
  Context {RE HE : Type} (score : HE -> f32) (T : Trans RArith).
  Notation M := (match_t RE HE).

  Lemma mean_ap_perm srt (gs gs' : list (list M)) c i t : Permutation gs gs' ->
    mean_ap RArith score srt gs c i t false = mean_ap RArith score srt gs' c i t false.
  Proof.
    intros P. unfold mean_ap. rewrite (Permutation_length P). f_equal.
    apply (sum_perm (fun g => global_ap RArith score g c i t)); [|exact P]. intros g. right. exact (Finish.global_ap_ok (A := RArith) score g c i t).
  Qed.

  Lemma mean_ndcg_perm srt (gs gs' : list (list M)) c : Permutation gs gs' ->
    mean_ndcg RArith T score srt gs c false = mean_ndcg RArith T score srt gs' c false.
  Proof.
    intros P. unfold mean_ndcg. rewrite (Permutation_length P). f_equal.
    apply (sum_perm (fun g => Ok (global_ndcg RArith T score g c))); [|exact P]. intros g. right. eauto.
  Qed.

  Lemma mean_curve_perm w c (gs gs' : list (list M)) e : Permutation gs gs' ->
    write_mean_curve RArith score w c gs = (e, inl tt) -> write_mean_curve RArith score w c gs' = (e, inl tt).
  Proof.
    intros P. unfold write_mean_curve. rewrite (Permutation_length P). set (xs := even_points RArith (Z.to_nat (cf_curve c))).
    set (F := fun g : list M => let (pr, rc) := precision_recall_matches RArith score g (cf_collapse c) (cf_interp c) in
        sample_curve RArith rc pr xs (cf_trapezoid c)).
    destruct (omap F gs) as [curves| |] eqn:E1; [|discriminate|discriminate].
    destruct (omap_perm F gs gs' P curves E1) as (curves' & E2 & Pc). rewrite E2. cbn [run]. rewrite !pbind_nil.
    intros <-. f_equal. f_equal. clear - Pc. induction (seq 0 (length xs)) as [|i l IH]; [reflexivity|]. cbn [omap].
    assert (K : sum_at RArith i curves = sum_at RArith i curves').
    { apply (sum_perm (fun ys => at_ ys i)); [|exact Pc]. intros ys. unfold at_. destruct (nth_error ys i); eauto. }
    rewrite K, IH. reflexivity.
  Qed.
End RealMeans.

(** ** Runs *)

Section Ends.
  Context {A : Arith} (T : Trans A) (srt : sort_fn).

  Lemma curve_file_same {RE HE} (w w' : world) name (P P' : list (num A * num A) -> Prop) (l l' : list (effect A (RE := RE) (HE := HE))) b b' :
    w_writable w = w_writable w' -> (name <> [] -> forall p p', P p -> P' p' -> p = p') ->
    curve_file w name P l b -> curve_file w' name P' l' b' -> l = l' /\ b = b'.
  Proof. intros Hw U [] []; try congruence; auto. split; [|reflexivity]. do 3 f_equal. auto. Qed.

  Lemma curve_file_only {RE HE} (w : world) name (P : list (num A * num A) -> Prop) (l : list (effect A (RE := RE) (HE := HE))) b :
    curve_file w name P l b -> forall e, In e l -> exists pts, e = EWrite name (FCurve pts).
  Proof. intros [] e I; try destruct I as [<-|[]]; try destruct I; eauto. Qed.

  Lemma curve_file_flag {RE HE} (w w' : world) name (P P' : list (num A * num A) -> Prop) (l l' : list (effect A (RE := RE) (HE := HE))) b b' :
    w_writable w = w_writable w' -> curve_file w name P l b -> curve_file w' name P' l' b' -> b = b'.
  Proof. intros Hw [] []; congruence. Qed.

  (** The statistics over all matches and their curve. *)
  Lemma reported_points {RE E} w w' c (ms log ms' log' : list (match_t RE (scored E))) groups groups' l r l' r' :
    w_writable w = w_writable w' -> same_points sc_score (cf_collapse c) ms ms' ->
    Instances.reported T srt w c ms log groups l r -> Instances.reported T srt w' c ms' log' groups' l' r' ->
    r = r' /\ exists v1 v2 v3 v4 v2' v4' g m m',
      outputs l = dumped c ms log ++ [EStat (lit "gAP") v1 None; EStat (lit "mAP") v2 None; EStat (lit "gNDCG") v3 None; EStat (lit "mNDCG") v4 None] ++ g ++ m /\
      outputs l' = dumped c ms' log' ++ [EStat (lit "gAP") v1 None; EStat (lit "mAP") v2' None; EStat (lit "gNDCG") v3 None; EStat (lit "mNDCG") v4' None] ++ g ++ m' /\
      (forall e, In e (m ++ m') -> exists pts, e = EWrite (cf_mrp c) (FCurve pts)).
  Proof.
    intros Hw Sp (v1 & v2 & v4 & cv & e & -> & V1 & V2 & V4 & O & C) (v1' & v2' & v4' & cv' & e' & -> & V1' & V2' & V4' & O' & C').
    rewrite (same_global_ap sc_score _ ms ms' _ _ Sp), V1' in V1. injection V1 as ->.
    rewrite (same_global_ndcg sc_score _ T ms ms' Sp) in O.
    assert (G : forall (g : list (effect A (RE := RE) (HE := scored E))) b g' b', curve_file w (cf_grp c) (global_points c ms) g b -> curve_file w' (cf_grp c) (global_points (A := A) c ms') g' b' -> g = g' /\ b = b').
    { intros g b g' b'. apply curve_file_same; [exact Hw|]. intros _ p p' (ys & -> & _ & H) (ys' & -> & _ & H').
      rewrite (same_pr sc_score _ ms ms' (cf_interp c) Sp) in H.
      destruct (precision_recall_matches A sc_score ms' (cf_collapse c) (cf_interp c)). congruence. }
    assert (K : exists g m m', cv = g ++ m /\ cv' = g ++ m' /\ e = e' /\ (forall x, In x (m ++ m') -> exists pts, x = EWrite (cf_mrp c) (FCurve pts))).
    { destruct C as [g m b Hg Hm|g Hg]; destruct C' as [g' m' b' Hg' Hm'|g' Hg']; destruct (G _ _ _ _ Hg Hg') as [<- Eb]; try discriminate Eb.
      - exists g, m, m'. rewrite (curve_file_flag _ _ _ _ _ _ _ _ _ Hw Hm Hm'). repeat split; auto.
        intros x I. apply in_app_or in I as [I|I]; [exact (curve_file_only _ _ _ _ _ Hm x I)|exact (curve_file_only _ _ _ _ _ Hm' x I)].
      - exists g, [], []. rewrite app_nil_r. repeat split; auto. intros x []. }
    destruct K as (g & m & m' & -> & -> & -> & W). split; [reflexivity|].
    exists v1, v2, (global_ndcg A T sc_score ms' (cf_collapse c)), v4, v2', v4', g, m, m'. auto.
  Qed.
End Ends.

(** In real arithmetic everything but the file of matches is the same. *)
Lemma reported_real (T : Trans RArith) srt {RE E} w w' c (ms log ms' log' : list (match_t RE (scored E))) groups groups' gs l r l' r' :
  w_writable w = w_writable w' -> same_points sc_score (cf_collapse c) ms ms' ->
  Permutation groups gs -> Forall2 (same_points sc_score (cf_collapse c)) gs groups' ->
  Instances.reported T srt w c ms log groups l r -> Instances.reported T srt w' c ms' log' groups' l' r' ->
  r = r' /\ exists v1 v2 v3 v4 cv,
    outputs l = dumped c ms log ++ [EStat (lit "gAP") v1 None; EStat (lit "mAP") v2 None; EStat (lit "gNDCG") v3 None; EStat (lit "mNDCG") v4 None] ++ cv /\
    outputs l' = dumped c ms' log' ++ [EStat (lit "gAP") v1 None; EStat (lit "mAP") v2 None; EStat (lit "gNDCG") v3 None; EStat (lit "mNDCG") v4 None] ++ cv.
Proof.
  intros Hw Sp Pg Fg (v1 & v2 & v4 & cv & e & -> & V1 & V2 & V4 & O & C) (v1' & v2' & v4' & cv' & e' & -> & V1' & V2' & V4' & O' & C').
  rewrite (same_global_ap sc_score _ ms ms' _ _ Sp), V1' in V1. injection V1 as ->.
  rewrite (mean_ap_perm sc_score srt groups gs _ _ _ Pg), (same_mean_ap sc_score _ srt gs groups' _ _ Fg), V2' in V2. injection V2 as ->.
  rewrite (mean_ndcg_perm sc_score T srt groups gs _ Pg), (same_mean_ndcg sc_score _ T srt gs groups' Fg), V4' in V4. injection V4 as ->.
  rewrite (same_global_ndcg sc_score _ T ms ms' Sp) in O.
  assert (G : forall p p', global_points (A := RArith) c ms p -> global_points c ms' p' -> p = p').
  { intros p p' (ys & -> & _ & H) (ys' & -> & _ & H').
    rewrite (same_pr sc_score _ ms ms' (cf_interp c) Sp) in H.
    destruct (precision_recall_matches RArith sc_score ms' (cf_collapse c) (cf_interp c)). congruence. }
  assert (Gm : cf_mrp c <> [] -> forall p p', mean_points (A := RArith) w c groups p -> mean_points w' c groups' p' -> p = p').
  { intros N p p' (ys & _ & _ & H) (ys' & _ & _ & H'). specialize (H N). specialize (H' N).
    apply (mean_curve_perm sc_score w c groups gs _ Pg) in H. rewrite (same_mean_curve sc_score _ w w' c gs groups' Hw eq_refl Fg), H' in H.
    assert (K : [EWrite (RE := RE) (HE := scored E) (cf_mrp c) (FCurve p)] = [EWrite (cf_mrp c) (FCurve p')]) by congruence.
    injection K. auto. }
  assert (K : cv = cv' /\ e = e').
  { destruct C as [g m b Hg Hm|g Hg]; destruct C' as [g' m' b' Hg' Hm'|g' Hg'];
      destruct (curve_file_same w w' _ _ _ _ _ _ _ Hw (fun _ => G) Hg Hg') as [<- Eb]; try discriminate Eb; auto.
    destruct (curve_file_same w w' _ _ _ _ _ _ _ Hw Gm Hm Hm') as [<- <-]. auto. }
  destruct K as [<- <-]. split; [reflexivity|]. eauto 8.
Qed.

Lemma points_names id cb (ms : list (match_t (event bytes bytes) (scored (event bytes bytes)))) :
  points sc_score cb (map (renamed_match id) ms) = points sc_score cb ms.
Proof. apply (Runs.points_renamed (renamed id) (map_scored (renamed id)) sc_score sc_score). reflexivity. Qed.

Lemma groups_names id id' cb (gs gs' : list (list (match_t (event bytes bytes) (scored (event bytes bytes))))) :
  Forall2 (fun g g' => points sc_score cb g = points sc_score cb g') gs gs' ->
  Forall2 (same_points sc_score cb) (map (map (renamed_match id)) gs) (map (map (renamed_match id')) gs').
Proof. induction 1; cbn [map]; constructor; auto. unfold same_points. now rewrite !points_names. Qed.
