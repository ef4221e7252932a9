(** Proofs about Match objects, Match comparison and the NH/NR counts. *)
From Coq Require Import List Bool Arith Lia.
From Verif.Model Require Import Cpp Floats Events Matches.
From Verif.Spec Require Import Order Objects.
From Verif.Proofs Require Import Order Sets.
Import ListNotations.

Section Storage.
  Context {RE HE : Type}.
  Notation state := (mstate RE HE).

  Definition H (s : state) (a : nat) : option (cell RE HE) := map_find Nat.eqb a (s_heap s).
  Definition O (s : state) (x : nat) : option mobj := map_find Nat.eqb x (s_objs s).

  Lemma O_put x o s z : O (put_obj x o s) z = if Nat.eqb x z then Some o else O s z.
  Proof. unfold O, put_obj. simpl. apply (map_find_set Nat.eqb Nat.eqb_eq). Qed.

  Lemma H_put x o s a : H (put_obj x o s) a = H s a.
  Proof. reflexivity. Qed.

  Lemma O_free p s z : O (heap_free p s) z = O s z.
  Proof. destruct p; reflexivity. Qed.

  Lemma next_free p (s : state) : s_next (heap_free p s) = s_next s.
  Proof. destruct p; reflexivity. Qed.

  Lemma find_filter {V} (m : list (nat * V)) a b :
    map_find Nat.eqb a (filter (fun kc => negb (Nat.eqb (fst kc) b)) m)
    = if Nat.eqb a b then None else map_find Nat.eqb a m.
  Proof.
    induction m as [|[k v] m IH]; simpl; [destruct (Nat.eqb a b); reflexivity|].
    destruct (Nat.eqb_spec k b); simpl.
    - rewrite IH. subst. destruct (Nat.eqb_spec a b); auto. destruct (Nat.eqb_spec b a); congruence.
    - rewrite IH. destruct (Nat.eqb_spec k a); auto. destruct (Nat.eqb_spec a b); congruence.
  Qed.

  Lemma H_free p s a :
    H (heap_free p s) a =
    match p with Some b => if Nat.eqb a b then None else H s a | None => H s a end.
  Proof. destruct p; [|reflexivity]. unfold H. simpl. apply find_filter. Qed.

  Record Inv (s : state) : Prop := {
    inv_next : forall a c, H s a = Some c -> a < s_next s;
    inv_ref : forall x o a, O s x = Some o -> o_ref o = Some a -> exists r, H s a = Some (CRef r);
    inv_hyp : forall x o a, O s x = Some o -> o_hyp o = Some a -> exists h, H s a = Some (CHyp h);
    inv_ref1 : forall x y o o' a, O s x = Some o -> O s y = Some o' ->
               o_ref o = Some a -> o_ref o' = Some a -> x = y;
    inv_hyp1 : forall x y o o' a, O s x = Some o -> O s y = Some o' ->
               o_hyp o = Some a -> o_hyp o' = Some a -> x = y }.

  Lemma inv_ref_lt s x o a : Inv s -> O s x = Some o -> o_ref o = Some a -> a < s_next s.
  Proof. intros I Hx Ha. destruct (inv_ref _ I _ _ _ Hx Ha). eapply inv_next; eauto. Qed.

  Lemma inv_hyp_lt s x o a : Inv s -> O s x = Some o -> o_hyp o = Some a -> a < s_next s.
  Proof. intros I Hx Ha. destruct (inv_hyp _ I _ _ _ Hx Ha). eapply inv_next; eauto. Qed.

  (** The value of an object. *)
  Definition rview (s : state) (p : option nat) : option (option RE) :=
    match p with
    | None => Some None
    | Some a => match H s a with Some (CRef r) => Some (Some r) | _ => None end
    end.
  Definition hview (s : state) (p : option nat) : option (option HE) :=
    match p with
    | None => Some None
    | Some a => match H s a with Some (CHyp h) => Some (Some h) | _ => None end
    end.

  Lemma view_unfold x s :
    obj_view x s = match O s x with
                   | None => None
                   | Some o => match rview s (o_ref o), hview s (o_hyp o) with
                               | Some r, Some h => Some (Match r h (o_err o))
                               | _, _ => None
                               end
                   end.
  Proof. reflexivity. Qed.

  Lemma view_live s x : Inv s -> live x s ->
    exists o r h, O s x = Some o /\ rview s (o_ref o) = Some r /\ hview s (o_hyp o) = Some h /\
                  obj_view x s = Some (Match r h (o_err o)).
  Proof.
    intros I Hl. unfold live in Hl. fold (O s x) in Hl. destruct (O s x) as [o|] eqn:Ex; [|congruence].
    rewrite view_unfold, Ex.
    assert (exists r, rview s (o_ref o) = Some r) as [r Hr].
    { destruct (o_ref o) as [a|] eqn:Ea; simpl; eauto.
      destruct (inv_ref _ I _ _ _ Ex Ea) as [r ->]. eauto. }
    assert (exists h, hview s (o_hyp o) = Some h) as [h Hh].
    { destruct (o_hyp o) as [a|] eqn:Ea; simpl; eauto.
      destruct (inv_hyp _ I _ _ _ Ex Ea) as [h ->]. eauto. }
    exists o, r, h. rewrite Hr, Hh. auto.
  Qed.

  Lemma view_same s s' z :
    O s' z = O s z ->
    (forall o a, O s z = Some o -> o_ref o = Some a -> H s' a = H s a) ->
    (forall o a, O s z = Some o -> o_hyp o = Some a -> H s' a = H s a) ->
    obj_view z s' = obj_view z s.
  Proof.
    intros H1 H2 H3. rewrite !view_unfold, H1. destruct (O s z) as [o|]; auto.
    assert (rview s' (o_ref o) = rview s (o_ref o)) as ->.
    { destruct (o_ref o) as [a|] eqn:E; simpl; auto. rewrite (H2 o a); auto. }
    assert (hview s' (o_hyp o) = hview s (o_hyp o)) as ->.
    { destruct (o_hyp o) as [a|] eqn:E; simpl; auto. rewrite (H3 o a); auto. }
    reflexivity.
  Qed.

  (** ** SetRef and SetHyp *)

  Lemma set_ref_spec s x o r : Inv s -> O s x = Some o ->
    exists s', obj_set_ref x (CRef r) s = Ok s' /\ Inv s' /\
      s_next s' = S (s_next s) /\
      O s' x = Some (MObj (Some (s_next s)) (o_hyp o) (o_err o)) /\
      (forall z, z <> x -> O s' z = O s z) /\
      H s' (s_next s) = Some (CRef r) /\
      (forall a, a <> s_next s -> H s' a = if match o_ref o with Some b => Nat.eqb a b | None => false end
                                         then None else H s a).
  Proof.
    intros I Hx. unfold obj_set_ref, get_obj. fold (O s x). rewrite Hx. simpl.
    set (s1 := MState ((s_next s, CRef r) :: s_heap s) (S (s_next s)) (s_objs s)).
    assert (HO : forall z, O s1 z = O s z) by reflexivity.
    assert (HH : forall a, H s1 a = if Nat.eqb (s_next s) a then Some (CRef r) else H s a) by reflexivity.
    set (s' := put_obj x (MObj (Some (s_next s)) (o_hyp o) (o_err o)) (heap_free (o_ref o) s1)).
    assert (KO : forall z, O s' z = if Nat.eqb x z
              then Some (MObj (Some (s_next s)) (o_hyp o) (o_err o)) else O s z).
    { intros z. unfold s'. rewrite O_put, O_free, HO. reflexivity. }
    assert (KH : forall a, H s' a = if Nat.eqb (s_next s) a then Some (CRef r) else
              if match o_ref o with Some b => Nat.eqb a b | None => false end then None else H s a).
    { intros a. unfold s'. rewrite H_put, H_free, !HH. destruct (o_ref o) as [b|] eqn:Eb; auto.
      assert (b < s_next s) by (eapply inv_ref_lt; eauto).
      destruct (Nat.eqb_spec a b); destruct (Nat.eqb_spec (s_next s) a); auto; lia. }
    assert (KN : s_next s' = S (s_next s)) by (unfold s'; simpl; rewrite next_free; reflexivity).
    exists s'. split; [reflexivity|]. split; [|split; [|split; [|split; [|split]]]]; auto.
    - constructor.
      + intros a c. rewrite KH, KN. destruct (Nat.eqb_spec (s_next s) a); [lia|].
        destruct (match o_ref o with Some b => Nat.eqb a b | None => false end); [discriminate|].
        intros K. apply (inv_next _ I) in K. lia.
      + intros y oy a. rewrite KO. destruct (Nat.eqb_spec x y).
        * intros [= <-] [= <-]. rewrite KH, Nat.eqb_refl. eauto.
        * intros Hy Ha. destruct (inv_ref _ I _ _ _ Hy Ha) as [r' Hr]. exists r'.
          assert (a < s_next s) by (eapply inv_ref_lt; eauto).
          rewrite KH. destruct (Nat.eqb_spec (s_next s) a); [lia|].
          destruct (o_ref o) as [b|] eqn:Eb; auto. destruct (Nat.eqb_spec a b); auto.
          subst b. exfalso. apply n. eapply inv_ref1; eauto.
      + intros y oy a Hy Ha.
        assert (E : exists y0 o0, O s y0 = Some o0 /\ o_hyp o0 = Some a).
        { rewrite KO in Hy. destruct (Nat.eqb_spec x y); [|eauto].
          injection Hy as <-. simpl in Ha. eauto. }
        destruct E as [y0 [o0 [E1 E2]]]. destruct (inv_hyp _ I _ _ _ E1 E2) as [h Hh]. exists h.
        assert (a < s_next s) by (eapply inv_hyp_lt; eauto).
        rewrite KH. destruct (Nat.eqb_spec (s_next s) a); [lia|].
        destruct (o_ref o) as [b|] eqn:Eb; auto. destruct (Nat.eqb_spec a b); auto.
        subst b. destruct (inv_ref _ I _ _ _ Hx Eb). congruence.
      + intros y z oy oz a. rewrite !KO. destruct (Nat.eqb_spec x y), (Nat.eqb_spec x z); subst; auto.
        * intros [= <-] Hz [= <-] Ha. assert (s_next s < s_next s) by (eapply inv_ref_lt; eauto). lia.
        * intros Hy [= <-] Ha [= <-]. assert (s_next s < s_next s) by (eapply inv_ref_lt; eauto). lia.
        * eapply inv_ref1; eauto.
      + intros y z oy oz a. rewrite !KO. destruct (Nat.eqb_spec x y), (Nat.eqb_spec x z); subst; auto.
        * intros [= <-] Hz Ha Ha'. simpl in Ha. eapply inv_hyp1; eauto.
        * intros Hy [= <-] Ha Ha'. simpl in Ha'. eapply inv_hyp1; eauto.
        * eapply inv_hyp1; eauto.
    - rewrite KO, Nat.eqb_refl. reflexivity.
    - intros z Hz. rewrite KO. destruct (Nat.eqb_spec x z); congruence.
    - rewrite KH, Nat.eqb_refl. reflexivity.
    - intros a Ha. rewrite KH. destruct (Nat.eqb_spec (s_next s) a); congruence.
  Qed.

  Lemma set_hyp_spec s x o r : Inv s -> O s x = Some o ->
    exists s', obj_set_hyp x (CHyp r) s = Ok s' /\ Inv s' /\
      s_next s' = S (s_next s) /\
      O s' x = Some (MObj (o_ref o) (Some (s_next s)) (o_err o)) /\
      (forall z, z <> x -> O s' z = O s z) /\
      H s' (s_next s) = Some (CHyp r) /\
      (forall a, a <> s_next s -> H s' a = if match o_hyp o with Some b => Nat.eqb a b | None => false end
                                         then None else H s a).
  Proof.
    intros I Hx. unfold obj_set_hyp, get_obj. fold (O s x). rewrite Hx. simpl.
    set (s1 := MState ((s_next s, CHyp r) :: s_heap s) (S (s_next s)) (s_objs s)).
    assert (HO : forall z, O s1 z = O s z) by reflexivity.
    assert (HH : forall a, H s1 a = if Nat.eqb (s_next s) a then Some (CHyp r) else H s a) by reflexivity.
    set (s' := put_obj x (MObj (o_ref o) (Some (s_next s)) (o_err o)) (heap_free (o_hyp o) s1)).
    assert (KO : forall z, O s' z = if Nat.eqb x z
              then Some (MObj (o_ref o) (Some (s_next s)) (o_err o)) else O s z).
    { intros z. unfold s'. rewrite O_put, O_free, HO. reflexivity. }
    assert (KH : forall a, H s' a = if Nat.eqb (s_next s) a then Some (CHyp r) else
              if match o_hyp o with Some b => Nat.eqb a b | None => false end then None else H s a).
    { intros a. unfold s'. rewrite H_put, H_free, !HH. destruct (o_hyp o) as [b|] eqn:Eb; auto.
      assert (b < s_next s) by (eapply inv_hyp_lt; eauto).
      destruct (Nat.eqb_spec a b); destruct (Nat.eqb_spec (s_next s) a); auto; lia. }
    assert (KN : s_next s' = S (s_next s)) by (unfold s'; simpl; rewrite next_free; reflexivity).
    exists s'. split; [reflexivity|]. split; [|split; [|split; [|split; [|split]]]]; auto.
    - constructor.
      + intros a c. rewrite KH, KN. destruct (Nat.eqb_spec (s_next s) a); [lia|].
        destruct (match o_hyp o with Some b => Nat.eqb a b | None => false end); [discriminate|].
        intros K. apply (inv_next _ I) in K. lia.
      + intros y oy a Hy Ha.
        assert (E : exists y0 o0, O s y0 = Some o0 /\ o_ref o0 = Some a).
        { rewrite KO in Hy. destruct (Nat.eqb_spec x y); [|eauto].
          injection Hy as <-. simpl in Ha. eauto. }
        destruct E as [y0 [o0 [E1 E2]]]. destruct (inv_ref _ I _ _ _ E1 E2) as [h Hh]. exists h.
        assert (a < s_next s) by (eapply inv_ref_lt; eauto).
        rewrite KH. destruct (Nat.eqb_spec (s_next s) a); [lia|].
        destruct (o_hyp o) as [b|] eqn:Eb; auto. destruct (Nat.eqb_spec a b); auto.
        subst b. destruct (inv_hyp _ I _ _ _ Hx Eb). congruence.
      + intros y oy a. rewrite KO. destruct (Nat.eqb_spec x y).
        * intros [= <-] [= <-]. rewrite KH, Nat.eqb_refl. eauto.
        * intros Hy Ha. destruct (inv_hyp _ I _ _ _ Hy Ha) as [r' Hr]. exists r'.
          assert (a < s_next s) by (eapply inv_hyp_lt; eauto).
          rewrite KH. destruct (Nat.eqb_spec (s_next s) a); [lia|].
          destruct (o_hyp o) as [b|] eqn:Eb; auto. destruct (Nat.eqb_spec a b); auto.
          subst b. exfalso. apply n. eapply inv_hyp1; eauto.
      + intros y z oy oz a. rewrite !KO. destruct (Nat.eqb_spec x y), (Nat.eqb_spec x z); subst; auto.
        * intros [= <-] Hz Ha Ha'. simpl in Ha. eapply inv_ref1; eauto.
        * intros Hy [= <-] Ha Ha'. simpl in Ha'. eapply inv_ref1; eauto.
        * eapply inv_ref1; eauto.
      + intros y z oy oz a. rewrite !KO. destruct (Nat.eqb_spec x y), (Nat.eqb_spec x z); subst; auto.
        * intros [= <-] Hz [= <-] Ha. assert (s_next s < s_next s) by (eapply inv_hyp_lt; eauto). lia.
        * intros Hy [= <-] Ha [= <-]. assert (s_next s < s_next s) by (eapply inv_hyp_lt; eauto). lia.
        * eapply inv_hyp1; eauto.
    - rewrite KO, Nat.eqb_refl. reflexivity.
    - intros z Hz. rewrite KO. destruct (Nat.eqb_spec x z); congruence.
    - rewrite KH, Nat.eqb_refl. reflexivity.
    - intros a Ha. rewrite KH. destruct (Nat.eqb_spec (s_next s) a); congruence.
  Qed.

  (** ** Copying the events *)

  Lemma copy_events_spec s x y oy e r h :
    Inv s -> x <> y -> O s x = Some (MObj None None e) -> O s y = Some oy ->
    rview s (o_ref oy) = Some r -> hview s (o_hyp oy) = Some h ->
    exists s' o', obj_copy_events x y s = Ok s' /\ Inv s' /\ s_next s <= s_next s' /\
      O s' x = Some o' /\ o_err o' = e /\
      rview s' (o_ref o') = Some r /\ hview s' (o_hyp o') = Some h /\
      (forall a, o_ref o' = Some a -> s_next s <= a) /\
      (forall a, o_hyp o' = Some a -> s_next s <= a) /\
      (forall z, z <> x -> O s' z = O s z) /\
      (forall a, a < s_next s -> H s' a = H s a) /\
      (forall a, s_next s <= a -> H s' a <> None -> o_ref o' = Some a \/ o_hyp o' = Some a).
  Proof.
    intros I Hxy Hx Hy Hr Hh. unfold obj_copy_events, get_obj at 1. fold (O s y). rewrite Hy.
    cbn [obind].
    (* the reference *)
    assert (S1 : exists s1 o1,
      (match o_ref oy with
       | None => Ok s
       | p => obind (deref p s) (fun c => obj_set_ref x c s)
       end) = Ok s1 /\ Inv s1 /\ s_next s <= s_next s1 /\
      O s1 x = Some o1 /\ o_err o1 = e /\ o_hyp o1 = None /\ rview s1 (o_ref o1) = Some r /\
      (forall a, o_ref o1 = Some a -> s_next s <= a /\ a < s_next s1) /\
      (forall z, z <> x -> O s1 z = O s z) /\
      (forall a, a < s_next s -> H s1 a = H s a) /\
      (forall a, s_next s <= a -> H s1 a <> None -> o_ref o1 = Some a)).
    { destruct (o_ref oy) as [a|] eqn:Ea.
      - simpl in Hr. destruct (H s a) as [[r0|h0]|] eqn:Eh; try discriminate. injection Hr as <-.
        simpl deref. fold (H s a). rewrite Eh. cbn [obind].
        destruct (set_ref_spec s x _ r0 I Hx) as [s1 [K1 [K2 [K3 [K4 [K5 [K6 K7]]]]]]].
        exists s1. eexists. split; [exact K1|]. split; [exact K2|]. split; [lia|].
        split; [exact K4|]. simpl. split; [reflexivity|]. split; [reflexivity|].
        split; [rewrite K6; reflexivity|]. split; [intros b [= <-]; lia|]. split; [exact K5|].
        split.
        + intros b Hb. rewrite K7 by lia. reflexivity.
        + intros b Hb Hn. destruct (Nat.eq_dec b (s_next s)); [congruence|].
          rewrite K7 in Hn by auto. simpl in Hn. destruct (H s b) eqn:Hb'; [|congruence].
          apply (inv_next _ I) in Hb'. lia.
      - simpl in Hr. injection Hr as <-. exists s. eexists. split; [reflexivity|]. split; [exact I|].
        split; [lia|]. split; [exact Hx|]. simpl. repeat (split; auto).
        + discriminate.
        + discriminate.
        + intros a Ha Hn. destruct (H s a) eqn:Hb'; [|congruence].
          apply (inv_next _ I) in Hb'. lia. }
    destruct S1 as [s1 [o1 [E1 [I1 [N1 [X1 [R1 [R2 [R3 [R4 [R5 [R6 R7]]]]]]]]]]]].
    match goal with
    | |- context [obind ?m _] =>
        replace m with (@Ok (mstate RE HE) s1) by (destruct (o_ref oy); symmetry; exact E1)
    end.
    cbn [obind]. unfold get_obj. fold (O s1 y). rewrite R5 by auto. rewrite Hy. cbn [obind].
    assert (Hh1 : hview s1 (o_hyp oy) = Some h).
    { destruct (o_hyp oy) as [a|] eqn:Ea; simpl in *; auto.
      rewrite R6; auto. eapply inv_hyp_lt; eauto. }
    destruct (o_hyp oy) as [a|] eqn:Ea.
    - simpl in Hh1. destruct (H s1 a) as [[r0|h0]|] eqn:Eh; try discriminate. injection Hh1 as <-.
      simpl deref. fold (H s1 a). rewrite Eh. cbn [obind].
      destruct (set_hyp_spec s1 x _ h0 I1 X1) as [s2 [K1 [K2 [K3 [K4 [K5 [K6 K7]]]]]]].
      exists s2. eexists. split; [exact K1|]. split; [exact K2|]. split; [lia|].
      split; [exact K4|]. simpl. split; [exact R1|].
      rewrite R2 in K7.
      split.
      { destruct (o_ref o1) as [b|] eqn:Eb; simpl in *; auto.
        destruct (R4 b eq_refl) as [B1 B2]. rewrite K7 by lia. exact R3. }
      split; [rewrite K6; reflexivity|].
      split; [intros b Hb; apply R4; exact Hb|].
      split; [intros b [= <-]; lia|].
      split; [intros z Hz; rewrite K5 by auto; apply R5; auto|].
      split; [intros b Hb; rewrite K7 by lia; apply R6; auto|].
      intros b Hb Hn. destruct (Nat.eq_dec b (s_next s1)); [right; congruence|].
      rewrite K7 in Hn by auto. left. apply R7; auto.
    - simpl in Hh1. injection Hh1 as <-. exists s1, o1. split; [reflexivity|].
      split; [exact I1|]. split; [exact N1|]. split; [exact X1|]. split; [exact R1|].
      split; [exact R3|]. rewrite R2. split; [reflexivity|].
      split; [intros b Hb; apply R4; exact Hb|].
      split; [discriminate|]. split; [exact R5|]. split; [exact R6|]. auto.
  Qed.

  (** Clearing the pointers of [x] keeps the invariant. *)
  Lemma inv_put_none s x e : Inv s -> Inv (put_obj x (MObj None None e) s).
  Proof.
    intros I. constructor.
    - intros a c. rewrite H_put. apply (inv_next _ I).
    - intros y o a. rewrite O_put, H_put. destruct (Nat.eqb x y); [intros [= <-]; discriminate|].
      apply (inv_ref _ I).
    - intros y o a. rewrite O_put, H_put. destruct (Nat.eqb x y); [intros [= <-]; discriminate|].
      apply (inv_hyp _ I).
    - intros y z o o' a. rewrite !O_put.
      destruct (Nat.eqb x y); [intros [= <-] ?; discriminate|].
      destruct (Nat.eqb x z); [intros ? [= <-] ?; discriminate|]. apply (inv_ref1 _ I).
    - intros y z o o' a. rewrite !O_put.
      destruct (Nat.eqb x y); [intros [= <-] ?; discriminate|].
      destruct (Nat.eqb x z); [intros ? [= <-] ?; discriminate|]. apply (inv_hyp1 _ I).
  Qed.

  (** What a copy into [x] does. *)
  Record copied (x y : nat) (s s' : state) : Prop := {
    cp_inv : Inv s';
    cp_next : s_next s <= s_next s';
    cp_view : obj_view x s' = obj_view y s;
    cp_others : forall z, z <> x -> obj_view z s' = obj_view z s;
    cp_objs : forall z, z <> x -> O s' z = O s z;
    cp_live : O s' x <> None;
    cp_old : forall a, a < s_next s -> H s' a = H s a;
    cp_ptr : forall o a, O s' x = Some o -> o_ref o = Some a \/ o_hyp o = Some a -> s_next s <= a;
    cp_new : forall a, s_next s <= a -> H s' a <> None ->
             exists o, O s' x = Some o /\ (o_ref o = Some a \/ o_hyp o = Some a) }.

  Lemma copy_into s x y oy : Inv s -> x <> y -> O s y = Some oy ->
    exists s', obj_copy_events x y (put_obj x (MObj None None (o_err oy)) s) = Ok s' /\ copied x y s s'.
  Proof.
    intros I Hxy Hy.
    destruct (view_live s y I) as [oy' [r [h [Y1 [Y2 [Y3 Y4]]]]]].
    { unfold live. fold (O s y). congruence. }
    assert (oy' = oy) by congruence. subst oy'.
    set (s1 := put_obj x (MObj None None (o_err oy)) s).
    assert (E1 : O s1 x = Some (MObj None None (o_err oy)))
      by (unfold s1; rewrite O_put, Nat.eqb_refl; reflexivity).
    assert (E2 : O s1 y = Some oy).
    { unfold s1. rewrite O_put. destruct (Nat.eqb_spec x y); congruence. }
    destruct (copy_events_spec s1 x y oy _ r h (inv_put_none s x _ I) Hxy E1 E2 Y2 Y3)
      as [s' [o' [K1 [K2 [K3 [K4 [K5 [K6 [K7 [K8 [K9 [K10 [K11 K12]]]]]]]]]]]]].
    assert (KO : forall z, z <> x -> O s' z = O s z).
    { intros z Hz. rewrite K10 by auto. unfold s1. rewrite O_put.
      destruct (Nat.eqb_spec x z); congruence. }
    exists s'. split; [exact K1|]. constructor; auto.
    - rewrite view_unfold, K4, K6, K7, K5, Y4. reflexivity.
    - intros z Hz. apply view_same; auto.
      + intros o a Ho Ha. rewrite K11; [reflexivity|]. eapply (inv_ref_lt s); eauto.
      + intros o a Ho Ha. rewrite K11; [reflexivity|]. eapply (inv_hyp_lt s); eauto.
    - congruence.
    - intros o a Ho [Ha|Ha]; assert (o = o') by congruence; subst o; [apply K8|apply K9]; auto.
    - intros a Ha Hn. exists o'. split; auto.
  Qed.

  Lemma copy_construct_spec s x y : Inv s -> x <> y -> live y s ->
    exists s', obj_copy_construct x y s = Ok s' /\ copied x y s s'.
  Proof.
    intros I Hxy Hy. unfold live in Hy. fold (O s y) in Hy. destruct (O s y) as [oy|] eqn:Ey; [|congruence].
    unfold obj_copy_construct, get_obj. fold (O s y). rewrite Ey. simpl.
    apply copy_into; auto.
  Qed.

  Lemma assign_spec s x y : Inv s -> x <> y -> live x s -> live y s ->
    exists s', obj_assign x y s = Ok s' /\ copied x y s s'.
  Proof.
    intros I Hxy Hx Hy. unfold live in *. fold (O s y) in Hy. fold (O s x) in Hx.
    destruct (O s y) as [oy|] eqn:Ey; [|congruence]. destruct (O s x) as [ox|] eqn:Ex; [|congruence].
    unfold obj_assign, get_obj. fold (O s y) (O s x). rewrite Ey, Ex. cbn [obind].
    apply copy_into; auto.
  Qed.

  (** Self-assignment. *)
  Lemma self_assign s x o : O s x = Some o ->
    obj_assign x x s = Ok (put_obj x (MObj None None (o_err o)) s).
  Proof.
    intros Hx. unfold obj_assign, get_obj at 1 2. fold (O s x). rewrite Hx. cbn [obind].
    unfold obj_copy_events, get_obj.
    fold (O (put_obj x (MObj None None (o_err o)) s) x). rewrite O_put, Nat.eqb_refl. cbn [obind o_ref].
    fold (O (put_obj x (MObj None None (o_err o)) s) x). rewrite O_put, Nat.eqb_refl. reflexivity.
  Qed.

  (** Move assignment. *)
  Lemma move_spec s x y ox oy : Inv s -> x <> y -> O s x = Some ox -> O s y = Some oy ->
    exists s', obj_move_assign x y s = Ok s' /\ Inv s' /\ s_next s' = s_next s /\
      O s' x = Some oy /\ O s' y = Some (MObj None None (o_err oy)) /\
      (forall z, z <> x -> z <> y -> O s' z = O s z) /\
      (forall a, o_ref ox = Some a \/ o_hyp ox = Some a -> H s' a = None) /\
      (forall a, o_ref ox <> Some a -> o_hyp ox <> Some a -> H s' a = H s a).
  Proof.
    intros I Hxy Hx Hy. unfold obj_move_assign, get_obj. fold (O s y) (O s x). rewrite Hx, Hy. cbn [obind].
    destruct (Nat.eqb_spec x y) as [E|_]; [contradiction|].
    set (s1 := heap_free (o_hyp ox) (heap_free (o_ref ox) s)).
    assert (KH : forall a, H s1 a =
        if match o_hyp ox with Some b => Nat.eqb a b | None => false end then None else
        if match o_ref ox with Some b => Nat.eqb a b | None => false end then None else H s a).
    { intros a. unfold s1. rewrite !H_free. destruct (o_hyp ox), (o_ref ox); reflexivity. }
    set (s' := put_obj x (MObj (o_ref oy) (o_hyp oy) (o_err oy))
                 (put_obj y (MObj None None (o_err oy)) s1)).
    assert (KO : forall z, O s' z = if Nat.eqb x z then Some oy else
                if Nat.eqb y z then Some (MObj None None (o_err oy)) else O s z).
    { intros z. unfold s'. rewrite !O_put. unfold s1. rewrite !O_free. destruct oy; reflexivity. }
    assert (KN : s_next s' = s_next s) by (unfold s', s1; simpl; rewrite !next_free; reflexivity).
    assert (K1 : forall a, o_ref ox = Some a \/ o_hyp ox = Some a -> H s' a = None).
    { intros a Ha. change (H s' a) with (H s1 a). rewrite KH.
      destruct Ha as [-> | ->]; rewrite Nat.eqb_refl; [destruct (match o_hyp ox with
        | Some b => Nat.eqb a b | None => false end)|]; reflexivity. }
    assert (K2 : forall a, o_ref ox <> Some a -> o_hyp ox <> Some a -> H s' a = H s a).
    { intros a Ha Ha'. change (H s' a) with (H s1 a). rewrite KH.
      destruct (o_hyp ox) as [b|]; [destruct (Nat.eqb_spec a b); [congruence|]|];
      (destruct (o_ref ox) as [c|]; [destruct (Nat.eqb_spec a c); [congruence|]|]); reflexivity. }
    exists s'. split; [reflexivity|]. split; [|split; [|split; [|split; [|split]]]]; auto.
    - (* an owner in s' comes from an owner other than x in s *)
      assert (Src : forall z o, O s' z = Some o ->
                (exists w, w <> x /\ O s w = Some o /\ (w = z \/ (z = x /\ w = y))) \/
                (o_ref o = None /\ o_hyp o = None)).
      { intros z o. rewrite KO. destruct (Nat.eqb_spec x z).
        - intros [= <-]. left. exists y. subst. auto.
        - destruct (Nat.eqb_spec y z); [intros [= <-]; simpl; auto|].
          intros Ho. left. exists z. split; [congruence|]. split; auto. }
      assert (Nx : forall w o a, w <> x -> O s w = Some o -> (o_ref o = Some a \/ o_hyp o = Some a) ->
                   o_ref ox <> Some a /\ o_hyp ox <> Some a).
      { intros w o a Hw Ho [Ha|Ha]; split; intros Ha'.
        - apply Hw. eapply (inv_ref1 _ I); eauto.
        - destruct (inv_ref _ I _ _ _ Ho Ha), (inv_hyp _ I _ _ _ Hx Ha'). congruence.
        - destruct (inv_hyp _ I _ _ _ Ho Ha), (inv_ref _ I _ _ _ Hx Ha'). congruence.
        - apply Hw. eapply (inv_hyp1 _ I); eauto. }
      assert (Inj : forall z z' w w' o o', w <> x -> w' <> x -> O s' z = Some o -> O s' z' = Some o' ->
                (w = z \/ (z = x /\ w = y)) -> (w' = z' \/ (z' = x /\ w' = y)) -> w = w' ->
                (o_ref o <> None \/ o_hyp o <> None) -> (o_ref o' <> None \/ o_hyp o' <> None) -> z = z').
      { intros z z' w w' o o' W W' Hz Hz' [->|[-> ->]] [->|[-> ->]] E Hn Hn'; auto; subst.
        - rewrite KO in Hz. destruct (Nat.eqb_spec x y); [congruence|]. rewrite Nat.eqb_refl in Hz.
          injection Hz as <-. simpl in Hn. destruct Hn; congruence.
        - rewrite KO in Hz'. destruct (Nat.eqb_spec x z'); [congruence|].
          rewrite Nat.eqb_refl in Hz'. injection Hz' as <-. simpl in Hn'. destruct Hn'; congruence. }
      constructor.
      + intros a c Ha. rewrite KN. change (H s' a) with (H s1 a) in Ha. rewrite KH in Ha.
        destruct (match o_hyp ox with Some b => Nat.eqb a b | None => false end); [discriminate|].
        destruct (match o_ref ox with Some b => Nat.eqb a b | None => false end); [discriminate|].
        eapply inv_next; eauto.
      + intros z o a Hz Ha. destruct (Src z o Hz) as [[w [W1 [W2 _]]]|[W1 W2]]; [|congruence].
        destruct (Nx w o a W1 W2 (or_introl Ha)). rewrite K2; auto. eapply inv_ref; eauto.
      + intros z o a Hz Ha. destruct (Src z o Hz) as [[w [W1 [W2 _]]]|[W1 W2]]; [|congruence].
        destruct (Nx w o a W1 W2 (or_intror Ha)). rewrite K2; auto. eapply inv_hyp; eauto.
      + intros z z' o o' a Hz Hz' Ha Ha'.
        destruct (Src z o Hz) as [[w [W1 [W2 W3]]]|[W1 W2]]; [|congruence].
        destruct (Src z' o' Hz') as [[w' [W1' [W2' W3']]]|[W1' W2']]; [|congruence].
        assert (w = w') by (eapply (inv_ref1 _ I); eauto).
        apply (Inj z z' w w' o o'); auto; left; congruence.
      + intros z z' o o' a Hz Hz' Ha Ha'.
        destruct (Src z o Hz) as [[w [W1 [W2 W3]]]|[W1 W2]]; [|congruence].
        destruct (Src z' o' Hz') as [[w' [W1' [W2' W3']]]|[W1' W2']]; [|congruence].
        assert (w = w') by (eapply (inv_hyp1 _ I); eauto).
        apply (Inj z z' w w' o o'); auto; right; congruence.
    - rewrite KO, Nat.eqb_refl. reflexivity.
    - rewrite KO. destruct (Nat.eqb_spec x y); [contradiction|]. rewrite Nat.eqb_refl. reflexivity.
    - intros z Hz Hz'. rewrite KO. destruct (Nat.eqb_spec x z); [congruence|].
      destruct (Nat.eqb_spec y z); congruence.
  Qed.

  (** The destructor. *)
  Lemma destroy_spec s x ox : Inv s -> O s x = Some ox ->
    exists s', obj_destroy x s = Ok s' /\ Inv s' /\ s_next s' = s_next s /\
      O s' x = None /\ (forall z, z <> x -> O s' z = O s z) /\
      (forall a, o_ref ox = Some a \/ o_hyp ox = Some a -> H s' a = None) /\
      (forall a, o_ref ox <> Some a -> o_hyp ox <> Some a -> H s' a = H s a).
  Proof.
    intros I Hx. unfold obj_destroy, get_obj. fold (O s x). rewrite Hx. cbn [obind].
    set (s1 := heap_free (o_hyp ox) (heap_free (o_ref ox) s)).
    assert (KH : forall a, H s1 a =
        if match o_hyp ox with Some b => Nat.eqb a b | None => false end then None else
        if match o_ref ox with Some b => Nat.eqb a b | None => false end then None else H s a).
    { intros a. unfold s1. rewrite !H_free. destruct (o_hyp ox), (o_ref ox); reflexivity. }
    set (s' := MState (s_heap s1) (s_next s1)
                 (filter (fun ko => negb (Nat.eqb (fst ko) x)) (s_objs s1))).
    assert (KO : forall z, O s' z = if Nat.eqb z x then None else O s z).
    { intros z. unfold O at 1. unfold s'. simpl. rewrite find_filter.
      change (map_find Nat.eqb z (s_objs s1)) with (O s1 z). unfold s1. rewrite !O_free. reflexivity. }
    assert (KN : s_next s' = s_next s) by (unfold s', s1; simpl; rewrite !next_free; reflexivity).
    assert (K1 : forall a, o_ref ox = Some a \/ o_hyp ox = Some a -> H s' a = None).
    { intros a Ha. change (H s' a) with (H s1 a). rewrite KH.
      destruct Ha as [-> | ->]; rewrite Nat.eqb_refl; [destruct (match o_hyp ox with
        | Some b => Nat.eqb a b | None => false end)|]; reflexivity. }
    assert (K2 : forall a, o_ref ox <> Some a -> o_hyp ox <> Some a -> H s' a = H s a).
    { intros a Ha Ha'. change (H s' a) with (H s1 a). rewrite KH.
      destruct (o_hyp ox) as [b|]; [destruct (Nat.eqb_spec a b); [congruence|]|];
      (destruct (o_ref ox) as [c|]; [destruct (Nat.eqb_spec a c); [congruence|]|]); reflexivity. }
    assert (Nx : forall w o a, w <> x -> O s w = Some o -> (o_ref o = Some a \/ o_hyp o = Some a) ->
                 o_ref ox <> Some a /\ o_hyp ox <> Some a).
    { intros w o a Hw Ho [Ha|Ha]; split; intros Ha'.
      - apply Hw. eapply (inv_ref1 _ I); eauto.
      - destruct (inv_ref _ I _ _ _ Ho Ha), (inv_hyp _ I _ _ _ Hx Ha'). congruence.
      - destruct (inv_hyp _ I _ _ _ Ho Ha), (inv_ref _ I _ _ _ Hx Ha'). congruence.
      - apply Hw. eapply (inv_hyp1 _ I); eauto. }
    assert (Src : forall z o, O s' z = Some o -> z <> x /\ O s z = Some o).
    { intros z o. rewrite KO. destruct (Nat.eqb_spec z x); [discriminate|auto]. }
    exists s'. split; [reflexivity|]. split; [|split; [|split; [|split]]]; auto.
    - constructor.
      + intros a c Ha. rewrite KN. change (H s' a) with (H s1 a) in Ha. rewrite KH in Ha.
        destruct (match o_hyp ox with Some b => Nat.eqb a b | None => false end); [discriminate|].
        destruct (match o_ref ox with Some b => Nat.eqb a b | None => false end); [discriminate|].
        eapply inv_next; eauto.
      + intros z o a Hz Ha. destruct (Src z o Hz) as [W1 W2].
        destruct (Nx z o a W1 W2 (or_introl Ha)). rewrite K2; auto. eapply inv_ref; eauto.
      + intros z o a Hz Ha. destruct (Src z o Hz) as [W1 W2].
        destruct (Nx z o a W1 W2 (or_intror Ha)). rewrite K2; auto. eapply inv_hyp; eauto.
      + intros z z' o o' a Hz Hz'. destruct (Src z o Hz), (Src z' o' Hz'). eapply (inv_ref1 _ I); eauto.
      + intros z z' o o' a Hz Hz'. destruct (Src z o Hz), (Src z' o' Hz'). eapply (inv_hyp1 _ I); eauto.
    - rewrite KO, Nat.eqb_refl. reflexivity.
    - intros z Hz. rewrite KO. destruct (Nat.eqb_spec z x); congruence.
  Qed.

  Lemma set_err_spec s x ox e : Inv s -> O s x = Some ox ->
    exists s', obj_set_error x e s = Ok s' /\ Inv s' /\ s_next s' = s_next s /\
      O s' x = Some (MObj (o_ref ox) (o_hyp ox) e) /\ (forall z, z <> x -> O s' z = O s z) /\
      (forall a, H s' a = H s a).
  Proof.
    intros I Hx. unfold obj_set_error, get_obj. fold (O s x). rewrite Hx. cbn [obind].
    set (s' := put_obj x (MObj (o_ref ox) (o_hyp ox) e) s).
    assert (KO : forall z, O s' z = if Nat.eqb x z then Some (MObj (o_ref ox) (o_hyp ox) e) else O s z).
    { intros z. apply O_put. }
    assert (Src : forall z o, O s' z = Some o ->
              exists o0, O s z = Some o0 /\ o_ref o = o_ref o0 /\ o_hyp o = o_hyp o0).
    { intros z o. rewrite KO. destruct (Nat.eqb_spec x z); [intros [= <-]; subst; eauto|eauto]. }
    exists s'. split; [reflexivity|]. split; [|split; [|split; [|split]]]; auto.
    - constructor.
      + apply (inv_next _ I).
      + intros z o a Hz Ha. destruct (Src z o Hz) as [o0 [S1 [S2 S3]]].
        apply (inv_ref _ I z o0); congruence.
      + intros z o a Hz Ha. destruct (Src z o Hz) as [o0 [S1 [S2 S3]]].
        apply (inv_hyp _ I z o0); congruence.
      + intros z z' o o' a Hz Hz' Ha Ha'. destruct (Src z o Hz) as [o0 [S1 [S2 S3]]].
        destruct (Src z' o' Hz') as [o0' [S1' [S2' S3']]]. apply (inv_ref1 _ I z z' o0 o0' a); congruence.
      + intros z z' o o' a Hz Hz' Ha Ha'. destruct (Src z o Hz) as [o0 [S1 [S2 S3]]].
        destruct (Src z' o' Hz') as [o0' [S1' [S2' S3']]]. apply (inv_hyp1 _ I z z' o0 o0' a); congruence.
    - rewrite KO, Nat.eqb_refl. reflexivity.
    - intros z Hz. rewrite KO. destruct (Nat.eqb_spec x z); congruence.
  Qed.

  (** ** Any program *)

  Lemma op_safe s op : Inv s -> op_ok op s -> exists s', op_run op s = Ok s' /\ Inv s'.
  Proof.
    intros I Hok. destruct op as [x|x y|x r|x h|x e|x y|x y|x]; simpl in *.
    - eexists. split; [reflexivity|]. apply inv_put_none, I.
    - destruct Hok as [H1 H2]. assert (x <> y) by (intros ->; contradiction).
      destruct (copy_construct_spec s x y) as [s' [K1 K2]]; auto. exists s'. split; auto. apply K2.
    - unfold live in Hok. fold (O s x) in Hok. destruct (O s x) as [o|] eqn:E; [|congruence].
      destruct (set_ref_spec s x o r I E) as [s' [K1 [K2 _]]]. eauto.
    - unfold live in Hok. fold (O s x) in Hok. destruct (O s x) as [o|] eqn:E; [|congruence].
      destruct (set_hyp_spec s x o h I E) as [s' [K1 [K2 _]]]. eauto.
    - unfold live in Hok. fold (O s x) in Hok. destruct (O s x) as [o|] eqn:E; [|congruence].
      destruct (set_err_spec s x o e I E) as [s' [K1 [K2 _]]]. eauto.
    - destruct Hok as [H1 H2]. destruct (Nat.eq_dec x y) as [<-|Hxy].
      + unfold live in H1. fold (O s x) in H1. destruct (O s x) as [o|] eqn:E; [|congruence].
        rewrite (self_assign s x o E). eexists. split; [reflexivity|]. apply inv_put_none, I.
      + destruct (assign_spec s x y) as [s' [K1 K2]]; auto. exists s'. split; auto. apply K2.
    - destruct Hok as [H1 H2]. unfold live in *. fold (O s x) in H1. fold (O s y) in H2.
      destruct (O s x) as [ox|] eqn:Ex; [|congruence]. destruct (O s y) as [oy|] eqn:Ey; [|congruence].
      destruct (Nat.eq_dec x y) as [<-|Hxy].
      + exists s. unfold obj_move_assign, get_obj. fold (O s x). rewrite Ex. simpl.
        rewrite Nat.eqb_refl. auto.
      + destruct (move_spec s x y ox oy) as [s' [K1 [K2 _]]]; eauto.
    - unfold live in Hok. fold (O s x) in Hok. destruct (O s x) as [o|] eqn:E; [|congruence].
      destruct (destroy_spec s x o I E) as [s' [K1 [K2 _]]]. eauto.
  Qed.

  Lemma inv_start : Inv (MState [] 0 []).
  Proof. constructor; unfold H, O; simpl; intros; try discriminate. Qed.

  Lemma reach_inv ops (s : state) : reach ops s -> Inv s.
  Proof.
    induction 1 as [|ops s op s' Hr IH Hok Hrun]; [apply inv_start|].
    destruct (op_safe s op IH Hok) as [s'' [K1 K2]]. congruence.
  Qed.

  Lemma reach_safe ops (s : state) op : reach ops s -> op_ok op s ->
    exists s', op_run op s = Ok s' /\ reach (op :: ops) s'.
  Proof.
    intros Hr Hok. destruct (op_safe s op (reach_inv _ _ Hr) Hok) as [s' [K1 K2]].
    exists s'. split; auto. econstructor; eauto.
  Qed.

  Lemma reach_view ops (s : state) x : reach ops s -> live x s -> exists m, obj_view x s = Some m.
  Proof.
    intros Hr Hl. destruct (view_live s x (reach_inv _ _ Hr) Hl) as [o [r [h [_ [_ [_ K]]]]]]. eauto.
  Qed.

  Lemma c13_copy ops (s : state) x y : reach ops s -> ~ live x s -> live y s ->
    exists s', obj_copy_construct x y s = Ok s' /\
      obj_view x s' = obj_view y s /\ forall z, z <> x -> obj_view z s' = obj_view z s.
  Proof.
    intros Hr Hx Hy. assert (x <> y) by (intros ->; contradiction).
    destruct (copy_construct_spec s x y (reach_inv _ _ Hr)) as [s' [K1 K2]]; auto.
    exists s'. split; auto. split; apply K2.
  Qed.

  Lemma c13_assign ops (s : state) x y : reach ops s -> x <> y -> live x s -> live y s ->
    exists s', obj_assign x y s = Ok s' /\
      obj_view x s' = obj_view y s /\ forall z, z <> x -> obj_view z s' = obj_view z s.
  Proof.
    intros Hr Hxy Hx Hy.
    destruct (assign_spec s x y (reach_inv _ _ Hr)) as [s' [K1 K2]]; auto.
    exists s'. split; auto. split; apply K2.
  Qed.

  Lemma c13_move ops (s : state) x y : reach ops s -> x <> y -> live x s -> live y s ->
    exists s', obj_move_assign x y s = Ok s' /\
      obj_view x s' = obj_view y s /\
      (exists r h e, obj_view y s = Some (Match r h e) /\ obj_view y s' = Some (Match None None e)) /\
      forall z, z <> x -> z <> y -> obj_view z s' = obj_view z s.
  Proof.
    intros Hr Hxy Hx Hy. assert (I := reach_inv _ _ Hr).
    destruct (view_live s x I Hx) as [ox [rx [hx [X1 [X2 [X3 X4]]]]]].
    destruct (view_live s y I Hy) as [oy [ry [hy [Y1 [Y2 [Y3 Y4]]]]]].
    destruct (move_spec s x y ox oy I Hxy X1 Y1) as [s' [K1 [K2 [K3 [K4 [K5 [K6 [K7 K8]]]]]]]].
    assert (Nx : forall w o a, w <> x -> O s w = Some o -> (o_ref o = Some a \/ o_hyp o = Some a) ->
                 o_ref ox <> Some a /\ o_hyp ox <> Some a).
    { intros w o a Hw Ho [Ha|Ha]; split; intros Ha'.
      - apply Hw. eapply (inv_ref1 _ I); eauto.
      - destruct (inv_ref _ I _ _ _ Ho Ha), (inv_hyp _ I _ _ _ X1 Ha'). congruence.
      - destruct (inv_hyp _ I _ _ _ Ho Ha), (inv_ref _ I _ _ _ X1 Ha'). congruence.
      - apply Hw. eapply (inv_hyp1 _ I); eauto. }
    exists s'. split; [exact K1|]. split; [|split].
    - rewrite Y4, view_unfold, K4.
      assert (rview s' (o_ref oy) = Some ry) as ->.
      { destruct (o_ref oy) as [a|] eqn:E; simpl in *; auto.
        destruct (Nx y oy a) as [N1 N2]; auto. rewrite K8; auto. }
      assert (hview s' (o_hyp oy) = Some hy) as ->.
      { destruct (o_hyp oy) as [a|] eqn:E; simpl in *; auto.
        destruct (Nx y oy a) as [N1 N2]; auto. rewrite K8; auto. }
      reflexivity.
    - exists ry, hy, (o_err oy). split; auto. rewrite view_unfold, K5. reflexivity.
    - intros z Hz Hz'. apply view_same; auto.
      + intros o a Ho Ha. destruct (Nx z o a) as [N1 N2]; auto.
      + intros o a Ho Ha. destruct (Nx z o a) as [N1 N2]; auto.
  Qed.

  Lemma c13_self_assign ops (s : state) x r h e : reach ops s -> obj_view x s = Some (Match r h e) ->
    exists s', obj_assign x x s = Ok s' /\ obj_view x s' = Some (Match None None e).
  Proof.
    intros Hr Hv. assert (I := reach_inv _ _ Hr). rewrite view_unfold in Hv.
    destruct (O s x) as [o|] eqn:E; [|discriminate].
    exists (put_obj x (MObj None None (o_err o)) s). split; [apply self_assign; auto|].
    rewrite view_unfold, O_put, Nat.eqb_refl. simpl. f_equal.
    destruct (rview s (o_ref o)), (hview s (o_hyp o)); congruence.
  Qed.

  (** ** Leaks *)

  Lemma assign_leaks ops (s : state) x y o a : reach ops s -> live y s ->
    map_find Nat.eqb x (s_objs s) = Some o -> o_ref o = Some a \/ o_hyp o = Some a ->
    exists s', obj_assign x y s = Ok s' /\ leaked a s'.
  Proof.
    intros Hr Hy Hx Ha. fold (O s x) in Hx. assert (I := reach_inv _ _ Hr).
    assert (Ex : exists c, H s a = Some c).
    { destruct Ha as [Ha|Ha]; [destruct (inv_ref _ I _ _ _ Hx Ha)|destruct (inv_hyp _ I _ _ _ Hx Ha)]; eauto. }
    destruct Ex as [c Hc]. assert (Hlt := inv_next _ I _ _ Hc).
    assert (Hun : forall z oz, z <> x -> O s z = Some oz -> o_ref oz <> Some a /\ o_hyp oz <> Some a).
    { intros z oz Hz Ho. destruct Ha as [Ha|Ha]; split; intros K.
      - apply Hz. eapply (inv_ref1 _ I); eauto.
      - destruct (inv_hyp _ I _ _ _ Ho K), (inv_ref _ I _ _ _ Hx Ha). congruence.
      - destruct (inv_ref _ I _ _ _ Ho K), (inv_hyp _ I _ _ _ Hx Ha). congruence.
      - apply Hz. eapply (inv_hyp1 _ I); eauto. }
    destruct (Nat.eq_dec x y) as [<-|Hxy].
    - eexists. split; [apply self_assign; exact Hx|]. split.
      + fold (H (put_obj x (MObj None None (o_err o)) s) a). rewrite H_put. congruence.
      + intros z oz. fold (O (put_obj x (MObj None None (o_err o)) s) z). rewrite O_put.
        destruct (Nat.eqb_spec x z); [intros [= <-]; simpl; split; discriminate|].
        intros Ho. apply (Hun z); auto.
    - destruct (assign_spec s x y I Hxy) as [s' [K1 K2]]; auto.
      { unfold live. fold (O s x). congruence. }
      exists s'. split; auto. split.
      + fold (H s' a). rewrite (cp_old _ _ _ _ K2) by auto. congruence.
      + intros z oz Ho. fold (O s' z) in Ho. destruct (Nat.eq_dec z x) as [->|Hz].
        * split; intros K; assert (s_next s <= a) by (eapply (cp_ptr _ _ _ _ K2); eauto); lia.
        * rewrite (cp_objs _ _ _ _ K2) in Ho by auto. apply (Hun z); auto.
  Qed.

  Definition owned (s : state) (a : nat) : Prop :=
    exists x o, O s x = Some o /\ (o_ref o = Some a \/ o_hyp o = Some a).

  Definition no_leaks (s : state) : Prop := forall a, H s a <> None -> owned s a.

  Lemma step_no_leak s op s' : Inv s -> op_ok op s -> op_run op s = Ok s' -> not_assign op ->
    no_leaks s -> no_leaks s'.
  Proof.
    intros I Hok Hrun Hna Hl. destruct op as [x|x y|x r|x h|x e|x y|x y|x]; simpl in *; try contradiction.
    - injection Hrun as <-. intros a Ha. destruct (Hl a Ha) as [z [o [Ho Hp]]].
      exists z, o. split; auto. unfold obj_default. rewrite O_put.
      destruct (Nat.eqb_spec x z); auto. subst. unfold live in Hok. fold (O s z) in Hok.
      exfalso. apply Hok. congruence.
    - destruct Hok as [H1 H2]. assert (x <> y) by (intros ->; contradiction).
      destruct (copy_construct_spec s x y) as [s'' [K1 K2]]; auto. rewrite Hrun in K1.
      injection K1 as <-. intros a Ha. destruct (le_lt_dec (s_next s) a).
      + destruct (cp_new _ _ _ _ K2 a) as [o [Ho Hp]]; auto. exists x, o. auto.
      + rewrite (cp_old _ _ _ _ K2) in Ha by auto. destruct (Hl a Ha) as [z [o [Ho Hp]]].
        exists z, o. split; auto. rewrite (cp_objs _ _ _ _ K2); auto. intros ->.
        apply H1. unfold live. fold (O s x). congruence.
    - unfold live in Hok. fold (O s x) in Hok. destruct (O s x) as [o|] eqn:E; [|congruence].
      destruct (set_ref_spec s x o r I E) as [s'' [K1 [K2 [K3 [K4 [K5 [K6 K7]]]]]]].
      rewrite Hrun in K1. injection K1 as <-. intros a Ha.
      destruct (Nat.eq_dec a (s_next s)) as [->|Hn]; [eexists x, _; split; [exact K4|simpl; auto]|].
      rewrite K7 in Ha by auto.
      destruct (match o_ref o with Some b => Nat.eqb a b | None => false end) eqn:Eb; [congruence|].
      destruct (Hl a Ha) as [z [oz [Ho Hp]]]. destruct (Nat.eq_dec z x) as [->|Hz].
      + assert (oz = o) by congruence. subst oz. exists x. eexists. split; [exact K4|]. simpl. right.
        destruct Hp as [Hp|Hp]; auto. rewrite Hp, Nat.eqb_refl in Eb. discriminate.
      + exists z, oz. rewrite K5; auto.
    - unfold live in Hok. fold (O s x) in Hok. destruct (O s x) as [o|] eqn:E; [|congruence].
      destruct (set_hyp_spec s x o h I E) as [s'' [K1 [K2 [K3 [K4 [K5 [K6 K7]]]]]]].
      rewrite Hrun in K1. injection K1 as <-. intros a Ha.
      destruct (Nat.eq_dec a (s_next s)) as [->|Hn]; [eexists x, _; split; [exact K4|simpl; auto]|].
      rewrite K7 in Ha by auto.
      destruct (match o_hyp o with Some b => Nat.eqb a b | None => false end) eqn:Eb; [congruence|].
      destruct (Hl a Ha) as [z [oz [Ho Hp]]]. destruct (Nat.eq_dec z x) as [->|Hz].
      + assert (oz = o) by congruence. subst oz. exists x. eexists. split; [exact K4|]. simpl. left.
        destruct Hp as [Hp|Hp]; auto. rewrite Hp, Nat.eqb_refl in Eb. discriminate.
      + exists z, oz. rewrite K5; auto.
    - unfold live in Hok. fold (O s x) in Hok. destruct (O s x) as [o|] eqn:E; [|congruence].
      destruct (set_err_spec s x o e I E) as [s'' [K1 [K2 [K3 [K4 [K5 K6]]]]]].
      rewrite Hrun in K1. injection K1 as <-. intros a Ha. rewrite K6 in Ha.
      destruct (Hl a Ha) as [z [oz [Ho Hp]]]. destruct (Nat.eq_dec z x) as [->|Hz].
      + assert (oz = o) by congruence. subst oz. exists x. eexists. split; [exact K4|]. exact Hp.
      + exists z, oz. rewrite K5; auto.
    - destruct Hok as [H1 H2]. unfold live in *. fold (O s x) in H1. fold (O s y) in H2.
      destruct (O s x) as [ox|] eqn:Ex; [|congruence]. destruct (O s y) as [oy|] eqn:Ey; [|congruence].
      destruct (Nat.eq_dec x y) as [<-|Hxy].
      + unfold obj_move_assign, get_obj in Hrun. fold (O s x) in Hrun. rewrite Ex in Hrun. simpl in Hrun.
        rewrite Nat.eqb_refl in Hrun. injection Hrun as <-. exact Hl.
      + destruct (move_spec s x y ox oy I Hxy Ex Ey) as [s'' [K1 [K2 [K3 [K4 [K5 [K6 [K7 K8]]]]]]]].
        rewrite Hrun in K1. injection K1 as <-. intros a Ha.
        assert (N1 : o_ref ox <> Some a) by (intros K; apply Ha, K7; auto).
        assert (N2 : o_hyp ox <> Some a) by (intros K; apply Ha, K7; auto).
        rewrite K8 in Ha by auto. destruct (Hl a Ha) as [z [oz [Ho Hp]]].
        assert (z <> x). { intros ->. assert (oz = ox) by congruence. subst. tauto. }
        destruct (Nat.eq_dec z y) as [->|Hz].
        * assert (oz = oy) by congruence. subst oz. exists x, oy. auto.
        * exists z, oz. rewrite K6; auto.
    - unfold live in Hok. fold (O s x) in Hok. destruct (O s x) as [ox|] eqn:E; [|congruence].
      destruct (destroy_spec s x ox I E) as [s'' [K1 [K2 [K3 [K4 [K5 [K7 K8]]]]]]].
      rewrite Hrun in K1. injection K1 as <-. intros a Ha.
      assert (N1 : o_ref ox <> Some a) by (intros K; apply Ha, K7; auto).
      assert (N2 : o_hyp ox <> Some a) by (intros K; apply Ha, K7; auto).
      rewrite K8 in Ha by auto. destruct (Hl a Ha) as [z [oz [Ho Hp]]].
      assert (z <> x). { intros ->. assert (oz = ox) by congruence. subst. tauto. }
      exists z, oz. rewrite K5; auto.
  Qed.

  Lemma reach_no_leak ops (s : state) : reach ops s -> Forall not_assign ops -> forall a, ~ leaked a s.
  Proof.
    intros Hr Hf. assert (Hn : no_leaks s).
    { induction Hr as [|ops s op s' Hr IH Hok Hrun]; [intros a Ha; unfold H in Ha; simpl in Ha; congruence|].
      inversion Hf; subst. eapply step_no_leak; eauto. eapply reach_inv; eauto. }
    intros a [L1 L2]. destruct (Hn a L1) as [x [o [Ho [Hp|Hp]]]]; destruct (L2 x o Ho); contradiction.
  Qed.

  (** A leaked event is never freed again. *)
  Lemma leak_forever ops (s : state) op s' a : reach ops s -> op_ok op s -> op_run op s = Ok s' ->
    leaked a s -> leaked a s'.
  Proof.
    intros Hr Hok Hrun [L1 L2]. assert (I := reach_inv _ _ Hr). fold (H s a) in L1.
    assert (Hlt : a < s_next s).
    { destruct (H s a) eqn:E; [|congruence]. eapply inv_next; eauto. }
    assert (L : forall x o, O s x = Some o -> o_ref o <> Some a /\ o_hyp o <> Some a) by exact L2.
    clear L2.
    assert (F : forall x o, O s x = Some o ->
              match o_ref o with Some b => Nat.eqb a b | None => false end = false /\
              match o_hyp o with Some b => Nat.eqb a b | None => false end = false).
    { intros x o Ho. destruct (L x o Ho) as [N1 N2]. split.
      - destruct (o_ref o) as [b|]; auto. apply Nat.eqb_neq. congruence.
      - destruct (o_hyp o) as [b|]; auto. apply Nat.eqb_neq. congruence. }
    assert (G : (H s' a = H s a) /\ forall x o, O s' x = Some o -> o_ref o <> Some a /\ o_hyp o <> Some a);
      [|destruct G as [G1 G2]; split; [fold (H s' a); congruence|exact G2]].
    assert (Cp : forall x y, copied x y s s' ->
       H s' a = H s a /\ forall x o, O s' x = Some o -> o_ref o <> Some a /\ o_hyp o <> Some a).
    { intros x y K2. split; [apply (cp_old _ _ _ _ K2); auto|]. intros z o Ho.
      destruct (Nat.eq_dec z x) as [->|Hz].
      - split; intros K; assert (s_next s <= a) by (eapply (cp_ptr _ _ _ _ K2); eauto); lia.
      - rewrite (cp_objs _ _ _ _ K2) in Ho by auto. eauto. }
    destruct op as [x|x y|x r|x h|x e|x y|x y|x]; simpl in *.
    - injection Hrun as <-. split; [apply H_put|]. intros z o. unfold obj_default. rewrite O_put.
      destruct (Nat.eqb x z); [intros [= <-]; simpl; split; discriminate|apply L].
    - destruct Hok as [H1 H2]. assert (x <> y) by (intros ->; contradiction).
      destruct (copy_construct_spec s x y) as [s'' [K1 K2]]; auto. rewrite Hrun in K1.
      injection K1 as <-. eauto.
    - unfold live in Hok. fold (O s x) in Hok. destruct (O s x) as [o|] eqn:E; [|congruence].
      destruct (set_ref_spec s x o r I E) as [s'' [K1 [K2 [K3 [K4 [K5 [K6 K7]]]]]]].
      rewrite Hrun in K1. injection K1 as <-. destruct (F x o E) as [F1 F2]. split.
      + rewrite K7 by lia. rewrite F1. reflexivity.
      + intros z oz Ho. destruct (Nat.eq_dec z x) as [->|Hz]; [|rewrite K5 in Ho; eauto].
        rewrite K4 in Ho. injection Ho as <-. simpl. split; [intros [= ?]; lia|]. eapply L; eauto.
    - unfold live in Hok. fold (O s x) in Hok. destruct (O s x) as [o|] eqn:E; [|congruence].
      destruct (set_hyp_spec s x o h I E) as [s'' [K1 [K2 [K3 [K4 [K5 [K6 K7]]]]]]].
      rewrite Hrun in K1. injection K1 as <-. destruct (F x o E) as [F1 F2]. split.
      + rewrite K7 by lia. rewrite F2. reflexivity.
      + intros z oz Ho. destruct (Nat.eq_dec z x) as [->|Hz]; [|rewrite K5 in Ho; eauto].
        rewrite K4 in Ho. injection Ho as <-. simpl. split; [|intros [= ?]; lia]. eapply L; eauto.
    - unfold live in Hok. fold (O s x) in Hok. destruct (O s x) as [o|] eqn:E; [|congruence].
      destruct (set_err_spec s x o e I E) as [s'' [K1 [K2 [K3 [K4 [K5 K6]]]]]].
      rewrite Hrun in K1. injection K1 as <-. split; [apply K6|].
      intros z oz Ho. destruct (Nat.eq_dec z x) as [->|Hz]; [|rewrite K5 in Ho; eauto].
      rewrite K4 in Ho. injection Ho as <-. simpl. eapply L; eauto.
    - destruct Hok as [H1 H2]. destruct (Nat.eq_dec x y) as [<-|Hxy].
      + unfold live in H1. fold (O s x) in H1. destruct (O s x) as [o|] eqn:E; [|congruence].
        rewrite (self_assign s x o E) in Hrun. injection Hrun as <-. split; [apply H_put|].
        intros z oz. rewrite O_put.
        destruct (Nat.eqb x z); [intros [= <-]; simpl; split; discriminate|apply L].
      + destruct (assign_spec s x y) as [s'' [K1 K2]]; auto. rewrite Hrun in K1.
        injection K1 as <-. eauto.
    - destruct Hok as [H1 H2]. unfold live in *. fold (O s x) in H1. fold (O s y) in H2.
      destruct (O s x) as [ox|] eqn:Ex; [|congruence]. destruct (O s y) as [oy|] eqn:Ey; [|congruence].
      destruct (Nat.eq_dec x y) as [<-|Hxy].
      + unfold obj_move_assign, get_obj in Hrun. fold (O s x) in Hrun. rewrite Ex in Hrun. simpl in Hrun.
        rewrite Nat.eqb_refl in Hrun. injection Hrun as <-. auto.
      + destruct (move_spec s x y ox oy I Hxy Ex Ey) as [s'' [K1 [K2 [K3 [K4 [K5 [K6 [K7 K8]]]]]]]].
        rewrite Hrun in K1. injection K1 as <-. destruct (L x ox Ex) as [N1 N2].
        split; [apply K8; auto|]. intros z oz Ho.
        destruct (Nat.eq_dec z x) as [->|Hz]; [rewrite K4 in Ho; injection Ho as <-; eauto|].
        destruct (Nat.eq_dec z y) as [->|Hz']; [rewrite K5 in Ho; injection Ho as <-; simpl; split; discriminate|].
        rewrite K6 in Ho; eauto.
    - unfold live in Hok. fold (O s x) in Hok. destruct (O s x) as [ox|] eqn:E; [|congruence].
      destruct (destroy_spec s x ox I E) as [s'' [K1 [K2 [K3 [K4 [K5 [K7 K8]]]]]]].
      rewrite Hrun in K1. injection K1 as <-. destruct (L x ox E) as [N1 N2].
      split; [apply K8; auto|]. intros z oz Ho.
      destruct (Nat.eq_dec z x) as [->|Hz]; [congruence|]. rewrite K5 in Ho; eauto.
  Qed.
End Storage.

(** ** Comparison *)

Lemma eqb_trans3 a b c : Bool.eqb a b = true -> Bool.eqb b c = true -> Bool.eqb a c = true.
Proof. destruct a, b, c; auto. Qed.

Section Compare.
  Context {RE HE : Type} (cr : Cmp RE) (ch : Cmp HE).
  Definition eq_equiv {X} (c : X -> X -> bool) : Prop :=
    (forall x, c x x = true) /\ (forall x y, c x y = true -> c y x = true) /\
    (forall x y z, c x y = true -> c y z = true -> c x z = true).

  Lemma match_eq_refl (m : match_t RE HE) :
    (forall r, m_ref m = Some r -> c_eq cr r r = true) ->
    (forall h, m_hyp m = Some h -> c_eq ch h h = true) ->
    err_numeric (m_err m) -> match_eq cr ch m m = true.
  Proof.
    intros Hr Hh [N1 N2]. unfold match_eq, me_eq. rewrite !f32_eq_refl, !Bool.eqb_reflx; auto. simpl.
    destruct (m_ref m) as [r|]; [rewrite Hr; auto|]; simpl; destruct (m_hyp m) as [h|]; auto.
  Qed.

  Lemma match_eq_sym (a b : match_t RE HE) :
    (forall x y, c_eq cr x y = c_eq cr y x) -> (forall x y, c_eq ch x y = c_eq ch y x) ->
    match_eq cr ch a b = match_eq cr ch b a.
  Proof.
    intros Hr Hh. unfold match_eq, me_eq.
    rewrite (f32_eq_sym (me_fp (m_err a))), (f32_eq_sym (me_fn (m_err a))).
    f_equal; [f_equal; [f_equal; [f_equal|]|]|].
    - unfold has_ref. destruct (m_ref a), (m_ref b); reflexivity.
    - unfold has_hyp. destruct (m_hyp a), (m_hyp b); reflexivity.
    - destruct (m_ref a), (m_ref b); auto.
    - destruct (m_hyp a), (m_hyp b); auto.
  Qed.

  Lemma match_eq_trans (a b c : match_t RE HE) :
    (forall x y z, c_eq cr x y = true -> c_eq cr y z = true -> c_eq cr x z = true) ->
    (forall x y z, c_eq ch x y = true -> c_eq ch y z = true -> c_eq ch x z = true) ->
    match_eq cr ch a b = true -> match_eq cr ch b c = true -> match_eq cr ch a c = true.
  Proof.
    intros Tr Th. unfold match_eq, me_eq. rewrite !andb_true_iff.
    intros [[[[[A1 A2] A3] A4] A5] A6] [[[[[B1 B2] B3] B4] B5] B6].
    repeat split.
    - eapply f32_eq_trans; eauto.
    - eapply f32_eq_trans; eauto.
    - eapply eqb_trans3; eauto.
    - eapply eqb_trans3; eauto.
    - unfold has_ref in *. destruct (m_ref a), (m_ref b), (m_ref c); try discriminate; eauto.
    - unfold has_hyp in *. destruct (m_hyp a), (m_hyp b), (m_hyp c); try discriminate; eauto.
  Qed.

  Lemma match_ne_never n (a b : match_t RE HE) : match_ne n a b = Throw OutOfFuel.
  Proof. induction n as [|n IH]; simpl; auto. rewrite IH. reflexivity. Qed.
End Compare.

Lemma match_eq_tool {Q L} (cq : Cmp Q) (cl : Cmp L) : total_order cq -> total_order cl ->
  let ce := cmp_event cq cl in
  let eq := match_eq ce (cmp_scored ce) in
  (forall m, err_numeric (m_err m) -> (forall h, m_hyp m = Some h -> numeric h) -> eq m m = true) /\
  (forall a b, eq a b = eq b a) /\
  (forall a b c, eq a b = true -> eq b c = true -> eq a c = true).
Proof.
  intros Hq Hl ce. assert (He : total_order ce) by (apply total_order_event; auto).
  assert (Hsym : forall x y, c_eq ce x y = c_eq ce y x).
  { intros x y. apply eq_true_iff_eq. rewrite !(to_eq _ He). split; auto. }
  assert (Htr : forall x y z, c_eq ce x y = true -> c_eq ce y z = true -> c_eq ce x z = true).
  { intros x y z. rewrite !(to_eq _ He). congruence. }
  split; [|split].
  - intros m Hm Hh. apply match_eq_refl; auto.
    + intros r _. apply to_eq_refl; auto.
    + intros h E. apply Hh in E. simpl. apply (scored_eq_spec ce He). split; auto.
      apply f32_eq_refl, E.
  - intros a b. apply match_eq_sym; auto.
    intros x y. simpl. unfold scored_eq. rewrite (f32_eq_sym (sc_score x)). f_equal. apply Hsym.
  - intros a b c. apply match_eq_trans; auto.
    intros x y z. change (c_eq (cmp_scored ce)) with (scored_eq ce).
    rewrite !(scored_eq_spec ce He). intros [A1 A2] [B1 B2]. split; [|congruence].
    unfold same_number in *. eapply f32_eq_trans; eauto.
Qed.

(** ** NH and NR *)

From Coq Require Import Reals Lra.
From Flocq Require Import Core BinarySingleNaN.

Lemma f32_lt_R x y : is_finite x = true -> is_finite y = true ->
  (f32_lt x y = true <-> (B2R x < B2R y)%R).
Proof.
  intros Hx Hy. unfold f32_lt. rewrite Bltb_correct by auto.
  destruct (Rlt_bool_spec (B2R x) (B2R y)); split; auto; try discriminate. lra.
Qed.

Lemma B2R_f32_1 : B2R f32_1 = 1%R.
Proof. unfold f32_1, f32_of_Z. cbv -[IZR Rmult Rinv]. lra. Qed.

Lemma B2R_f32_0 : B2R f32_0 = 0%R.
Proof. reflexivity. Qed.

Lemma finite_f32_1 : is_finite f32_1 = true.
Proof. reflexivity. Qed.

Lemma bool_ite (b : bool) (P : Prop) : (b = true <-> P) -> ((if b then 1 else 0) = 0 <-> ~ P).
Proof. destruct b; intros K; split; intros K'; try discriminate; auto.
  - exfalso. apply K'. apply K. reflexivity.
  - intros p. apply K in p. discriminate.
Qed.

Lemma nh_zero e : unit_f32 (me_fp e) -> unit_f32 (me_fn e) ->
  (me_nh e = 0 <-> (B2R (me_fp e) = 0 /\ B2R (me_fn e) = 1)%R).
Proof.
  intros [F1 U1] [F2 U2]. unfold me_nh.
  rewrite (bool_ite _ (0 < B2R (me_fp e) \/ B2R (me_fn e) < 1)%R); [lra|].
  rewrite orb_true_iff, !f32_lt_R, B2R_f32_1, B2R_f32_0; auto. reflexivity.
Qed.

Lemma nr_zero e : unit_f32 (me_fp e) -> unit_f32 (me_fn e) ->
  (me_nr e = 0 <-> (B2R (me_fp e) = 1 /\ B2R (me_fn e) = 0)%R).
Proof.
  intros [F1 U1] [F2 U2]. unfold me_nr.
  rewrite (bool_ite _ (B2R (me_fp e) < 1 \/ 0 < B2R (me_fn e))%R); [lra|].
  rewrite orb_true_iff, !f32_lt_R, B2R_f32_1, B2R_f32_0; auto. reflexivity.
Qed.

Lemma nh_nr_not_both e : unit_f32 (me_fp e) -> unit_f32 (me_fn e) -> ~ (me_nh e = 0 /\ me_nr e = 0).
Proof. intros H1 H2. rewrite nh_zero, nr_zero by auto. lra. Qed.

Lemma nh_le_1 e : me_nh e <= 1.
Proof. unfold me_nh. destruct (_ || _); lia. Qed.

Lemma nr_le_1 e : me_nr e <= 1.
Proof. unfold me_nr. destruct (_ || _); lia. Qed.

Lemma nr_accepted e : f32_lt (me_fp e) f32_1 = true -> me_nr e = 1.
Proof. intros K. unfold me_nr. rewrite K. reflexivity. Qed.

Lemma nh_nr_outcomes {RE HE} (r : RE) (h : HE) :
  me_nh (m_err (@make_fp RE HE h)) = 1 /\ me_nr (m_err (@make_fp RE HE h)) = 0 /\
  me_nh (m_err (@make_fn RE HE r)) = 0 /\ me_nr (m_err (@make_fn RE HE r)) = 1.
Proof. repeat split; reflexivity. Qed.

Lemma self_assign_refuted :
  exists (s s' : mstate Z Z) ops x, reach ops s /\ obj_assign x x s = Ok s' /\
    obj_view x s <> obj_view x s'.
Proof.
  assert (R1 : reach [@ONew Z Z 0] (obj_default 0 (MState [] 0 []))).
  { econstructor; [constructor| |reflexivity]. simpl. unfold live. simpl. auto. }
  destruct (reach_safe _ _ (OSetRef 0 5%Z) R1) as [s [K1 K2]]; [simpl; unfold live; simpl; discriminate|].
  vm_compute in K1. injection K1 as <-.
  eexists. eexists. exists (OSetRef 0 5%Z :: [ONew 0]), 0. split; [exact K2|].
  split; [reflexivity|]. vm_compute. discriminate.
Qed.

Lemma match_ne_no_value RE HE n (a b : match_t RE HE) v : match_ne n a b <> Ok v.
Proof. rewrite match_ne_never. discriminate. Qed.

Lemma match_ne_refuted :
  exists a b : match_t Z Z, forall n, match_ne n a b <> Ok (negb (match_eq cmp_Z cmp_Z a b)).
Proof. exists match_default, match_default. intros n. apply match_ne_no_value. Qed.

Lemma nh_nr_le_1 e : me_nh e <= 1 /\ me_nr e <= 1.
Proof. split; [apply nh_le_1|apply nr_le_1]. Qed.

Lemma half_unit :
  unit_f32 f32_half /\ me_nh (MatchError f32_half f32_half) = 1 /\ me_nr (MatchError f32_half f32_half) = 1.
Proof.
  split; [|split; reflexivity]. split; [reflexivity|].
  assert (B2R f32_half = (1 / 2)%R) as ->; [|lra].
  unfold f32_half. cbv -[IZR Rmult Rinv Rdiv]. lra.
Qed.
