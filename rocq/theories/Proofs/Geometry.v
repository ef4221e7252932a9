(** Proofs about areas. *)
From Coq Require Import List ZArith Lia Bool.
From Verif.Model Require Import Cpp Box.
From Verif.Spec Require Import Geometry.
Import ListNotations.
Local Open Scope Z_scope.

(** ** Rectangles of cells *)

Definition zrange (lo n : Z) : list Z :=
  map (fun k => lo + Z.of_nat k) (seq 0 (Z.to_nat n)).

Lemma in_zrange lo n z : In z (zrange lo n) <-> lo <= z < lo + n.
Proof.
  unfold zrange. rewrite in_map_iff. split.
  - intros [k [<- Hk]]. apply in_seq in Hk. lia.
  - intros H. exists (Z.to_nat (z - lo)). split; [lia|]. apply in_seq. lia.
Qed.

Lemma nodup_map_inj {A B} (f : A -> B) l :
  (forall x y, f x = f y -> x = y) -> NoDup l -> NoDup (map f l).
Proof.
  intros Hf H. induction H as [|x l Hx H IH]; simpl; constructor; auto.
  intros Hi. apply in_map_iff in Hi. destruct Hi as [y [Hy Hin]].
  apply Hf in Hy. subst. contradiction.
Qed.

Lemma nodup_zrange lo n : NoDup (zrange lo n).
Proof.
  apply nodup_map_inj; [intros x y H; lia|apply seq_NoDup].
Qed.

Lemma length_zrange lo n : length (zrange lo n) = Z.to_nat n.
Proof. unfold zrange. now rewrite map_length, seq_length. Qed.

Lemma nodup_app {A} (u v : list A) :
  NoDup u -> NoDup v -> (forall c, In c u -> ~ In c v) -> NoDup (u ++ v).
Proof.
  induction u as [|c u IHu]; simpl; intros Hu Hv Hd; auto.
  inversion Hu; subst. constructor.
  - rewrite in_app_iff. intros [H|H]; [auto|]. apply (Hd c); auto.
  - apply IHu; auto.
Qed.

Lemma nodup_list_prod {A B} (l : list A) (m : list B) :
  NoDup l -> NoDup m -> NoDup (list_prod l m).
Proof.
  intros Hl Hm. induction Hl as [|x l Hx Hl IH]; simpl; [constructor|].
  apply nodup_app; auto.
  - apply nodup_map_inj; auto. intros a b H; congruence.
  - intros c Hc Hd. apply in_map_iff in Hc. destruct Hc as [y [<- _]].
    apply in_prod_iff in Hd. tauto.
Qed.

Lemma rect_count x y w h :
  0 <= w -> 0 <= h ->
  cell_count (fun c => x <= fst c < x + w /\ y <= snd c < y + h) (w * h).
Proof.
  intros Hw Hh. exists (list_prod (zrange x w) (zrange y h)). split; [|split].
  - apply nodup_list_prod; apply nodup_zrange.
  - intros [i j]. rewrite in_prod_iff, !in_zrange. simpl. tauto.
  - rewrite prod_length, !length_zrange. lia.
Qed.

Lemma cell_count_iff P Q n :
  (forall c, P c <-> Q c) -> cell_count P n -> cell_count Q n.
Proof.
  intros H [l [Hn [Hl Hlen]]]. exists l. repeat split; auto.
  - intros Hc. apply H, Hl, Hc.
  - intros Hc. apply Hl, H, Hc.
Qed.

Lemma cell_count_none P : (forall c, ~ P c) -> cell_count P 0.
Proof.
  intros H. exists []. split; [constructor|]. split; auto.
  intros c; split; intros Hc; [destruct Hc|destruct (H c Hc)].
Qed.

(** The count is unique, so [cell_count] determines the number. *)
Lemma cell_count_unique P n m : cell_count P n -> cell_count P m -> n = m.
Proof.
  intros [l [Hl [Il El]]] [k [Hk [Ik Ek]]].
  assert (length l = length k); [|lia].
  apply Nat.le_antisymm; apply NoDup_incl_length; auto; intros c Hc.
  - apply Ik, Il, Hc.
  - apply Il, Ik, Hc.
Qed.

(** Counting a union. *)
Lemma cell_count_union P Q n m i :
  (forall c, {P c} + {~ P c}) ->
  cell_count P n -> cell_count Q m -> cell_count (fun c => P c /\ Q c) i ->
  cell_count (fun c => P c \/ Q c) (n + m - i).
Proof.
  intros Pdec [l [Hl [Il El]]] [k [Hk [Ik Ek]]] [j [Hj [Ij Ej]]].
  pose (f := fun c => if Pdec c then false else true).
  exists (l ++ filter f k). split; [|split].
  - apply nodup_app; auto.
    + apply NoDup_filter; auto.
    + intros c Hc Hf. apply filter_In in Hf. destruct Hf as [_ Hf].
      unfold f in Hf. destruct (Pdec c); [discriminate|]. apply n0, Il, Hc.
  - intros c. rewrite in_app_iff, filter_In, Il, Ik. unfold f.
    destruct (Pdec c); intuition discriminate.
  - rewrite app_length.
    assert (Hlen : (length k = length (filter f k) + length (filter (fun c => negb (f c)) k))%nat).
    { clear. induction k as [|c k IH]; simpl; auto. destruct (f c); simpl; lia. }
    assert (length (filter (fun c => negb (f c)) k) = length j); [|lia].
    apply Nat.le_antisymm; apply NoDup_incl_length.
    + apply NoDup_filter; auto.
    + intros c Hc. apply filter_In in Hc. destruct Hc as [Hc Hf]. apply Ij.
      apply Ik in Hc. unfold f in Hf. destruct (Pdec c); [auto|discriminate].
    + auto.
    + intros c Hc. apply Ij in Hc. destruct Hc as [Hp Hq]. apply filter_In.
      split; [apply Ik, Hq|]. unfold f. destruct (Pdec c); [reflexivity|contradiction].
Qed.

Lemma in_box_dec b c : {in_box b c} + {~ in_box b c}.
Proof.
  unfold in_box.
  destruct (Z_le_dec (bx b) (fst c)); [|right; tauto].
  destruct (Z_lt_dec (fst c) (bx b + bw b)); [|right; tauto].
  destruct (Z_le_dec (by_ b) (snd c)); [|right; tauto].
  destruct (Z_lt_dec (snd c) (by_ b + bh b)); [left; tauto|right; tauto].
Qed.

(** ** uint32_t *)

Lemma u32_wrap_id z : 0 <= z < two32 -> u32_wrap z = z.
Proof. apply Z.mod_small. Qed.

Ltac unbox := unfold u32_box, i32_box, edges_fit, area_fits, is_u32, is_i32 in *.

Lemma area_counts b :
  u32_box b -> area_fits b -> cell_count (in_box b) (box_area b).
Proof.
  intros Hb Ha. unfold box_area, u32_mul. unbox. rewrite u32_wrap_id by nia.
  apply rect_count; lia.
Qed.

(** The intersection without wrap-around. *)
Definition inter_spec (a b : box) : Z :=
  Z.max 0 (shared_x2 a b - shared_x1 a b) * Z.max 0 (shared_y2 a b - shared_y1 a b).

Lemma box_inter_spec a b :
  u32_box a -> u32_box b -> edges_fit a -> edges_fit b -> area_fits a ->
  box_inter a b = inter_spec a b.
Proof.
  intros Ha Hb Ea Eb Fa. unfold box_inter, inter_spec, u32_mul, u32_sub, u32_add. unbox.
  rewrite (u32_wrap_id (bx a + bw a)), (u32_wrap_id (bx b + bw b)) by lia.
  rewrite (u32_wrap_id (by_ a + bh a)), (u32_wrap_id (by_ b + bh b)) by lia.
  fold (shared_x1 a b) (shared_x2 a b) (shared_y1 a b) (shared_y2 a b).
  destruct (shared_x2 a b <? shared_x1 a b) eqn:Ex; simpl;
    [apply Z.ltb_lt in Ex; rewrite Z.max_l by lia; lia|].
  destruct (shared_y2 a b <? shared_y1 a b) eqn:Ey; simpl;
    [apply Z.ltb_lt in Ey; rewrite (Z.max_l 0 (shared_y2 a b - _)) by lia; lia|].
  apply Z.ltb_ge in Ex, Ey. rewrite !Z.max_r by lia.
  assert (0 <= shared_x2 a b - shared_x1 a b <= bw a)
    by (unfold shared_x1, shared_x2 in *; lia).
  assert (0 <= shared_y2 a b - shared_y1 a b <= bh a)
    by (unfold shared_y1, shared_y2 in *; lia).
  assert (bw a * bh a < two32) by lia.
  rewrite (u32_wrap_id (shared_x2 a b - _)) by lia.
  rewrite (u32_wrap_id (shared_y2 a b - _)) by lia.
  apply u32_wrap_id. nia.
Qed.

Lemma inter_spec_counts a b :
  cell_count (fun c => in_box a c /\ in_box b c) (inter_spec a b).
Proof.
  unfold inter_spec.
  apply cell_count_iff with
    (P := fun c => shared_x1 a b <= fst c < shared_x1 a b + Z.max 0 (shared_x2 a b - shared_x1 a b)
               /\ shared_y1 a b <= snd c < shared_y1 a b + Z.max 0 (shared_y2 a b - shared_y1 a b)).
  - intros c. unfold in_box, shared_x1, shared_x2, shared_y1, shared_y2. lia.
  - apply rect_count; lia.
Qed.

Lemma inter_counts a b :
  u32_box a -> u32_box b -> edges_fit a -> edges_fit b -> area_fits a ->
  cell_count (fun c => in_box a c /\ in_box b c) (box_inter a b).
Proof. intros. rewrite box_inter_spec by assumption. apply inter_spec_counts. Qed.

Lemma box_inter_sym a b : box_inter a b = box_inter b a.
Proof.
  unfold box_inter. cbv zeta.
  rewrite (Z.max_comm (bx a)), (Z.max_comm (by_ a)).
  rewrite (Z.min_comm (u32_add (bx a) _)), (Z.min_comm (u32_add (by_ a) _)).
  reflexivity.
Qed.

Lemma union_counts a b :
  u32_box a -> u32_box b -> edges_fit a -> edges_fit b ->
  bw a * bh a + bw b * bh b < two32 ->
  cell_count (fun c => in_box a c \/ in_box b c) (box_union a b).
Proof.
  intros Ha Hb Ea Eb Fs.
  assert (Fa : area_fits a) by (unbox; nia).
  assert (Fb : area_fits b) by (unbox; nia).
  assert (Hle : inter_spec a b <= bw a * bh a).
  { unfold inter_spec, shared_x1, shared_x2, shared_y1, shared_y2. unbox.
    apply Z.mul_le_mono_nonneg; lia. }
  assert (Hge : 0 <= inter_spec a b) by (unfold inter_spec; nia).
  assert (Hu : box_union a b = bw a * bh a + bw b * bh b - inter_spec a b).
  { unfold box_union. rewrite box_inter_spec by assumption.
    unfold box_area, u32_mul, u32_add, u32_sub. unbox.
    rewrite (u32_wrap_id (bw a * bh a)), (u32_wrap_id (bw b * bh b)) by nia.
    rewrite (u32_wrap_id (_ + _)) by nia. rewrite u32_wrap_id by nia. reflexivity. }
  rewrite Hu. apply cell_count_union.
  - apply in_box_dec.
  - apply rect_count; unbox; lia.
  - apply rect_count; unbox; lia.
  - apply inter_spec_counts.
Qed.

Lemma box_inter_self a :
  u32_box a -> edges_fit a -> area_fits a -> box_inter a a = box_area a.
Proof.
  intros Ha Ea Fa. rewrite box_inter_spec by assumption.
  unfold box_area, u32_mul, inter_spec, shared_x1, shared_x2, shared_y1, shared_y2. unbox.
  rewrite u32_wrap_id by nia. rewrite !Z.max_id, !Z.min_id. rewrite !Z.max_r by lia. lia.
Qed.

Lemma box_inter_le a b :
  u32_box a -> u32_box b -> edges_fit a -> edges_fit b -> area_fits a ->
  0 <= box_inter a b <= box_area a.
Proof.
  intros Ha Hb Ea Eb Fa. rewrite box_inter_spec by assumption.
  unfold box_area, u32_mul, inter_spec, shared_x1, shared_x2, shared_y1, shared_y2. unbox.
  rewrite u32_wrap_id by nia. split; [nia|]. apply Z.mul_le_mono_nonneg; lia.
Qed.

(** Results are values of the type, whatever the boxes. *)
Lemma u32_wrap_range z : is_u32 (u32_wrap z).
Proof. apply Z.mod_pos_bound. reflexivity. Qed.

Lemma box_area_range a : is_u32 (box_area a).
Proof. apply u32_wrap_range. Qed.

Lemma box_inter_range a b : is_u32 (box_inter a b).
Proof.
  unfold box_inter. cbv zeta. destruct (_ || _); [split; reflexivity || easy|apply u32_wrap_range].
Qed.

(** ** int32_t *)

Lemma ty_i32_ok z : is_i32 z -> ty_i32 z = Ok z.
Proof.
  intros H. unfold ty_i32. unfold is_i32 in H.
  rewrite (proj2 (Z.leb_le _ _)) by lia. rewrite (proj2 (Z.leb_le _ _)) by lia. reflexivity.
Qed.

Lemma ty_i32_ub z : ~ is_i32 z -> ty_i32 z = UB.
Proof.
  intros H. unfold ty_i32, is_i32 in *.
  destruct (-2147483648 <=? z) eqn:E1; simpl; auto.
  destruct (z <=? 2147483647) eqn:E2; auto.
  apply Z.leb_le in E1, E2. lia.
Qed.

Lemma is_i32_dec z : {is_i32 z} + {~ is_i32 z}.
Proof.
  unfold is_i32. destruct (Z_le_dec (-2147483648) z); [|right; tauto].
  destruct (Z_le_dec z 2147483647); [left; tauto|right; tauto].
Qed.

Lemma signed_inter_cases a b :
  (box_inter_ty ty_i32 a b = UB /\ ~ (i32_edges a b /\ i32_shared a b)) \/
  (box_inter_ty ty_i32 a b = Ok (inter_spec a b) /\ i32_edges a b /\ i32_shared a b).
Proof.
  unfold box_inter_ty, i32_edges.
  destruct (is_i32_dec (bx a + bw a)) as [H1|H1];
    [rewrite (ty_i32_ok _ H1)|rewrite (ty_i32_ub _ H1); left; split; [reflexivity|tauto]].
  simpl obind.
  destruct (is_i32_dec (bx b + bw b)) as [H2|H2];
    [rewrite (ty_i32_ok _ H2)|rewrite (ty_i32_ub _ H2); left; split; [reflexivity|tauto]].
  simpl obind.
  destruct (is_i32_dec (by_ a + bh a)) as [H3|H3];
    [rewrite (ty_i32_ok _ H3)|rewrite (ty_i32_ub _ H3); left; split; [reflexivity|tauto]].
  simpl obind.
  destruct (is_i32_dec (by_ b + bh b)) as [H4|H4];
    [rewrite (ty_i32_ok _ H4)|rewrite (ty_i32_ub _ H4); left; split; [reflexivity|tauto]].
  simpl obind. unfold i32_shared, inter_spec.
  fold (shared_x1 a b) (shared_x2 a b) (shared_y1 a b) (shared_y2 a b).
  destruct (shared_x2 a b <? shared_x1 a b) eqn:Ex; simpl orb.
  { apply Z.ltb_lt in Ex. right. rewrite (Z.max_l 0 (shared_x2 a b - _)) by lia.
    split; [f_equal; lia|]. tauto. }
  destruct (shared_y2 a b <? shared_y1 a b) eqn:Ey; simpl orb.
  { apply Z.ltb_lt in Ey. right. rewrite (Z.max_l 0 (shared_y2 a b - _)) by lia.
    split; [f_equal; lia|]. tauto. }
  apply Z.ltb_ge in Ex, Ey. cbv iota. rewrite !Z.max_r by lia.
  set (dx := shared_x2 a b - shared_x1 a b) in *.
  set (dy := shared_y2 a b - shared_y1 a b) in *.
  destruct (is_i32_dec dx) as [H5|H5];
    [rewrite (ty_i32_ok _ H5)|rewrite (ty_i32_ub _ H5); left; split; [reflexivity|];
      intros [_ [H|[H|H]]]; [lia|lia|tauto]].
  simpl obind.
  destruct (is_i32_dec dy) as [H6|H6];
    [rewrite (ty_i32_ok _ H6)|rewrite (ty_i32_ub _ H6); left; split; [reflexivity|];
      intros [_ [H|[H|H]]]; [lia|lia|tauto]].
  simpl obind.
  destruct (is_i32_dec (dx * dy)) as [H7|H7].
  - rewrite (ty_i32_ok _ H7). right. tauto.
  - rewrite (ty_i32_ub _ H7). left. split; [reflexivity|]. intros [_ [H|[H|H]]]; [lia|lia|tauto].
Qed.

Lemma signed_inter_ub a b :
  box_inter_ty ty_i32 a b = UB <-> ~ (i32_edges a b /\ i32_shared a b).
Proof.
  destruct (signed_inter_cases a b) as [[H1 H2]|[H1 H2]]; rewrite H1; split; auto.
  - discriminate.
  - tauto.
Qed.

Lemma signed_inter_counts a b :
  i32_edges a b -> i32_shared a b ->
  exists n, box_inter_ty ty_i32 a b = Ok n /\
            cell_count (fun c => in_box a c /\ in_box b c) n.
Proof.
  intros He Hs. destruct (signed_inter_cases a b) as [[H1 H2]|[H1 H2]]; [tauto|].
  exists (inter_spec a b). split; auto. apply inter_spec_counts.
Qed.

(** The generic code at uint32_t is the code used by the tools. *)
Lemma box_inter_ty_u32 a b : box_inter_ty ty_u32 a b = Ok (box_inter a b).
Proof.
  unfold box_inter_ty, ty_u32, box_inter, u32_add, u32_sub, u32_mul, u32_wrap. simpl.
  destruct (_ || _); reflexivity.
Qed.

Lemma box_union_ty_u32 a b : box_union_ty ty_u32 a b = Ok (box_union a b).
Proof.
  unfold box_union_ty. rewrite box_inter_ty_u32. reflexivity.
Qed.

(** ** Documents *)

Lemma str_eq_spec a b : str_eq a b = true <-> a = b.
Proof.
  revert b. induction a as [|x a IH]; destruct b as [|y b]; simpl; split; intros H;
    try reflexivity; try discriminate.
  - apply andb_true_iff in H. destruct H as [H1 H2]. apply N.eqb_eq in H1.
    apply IH in H2. unfold code in H1.
    assert (x = y).
    { rewrite <- (Ascii.ascii_N_embedding x), <- (Ascii.ascii_N_embedding y), H1. reflexivity. }
    congruence.
  - injection H as -> ->. rewrite N.eqb_refl. simpl. apply IH. reflexivity.
Qed.

Lemma str_eq_refl a : str_eq a a = true.
Proof. apply str_eq_spec. reflexivity. Qed.

Lemma str_eq_sym a b : str_eq a b = str_eq b a.
Proof. apply eq_true_iff_eq. rewrite !str_eq_spec. split; congruence. Qed.

Lemma docbox_inter_sym a b : docbox_inter a b = docbox_inter b a.
Proof.
  unfold docbox_inter. rewrite str_eq_sym, box_inter_sym. reflexivity.
Qed.

Lemma docbox_inter_other a b : db_doc a <> db_doc b -> docbox_inter a b = 0.
Proof.
  intros H. unfold docbox_inter. destruct (str_eq _ _) eqn:E; auto.
  apply str_eq_spec in E. contradiction.
Qed.

(** ** Wrap-around *)

Lemma overflow_intersects_nothing a b :
  u32_box a -> ~ edges_fit a -> box_inter a b = 0.
Proof.
  intros Ha Hf. unfold box_inter, edges_fit in *. cbv zeta.
  assert (Hw : forall p q, is_u32 p -> is_u32 q -> two32 <= p + q -> u32_add p q < p).
  { intros p q Hp Hq H. unfold u32_add, u32_wrap, is_u32 in *.
    replace (p + q) with (p + q - two32 + 1 * two32) by ring.
    rewrite Z.mod_add by discriminate. rewrite Z.mod_small by lia. lia. }
  unfold u32_box in Ha. destruct Ha as [H1 [H2 [H3 H4]]].
  destruct (Z_lt_dec (bx a + bw a) two32) as [Hx|Hx].
  - assert (Hy : u32_add (by_ a) (bh a) < by_ a) by (apply Hw; auto; lia).
    replace (Z.min (u32_add (by_ a) (bh a)) (u32_add (by_ b) (bh b))
             <? Z.max (by_ a) (by_ b)) with true by (symmetry; apply Z.ltb_lt; lia).
    rewrite orb_true_r. reflexivity.
  - assert (Hy : u32_add (bx a) (bw a) < bx a) by (apply Hw; auto; lia).
    replace (Z.min (u32_add (bx a) (bw a)) (u32_add (bx b) (bw b))
             <? Z.max (bx a) (bx b)) with true by (symmetry; apply Z.ltb_lt; lia).
    reflexivity.
Qed.

Lemma area_counts_iff b :
  u32_box b -> (cell_count (in_box b) (box_area b) <-> area_fits b).
Proof.
  intros Hb. split.
  - intros H.
    assert (E : box_area b = bw b * bh b).
    { apply cell_count_unique with (1 := H). apply rect_count; unbox; lia. }
    unfold area_fits. rewrite <- E. apply box_area_range.
  - apply area_counts, Hb.
Qed.

Lemma self_intersection_wrong b :
  u32_box b -> ~ edges_fit b -> 0 < bw b -> 0 < bh b ->
  ~ cell_count (fun c => in_box b c /\ in_box b c) (box_inter b b).
Proof.
  intros Hb He Hw Hh Hc. rewrite overflow_intersects_nothing in Hc by assumption.
  destruct Hc as [l [_ [Hl Hlen]]].
  assert (In (bx b, by_ b) l).
  { apply Hl. unfold in_box. simpl. lia. }
  destruct l; [contradiction|discriminate].
Qed.

Lemma signed_negative_empty a b :
  bw a <= 0 \/ bh a <= 0 ->
  i32_edges a b -> i32_shared a b -> box_inter_ty ty_i32 a b = Ok 0.
Proof.
  intros Hn He Hs. destruct (signed_inter_cases a b) as [[H1 H2]|[H1 _]]; [tauto|].
  rewrite H1. f_equal. unfold inter_spec, shared_x1, shared_x2, shared_y1, shared_y2.
  destruct Hn.
  - rewrite (Z.max_l 0 (Z.min _ _ - Z.max (bx a) _)) by lia. lia.
  - rewrite (Z.max_l 0 (Z.min (by_ a + _) _ - _)) by lia. lia.
Qed.

Lemma docbox_facts a b :
  u32_box (db_box a) -> u32_box (db_box b) ->
  edges_fit (db_box a) -> edges_fit (db_box b) -> area_fits (db_box a) ->
  area_fits (db_box b) ->
  0 <= docbox_inter a b <= docbox_area a /\ docbox_inter a b <= docbox_area b /\
  docbox_inter a a = docbox_area a.
Proof.
  intros Ha Hb Ea Eb Fa Fb.
  assert (Ra := box_area_range (db_box a)). assert (Rb := box_area_range (db_box b)).
  unfold is_u32 in *. unfold docbox_inter, docbox_area. rewrite str_eq_refl.
  rewrite box_inter_self by assumption.
  assert (H1 := box_inter_le _ _ Ha Hb Ea Eb Fa).
  assert (H2 := box_inter_le _ _ Hb Ha Eb Ea Fb).
  rewrite (box_inter_sym (db_box b)) in H2.
  destruct (str_eq _ _); lia.
Qed.
