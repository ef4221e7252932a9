(** C13-C15: Match objects, their comparison and their counts. *)
From Coq Require Import List Bool ZArith Reals.
From Flocq Require Import BinarySingleNaN.
From Verif.Model Require Import Cpp Floats Events Matches.
From Verif.Spec Require Import Order Objects.
From Verif.Proofs Require Objects Order.
Import ListNotations.

(** C13.  Every well-formed statement runs without undefined behaviour, in
    every state a well-formed program can reach; every live object has a
    value. *)
Theorem c13_programs_run : forall RE HE ops (s : mstate RE HE) op,
  reach ops s -> op_ok op s -> exists s', op_run op s = Ok s' /\ reach (op :: ops) s'.
Proof. exact @Objects.reach_safe. Qed.
Print Assumptions c13_programs_run.

Theorem c13_live_has_value : forall RE HE ops (s : mstate RE HE) x,
  reach ops s -> live x s -> exists m, obj_view x s = Some m.
Proof. exact @Objects.reach_view. Qed.
Print Assumptions c13_live_has_value.

(** C13.  Copy construction: the new object has the value of the source, and
    the source and all other objects keep theirs. *)
Theorem c13_copy_construct : forall RE HE ops (s : mstate RE HE) x y,
  reach ops s -> ~ live x s -> live y s ->
  exists s', obj_copy_construct x y s = Ok s' /\
    obj_view x s' = obj_view y s /\ forall z, z <> x -> obj_view z s' = obj_view z s.
Proof. exact @Objects.c13_copy. Qed.
Print Assumptions c13_copy_construct.

(** C13.  Copy assignment from a different object. *)
Theorem c13_assign_other : forall RE HE ops (s : mstate RE HE) x y,
  reach ops s -> x <> y -> live x s -> live y s ->
  exists s', obj_assign x y s = Ok s' /\
    obj_view x s' = obj_view y s /\ forall z, z <> x -> obj_view z s' = obj_view z s.
Proof. exact @Objects.c13_assign. Qed.
Print Assumptions c13_assign_other.

(** C13.  Move assignment from a different object empties the source. *)
Theorem c13_move_assign : forall RE HE ops (s : mstate RE HE) x y,
  reach ops s -> x <> y -> live x s -> live y s ->
  exists s', obj_move_assign x y s = Ok s' /\
    obj_view x s' = obj_view y s /\
    (exists r h e, obj_view y s = Some (Match r h e) /\ obj_view y s' = Some (Match None None e)) /\
    forall z, z <> x -> z <> y -> obj_view z s' = obj_view z s.
Proof. exact @Objects.c13_move. Qed.
Print Assumptions c13_move_assign.

(** C13.  Self-assignment loses both events, always. *)
Theorem c13_self_assign_loses : forall RE HE ops (s : mstate RE HE) x r h e,
  reach ops s -> obj_view x s = Some (Match r h e) ->
  exists s', obj_assign x x s = Ok s' /\ obj_view x s' = Some (Match None None e).
Proof. exact @Objects.c13_self_assign. Qed.
Print Assumptions c13_self_assign_loses.

(** C13.  Assignment leaks whatever events the target held, and nothing ever
    frees them. *)
Theorem c13_assign_leaks : forall RE HE ops (s : mstate RE HE) x y o a,
  reach ops s -> live y s ->
  map_find Nat.eqb x (s_objs s) = Some o -> o_ref o = Some a \/ o_hyp o = Some a ->
  exists s', obj_assign x y s = Ok s' /\ leaked a s'.
Proof. exact @Objects.assign_leaks. Qed.
Print Assumptions c13_assign_leaks.

Theorem c13_leaks_forever : forall RE HE ops (s : mstate RE HE) op s' a,
  reach ops s -> op_ok op s -> op_run op s = Ok s' -> leaked a s -> leaked a s'.
Proof. exact @Objects.leak_forever. Qed.
Print Assumptions c13_leaks_forever.

(** C13.  Copy assignment is the only way to leak. *)
Theorem c13_no_leak_without_assign : forall RE HE ops (s : mstate RE HE),
  reach ops s -> Forall not_assign ops -> forall a, ~ leaked a s.
Proof. exact @Objects.reach_no_leak. Qed.
Print Assumptions c13_no_leak_without_assign.

(** A program that ends in a self-assignment and a leaking assignment. *)
Example prog : list (mop Z Z) :=
  [ ONew 0; OSetRef 0 10%Z; OSetHyp 0 20%Z; OSetErr 0 (MatchError (B754_infinity false) f32_0);
    OCopy 1 0; ONew 2; OSetHyp 2 30%Z; OMove 0 2; OAssign 2 1 ].
Example prog_state : outcome (mstate Z Z) :=
  ofold (fun s op => op_run op s) prog (MState [] 0 []).

Example c13_case :

  (exists s, prog_state = Ok s /\
     obj_view 0 s = Some (Match None (Some 30%Z) me_default) /\
     obj_view 1 s = Some (Match (Some 10%Z) (Some 20%Z) (MatchError (B754_infinity false) f32_0)) /\
     obj_view 2 s = obj_view 1 s).
Proof. eexists. split; [vm_compute; reflexivity|]. vm_compute. auto. Qed.

Theorem c13_self_assign_refuted :
  exists (s s' : mstate Z Z) ops x, reach ops s /\ obj_assign x x s = Ok s' /\
    obj_view x s <> obj_view x s'.
Proof. exact Objects.self_assign_refuted. Qed.
Print Assumptions c13_self_assign_refuted.

(** C14.  Match [==] on the matches of the tool (reference events and scored
    hypotheses over any totally ordered queries and locations). *)
Theorem c14_match_eq_equivalence : forall Q L (cq : Cmp Q) (cl : Cmp L),
  total_order cq -> total_order cl ->
  let ce := cmp_event cq cl in
  let eq := match_eq ce (cmp_scored ce) in
  (forall m, err_numeric (m_err m) -> (forall h, m_hyp m = Some h -> numeric h) -> eq m m = true) /\
  (forall a b, eq a b = eq b a) /\
  (forall a b c, eq a b = true -> eq b c = true -> eq a c = true).
Proof. exact @Objects.match_eq_tool. Qed.
Print Assumptions c14_match_eq_equivalence.

(** C14.  [!=] does not return, however deep the calls may go. *)
Theorem c14_match_ne_never_returns : forall RE HE n (a b : match_t RE HE),
  forall v, match_ne n a b <> Ok v.
Proof. exact Objects.match_ne_no_value. Qed.
Print Assumptions c14_match_ne_never_returns.

Theorem c14_match_ne_refuted :
  exists a b : match_t Z Z, forall n, match_ne n a b <> Ok (negb (match_eq cmp_Z cmp_Z a b)).
Proof. exact Objects.match_ne_refuted. Qed.
Print Assumptions c14_match_ne_refuted.

(** C15.  False positives and false negatives. *)
Theorem c15_outcomes : forall RE HE (r : RE) (h : HE),
  me_nh (m_err (@make_fp RE HE h)) = 1 /\ me_nr (m_err (@make_fp RE HE h)) = 0 /\
  me_nh (m_err (@make_fn RE HE r)) = 0 /\ me_nr (m_err (@make_fn RE HE r)) = 1.
Proof. exact @Objects.nh_nr_outcomes. Qed.
Print Assumptions c15_outcomes.

Theorem c15_accepted_is_one_reference : forall e,
  f32_lt (me_fp e) f32_1 = true -> me_nr e = 1.
Proof. exact Objects.nr_accepted. Qed.
Print Assumptions c15_accepted_is_one_reference.

(** C15.  With errors in [0,1], NH is 0 only for (0,1), NR is 0 only for
    (1,0), they are at most 1 and never both 0. *)
Theorem c15_nh_zero : forall e, unit_f32 (me_fp e) -> unit_f32 (me_fn e) ->
  (me_nh e = 0 <-> (B2R (me_fp e) = 0 /\ B2R (me_fn e) = 1)%R).
Proof. exact Objects.nh_zero. Qed.
Print Assumptions c15_nh_zero.

Theorem c15_nr_zero : forall e, unit_f32 (me_fp e) -> unit_f32 (me_fn e) ->
  (me_nr e = 0 <-> (B2R (me_fp e) = 1 /\ B2R (me_fn e) = 0)%R).
Proof. exact Objects.nr_zero. Qed.
Print Assumptions c15_nr_zero.

Theorem c15_never_both_zero : forall e, unit_f32 (me_fp e) -> unit_f32 (me_fn e) ->
  ~ (me_nh e = 0 /\ me_nr e = 0).
Proof. exact Objects.nh_nr_not_both. Qed.
Print Assumptions c15_never_both_zero.

Theorem c15_at_most_one : forall e, me_nh e <= 1 /\ me_nr e <= 1.
Proof. exact Objects.nh_nr_le_1. Qed.
Print Assumptions c15_at_most_one.

Example c15_case :
  unit_f32 f32_half /\ me_nh (MatchError f32_half f32_half) = 1 /\ me_nr (MatchError f32_half f32_half) = 1.
Proof. exact Objects.half_unit. Qed.

Example c14_case :
  err_numeric (MatchError f32_1 f32_0) /\
  match_eq cmp_Z cmp_Z (Match (Some 3%Z) None (MatchError f32_1 f32_0))
                       (Match (Some 3%Z) None (MatchError f32_1 f32_0)) = true /\
  match_eq cmp_Z cmp_Z (Match (Some 3%Z) None (MatchError f32_1 f32_0))
                       (Match (Some 4%Z) None (MatchError f32_1 f32_0)) = false.
Proof. repeat split; reflexivity. Qed.
