(** Programs over Match objects, and what their storage should look like. *)
From Coq Require Import List Bool Arith Reals.
From Flocq Require BinarySingleNaN.
From Verif.Model Require Import Cpp Floats Matches.
Import ListNotations.

Section Programs.
  Context {RE HE : Type}.

  (** A statement.  Objects are named by numbers. *)
  Inductive mop : Type :=
  | ONew (x : nat)                       (* Match x; *)
  | OCopy (x y : nat)                    (* Match x(y); *)
  | OSetRef (x : nat) (r : RE)           (* x.SetRef(r); *)
  | OSetHyp (x : nat) (h : HE)           (* x.SetHyp(h); *)
  | OSetErr (x : nat) (e : match_error)  (* x.SetError(e); *)
  | OAssign (x y : nat)                  (* x = y; *)
  | OMove (x y : nat)                    (* x = std::move(y); *)
  | ODestroy (x : nat).                  (* end of the life of x *)

  (** [x] names a live object. *)
  Definition live (x : nat) (s : mstate RE HE) : Prop :=
    map_find Nat.eqb x (s_objs s) <> None.

  (** A program is well formed when it names new objects freshly and uses
      only live ones. *)
  Definition op_ok (op : mop) (s : mstate RE HE) : Prop :=
    match op with
    | ONew x => ~ live x s
    | OCopy x y => ~ live x s /\ live y s
    | OSetRef x _ | OSetHyp x _ | OSetErr x _ | ODestroy x => live x s
    | OAssign x y | OMove x y => live x s /\ live y s
    end.

  (** The effect of a statement. *)
  Definition op_run (op : mop) (s : mstate RE HE) : outcome (mstate RE HE) :=
    match op with
    | ONew x => Ok (obj_default x s)
    | OCopy x y => obj_copy_construct x y s
    | OSetRef x r => obj_set_ref x (CRef r) s
    | OSetHyp x h => obj_set_hyp x (CHyp h) s
    | OSetErr x e => obj_set_error x e s
    | OAssign x y => obj_assign x y s
    | OMove x y => obj_move_assign x y s
    | ODestroy x => obj_destroy x s
    end.

  (** States reachable by well-formed programs; [ops] is the program, latest
      statement first. *)
  Inductive reach : list mop -> mstate RE HE -> Prop :=
  | reach_start : reach [] (MState [] 0 [])
  | reach_step ops s op s' :
      reach ops s -> op_ok op s -> op_run op s = Ok s' -> reach (op :: ops) s'.

  (** A heap cell no live object points to. *)
  Definition leaked (a : nat) (s : mstate RE HE) : Prop :=
    map_find Nat.eqb a (s_heap s) <> None /\
    forall x o, map_find Nat.eqb x (s_objs s) = Some o ->
                o_ref o <> Some a /\ o_hyp o <> Some a.

  (** The statement is not a copy assignment. *)
  Definition not_assign (op : mop) : Prop :=
    match op with OAssign _ _ => False | _ => True end.
End Programs.
Arguments mop : clear implicits.

(** A number that is not NaN. *)
Definition err_numeric (e : match_error) : Prop :=
  BinarySingleNaN.is_nan (me_fp e) = false /\ BinarySingleNaN.is_nan (me_fn e) = false.

(** A [float] in [0,1]. *)
Definition unit_f32 (x : f32) : Prop :=
  BinarySingleNaN.is_finite x = true /\ (0 <= BinarySingleNaN.B2R x <= 1)%R.
