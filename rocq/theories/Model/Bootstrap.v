(** Model of /repo/core/Bootstrapping.h. *)
From Coq Require Import List Bool ZArith.
From Verif.Model Require Import Cpp Floats Matches Assessment.
Import ListNotations.
Local Open Scope cpp_scope.

(** A seeded random engine (/repo/core/Bootstrapping.h:31 and 59) together
    with uniform_int_distribution: a type of states, the state after seeding,
    and how a number below [n] is drawn in a state.  Theorems quantify over
    all of them; [Model/Engine.v] has the one of libstdc++. *)
Record rng : Type := Rng {
  rng_state : Type;
  rng_start : rng_state;
  rng_next : rng_state -> nat -> nat * rng_state
}.

(** One draw from uniform_int_distribution(0, n - 1); only used with
    [0 < n].  Numbers are taken modulo [n], so the draw is always in range. *)
Definition draw (g : rng) (k : rng_state g) (n : nat) : nat * rng_state g :=
  let (v, k') := rng_next g k n in (v mod n, k').

(** The engine that draws the numbers of a given stream; the state is the
    number of draws made. *)
Definition stream (s : nat -> nat) : rng := Rng nat 0 (fun k _ => (s k, S k)).

Section Samplers.
  Context {M : Type} (default : M).

  (** [n] draws of elements of [l] (/repo/core/Bootstrapping.h:25-27 and
      51-54). *)
  Fixpoint draw_many (g : rng) (k : rng_state g) (n : nat) (l : list M) : list M * rng_state g :=
    match n with
    | O => ([], k)
    | S n' =>
        let (i, k1) := draw g k (length l) in
        let (rest, k2) := draw_many g k1 n' l in
        (nth i l default :: rest, k2)
    end.

  (** /repo/core/Bootstrapping.h:21-28, [MatchesSampler::operator()] writing
      to the vector [sampled]: it is resized (which truncates it or pads it
      with default matches) and the drawn matches are appended. *)
  Definition matches_sampler (g : rng) (k : rng_state g) (original sampled : list M)
    : list M * rng_state g :=
    let n := length original in
    let resized := firstn n sampled ++ repeat default (n - length sampled) in
    let (drawn, k') := draw_many g k n original in
    (resized ++ drawn, k').

  (** /repo/core/Bootstrapping.h:47-55, the loop over groups: [n] groups to
      draw. *)
  Fixpoint groups_loop (g : rng) (k : rng_state g) (n : nat) (original : list (list M))
    : list (list M) * rng_state g :=
    match n with
    | O => ([], k)
    | S n' =>
        let (q, k1) := draw g k (length original) in
        let grp := nth q original [] in
        let (drawn, k2) := draw_many g k1 (length grp) grp in
        let (rest, k3) := groups_loop g k2 n' original in
        (drawn :: rest, k3)
    end.

  (** /repo/core/Bootstrapping.h:42-56, [MatchesByQuerySampler::operator()]. *)
  Definition by_query_sampler (g : rng) (k : rng_state g) (original : list (list M))
    : list (list M) * rng_state g :=
    groups_loop g k (length original) original.
End Samplers.

Section CI.
  Context (A : Arith) {C S : Type}.
  Notation Num := (num A).

  (** /repo/core/Bootstrapping.h:70-78, the loop: [n] repetitions. *)
  Fixpoint diffs_loop (statistic : C -> outcome Num) (sampler : S -> C -> C * S)
    (original : C) (obs : Num) (n : nat) (k : S) : outcome (list Num) :=
    match n with
    | O => Ok []
    | Datatypes.S n' =>
        let (sample, k') := sampler k original in
        let* v := statistic sample in
        let* rest := diffs_loop statistic sampler original obs n' k' in
        Ok (a_sub A v obs :: rest)
    end.

  (** /repo/core/Bootstrapping.h:80, [li]. *)
  Definition ci_li (alpha : f64) (reps : Z) : outcome Z :=
    size_of_f64 (f64_mul (f64_sub (f64_of_Z 1) (f64_mul alpha f64_half)) (f64_of_Z reps)).

  (** /repo/core/Bootstrapping.h:81, [ui]. *)
  Definition ci_ui (alpha : f64) (reps : Z) : outcome Z :=
    size_of_f64 (f64_mul (f64_mul alpha f64_half) (f64_of_Z reps)).

  (** /repo/core/Bootstrapping.h:62-85, [ComputePercentileBootstrapCI]: the
      value, the lower and the upper bound; [start] is the state of the
      sampler. *)
  Definition bootstrap_ci (srt : sort_fn) (statistic : C -> outcome Num)
    (sampler : S -> C -> C * S) (start : S) (original : C) (reps : nat) (alpha : f64)
    : outcome (Num * Num * Num) :=
    let* obs := statistic original in
    let* diffs := diffs_loop statistic sampler original obs reps start in
    let* sorted := std_sort srt (a_lt A) diffs in
    let* li := ci_li alpha (Z.of_nat reps) in
    let* ui := ci_ui alpha (Z.of_nat reps) in
    let* dl := at_ sorted (Z.to_nat li) in
    let* du := at_ sorted (Z.to_nat ui) in
    Ok (obs, a_sub A obs dl, a_sub A obs du).
End CI.

(** /repo/core/Bootstrapping.h:87-98, the overload for grouped matches: the
    sampler is a [MatchesByQuerySampler] over a freshly seeded engine. *)
Definition bootstrap_groups (A : Arith) {M} (default : M) (srt : sort_fn)
  (statistic : list (list M) -> outcome (num A)) (g : rng) (groups : list (list M))
  (reps : nat) (alpha : f64) : outcome (num A * num A * num A) :=
  bootstrap_ci A srt statistic (by_query_sampler default g) (rng_start g) groups reps alpha.
