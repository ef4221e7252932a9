(** Model of the random numbers /repo/core/Bootstrapping.h:18, 23, 31, 40, 44,
    49 and 59 takes from libstdc++: [std::default_random_engine], which is
    [std::minstd_rand0], and [std::uniform_int_distribution<size_t>]. *)
From Coq Require Import List Bool ZArith.
From Verif.Model Require Import Cpp Bootstrap.
Import ListNotations.
Local Open Scope Z_scope.

(** The modulus of the engine. *)
Definition minstd_m : Z := 2147483647.

(** The state after seeding (/repo/core/Bootstrapping.h:17-18 and 39-40,
    [rng_(random_seed)]); [result_type] has 64 bits, as on 64-bit Linux, so the
    seed is not truncated. *)
Definition minstd_seed (seed : Z) : Z :=
  if Z.eqb (seed mod minstd_m) 0 then 1 else seed mod minstd_m.

(** [rng_()]: the next state, which is also the number returned. *)
Definition minstd_next (x : Z) : Z := (16807 * x) mod minstd_m.

(** The rejection loop of [uniform_int_distribution]: numbers are drawn until
    one, less 1, is below [past].  The loop has no bound in the code; here it
    ends after [fuel] rounds with the last state, if nothing was accepted. *)
Fixpoint reject (past : Z) (fuel : positive) (x : Z) : Z + Z :=
  match fuel with
  | xH => let y := minstd_next x in if Z.ltb (y - 1) past then inr y else inl y
  | xO p =>
      match reject past p x with
      | inl y => reject past p y
      | r => r
      end
  | xI p =>
      let y := minstd_next x in
      if Z.ltb (y - 1) past then inr y
      else
        match reject past p y with
        | inl z => reject past p z
        | r => r
        end
  end.

(** [uniform_int_distribution<size_t>(0, n - 1)] called with the engine in the
    state [x] (/repo/core/Bootstrapping.h:26, 48 and 52).  The engine has
    2147483646 values, so that is [urngrange] + 1.  Ranges of more values
    (containers of more than 2^31 - 2 elements) are not modelled; then 0 is
    returned. *)
Definition minstd_draw (x : Z) (n : nat) : nat * Z :=
  let range := Z.of_nat n in
  if Z.ltb range (minstd_m - 1) then
    let scaling := (minstd_m - 2) / range in
    match reject (range * scaling) 2147483647%positive x with
    | inr y => (Z.to_nat ((y - 1) / scaling), y)
    | inl y => (0%nat, y)
    end
  else if Z.eqb range (minstd_m - 1) then
    let y := minstd_next x in (Z.to_nat (y - 1), y)
  else (0%nat, x).

(** The engine with its distribution, seeded. *)
Definition minstd (seed : Z) : rng := Rng Z (minstd_seed seed) minstd_draw.
