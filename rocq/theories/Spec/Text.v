(** What the written text should be. *)
From Coq Require Import Ascii String List Bool ZArith Reals.
From Flocq Require Import Core BinarySingleNaN.
From Verif.Model Require Import Cpp Floats Box Events Matches.
From Verif.Spec Require Import Reader Double.
Import ListNotations.
Local Open Scope Z_scope.

(** ** Numbers *)

Definition radix10 : radix := Build_radix 10 eq_refl.

(** A real number rounded to p significant decimal digits, ties to even. *)
Definition digits (p : Z) (x : R) : R := round radix10 (FLX_exp p) ZnearestE x.

(** A minus sign, if negative. *)
Definition minus (neg : bool) : bytes := if neg then ["-"%char] else [].
Definition signed (neg : bool) (x : R) : R := if neg then (- x)%R else x.

(** Digits after the point; no trailing zeros, and no point without digits. *)
Definition short_fraction (fp f : bytes) : Prop :=
  (f = [] /\ fp = [] \/ f <> [] /\ fp = "."%char :: f) /\ forall t, f <> t ++ ["0"%char].

(** Plain notation: no unnecessary zeros. *)
Definition plain_form (b : bytes) (neg : bool) (v : R) : Prop := exists ip fp f m,
  b = minus neg ++ ip ++ fp /\ ip <> [] /\ (forall t, ip = "0"%char :: t -> t = []) /\ short_fraction fp f /\
  numeral (ip ++ f) m /\ v = signed neg (IZR m * powerRZ 10 (- Z.of_nat (List.length f))).

(** An exponent has a sign and two digits or more, but no unnecessary zeros. *)
Definition exponent_form (b : bytes) (x : Z) : Prop := exists ds,
  b = "e"%char :: (if x <? 0 then "-"%char else "+"%char) :: ds /\ numeral ds (Z.abs x) /\
  (2 <= List.length ds)%nat /\ ((2 < List.length ds)%nat -> forall t, ds <> "0"%char :: t).

(** One digit that is not zero, a fraction and an exponent. *)
Definition exp_form (b : bytes) (neg : bool) (v : R) : Prop := exists c fp f m ex x,
  b = minus neg ++ c :: fp ++ ex /\ c <> "0"%char /\ short_fraction fp f /\ exponent_form ex x /\
  numeral (c :: f) m /\ v = signed neg (IZR m * powerRZ 10 (x - Z.of_nat (List.length f))).

(** Plain notation for zero and for numbers from 10^-4 up to 10^6, the other
    one for all others. *)
Definition short_form (b : bytes) (neg : bool) (v : R) : Prop :=
  (v = 0 \/ powerRZ 10 (-4) <= Rabs v < powerRZ 10 6)%R /\ plain_form b neg v \/
  (v <> 0 /\ (Rabs v < powerRZ 10 (-4) \/ powerRZ 10 6 <= Rabs v))%R /\ exp_form b neg v.

(** One digit, zero only for the number zero, six digits and an exponent. *)
Definition scientific_form (b : bytes) (neg : bool) (v : R) : Prop := exists c f m ex x,
  b = minus neg ++ c :: "."%char :: f ++ ex /\ List.length f = 6%nat /\ exponent_form ex x /\
  (c = "0"%char -> v = 0%R /\ x = 0) /\
  numeral (c :: f) m /\ v = signed neg (IZR m * powerRZ 10 (x - 6)).

(** An integer: no unnecessary zeros. *)
Definition integer_form (b : bytes) (z : Z) : Prop := exists ds,
  b = minus (z <? 0) ++ ds /\ numeral ds (Z.abs z) /\ forall t, ds = "0"%char :: t -> t = [].

(** ** Events and matches *)

Definition blank : bytes := [" "%char].

(** Query, document and box. *)
Definition shaped_form (b : bytes) (e : shaped) : Prop := exists x y w h,
  b = ev_query e ++ blank ++ db_doc (ev_loc e) ++ blank ++ x ++ blank ++ y ++ blank ++ w ++ blank ++ h /\
  word (ev_query e) /\ word (db_doc (ev_loc e)) /\
  integer_form x (bx (db_box (ev_loc e))) /\ integer_form y (by_ (db_box (ev_loc e))) /\
  integer_form w (bw (db_box (ev_loc e))) /\ integer_form h (bh (db_box (ev_loc e))).

(** Two ids. *)
Definition id_form (b : bytes) (e : event Z Z) : Prop := exists x y,
  b = x ++ blank ++ y /\ integer_form x (ev_query e) /\ integer_form y (ev_loc e).

(** A float, rounded to six digits. *)
Definition float_form (b : bytes) (v : f32) : Prop := is_finite v = true /\ short_form b (Bsign v) (digits 6 (B2R v)).

(** An event and its score. *)
Definition scored_form {E} (F : bytes -> E -> Prop) (b : bytes) (e : scored E) : Prop := exists l s,
  b = l ++ blank ++ s /\ F l (sc_base e) /\ float_form s (sc_score e).

(** The line of a match: hypothesis and reference, if there, and the error with
    the numbers of hypotheses and references it counts for. *)
Definition optional_form {E} (name : string) (F : bytes -> E -> Prop) (b : bytes) (e : option E) : Prop :=
  match e with
  | Some x => exists t, b = lit name ++ lit "=" ++ t ++ lit ", " /\ F t x
  | None => b = []
  end.
Definition match_form {RE HE} (Fr : bytes -> RE -> Prop) (Fh : bytes -> HE -> Prop) (b : bytes) (m : match_t RE HE) : Prop :=
  exists h r fp fn nh nr,
    b = lit "Match[" ++ h ++ r ++ lit "Error=MatchError[fp=" ++ fp ++ lit ", fn=" ++ fn ++
        lit ", nh=" ++ nh ++ lit ", nr=" ++ nr ++ lit "]]" /\
    optional_form "Hyp" Fh h (m_hyp m) /\ optional_form "Ref" Fr r (m_ref m) /\
    float_form fp (me_fp (m_err m)) /\ float_form fn (me_fn (m_err m)) /\
    integer_form nh (if Rlt_dec 0 (B2R (me_fp (m_err m))) then 1 else if Rlt_dec (B2R (me_fn (m_err m))) 1 then 1 else 0) /\
    integer_form nr (if Rlt_dec (B2R (me_fp (m_err m))) 1 then 1 else if Rlt_dec 0 (B2R (me_fn (m_err m))) then 1 else 0).

(** The lines of a file of matches, each with a newline at the end and nowhere
    else. *)
Definition dump_form {RE HE} (Fr : bytes -> RE -> Prop) (Fh : bytes -> HE -> Prop) (b : bytes)
  (ms repeated : list (match_t RE HE)) : Prop := exists ls ls',
  b = flat_map (fun l => l ++ [ascii_of_N 10]) (ls ++ lit "#### REPEATED MATCHES ####" :: map (app (lit "## ")) ls') /\
  Forall2 (match_form Fr Fh) ls ms /\ Forall2 (match_form Fr Fh) ls' repeated /\
  Forall (fun l => ~ In (ascii_of_N 10) l) (ls ++ ls').

(** ** Statistics and curves *)

(** The text of a double, rounded to p digits; no claim about not-a-number. *)
Definition double_form (form : bytes -> bool -> R -> Prop) (p : Z) (b : bytes) (v : f64) : Prop :=
  match v with
  | B754_nan => True
  | B754_infinity neg => b = minus neg ++ lit "inf"
  | _ => form b (Bsign v) (digits p (B2R v))
  end.

(** The line of a statistic, without the newline: name, value and perhaps an
    interval. *)
Definition stat_form (b : bytes) (s : bytes * f64 * option (f64 * f64)) : Prop :=
  match s with (name, v, ci) => exists t u, b = name ++ lit " = " ++ t ++ u /\ double_form short_form 6 t v /\
    match ci with
    | None => u = []
    | Some (lo, up) => exists x y, u = lit " [" ++ x ++ lit ", " ++ y ++ lit "]" /\
        double_form short_form 6 x lo /\ double_form short_form 6 y up
    end
  end.

(** The line of a point, without the newline. *)
Definition point_form (b : bytes) (p : f64 * f64) : Prop := exists x y,
  b = x ++ blank ++ y /\ double_form scientific_form 7 x (fst p) /\ double_form scientific_form 7 y (snd p).

(** Lines, each with a newline at the end. *)
Definition lines_form {A} (F : bytes -> A -> Prop) (b : bytes) (l : list A) : Prop := exists ls,
  b = flat_map (fun x => x ++ [ascii_of_N 10]) ls /\ Forall2 F ls l.

(** The text of a number known up to e: six digits, and the number itself if
    it has no more digits and is not too small. *)
Definition shown_near (b : bytes) (e v : R) : Prop :=
  (exists neg x, short_form b neg x /\ (Rabs (x - v) <= e + (Rabs v + e) / 200000)%R) /\
  ((exists m k, Z.abs m < 10 ^ 6 /\ v = (IZR m * powerRZ 10 k)%R) -> (2000000 * e < v)%R -> short_form b false v).

(** The standard output of a run on n references and hypotheses: gAP and mAP
    known up to the errors of double arithmetic. *)
Definition shown_statistics (b : bytes) (n : nat) (gap map : R) : Prop := exists t1 t2 t3 t4,
  b = lit "gAP = " ++ t1 ++ [ascii_of_N 10] ++ lit "mAP = " ++ t2 ++ [ascii_of_N 10] ++
      lit "gNDCG = " ++ t3 ++ [ascii_of_N 10] ++ lit "mNDCG = " ++ t4 ++ [ascii_of_N 10] /\
  shown_near t1 (INR n * (INR n + 12) * u64) gap /\ shown_near t2 ((INR n * (INR n + 13) + 3) * u64) map.

(** Equal up to the digits written. *)
Definition same_float (v v' : f32) : Prop := Bsign v = Bsign v' /\ digits 6 (B2R v) = digits 6 (B2R v').
Definition same_scored {E} (e e' : scored E) : Prop := sc_base e = sc_base e' /\ same_float (sc_score e) (sc_score e').
Definition same_option {E} (same : E -> E -> Prop) (e e' : option E) : Prop :=
  match e, e' with
  | Some x, Some x' => same x x'
  | None, None => True
  | _, _ => False
  end.
Definition same_match {RE E} (m m' : match_t RE (scored E)) : Prop :=
  m_ref m = m_ref m' /\ same_option same_scored (m_hyp m) (m_hyp m') /\
  same_float (me_fp (m_err m)) (me_fp (m_err m')) /\ same_float (me_fn (m_err m)) (me_fn (m_err m')).
