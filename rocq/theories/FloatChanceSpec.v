(** Vocabulary for how likely each floating point value is. *)
From Coq Require Import List ZArith Bool SpecFloat.
From Verif Require Import Base RandomModel FloatModel ChanceSpec.
Local Open Scope Z_scope.

(** The value Arbi<float> or Arbi<double> returns, without its shrinks. *)
Definition drawn (ty : ftype) (E : engine) (r : rst E) : res spec_float := result (seen fst (genFloat ty r)).
(** How many bit patterns the type has: two signs, 2 * emax exponents, 2^(prec-1) fractions. *)
Definition patterns (ty : ftype) : Z := 2 * (2 * emax ty * 2 ^ (prec ty - 1)).
(** The number of representable magnitudes below that of a value: all of them are equally spaced between two powers of two, and there are as
    many between any two successive powers of two. *)
Definition rank (ty : ftype) (v : spec_float) : Z :=
  match v with
  | S754_finite _ m e => (e - (3 - emax ty - prec ty)) * 2 ^ (prec ty - 1) + Zpos m
  | S754_infinity _ => (2 * emax ty - 1) * 2 ^ (prec ty - 1)
  | _ => 0
  end.
(** The very same value: the two zeros differ, a NaN is a NaN. *)
Definition same (a b : spec_float) : bool :=
  match a, b with
  | S754_zero s, S754_zero t | S754_infinity s, S754_infinity t => Bool.eqb s t
  | S754_nan, S754_nan => true
  | S754_finite s m e, S754_finite t n f => Bool.eqb s t && Pos.eqb m n && Z.eqb e f
  | _, _ => false
  end.
Definition isNaN (v : spec_float) : bool := match v with S754_nan => true | _ => false end.
(** lo <= |v| < hi. *)
Definition within (lo hi v : spec_float) : bool := SFleb lo (SFabs v) && SFltb (SFabs v) hi.
(** 2^k, or infinity where that is the next value. *)
Definition two (ty : ftype) (k : Z) : spec_float :=
  if k =? emax ty then S754_infinity false else S754_finite false (Z.to_pos (2 ^ (prec ty - 1))) (k - (prec ty - 1)).
