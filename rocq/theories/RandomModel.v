(** Model of proptest::Random (proptest/Random.hpp, proptest/Random.cpp).
    The Mersenne Twister engine is abstract: any state type and any function drawing from a range.  Of
    std::uniform_int_distribution only what the standard guarantees is used: for a <= b the result lies in
    [a,b]; a > b is undefined behaviour. *)
From Coq Require Import List ZArith Bool SpecFloat.
From Verif Require Import Base.
Import ListNotations.
Local Open Scope Z_scope.

(** Random.hpp:46-47 engine and dist. *)
Record engine := {
  rst : Type;
  unif : Z -> Z -> rst -> Z * rst;
  unif_range : forall a b r, a <= b -> a <= fst (unif a b r) <= b
}.

(** A computation using the engine (a function taking Random&). (Random.hpp:10-48.) *)
Definition G (E : engine) (A : Type) : Type := rst E -> res (A * rst E).

(** Sequencing of computations using the engine. (Random.hpp:10-48.) *)
Definition gret {E A} (a : A) : G E A := fun r => Ok (a, r).
(** An exception or undefined behaviour in a function taking Random& (Random.hpp:10-48). *)
Definition gfail {E A} (x : res A) : G E A :=
  fun r => match x with Ok a => Ok (a, r) | UB => UB | Throw e => Throw e | OutOfFuel => OutOfFuel end.
(** One call using the Random& (Random.hpp:10-48) after the other. *)
Definition gbind {E A B} (g : G E A) (f : A -> G E B) : G E B :=
  fun r => match g r with
           | Ok (a, r') => f a r'
           | UB => UB | Throw e => Throw e | OutOfFuel => OutOfFuel
           end.

(** Random.cpp:31-75: uniform_int_distribution<...> dist(min, max); dist(engine). *)
Definition draw {E} (a b : Z) : G E Z := fun r => if a <=? b then Ok (unif E a b r) else UB.

(** Random.cpp:18-22 next8U: default-constructed uniform_int_distribution<uint64_t>. *)
Definition next8U {E} : G E Z := draw 0 UINT64_MAX.

(** IEEE-754 binary64 (double). *)
Definition dprec : Z := 53.
(** IEEE-754 binary64: Random.cpp:24-28. *)
Definition demax : Z := 1024.
(** 1.0: Random.cpp:26. *)
Definition d_one : spec_float := S754_finite false 4503599627370496 (-52).
(** 0.5: Random.hpp:14. *)
Definition d_half : spec_float := S754_finite false 4503599627370496 (-53).
(** 0.0, a possible threshold of Random.cpp:24. *)
Definition d_zero : spec_float := S754_zero false.
(** static_cast<double>(UINT64_MAX): 2^64 - 1 rounds to 2^64. *)
Definition d_2_64 : spec_float := S754_finite false 4503599627370496 12.

(** Conversion double -> uint64_t: truncation; undefined when the truncated value does not fit
    (C++ [conv.fpint]). *)
Definition d_to_uint64 (x : spec_float) : res Z :=
  match x with
  | S754_zero _ => Ok 0
  | S754_finite s m e =>
      let t := if 0 <=? e then Zpos m * 2 ^ e else Zpos m / 2 ^ (- e) in
      let v := if s then - t else t in
      if (0 <=? v) && (v <=? UINT64_MAX) then Ok v else UB
  | _ => UB
  end.

(** Random.cpp:24-29 getRandomBool. *)
Definition getRandomBool {E} (threshold : spec_float) : G E bool :=
  if SFeqb threshold d_one then gret true
  else gbind next8U (fun u =>
       gbind (gfail (d_to_uint64 (SFmul dprec demax d_2_64 threshold))) (fun lim =>
       gret (u <=? lim))).

(** Random.cpp:79-83 getRandomSize: size_t arguments converted to uint32_t parameters; toExcluded-1 wraps. *)
Definition getRandomSize {E} (fromIncluded toExcluded : Z) : G E Z :=
  draw (wrapU 32 fromIncluded) (wrapU 32 (wrapU 64 (toExcluded - 1))).
