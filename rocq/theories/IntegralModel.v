(** Model of the integer generators (proptest/generator/integral.hpp, Random.hpp/.cpp getRandom<T>). *)
From Coq Require Import List ZArith Bool SpecFloat.
From Verif Require Import Base TreeModel RandomModel BinSearchModel.
Import ListNotations.
Local Open Scope Z_scope.

(** The instantiated integer types (integral.cpp:27-35 and Arbi<char>, integral.cpp:42).
    char is taken to be signed, as on x86. *)
Inductive ity := TI8 | TI16 | TI32 | TI64 | TU8 | TU16 | TU32 | TU64 | TChar.

(** The width of each of these types (integral.cpp:27-35, 42). *)
Definition bits (ty : ity) : Z :=
  match ty with
  | TI8 | TU8 | TChar => 8 | TI16 | TU16 => 16 | TI32 | TU32 => 32 | TI64 | TU64 => 64
  end.
(** Their signedness: is_signed<T>, integral.hpp:44-47. *)
Definition is_signed (ty : ity) : bool :=
  match ty with TU8 | TU16 | TU32 | TU64 => false | _ => true end.

(** numeric_limits<T>::min(), max(). (integral.hpp:74-300, 337-343 and integral.cpp:42-85.) *)
Definition tmin (ty : ity) : Z := if is_signed ty then - 2 ^ (bits ty - 1) else 0.
(** numeric_limits<T>::max(): integral.hpp:74-319, integral.cpp:42-85. *)
Definition tmax (ty : ity) : Z := if is_signed ty then 2 ^ (bits ty - 1) - 1 else 2 ^ bits ty - 1.

(** static_cast<T>. (integral.hpp:21-33, 329-343.) *)
Definition castT (ty : ity) (x : Z) : Z := if is_signed ty then wrapS (bits ty) x else wrapU (bits ty) x.

(** The result of an arithmetic operator on operands of type T after integer promotion: types narrower than
    int compute in int; int32/int64 overflow is undefined; uint32/uint64 wrap. *)
Definition arith (ty : ity) (x : Z) : res Z :=
  if bits ty <? 32 then
    (if (- 2 ^ 31 <=? x) && (x <=? 2 ^ 31 - 1) then Ok x else UB)
  else if is_signed ty then
    (if (tmin ty <=? x) && (x <=? tmax ty) then Ok x else UB)
  else Ok (wrapU (bits ty) x).

(** generator/integral.hpp:74-300 boundaryValues. *)
Definition boundaryValues (ty : ity) : list Z :=
  match ty with
  | TI8 => [-128; 0; 127; -1; 1; -2; 2; -128 + 1; 127 - 1; 32; 34; 39; 9; 10; 13]
  | TI16 => [0; -1; 1; -2; 2; -32768; 32767; -32768 + 1; 32767 - 1; -128; 127; 255; -128 - 1; -128 + 1;
             127 - 1; 127 + 1; 255 - 1; 255 + 1]
  | TI32 => [0; -1; 1; -2; 2; -2147483648; 2147483647; -2147483648 + 1; 2147483647 - 1; -32768; 32767; 65535;
             -32768 - 1; -32768 + 1; 32767 - 1; 32767 + 1; 65535 - 1; 65535 + 1; -128; 127; 255; -128 - 1;
             -128 + 1; 127 - 1; 127 + 1; 255 - 1; 255 + 1]
  | TI64 => [0; -1; 1; -2; 2; INT64_MIN; INT64_MAX; INT64_MIN + 1; INT64_MAX - 1; -2147483648; 2147483647;
             4294967295; -2147483648 - 1; -2147483648 + 1; 2147483647 - 1; 2147483647 + 1; 4294967295 - 1;
             4294967295 + 1; -32768; 32767; 65535; -32768 - 1; -32768 + 1; 32767 - 1; 32767 + 1; 65535 - 1;
             65535 + 1; -128; 127; 255; -128 - 1; -128 + 1; 127 - 1; 127 + 1; 255 - 1; 255 + 1]
  | TChar => [0]
  | TU8 => [0; 1; 2; 255; 255 - 1; 127; 127 - 1; 127 + 1; 32; 34; 39; 9; 10; 13]
  | TU16 => [0; 1; 2; 65535; 65535 - 1; 32767; 32767 - 1; 32767 + 1; 127; 255; 127 + 1; 127 - 1; 255 - 1; 255 + 1]
  | TU32 => [0; 1; 2; 4294967295; 4294967295 - 1; 2147483647; 2147483647 - 1; 2147483647 + 1; 32767; 65535;
             32767 - 1; 32767 + 1; 65535 - 1; 65535 + 1; 127; 255; 127 + 1; 127 - 1; 255 - 1; 255 + 1]
  | TU64 => [0; 1; 2; UINT64_MAX; UINT64_MAX - 1; 2147483647; 4294967295; 2147483647 - 1; 2147483647 + 1;
             4294967295 - 1; 4294967295 + 1; 32767; 65535; 32767 - 1; 32767 + 1; 65535 - 1; 65535 + 1; 127; 255;
             127 + 1; 127 - 1; 255 - 1; 255 + 1]
  end.

(** Random.cpp:117-174 getRandom<T> / getRandomU<T>, selected by integral.hpp:44-47.  char goes through
    uint8_t (Random.cpp:118-121). *)
Definition getRandomT {E} (ty : ity) (min max : Z) : G E Z :=
  match ty with
  | TChar => gbind (draw (wrapU 8 min) (wrapU 8 max)) (fun u => gret (castT TChar u))
  | _ => gbind (draw (castT ty min) (castT ty max)) (fun u => gret (castT ty u))
  end.

(** integral.hpp:21-26 UnsignedFunctor and 28-33 SignedFunctor: the argument is a uint64_t, min is converted to
    uint64_t, the sum wraps, and the result is converted to T. *)
Definition plusFunctor (ty : ity) (m v : Z) : Z := castT ty (wrapU 64 (wrapU 64 v + wrapU 64 m)).

(** integral.hpp:37-64 generateInteger. *)
Definition generateInteger {E} (ty : ity) (min max : Z) : G E (tree Z) :=
  gbind (if (min =? tmin ty) && (max =? tmax ty) then getRandomBool d_half else gret false) (fun boundary =>
  gbind (if boundary
         then gbind (getRandomSize 0 (Z.of_nat (length (boundaryValues ty)))) (fun i =>
              gfail (idx (boundaryValues ty) i))
         else getRandomT ty min max) (fun value =>
  if (value <? min) || (max <? value) then gfail (Throw ERuntime)
  else if 0 <=? min then
    gbind (gfail (arith ty (value - min))) (fun d =>
    gbind (gfail (binarySearchU (wrapU 64 (castT ty d)))) (fun t =>
    gret (map_tree (plusFunctor ty min) t)))
  else if max <=? 0 then
    gbind (gfail (arith ty (value - max))) (fun d =>
    gbind (gfail (binarySearch (wrapS 64 (castT ty d)))) (fun t =>
    gret (map_tree (plusFunctor ty max) t)))
  else
    gbind (gfail (binarySearch (wrapS 64 value))) (fun t =>
    gret (map_tree (castT ty) t)))).

(** integral.hpp:307-312, 351-355 natural. *)
Definition natural {E} (ty : ity) (max : Z) : G E (tree Z) := generateInteger ty 1 max.

(** integral.hpp:314-319, 361-365 nonNegative. *)
Definition nonNegative {E} (ty : ity) (max : Z) : G E (tree Z) := generateInteger ty 0 max.

(** integral.hpp:321-327, 371-375 interval. *)
Definition interval {E} (ty : ity) (min max : Z) : G E (tree Z) := generateInteger ty min max.

(** integral.hpp:329-335, 381-385 inRange: to - 1 computed after promotion, converted to T. *)
Definition inRange {E} (ty : ity) (from to : Z) : G E (tree Z) :=
  gbind (gfail (arith ty (to - 1))) (fun m => generateInteger ty from (castT ty m)).

(** integral.hpp:337-343, 391-395 integers: start + count, then - 1, then the cast. *)
Definition integers {E} (ty : ity) (start count : Z) : G E (tree Z) :=
  gbind (gfail (arith ty (start + count))) (fun s =>
  gbind (gfail (arith ty (s - 1))) (fun m => generateInteger ty start (castT ty m))).

(** integral.cpp:42-85 Arbi<T>::operator(). *)
Definition arbi {E} (ty : ity) : G E (tree Z) := generateInteger ty (tmin ty) (tmax ty).
