(** Model of the default seed (proptest/Property.cpp:10-19) and of its printing (Property.hpp:197, concurrency_function.hpp:134,
    concurrency_class.hpp:127).  A C string is the list of its characters before the terminating zero. *)
From Coq Require Import String List ZArith Bool.
From Verif Require Import Base PrintModel RunnerModel.
Import ListNotations.
Local Open Scope Z_scope.

(** isspace and isdigit in the "C" locale. (For atoll, Property.cpp:14.) *)
Definition isSpace (c : Z) : bool := ((9 <=? c) && (c <=? 13)) || (c =? 32).
(** For atoll, Property.cpp:14. *)
Definition isDigit (c : Z) : bool := (48 <=? c) && (c <=? 57).

(** For atoll, Property.cpp:14. *)
Fixpoint skipSpaces (t : text) : text := match t with [] => [] | c :: r => if isSpace c then skipSpaces r else t end.
(** For atoll, Property.cpp:14. *)
Fixpoint scanDigits (acc : Z) (t : text) : Z :=
  match t with [] => acc | c :: r => if isDigit c then scanDigits (10 * acc + (c - 48)) r else acc end.

(** atoll (C17 7.22.1 and 7.22.1.4), called at Property.cpp:14: white space, a sign, digits, the rest is ignored; no digits give 0; undefined
    behaviour if the value is not a long long (glibc gives the nearest one). *)
Definition atoll (t : text) : res Z :=
  match skipSpaces t with
  | [] => Ok 0
  | c :: r =>
      chk64 (if c =? 45 then - scanDigits 0 r else if c =? 43 then scanDigits 0 r else scanDigits 0 (c :: r))
  end.

(** What a call of getGlobalSeed finds: the variable PROPTEST_SEED, if set, and the milliseconds since 1970 (Random.cpp:109-115). *)
Record moment := { variable : option text; clock : Z }.

(** The two function-local statics (Property.cpp:12,16), None before their initialisation.  The string itself is not copied but
    pointed to: a program changing the variable after the first call is not modelled (setenv may leave the pointer dangling). *)
Record statics := { s_env : option (option text); s_time : option Z }.
(** Property.cpp:12, 16 before the first call. *)
Definition noStatics : statics := {| s_env := None; s_time := None |}.

(** Property.cpp:10-19 getGlobalSeed; the values are converted to uint64_t. *)
Definition getGlobalSeed (now : moment) (st : statics) : res (Z * statics) :=
  let env_seed := match s_env st with None => variable now | Some e => e end in
  match env_seed with
  | Some t => do z <- atoll t; Ok (wrapU 64 z, {| s_env := Some env_seed; s_time := s_time st |})
  | None =>
      let time := match s_time st with None => wrapU 64 (clock now) | Some t => t end in
      Ok (time, {| s_env := Some env_seed; s_time := Some time |})
  end.

(** The seeds that the tests constructed by a process at the given moments get (PropertyBase.hpp:76, concurrency_function.hpp:44,56,
    concurrency_class.hpp:46,57). *)
Fixpoint defaultSeeds (now : list moment) (st : statics) : res (list Z) :=
  match now with
  | [] => Ok []
  | m :: r => do p <- getGlobalSeed m st; do l <- defaultSeeds r (snd p); Ok (fst p :: l)
  end.

(** cout << "random seed: " << seed, Property.hpp:197. *)
Definition printedSeed (s : Z) : text := lit "random seed: " ++ dec s.
