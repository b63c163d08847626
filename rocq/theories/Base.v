(** Outcomes of modelled code and machine integers. *)
From Coq Require Import List ZArith Lia Bool.
Import ListNotations.
Local Open Scope Z_scope.

(** Exceptions the modelled code can throw.
    EInvalidArgument: std::invalid_argument (Stream.hpp:123, Shrinkable.cpp:130,155,196);
    ERuntime: std::runtime_error (generator/integral.hpp:50, combinator/oneof.hpp:68,75, util/utf8string.cpp);
    EOutOfRange: std::out_of_range (std::string::substr, vector::at);
    EDiscard / ESuccess / EAssert / EPropFailed: proptest::Discard, Success, AssertFailed, PropertyFailedBase
    (assert.hpp:12-67);
    EOther: any other exception derived from std::exception thrown by user code;
    ENonStd: an exception thrown by user code that is not derived from std::exception. *)
Inductive err := EInvalidArgument | ERuntime | EOutOfRange | EDiscard | ESuccess | EAssert | EPropFailed | EOther | ENonStd.

(** Outcome of a computation.  [UB] is C++ undefined behaviour, kept distinct from every defined outcome;
    [OutOfFuel] marks that the model's recursion bound ran out and is never a claim about the code. *)
Inductive res (A : Type) : Type :=
| Ok (a : A)
| UB
| Throw (e : err)
| OutOfFuel.
Arguments Ok {A} _.
Arguments UB {A}.
Arguments Throw {A} _.
Arguments OutOfFuel {A}.

(** Sequencing of outcomes: exceptions and undefined behaviour propagate. *)
Definition bind {A B} (r : res A) (f : A -> res B) : res B :=
  match r with
  | Ok a => f a
  | UB => UB
  | Throw e => Throw e
  | OutOfFuel => OutOfFuel
  end.

Notation "'do' x <- r ; k" := (bind r (fun x => k)) (at level 200, x name, r at level 100, k at level 200).
Notation "'do' ' p <- r ; k" := (bind r (fun x => match x with p => k end))
  (at level 200, p pattern, r at level 100, k at level 200).

(** Left-to-right evaluation of a list of computations. *)
Definition mapM {A B} (f : A -> res B) : list A -> res (list B) :=
  fix mapM (l : list A) : res (list B) :=
    match l with
    | [] => Ok []
    | x :: r => do y <- f x; do ys <- mapM r; Ok (y :: ys)
    end.

(** ** Machine integers *)

(** Reduction modulo 2^w: conversion to, and arithmetic in, an unsigned type of w bits. *)
Definition wrapU (w x : Z) : Z := x mod 2 ^ w.

(** Conversion to a signed type of w bits (two's complement, implementation-defined before C++20 and
    modular since). *)
Definition wrapS (w x : Z) : Z := (x + 2 ^ (w - 1)) mod 2 ^ w - 2 ^ (w - 1).

(** Range limits. *)
Definition INT64_MIN : Z := - 2 ^ 63.
Definition INT64_MAX : Z := 2 ^ 63 - 1.
Definition UINT64_MAX : Z := 2 ^ 64 - 1.
Definition UINT32_MAX : Z := 2 ^ 32 - 1.

Definition in_int64 (x : Z) : Prop := INT64_MIN <= x <= INT64_MAX.
Definition in_uint64 (x : Z) : Prop := 0 <= x <= UINT64_MAX.

(** The result of a signed 64-bit operation: undefined behaviour when the exact result does not fit. *)
Definition chk64 (x : Z) : res Z :=
  if (INT64_MIN <=? x) && (x <=? INT64_MAX) then Ok x else UB.

(** Indexed read; outside the bounds it is undefined behaviour. *)
Definition idx {A} (l : list A) (i : Z) : res A :=
  if i <? 0 then UB
  else match nth_error l (Z.to_nat i) with Some a => Ok a | None => UB end.
