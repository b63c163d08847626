(** Model of the lazy Stream (proptest/Stream.hpp, proptest/Stream.cpp).
    A stream is empty (null headPtr) or a head with a delayed tail; it may be infinite, hence coinductive.
    Values stored behind shared_ptr<void> are typed here. *)
From Coq Require Import List ZArith Bool.
From Verif Require Import Base.
Import ListNotations.

(** Stream.hpp:95-96 headPtr, tailGen; Stream.cpp:23-25 isEmpty. *)
CoInductive stream (A : Type) : Type :=
| SNil : stream A
| SCons : A -> stream A -> stream A.
Arguments SNil {A}.
Arguments SCons {A} _ _.

(** Stream.cpp:23-25 isEmpty. *)
Definition s_isEmpty {A} (s : stream A) : bool := match s with SNil => true | SCons _ _ => false end.

(** Stream.cpp:27-33 tail. *)
Definition s_tail {A} (s : stream A) : stream A := match s with SNil => SNil | SCons _ t => t end.

(** Stream.hpp:30-33 Stream(h), 102-103 one. *)
Definition s_one {A} (a : A) : stream A := SCons a SNil.

(** Stream.hpp:105-109 two. *)
Definition s_two {A} (a b : A) : stream A := SCons a (s_one b).

(** Stream.hpp:54-65 transform. *)
CoFixpoint s_transform {A B} (f : A -> B) (s : stream A) : stream B :=
  match s with
  | SNil => SNil
  | SCons a t => SCons (f a) (s_transform f t)
  end.

(** Stream.cpp:35-43 concat. *)
CoFixpoint s_concat {A} (s other : stream A) : stream A :=
  match s with
  | SNil => other
  | SCons a t => SCons a (s_concat t other)
  end.

(** Stream.cpp:45-56 take; n is a C++ int, decrement past INT_MIN is not modelled. *)
CoFixpoint s_take {A} (n : Z) (s : stream A) : stream A :=
  match s with
  | SNil => SNil
  | SCons a t => if (n =? 0)%Z then SNil else SCons a (s_take (n - 1)%Z t)
  end.

(** Stream.hpp:120-128 Iterator::next: the value and the iterator's remaining stream. *)
Definition it_next {A} (s : stream A) : res (A * stream A) :=
  match s with
  | SNil => Throw EInvalidArgument
  | SCons a t => Ok (a, t)
  end.

(** Stream.hpp:118 hasNext with Stream.hpp:120-128 next: the loop `for (itr; itr.hasNext();) itr.next()`. *)
Fixpoint it_collect {A} (fuel : nat) (s : stream A) : res (list A) :=
  match fuel with
  | O => OutOfFuel
  | S fuel' =>
      if s_isEmpty s then Ok []
      else do '(a, t) <- it_next s; do r <- it_collect fuel' t; Ok (a :: r)
  end.

(** Stream.hpp:80-87: the search loop of filter; None when the stream is exhausted. *)
Fixpoint s_scan {A} (fuel : nat) (crit : A -> bool) (s : stream A) : res (option (A * stream A)) :=
  match fuel with
  | O => OutOfFuel
  | S fuel' =>
      if s_isEmpty s then Ok None
      else do '(value, rest) <- it_next s;
           if crit value then Ok (Some (value, rest)) else s_scan fuel' crit rest
  end.

(** A stream each of whose tails may fail to be produced (the search of filter need not end). *)
CoInductive dstream (A : Type) : Type :=
| DNil : dstream A
| DCons : A -> dstream A -> dstream A
| DHang : dstream A.
Arguments DNil {A}.
Arguments DCons {A} _ _.
Arguments DHang {A}.

(** Stream.hpp:74-89 filter; [fuel] bounds each single search, DHang marks that it ran out. *)
CoFixpoint s_filter {A} (fuel : nat) (crit : A -> bool) (s : stream A) : dstream A :=
  match s_scan fuel crit s with
  | Ok (Some (value, rest)) => DCons value (s_filter fuel crit rest)
  | Ok None => DNil
  | _ => DHang
  end.
