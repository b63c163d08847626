(** Model of tupleOf (proptest/generator/tuple.hpp).  A tuple is a list over one type of values, as in TupleModel. *)
From Coq Require Import List ZArith.
From Verif Require Import Base TreeModel RandomModel ContainerModel TupleModel RunnerModel.
Import ListNotations.

(** generator/tuple.hpp:24-35 tupleOf with util/tuple.hpp:56-70: the generators are called in an order [ord] that is not specified, and the
    tuple of the shrinkables is given to shrinkTuple.  generator/tuple.hpp:42-45 Arbi<tuple<ARGS...>> is tupleOf the generators of ARGS. *)
Definition tupleOf {E U} (ord : list nat) (gens : list (gen E U)) : gen E (list U) :=
  gbind (evalTuple ord (map (fun g => gbind g (fun t => gret (inl t))) gens)) (fun x =>
    match x with
    | inl elemTup => gret (shrinkTuple elemTup)
    | inr e => gfail (Throw e)
    end).
