(** Model of construct (proptest/combinator/construct.hpp).  [V] is the type of all argument values, a constructor takes the list of its arguments
    and makes an object or throws.  Constructors changing what their reference parameters refer to are in SharingModel.
    Not modelled: pointer parameters (lines 19-38: a call of autoCast with a pointer type is ambiguous and does not compile), and objects
    keeping a reference to an argument, which does not outlive the call (line 67). *)
From Coq Require Import List ZArith.
From Verif Require Import Base RandomModel TreeModel EffModel RunnerModel.
Import ListNotations.
Local Open Scope list_scope.

(** construct.hpp:158-182: the generators of the arguments.  [defaults] are those of Arbi<ARG> for all of ARGTYPES; lines 161-165 (no
    generators given) and 170-182 (some given; more than there are arguments do not compile). *)
Definition constructGens {X} (defaults explicits : list X) : list X :=
  match explicits with
  | [] => createGenHelperListed defaults (seq 0 (length defaults))
  | _ => explicits ++ createGenHelperListed defaults (map (fun i => length explicits + i)%nat (seq 0 (length defaults - length explicits)))
  end.

(** construct.hpp:67 with 113-136: generateArgs evaluates its calls in an order [ord] that is not specified; the object is made by make_shrinkable,
    that is, without shrinks. *)
Definition construct {E V A} (ord : list nat) (gens : list (xgen E V)) (ctor : list V -> A + err) : xgen E A :=
  gbind (evalTuple ord gens) (fun x =>
    match x with
    | inr e => gret (inr e)
    | inl args => match ctor (map eroot args) with inl a => gret (inl (emake a)) | inr e => gret (inr e) end
    end).
