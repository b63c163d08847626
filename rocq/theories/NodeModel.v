(** Recursive generators through oneOf: test_combinator2.cpp:456-468, with combinator/reference.hpp:25-29 and combinator/construct.hpp. *)
From Coq Require Import List ZArith Floats.SpecFloat.
From Verif Require Import Base TreeModel RandomModel ListModel ContainerModel GenModel.
Import ListNotations.

(** struct Node { int value; vector<Node> children; } (test_combinator2.cpp:391-398). *)
Inductive node := Nd (value : Z) (children : list node).

(** construct with two arguments (construct.hpp:67, 113-136): make_tuple evaluates the two calls in an order that is not specified ([firstBefore]);
    the object is made of the values by make_shrinkable, without shrinks.  The constructors of Node do not throw and do not change their arguments. *)
Definition construct2 {E A B C} (firstBefore : bool) (g1 : gen E A) (g2 : gen E B) (f : A -> B -> C) : gen E C :=
  if firstBefore
  then gbind g1 (fun a => gbind g2 (fun b => gret (make_shrinkable (f (root a) (root b)))))
  else gbind g2 (fun b => gbind g1 (fun a => gret (make_shrinkable (f (root a) (root b))))).

(** leafGen (test_combinator2.cpp:462); construct.hpp:67. *)
Definition leafGen {E} (intGen : gen E Z) : gen E node := gbind intGen (fun t => gret (make_shrinkable (Nd (root t) []))).
(** branch1Gen with leafVecGen (test_combinator2.cpp:463-464). *)
Definition branch1Gen {E} (firstBefore : bool) (intGen : gen E Z) (s : sizes) : gen E node :=
  construct2 firstBefore intGen (arbi_vector (leafGen intGen) s) Nd.
(** branchNGen (test_combinator2.cpp:465-466): the elements come from oneOf(stop, reference(branchNGen)), with weights; 0 stands for none given
    (oneof.hpp:41-45).  [fuel] bounds the depth of the calls through reference(), [tries] the loop of oneOf (oneof.hpp:82-96).
    oneOf computes the weights when it is called, not when generating; here they are computed each time, which gives the same weights. *)
Fixpoint branchNGen {E} (fuel tries : nat) (firstBefore : bool) (intGen : gen E Z) (stop : gen E node) (w1 w2 : spec_float) (s : sizes) : gen E node :=
  match fuel with
  | O => fun _ => OutOfFuel
  | S n => match oneOf [(no_discard stop, w1); (no_discard (branchNGen n tries firstBefore intGen stop w1 w2 s), w2)] with
           | Ok elemGen => construct2 firstBefore intGen (arbi_vector (elemGen tries) s) Nd
           | UB => fun _ => UB
           | Throw e => fun _ => Throw e
           | OutOfFuel => fun _ => OutOfFuel
           end
  end.
