(** Model of the bool generator (proptest/generator/bool.cpp, proptest/shrinker/bool.cpp). *)
From Coq Require Import List ZArith Bool SpecFloat.
From Verif Require Import Base TreeModel RandomModel.
Import ListNotations.

(** shrinker/bool.cpp:5-12 shrinkBool. *)
Definition shrinkBool (value : bool) : tree bool :=
  if value then with_ (make_shrinkable value) [make_shrinkable false] else make_shrinkable value.

(** generator/bool.cpp:7-11 Arbi<bool>::operator(). *)
Definition arbi_bool {E} (trueProb : spec_float) : G E (tree bool) :=
  gbind (getRandomBool trueProb) (fun value => gret (shrinkBool value)).
