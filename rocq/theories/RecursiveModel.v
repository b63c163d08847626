(** Recursive generators: a generator that, through reference(), is its own element generator (combinator/reference.hpp:25-29; the documentation there; test_combinator2.cpp:445-500). *)
From Coq Require Import List ZArith Bool.
From Verif Require Import Base TreeModel RandomModel ListModel ContainerModel GenModel.
Import ListNotations.

(** struct Box { vector<Box> children; } (test_combinator2.cpp:384-389). *)
Inductive box := Box (children : list box).

(** How a box is made of the generated children: by the method map, which keeps the shrinks (Arbitrary.hpp:58-64), or by construct, which does not (construct.hpp:67). *)
Definition byMap (t : tree (list box)) : tree box := map_tree Box t.
(** construct.hpp:67. *)
Definition byConstruct (t : tree (list box)) : tree box := make_shrinkable (Box (root t)).

(** GenFunction<Box> boxGen = construct<Box, vector<Box>>(Arbi<vector<Box>>(reference(boxGen)).setSize(mn, mx)) (reference.hpp:21).  The lambda of
    reference() calls boxGen, whose target is being executed; [fuel] bounds the depth of these calls. *)
Fixpoint boxGen {E} (fuel : nat) (make : tree (list box) -> tree box) (s : sizes) : gen E box :=
  match fuel with
  | O => fun _ => OutOfFuel
  | S n => gbind (arbi_vector (boxGen n make s) s) (fun t => gret (make t))
  end.

(** The same with a level that counts down (test_combinator2.cpp:477-500). *)
Fixpoint boxLevel {E} (level : nat) (make : tree (list box) -> tree box) (s : sizes) : gen E box :=
  match level with
  | O => gret (make_shrinkable (Box []))
  | S n => gbind (arbi_vector (boxLevel n make s) s) (fun t => gret (make t))
  end.
