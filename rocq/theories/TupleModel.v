(** Model of pair and tuple shrinking (proptest/shrinker/pair.hpp, tuple.hpp).
    A tuple is a list of components over one type of values [U], which stands for a sum of the component types
    (C++ erases them to Any). *)
From Coq Require Import List ZArith Bool.
From Verif Require Import Base TreeModel.
Import ListNotations.

(** pair.hpp:16-33 shrinkFirst. *)
Definition shrinkFirst {A B} (parent : tree (tree A * tree B)) : list (tree (tree A * tree B)) :=
  let parentRef := root parent in
  shrinks (flatMap_tree (fun val => make_shrinkable (make_shrinkable val, snd parentRef)) (fst parentRef)).

(** pair.hpp:35-52 shrinkSecond. *)
Definition shrinkSecond {A B} (parent : tree (tree A * tree B)) : list (tree (tree A * tree B)) :=
  let parentRef := root parent in
  shrinks (flatMap_tree (fun val => make_shrinkable (fst parentRef, make_shrinkable val)) (snd parentRef)).

(** pair.hpp:55-61 PairShrinker::shrink and 66-73 shrinkPair. *)
Definition shrinkPair {A B} (firstShr : tree A) (secondShr : tree B) : tree (A * B) :=
  let concatenated := concat_tree shrinkSecond (concat_tree shrinkFirst (make_shrinkable (firstShr, secondShr))) in
  flatMap_tree (fun p => make_shrinkable (root (fst p), root (snd p))) concatenated.

(** get<N>(tuple) = x. (tuple.hpp:51.) *)
Fixpoint set_nth {X} (n : nat) (x : X) (l : list X) : list X :=
  match n, l with
  | _, [] => []
  | O, _ :: r => x :: r
  | S n', y :: r => y :: set_nth n' x r
  end.

(** tuple.hpp:35-56 genStream<N>.  parentRef is a private copy of the parent's tuple whose N-th component is
    overwritten before every use, so the transformer is a pure function of the value. *)
Definition genStream {U} (N : nat) (parent : tree (list (tree U))) : list (tree (list (tree U))) :=
  let parentRef := root parent in
  match nth_error parentRef N with
  | None => []
  | Some elem => shrinks (flatMap_tree (fun val => make_shrinkable (set_nth N (make_shrinkable val) parentRef)) elem)
  end.

(** tuple.hpp:21-33 ConcatHelper<N>; [rest] = Size - N. *)
Fixpoint ConcatHelper {U} (rest N : nat) (aggr : tree (list (tree U))) : tree (list (tree U)) :=
  match rest with
  | O => aggr
  | S rest' => ConcatHelper rest' (S N) (concat_tree (genStream N) aggr)
  end.

(** tuple.hpp:65-70 TupleShrinker::shrink and 75-79 shrinkTuple. *)
Definition shrinkTuple {U} (elemTup : list (tree U)) : tree (list U) :=
  flatMap_tree (fun tup => make_shrinkable (map root tup))
    (ConcatHelper (length elemTup) 0 (make_shrinkable elemTup)).
