(** Model of the container generators (proptest/generator/vector.hpp, list.hpp, string.cpp, set.hpp, map.hpp,
    pair.hpp, tuple.hpp) and of the size settings of ArbiContainer (proptest/Arbitrary.hpp).
    A generator is a computation using the engine and returning a shrink tree.  State a user generator keeps
    between calls can be taken as part of the engine's (abstract) state. *)
From Coq Require Import List ZArith Bool.
From Verif Require Import Base TreeModel RandomModel ListModel StringModel TupleModel.
Import ListNotations.
Local Open Scope Z_scope.

(** GenBase.hpp GenFunction<T> = function<Shrinkable<T>(Random&)>. *)
Definition gen (E : engine) (A : Type) : Type := G E (tree A).

(** Arbitrary.hpp:177-209 ArbiContainer: members minSize and maxSize (size_t). *)
Record sizes := { minSize : Z; maxSize : Z }.
(** Arbitrary.hpp:181-185 setMinSize. *)
Definition setMinSize (n : Z) (s : sizes) : sizes := {| minSize := n; maxSize := maxSize s |}.
(** Arbitrary.hpp:187-191 setMaxSize. *)
Definition setMaxSize (n : Z) (s : sizes) : sizes := {| minSize := minSize s; maxSize := n |}.
(** Arbitrary.hpp:193-198 setSize(size). *)
Definition setSize (n : Z) (s : sizes) : sizes := {| minSize := n; maxSize := n |}.
(** Arbitrary.hpp:200-205 setSize(min,max). *)
Definition setSize2 (mn mx : Z) (s : sizes) : sizes := {| minSize := mn; maxSize := mx |}.
(** vector.hpp:64-66, list.hpp:59-61, string.cpp:10-11, set.hpp:70-72, map.hpp:82-84 default sizes. *)
Definition defaultSizes : sizes := {| minSize := 0; maxSize := 200 |}.

(** vector.hpp:48, list.hpp:46, string.cpp:32, set.hpp:56, map.hpp:34: getRandomSize(minSize, maxSize + 1). *)
Definition containerSize {E} (s : sizes) : G E Z := getRandomSize (minSize s) (wrapU 64 (maxSize s + 1)).

(** vector.hpp:51-52, list.hpp:49-50: for (i = 0; i < size; i++) push_back(elemGen(rand)). *)
Fixpoint times {E A} (n : nat) (g : G E A) : G E (list A) :=
  match n with
  | O => gret []
  | S n' => gbind g (fun x => gbind (times n' g) (fun xs => gret (x :: xs)))
  end.

(** vector.hpp:46-56 and list.hpp:44-53 operator(). *)
Definition arbi_vector {E A} (elemGen : gen E A) (s : sizes) : gen E (list A) :=
  gbind (containerSize s) (fun n =>
  gbind (times (Z.to_nat n) elemGen) (fun vec =>
  gfail (shrinkListLike vec (minSize s) true))).

(** string.cpp:30-38 operator(): only the value of each generated character is used. *)
Definition arbi_string {E A} (elemGen : gen E A) (s : sizes) : gen E (list A) :=
  gbind (containerSize s) (fun n =>
  gbind (times (Z.to_nat n) elemGen) (fun vec =>
  gfail (shrinkString (map root vec) (minSize s)))).

(** set.hpp:11-18 less<Shrinkable<T>>: comparison of the values. *)
Definition less_shr {A} (lt : A -> A -> bool) (a b : tree A) : bool := lt (root a) (root b).

(** set.hpp:59-62, map.hpp:37-40: while (size() < size) insert(elemGen(rand)).  The set is represented by its
    iteration order; [fuel] bounds the number of iterations. *)
Fixpoint fillSet {E A} (fuel : nat) (lt : A -> A -> bool) (elemGen : gen E A) (n : Z) (acc : list (tree A))
  : G E (list (tree A)) :=
  if size acc <? n
  then match fuel with
       | O => fun _ => OutOfFuel
       | S fuel' => gbind elemGen (fun e => fillSet fuel' lt elemGen n (set_insert (less_shr lt) e acc))
       end
  else gret acc.

(** set.hpp:53-64 operator(). *)
Definition arbi_set {E A} (fuel : nat) (lt : A -> A -> bool) (elemGen : gen E A) (s : sizes) : gen E (list A) :=
  gbind (containerSize s) (fun n =>
  gbind (fillSet fuel lt elemGen n []) (fun cont =>
  gfail (shrinkContainer lt cont (minSize s)))).

(** map.hpp:45-48: one value per key, in key order; inserting in ascending key order appends. *)
Definition arbi_map {E K V} (fuel : nat) (lt : K -> K -> bool) (keyGen : gen E K) (elemGen : gen E V) (s : sizes)
  : gen E (list (K * V)) :=
  gbind (containerSize s) (fun n =>
  gbind (fillSet fuel lt keyGen n []) (fun keys =>
  gbind (times (length keys) elemGen) (fun elems =>
  gfail (shrinkMap lt (fold_left (fun m kv => map_insert (less_shr lt) kv m) (combine keys elems) [])
                   (minSize s))))).

(** pair.hpp:22-29 pairOf: shrinkPair(first(rand), second(rand)).  The order in which the two arguments are
    evaluated is unspecified in C++; [firstBefore] chooses it. *)
Definition pairOf {E A B} (firstBefore : bool) (g1 : gen E A) (g2 : gen E B) : gen E (A * B) :=
  if firstBefore
  then gbind g1 (fun a => gbind g2 (fun b => gret (shrinkPair a b)))
  else gbind g2 (fun b => gbind g1 (fun a => gret (shrinkPair a b))).
