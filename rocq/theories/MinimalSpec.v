(** What it means that the search for a simplest failing argument finds a minimal one. *)
From Coq Require Import List ZArith.
From Verif Require Import Base TreeModel TreeSpec RandomModel ContainerModel RunnerModel ListSpec SearchSpec.
Import ListNotations.

(** [le x y]: [x] is as simple as [y].  Transitive, and reflexive on the values it speaks of. *)
Definition orders {A} (le : A -> A -> Prop) : Prop :=
  (forall x y z, le x y -> le y z -> le x z) /\ forall x y, le x y -> le x x /\ le y y.

(** Among the values as simple as [top]: less simple than a failing one means failing. *)
Definition upward {A} (le : A -> A -> Prop) (top : A) (fails : A -> Prop) : Prop :=
  forall x y, le x y -> le y top -> fails x -> fails y.

(** [r] fails, and nothing simpler does. *)
Definition minimal {A} (le : A -> A -> Prop) (fails : A -> Prop) (r : A) : Prop :=
  fails r /\ forall x, le x r -> fails x -> le r x.

(** Everything [t] offers is as simple as its value, and greedy search in [t] ends in a minimal failing value whenever failing is upward closed. *)
Definition minimises {A} (le : A -> A -> Prop) (t : tree A) : Prop :=
  (forall x, In x (values t) -> le x (root t)) /\
  forall fails tried found, scan fails (shrinks t) tried found -> fails (root t) -> upward le (root t) fails ->
    minimal le fails (root (ending t found)).

(** The same of all trees a generator makes. *)
Definition minimising {E A} (le : A -> A -> Prop) (g : gen E A) : Prop :=
  forall r t r', g r = Ok (t, r') -> minimises le t.

(** Greedy search in the trees of [g] tries at most [k] values, whatever fails. *)
Definition tries {A} (k : nat) (t : tree A) : Prop := forall fails tried found, scan fails (shrinks t) tried found -> length tried <= k.
Definition trying {E A} (k : nat) (g : gen E A) : Prop := forall r t r', g r = Ok (t, r') -> tries k t.

(** Orders: integers between [c] and the other; [false] before [true]; sets by inclusion and prefixes, of at least [m] elements; pairs and tuples by components;
    images under an embedding. *)
Definition le_int (c x y : Z) : Prop := on_way c y x.
Definition le_bool (x y : bool) : Prop := x = true -> y = true.
Definition le_sub {X} (m : nat) (x y : list X) : Prop := In x (sublists y) /\ m <= length x.
Definition le_prefix {X} (m : nat) (x y : list X) : Prop := exists k, x = firstn k y /\ m <= length x.
Definition le_pair {A B} (le : A -> A -> Prop) (le' : B -> B -> Prop) (x y : A * B) : Prop := le (fst x) (fst y) /\ le' (snd x) (snd y).
Fixpoint le_each {U} (les : list (U -> U -> Prop)) (xs ys : list U) : Prop :=
  match les, xs, ys with
  | [], [], [] => True
  | le :: les, x :: xs, y :: ys => le x y /\ le_each les xs ys
  | _, _, _ => False
  end.
Definition le_image {A B} (f : A -> B) (le : A -> A -> Prop) (v w : B) : Prop := exists x y, v = f x /\ w = f y /\ le x y.
