(** Vocabulary for how likely it is that a generator which refers to itself returns. *)
From Coq Require Import List ZArith QArith.
From Verif Require Import Base TreeModel RandomModel ContainerModel ChanceSpec RecursiveModel RecursiveSpec.
Import ListNotations.
Local Open Scope Q_scope.

(** A family tree in which everyone has between [mn] and [mx] children, all numbers equally likely: the probability that there are no more
    than [n] generations.  With [k] children it is the probability that each of the [k] families dies out within [n - 1] generations. *)
Fixpoint ending (mn mx : Z) (n : nat) : Q :=
  match n with O => 0 | S n' => average mn mx (fun k => power (ending mn mx n') (Z.to_nat k)) end.

Definition anything {A} (_ : A) : bool := true.
Definition returns {A} (x : res A) : bool := match x with Ok _ => true | _ => false end.
(** However little is left out, some depth of recursion suffices for the rest. *)
Definition surely {A} (g : nat -> forall E, gen E A) : Prop := forall eps, 0 < eps -> exists n q, likely (g n) anything q /\ 1 - eps < q.

(** The mean of a quantity of the generated values, for a generator that always returns. *)
Definition onValue {A} (f : A -> Q) (x : res A) : Q := match x with Ok a => f a | _ => 0 end.
Definition meanValue {A} (g : forall E, gen E A) (f : A -> Q) (q : Q) : Prop := exists p, law g p /\ prob p anything == 1 /\ mean p (onValue f) == q.
(** 1 + m + ... + m^level *)
Fixpoint generations (m : Q) (level : nat) : Q := match level with O => 1 | S n => 1 + m * generations m n end.
