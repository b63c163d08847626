(** Vocabulary for generators that refer to themselves in one of two alternatives. *)
From Coq Require Import List ZArith QArith.
From Verif Require Import Base TreeModel RandomModel ContainerModel ChanceSpec EndingSpec.
Local Open Scope Q_scope.

(** A family tree in which everyone has between [mn] and [mx] children, all numbers equally likely; each child has no family with probability
    [stops] and a family with probability [goes]: the probability that there are no more than [n] generations with a family. *)
Fixpoint branching (stops goes : Q) (mn mx : Z) (n : nat) : Q :=
  match n with O => 0 | S n' => average mn mx (fun k => power (stops + goes * branching stops goes mn mx n') (Z.to_nat k)) end.

(** The mean number of children. *)
Definition meanSize (mn mx : Z) : Q := inject_Z (mn + mx) / 2.

(** The chance that oneOf takes none of two alternatives [m] times, and that it takes the second one if it takes one. *)
Definition miss (c1 c2 : Q) (m : nat) : Q := power (1 - (c1 + c2) / 2) m.
Definition again (c1 c2 : Q) : Q := c2 / (c1 + c2).

(** However little is left out, some depth of recursion and some number of tries suffice for the rest. *)
Definition surely2 {A} (g : nat -> nat -> forall E, gen E A) : Prop := forall eps, 0 < eps -> exists n m q, likely (g n m) anything q /\ 1 - eps < q.
