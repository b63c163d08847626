(** Vocabulary for how likely the generators of sets and maps return. *)
From Coq Require Import List ZArith QArith.
From Verif Require Import Base TreeModel RandomModel ContainerModel ChanceSpec EndingSpec.
Import ListNotations.
Local Open Scope Q_scope.

(** The number as a fraction. *)
Definition asQ (n : nat) : Q := inject_Z (Z.of_nat n).

(** The generator returns one of these different values, all of them equally likely. *)
Definition evenly {A} (g : forall E, gen E A) (vals : list A) : Prop :=
  NoDup vals /\ vals <> [] /\ exists p, law g p /\ forall f, mean p (onValue f) == total (map f vals) / asQ (length vals).

(** Drawing one of [n] values again and again: the probability of having seen [k] different ones after at most [m] more draws when [j] have been seen. *)
Fixpoint collects (n k j m : nat) : Q :=
  if (k <=? j)%nat then 1
  else match m with
       | O => 0
       | S m' => asQ j / asQ n * collects n k j m' + (1 - asQ j / asQ n) * collects n k (S j) m'
       end.

(** n/n + n/(n-1) + ... + n/(n-k+1): the time it takes to see [k] of [n] values. *)
Definition waiting (n k : nat) : Q := sum k (fun i => asQ n / (asQ n - asQ i)).

(** The number of ways to choose [k] of [n] things. *)
Fixpoint choose (n k : nat) : nat :=
  match n, k with
  | _, O => 1
  | O, S _ => 0
  | S n', S k' => choose n' k' + choose n' (S k')
  end.

(** Neither value is less than the other. *)
Definition equivalent {A} (lt : A -> A -> bool) (v a : A) : bool := andb (negb (lt v a)) (negb (lt a v)).
