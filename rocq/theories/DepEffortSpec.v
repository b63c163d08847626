(** How many candidates a greedy search can try in trees whose shrinks draw random numbers: whatever the answers and whatever is drawn. *)
From Coq Require Import List Arith.
From Verif Require Import Base TreeModel RandomModel EffModel ContextModel RunnerModel.
Import ListNotations.

(** [esearch st n]: some search through the stream [st] tries [n] candidates, tails and shrinks being evaluated in any engine states.  A search may also stop before
    its end, as it does when an exception is thrown. *)
Inductive esearch {E A} : estream E A -> nat -> Prop :=
| esearch_end : forall st, esearch st 0
| esearch_last : forall h tl, esearch (ECons h tl) 1
| esearch_pass : forall h tl r st r' n, tl r = Ok (st, r') -> esearch st n -> esearch (ECons h tl) (S n)
| esearch_fail : forall h tl r st r' n, eshrinks h r = Ok (st, r') -> esearch st n -> esearch (ECons h tl) (S n).

(** The same starting from a tree. *)
Definition tsearch {E A} (t : etree E A) (n : nat) : Prop := exists r st r', eshrinks t r = Ok (st, r') /\ esearch st n.

(** No search tries more than [k] candidates: from a tree, from the trees of a generator, from those of an argument. *)
Definition ewithin {E A} (k : nat) (t : etree E A) : Prop := forall n, tsearch t n -> n <= k.
Definition eeffort {E A} (k : nat) (g : egen E A) : Prop := forall r t r', g r = Ok (t, r') -> ewithin k t.
Definition earg_effort {E V} (k : nat) (f : xgen E V) : Prop := forall r x r', f r = Ok (inl x, r') -> ewithin k x.
