(** How many candidates a greedy search can try, whatever the answers are: they need not depend on the candidate alone. *)
From Coq Require Import List Arith.
From Verif Require Import Base TreeModel RandomModel ContainerModel EffModel ContextModel RunnerModel.
Import ListNotations.

(** [search cs n]: some search through [cs] tries [n] candidates.  The next candidate is tried; either it passes, and the search goes on with the ones
    after it, or it fails, and the search goes on with its own shrinks, for good. *)
Inductive search {A} : list (tree A) -> nat -> Prop :=
| search_end : search [] 0
| search_pass : forall c cs n, search cs n -> search (c :: cs) (S n)
| search_fail : forall c cs n, search (shrinks c) n -> search (c :: cs) (S n).

(** No search from [t] tries more than [k] candidates; the same of all trees a generator makes. *)
Definition within {A} (k : nat) (t : tree A) : Prop := forall n, search (shrinks t) n -> n <= k.
Definition effort {E A} (k : nat) (g : gen E A) : Prop := forall r t r', g r = Ok (t, r') -> within k t.

(** Some search tries exactly [k], and none more. *)
Definition worst {A} (k : nat) (t : tree A) : Prop := within k t /\ search (shrinks t) k.

(** A generator used for an argument of a property: its trees do not use the engine when they shrink, and no search from them tries more than [k] candidates. *)
Definition arg_effort {E V} (k : nat) (f : xgen E V) : Prop := forall r x r', f r = Ok (inl x, r') -> exists t, x = elift t /\ within k t.

(** Neither the function, nor a hook, nor a generator throws Discard. *)
Definition never_discards {E V W} (P : property E V W) : Prop :=
  (forall args w, snd (fst (func P args w)) <> UThrow EDiscard) /\
  (forall h w, onStartup P = Some h \/ onCleanup P = Some h -> snd (fst (h w)) <> Some EDiscard) /\
  Forall (fun g => forall r r', g r <> Ok (inr EDiscard, r')) (gens P).
