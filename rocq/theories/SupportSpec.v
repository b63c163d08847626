(** Vocabulary for the values a generator is able to produce. *)
From Coq Require Import List ZArith.
From Verif Require Import Base TreeModel TreeSpec RandomModel ContainerModel EffModel RunnerModel IntegralProof.
Import ListNotations.

(** Given the random numbers [l], the computation ends with [x], having used all of [l] and nothing after it. *)
Definition yields {X} (g : G replay X) (l : list Z) (x : X) : Prop := forall rest : list Z, g (l ++ rest) = Ok (x, rest).

(** Some random numbers make the computation end with something which [see] shows as [v]. *)
Definition gives {X V} (see : X -> V) (g : G replay X) (v : V) : Prop := exists l x, see x = v /\ yields g l x.
(** The generator can produce [v]. *)
Definition canGive {A} (g : gen replay A) (v : A) : Prop := gives root g v.
(** The same for an alternative of oneOf, which might throw Discard, and for a generator of the runner, which might throw anything. *)
Definition canGiveD {A} (g : G replay (option (tree A))) (v : A) : Prop := gives (option_map root) g (Some v).
Definition canGiveX {V} (g : xgen replay V) (v : V) : Prop := exists l x, eroot x = v /\ yields g l (inl x).

(** Shrinkables whose shrinks may draw: the first shrink, the first shrink of that one, and so on, can be computed, all of them having a
    value satisfying [Q]. *)
Inductive spine {A} (Q : A -> Prop) : etree replay A -> Prop :=
| spine_last a shr l : Q a -> yields shr l ENil -> spine Q (ENode a shr)
| spine_next a shr l h tl : Q a -> yields shr l (ECons h tl) -> spine Q h -> spine Q (ENode a shr).
(** The generator can produce [v] in such a way. *)
Definition canGiveE {A} (Q : A -> Prop) (g : egen replay A) (v : A) : Prop := exists l x, eroot x = v /\ spine Q x /\ yields g l x.
(** A generator without effects in its shrinks that can produce [v], all values being reached by shrinking satisfying [Q]. *)
Definition canGiveIn {A} (Q : A -> Prop) (g : gen replay A) (v : A) : Prop := exists l t, root t = v /\ all_values Q t /\ yields g l t.

(** Each element is related to the one before, the first one to [x]. *)
Fixpoint linked {A} (R : A -> A -> Prop) (x : A) (xs : list A) : Prop :=
  match xs with [] => True | y :: ys => R x y /\ linked R y ys end.
