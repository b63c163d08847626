(** Vocabulary for generators of containers. *)
From Coq Require Import List ZArith.
From Verif Require Import Base TreeModel RandomModel.
Import ListNotations.

(** Running [g] repeatedly from engine state [r] yields the results [l], in this order, and ends in state [r']. *)
Inductive draws {E A} (g : G E A) : rst E -> list A -> rst E -> Prop :=
| draws_nil : forall r, draws g r [] r
| draws_cons : forall r a r1 l r2, g r = Ok (a, r1) -> draws g r1 l r2 -> draws g r (a :: l) r2.

(** [g] always returns normally. *)
Definition always_returns {E A} (g : G E A) : Prop := forall r, exists a r', g r = Ok (a, r').
