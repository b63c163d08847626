(** Vocabulary for constructed objects. *)
From Coq Require Import List.
From Verif Require Import Base RandomModel EffModel RunnerModel.
Import ListNotations.

(** Calling the functions at the positions listed, one after the other, gives the results [vals] at these positions. *)
Inductive in_turn {E X} (fs : list (G E (X + err))) (vals : list X) : list nat -> rst E -> rst E -> Prop :=
| turn_nil r : in_turn fs vals [] r r
| turn_cons i o f x r r1 r2 : nth_error fs i = Some f -> f r = Ok (inl x, r1) -> nth_error vals i = Some x ->
    in_turn fs vals o r1 r2 -> in_turn fs vals (i :: o) r r2.

(** The generator gives values without shrinks only. *)
Definition unshrinkable {E V} (g : xgen E V) : Prop := forall r t r', g r = Ok (inl t, r') -> forall r0, eshrinks t r0 = Ok (ENil, r0).

(** Calling them one after the other, [e] is thrown: those before return, those after are not called. *)
Inductive throws_in_turn {E X} (fs : list (G E (X + err))) (e : err) : list nat -> rst E -> rst E -> Prop :=
| throws_here i o f r r1 : nth_error fs i = Some f -> f r = Ok (inr e, r1) -> throws_in_turn fs e (i :: o) r r1
| throws_later i o f x r r1 r2 : nth_error fs i = Some f -> f r = Ok (inl x, r1) -> throws_in_turn fs e o r1 r2 -> throws_in_turn fs e (i :: o) r r2.
