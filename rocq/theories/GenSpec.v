(** Vocabulary for oneOf. *)
From Coq Require Import List ZArith SpecFloat.
From Verif Require Import Base TreeModel RandomModel.
Import ListNotations.
Local Open Scope Z_scope.

(** Rounds of "draw an index, flip a coin with that index's weight" that all came out false. *)
Inductive rejected {E} (ws : list spec_float) : rst E -> list nat -> rst E -> Prop :=
| rej_nil : forall r, rejected ws r [] r
| rej_cons : forall r i r1 w r2 l r3,
    draw 0 (Z.of_nat (length ws) - 1) r = Ok (Z.of_nat i, r1) -> nth_error ws i = Some w ->
    getRandomBool w r1 = Ok (false, r2) -> rejected ws r2 l r3 -> rejected ws r (i :: l) r3.

(** The first accepted round chooses index [i]. *)
Definition chosen {E} (ws : list spec_float) (r : rst E) (i : nat) (r' : rst E) : Prop :=
  exists l r1 r2 w, rejected ws r l r1 /\ draw 0 (Z.of_nat (length ws) - 1) r1 = Ok (Z.of_nat i, r2) /\
    nth_error ws i = Some w /\ getRandomBool w r2 = Ok (true, r').

(** A weight the documentation allows. *)
Definition legal_weight (w : spec_float) : Prop := SFltb w (S754_zero false) = false /\ SFltb d_one w = false.

(** Sum of the weights as computed with doubles, from left to right. *)
Definition weight_sum (ws : list spec_float) : spec_float := fold_left (SFadd dprec demax) ws (S754_zero false).

(** Weights given as zero are unassigned. *)
Definition unassigned (w : spec_float) : bool := SFeqb w (S754_zero false).
