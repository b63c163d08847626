(** Vocabulary for what the search for a simplest failing floating point argument finds. *)
From Coq Require Import List ZArith SpecFloat.
From Verif Require Import Base TreeModel RandomModel ContainerModel FloatModel FloatSpec.
Import ListNotations.
Local Open Scope Z_scope.

(** Where asking a value for its shrinks is undefined behaviour (C58), it is taken to offer none: what is shown of a search holds of it up to that point. *)
Fixpoint calm (t : ftree) : tree spec_float := match t with FNode v l => Node v (map calm l) | FUndef v => Node v [] end.
(** Arbi<float> and Arbi<double> with such shrinks. (generator/floating.cpp:11-17,19-25; shrinker/floating.hpp:42-88.) *)
Definition floats (ty : ftype) {E} : gen E spec_float :=
  gbind (genFloat ty) (fun x => match snd x with Ok l => gret (Node (fst x) (map calm l)) | _ => fun _ => UB end).

(** a * 2^k <= b * 2^j. *)
Definition atMost (a k b j : Z) : Prop := a * 2 ^ (k - Z.min k j) <= b * 2 ^ (j - Z.min k j).
(** Neither is zero or NaN, they have the same sign, and |v| <= |w|. *)
Definition noFurther (v w : spec_float) : Prop :=
  match v, w with
  | S754_finite s m e, S754_finite t n f => s = t /\ atMost (Zpos m) e (Zpos n) f
  | S754_finite s _ _, S754_infinity t | S754_infinity s, S754_infinity t => s = t
  | _, _ => False
  end.
(** The same sign, neither zero nor NaN nor infinite, and 2 |w| <= |v|. *)
Definition halfOf (w v : spec_float) : Prop :=
  match w, v with S754_finite s m e, S754_finite t n f => s = t /\ atMost (2 * Zpos m) e (Zpos n) f | _, _ => False end.
(** 0 < |v| < 1. *)
Definition belowOne (v : spec_float) : Prop := match v with S754_finite _ m e => e < 0 /\ Zpos m < 2 ^ (- e) | _ => False end.
(** Once a value fails, everything further from zero on the same side does; 0.0 does not fail. *)
Definition grows (fails : spec_float -> Prop) : Prop := (forall v w, noFurther v w -> fails v -> fails w) /\ ~ fails (S754_zero false).
(** On the other side of zero nothing; an infinity counts as the largest finite value. *)
Definition sameSide (v w : spec_float) : Prop :=
  match v, w with (S754_finite s _ _ | S754_infinity s), (S754_finite t _ _ | S754_infinity t) => s = t | _, _ => False end.
Definition finitely (ty : ftype) (v : spec_float) : spec_float := match v with S754_infinity s => largest ty s | _ => v end.
(** v >= c. *)
Definition over (c : positive) (v : spec_float) : bool :=
  match v with
  | S754_finite false m e => Zpos c * 2 ^ (0 - Z.min e 0) <=? Zpos m * 2 ^ (e - Z.min e 0)
  | S754_infinity false => true
  | _ => false
  end.
