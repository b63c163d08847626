(** What a generated integer in a range is expected to be. *)
From Coq Require Import List ZArith Permutation SpecFloat.
From Verif Require Import Base TreeModel TreeSpec BinSearchSpec RandomModel.
Import ListNotations.
Local Open Scope Z_scope.

(** The element of [min,max] closest to zero. *)
Definition nearest_zero (min max : Z) : Z := Z.max min (Z.min max 0).

(** The integers from [c] (included) to [v] (excluded). *)
Definition between (c v : Z) : list Z := if c <=? v then zrange c (v - 1) else zrange (v + 1) c.

(** A good shrinkable for range [min,max]: its value is in range; the values reachable by shrinking are exactly
    the integers from the element nearest zero up to the value, once each; the element nearest zero is the
    first candidate; each step gets strictly nearer to it. *)
Record good_integer (min max : Z) (t : tree Z) : Prop := {
  gi_range : min <= root t <= max;
  gi_values : Permutation (values t) (root t :: between (nearest_zero min max) (root t));
  gi_first : root t <> nearest_zero min max -> exists r, shrinks t = Node (nearest_zero min max) [] :: r;
  gi_steps : all_nodes (fun s => Forall (fun c =>
               Z.abs (root c - nearest_zero min max) < Z.abs (root s - nearest_zero min max)) (shrinks s)) t
}.

(** The computation neither throws nor has undefined behaviour, and its result satisfies [P]. *)
Definition returns {E A} (g : G E A) (r : rst E) (P : A -> Prop) : Prop :=
  exists a r', g r = Ok (a, r') /\ P a.

(** Value of a positive double: m * 2^e.  A threshold strictly between 0 and 1. *)
Definition proper_threshold (t : spec_float) (m : positive) (e : Z) : Prop :=
  t = S754_finite false m e /\ valid_binary dprec demax t = true /\ e < 0 /\ Zpos m < 2 ^ (- e).
