(** Vocabulary for the pointer generators. *)
From Coq Require Import List ZArith.
From Verif Require Import Base TreeModel TreeSpec RandomModel.

(** [t] offers the same choices as [u], and at every place points to the value [u] has there. *)
Definition points_into {A} (t : tree (option A)) (u : tree A) : Prop :=
  forall p, value_at t p = option_map Some (value_at u p) /\ width_at t p = width_at u p.

(** 95% of the 2^64 outputs of the engine, rounded as the double 0.95 is: outputs up to this one give a value. *)
Definition not_null_limit : Z := 8556839292003942 * 2 ^ 11.
