(** Boundary values of integer types. *)
From Coq Require Import List ZArith.
From Verif Require Import Base RandomModel IntegralModel.
Import ListNotations.
Local Open Scope Z_scope.

(** At a limit or next to it. *)
Definition near (x limit : Z) : Prop := limit - 1 <= x <= limit + 1.
(** The values one wants tried for a type: around zero, around its own limits, around the limits of the narrower types and, for an unsigned type up to 32 bits, of
    its signed counterpart; for types of one byte some characters. *)
Definition boundary (ty : ity) (x : Z) : Prop :=
  tmin ty <= x <= tmax ty /\
  (-2 <= x <= 2 \/ near x (tmin ty) \/ near x (tmax ty) \/
   (is_signed ty = false /\ bits ty <= 32 /\ near x (2 ^ (bits ty - 1) - 1)) \/
   (exists u, In u [8; 16; 32] /\ u < bits ty /\ (near x (- 2 ^ (u - 1)) \/ near x (2 ^ (u - 1) - 1) \/ near x (2 ^ u - 1))) \/
   (bits ty = 8 /\ In x [9; 10; 13; 32; 34; 39])).
