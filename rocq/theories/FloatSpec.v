(** Vocabulary for statements about floating point values. *)
From Coq Require Import List ZArith SpecFloat.
From Verif Require Import Base TreeModel FloatModel.
Import ListNotations.
Local Open Scope Z_scope.

Definition standard (ty : ftype) : Prop := ty = binary32 \/ ty = binary64.
(** The values of the type. *)
Definition valid (ty : ftype) (v : spec_float) : Prop := valid_binary (prec ty) (emax ty) v = true.

Definition sgn (neg : bool) (z : Z) : Z := if neg then - z else z.
(** The value is z * 2^k exactly. *)
Definition exactly (v : spec_float) (z k : Z) : Prop :=
  match v with
  | S754_zero _ => z = 0
  | S754_finite s m e => sgn s (Zpos m) * 2 ^ (e - Z.min e k) = z * 2 ^ (k - Z.min e k)
  | _ => False
  end.

(** The shrinks of a value +-f * 2^E with f = m * 2^e in [1/2,1) follow those of the exponent E: the same f with the other exponent;
    an exponent that cannot be shrunk any more offers the power of two below, and that one nothing, or, from 2^31 on, undefined
    behaviour. *)
Inductive follows (s : bool) (m e : Z) : tree Z -> ftree -> Prop :=
| fo_node : forall x t ts v l, exactly v (sgn s m) (e + x) -> Forall2 (follows s m e) (t :: ts) l -> follows s m e (Node x (t :: ts)) (FNode v l)
| fo_leaf : forall x v h, exactly v (sgn s m) (e + x) -> exactly (fvalue h) (sgn s 1) (x - 1) ->
    match h with FNode _ l => l = [] /\ x <= 31 | FUndef _ => 32 <= x end -> follows s m e (Node x []) (FNode v [h]).

(** What is reached by shrinking any number of times. *)
Inductive freach : ftree -> ftree -> Prop :=
| fr_refl : forall t, freach t t
| fr_step : forall v l c t, In c l -> freach c t -> freach (FNode v l) t.
(** The longest way down. *)
Fixpoint fdepth (t : ftree) : nat := match t with FNode _ l => list_max (map (fun s => S (fdepth s)) l) | FUndef _ => O end.
(** 2^(x-1) <= |v| < 2^x. *)
Definition magnitude (v : spec_float) (x : Z) : Prop :=
  match v with S754_finite _ m e => e < x /\ 2 ^ (x - 1 - e) <= Zpos m < 2 ^ (x - e) | _ => False end.
(** Zero or plus or minus a power of two. *)
Definition simple (v : spec_float) : Prop := v = S754_zero false \/ exists s k, exactly v (sgn s 1) k.
