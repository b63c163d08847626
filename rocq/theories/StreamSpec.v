(** What it means for a stream to enumerate elements. *)
From Coq Require Import List ZArith.
From Verif Require Import StreamModel.
Import ListNotations.

(** The stream is finite and enumerates exactly the list. *)
Inductive enum {A} : stream A -> list A -> Prop :=
| enum_nil : enum SNil []
| enum_cons : forall a s l, enum s l -> enum (SCons a s) (a :: l).

(** The first n elements (fewer if the stream ends). *)
Fixpoint prefix {A} (n : nat) (s : stream A) : list A :=
  match n with
  | O => []
  | S m => match s with SNil => [] | SCons a t => a :: prefix m t end
  end.

(** The stream never ends. *)
Definition infinite {A} (s : stream A) : Prop := forall n, length (prefix n s) = n.

(** The same two notions for the result of filter. *)
Inductive denum {A} : dstream A -> list A -> Prop :=
| denum_nil : denum DNil []
| denum_cons : forall a s l, denum s l -> denum (DCons a s) (a :: l).

Fixpoint dprefix {A} (n : nat) (s : dstream A) : list A :=
  match n with
  | O => []
  | S m => match s with DCons a t => a :: dprefix m t | _ => [] end
  end.
