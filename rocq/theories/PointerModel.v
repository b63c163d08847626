(** Model of the generators of Nullable<T> and shared_ptr<T> (proptest/generator/nullable.hpp, proptest/generator/shared_ptr.hpp).
    util/nullable.hpp:7-16 Nullable<T> holds a shared_ptr<T>: it is the value pointed to, or nothing when null.  Sharing of the value
    with the shrinkable it came from is not modelled (values are not mutated). *)
From Coq Require Import List ZArith Bool SpecFloat.
From Verif Require Import Base TreeModel RandomModel ContainerModel.
Import ListNotations.

(** util/nullable.hpp:13 isNull. *)
Definition isNull {A} (n : option A) : bool := match n with None => true | Some _ => false end.

(** The double nearest to 0.95. *)
Definition d_095 : spec_float := S754_finite false 8556839292003942 (-53).

(** The object Arbi<Nullable<T>> or Arbi<shared_ptr<T>>: nullable.hpp:23-27, 43 and shared_ptr.hpp:22-26, 35. *)
Record arbi_ptr (E : engine) (A : Type) := { elemGen : gen E A }.
Arguments elemGen {E A} _.

(** nullable.hpp:23 and shared_ptr.hpp:22, the constructor without arguments; [dflt] stands for Arbi<T>(). *)
Definition ptr_default {E A} (dflt : gen E A) : arbi_ptr E A := {| elemGen := dflt |}.
(** nullable.hpp:25-27 and shared_ptr.hpp:24-26, the constructors from a generator of elements. *)
Definition ptr_of {E A} (g : gen E A) : arbi_ptr E A := {| elemGen := g |}.

(** nullable.hpp:29-41 operator(): a fresh Arbi<T>() is used (line 31). *)
Definition arbi_nullable {E A} (dflt : gen E A) (self : arbi_ptr E A) : gen E (option A) :=
  let gen := dflt in
  gbind (getRandomBool d_095) (fun notNull =>
  if notNull then
    gbind gen (fun shrinkable => gret (mapShrinkable (fun shr => make_shrinkable (Some (root shr))) shrinkable))
  else gret (make_shrinkable None)).

(** shared_ptr.hpp:28-33 operator(): a fresh Arbi<T>() is used (line 30).  The pointer made at line 32 is never null. *)
Definition arbi_shared_ptr {E A} (dflt : gen E A) (self : arbi_ptr E A) : gen E (option A) :=
  let gen := dflt in
  gbind gen (fun shrinkable => gret (map_tree (fun obj => Some obj) shrinkable)).
