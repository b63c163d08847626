(** Which object a Shrinkable refers to, and who can change it.  A Shrinkable refers to its value through a shared_ptr
    (Shrinkable.hpp:144, any.hpp:27), so several may refer to one object; get() copies it (Shrinkable.hpp:185), getRef() does not (187).
    Objects are numbered and kept in a store, which only grows: that shared_ptr frees unreachable objects cannot be observed.  [V] is the type of all
    values; values do not refer to further objects (pointers, iterators, functions with state are not modelled here). *)
From Coq Require Import List Bool.
From Verif Require Import Base RandomModel.
Import ListNotations.
Local Open Scope list_scope.

(** The objects that Shrinkable.hpp:144, any.hpp:27 refer to. *)
Definition store (V : Type) := list V.

(** Computations using the engine and the store. (any.hpp:8-40, Shrinkable.hpp:144.) *)
Definition H (E : engine) (V A : Type) : Type := store V -> rst E -> res (A * store V * rst E).
(** Such computations (any.hpp:8-40): the one that does nothing, *)
Definition hret {E V A} (a : A) : H E V A := fun st r => Ok (a, st, r).
(** one after the other (any.hpp:8-40), *)
Definition hbind {E V A B} (m : H E V A) (f : A -> H E V B) : H E V B :=
  fun st r => match m st r with
              | Ok (a, st', r') => f a st' r'
              | UB => UB | Throw e => Throw e | OutOfFuel => OutOfFuel
              end.
(** one that leaves the objects of any.hpp:27 alone. *)
Definition hlift {E V A} (g : G E A) : H E V A :=
  fun st r => match g r with Ok (a, r') => Ok (a, st, r') | UB => UB | Throw e => Throw e | OutOfFuel => OutOfFuel end.
(** A new object (make_shared, any.hpp:14, 33). *)
Definition alloc {E V} (v : V) : H E V nat := fun st r => Ok (length st, st ++ [v], r).
(** The value of an object. (Shrinkable.hpp:185.) *)
Definition read {E V} (l : nat) : H E V V := fun st r => match nth_error st l with Some v => Ok (v, st, r) | None => UB end.
(** Assignment through the reference of Shrinkable.hpp:187. *)
Fixpoint put {V} (l : nat) (v : V) (st : store V) : store V :=
  match st, l with
  | [], _ => []
  | _ :: r, O => v :: r
  | x :: r, S l' => x :: put l' v r
  end.
(** The same as a computation (Shrinkable.hpp:187). *)
Definition write {E V} (l : nat) (v : V) : H E V unit := fun st r => Ok (tt, put l v st, r).

(** Generators, as far as the objects they give are concerned:
    - [XNew g]: the value is made by [g], then make_shrinkable (Shrinkable.hpp:357-362): Arbi<T> and the generators in generator/, just of a trivial
      type (just.hpp:19-24), lazy (lazy.hpp:29), and every combinator making a value out of values it copies (pairOf, tupleOf, ...; that
      the functions given to dependency, chain and derive also take a T& is not modelled);
    - [XSame l]: just of a type that is not trivial, or of a shared_ptr (just.hpp:31-62): the object was made with the generator;
    - [XOneOf choose gs]: oneOf and, with [XSame] for each of the values, elementOf (oneof.hpp:84-99, elementof.hpp:72-88); how one is chosen is in GenModel;
    - [XFilter crit g]: filter (filter.hpp:39-47); the criterion, which also takes a T&, is given a copy at line 43 (conversion of the T& to Any, any.hpp:13-15);
    - [XMap f g]: transform, map (transform.hpp:21-60, Shrinkable.cpp:77-85); the transformer takes a T& and gets the object itself (transform.hpp:26): [f]
      gives its result and the value it leaves in the object;
    - [XConstruct ref gs ctor]: construct (construct.hpp:67, 113-136); [ref] says which parameters are references, to which
      getRef() is bound (line 37).  [ctor] gives the object and the values left in the parameters.  The generators are called from left
      to right (the order is not specified).  If two reference parameters are bound to one object, both start with its value and
      the last one decides what it is left with. *)
Inductive gexp (E : engine) (V : Type) :=
| XNew (g : G E V)
| XSame (l : nat)
| XOneOf (choose : G E nat) (gs : list (gexp E V))
| XFilter (crit : V -> bool) (g : gexp E V)
| XMap (f : V -> V * V) (g : gexp E V)
| XConstruct (ref : list bool) (gs : list (gexp E V)) (ctor : list V -> V * list V).
Arguments XNew {E V} _.
Arguments XSame {E V} _.
Arguments XOneOf {E V} _ _.
Arguments XFilter {E V} _ _.
Arguments XMap {E V} _ _.
Arguments XConstruct {E V} _ _ _.

(** The arguments of construct.hpp:113-136 and of invokeWithGenTuple.hpp:13-20, from left to right. *)
Fixpoint hall {E V A} (ms : list (H E V A)) : H E V (list A) :=
  match ms with
  | [] => hret []
  | m :: r => hbind m (fun a => hbind (hall r) (fun l => hret (a :: l)))
  end.
(** FilterFunctor, filter.hpp:39-47. *)
Fixpoint hretry {E V} (fuel : nat) (m : H E V nat) (crit : V -> bool) : H E V nat :=
  match fuel with
  | O => fun _ _ => OutOfFuel
  | S fuel' => hbind m (fun l => hbind (read l) (fun v => if crit v then hret l else hretry fuel' m crit))
  end.
(** What the constructor leaves in the objects its reference parameters are bound to. (construct.hpp:37.) *)
Fixpoint writeRefs {E V} (ref : list bool) (ls : list nat) (vs : list V) : H E V unit :=
  match ref, ls, vs with
  | b :: ref', l :: ls', v :: vs' => hbind (if b then write l v else hret tt) (fun _ => writeRefs ref' ls' vs')
  | _, _, _ => hret tt
  end.

(** The number of the object that the generator gives. (just.hpp:19-62, oneof.hpp:84-99, filter.hpp:39-47, transform.hpp:21-60, construct.hpp:113-136.) *)
Fixpoint generate {E V} (fuel : nat) (g : gexp E V) {struct g} : H E V nat :=
  match g with
  | XNew g => hbind (hlift g) alloc
  | XSame l => hret l
  | XOneOf choose gs => hbind (hlift choose) (fun i => nth i (map (generate fuel) gs) (fun _ _ => UB))
  | XFilter crit g => hretry fuel (generate fuel g) crit
  | XMap f g => hbind (generate fuel g) (fun l => hbind (read l) (fun v => hbind (write l (snd (f v))) (fun _ => alloc (fst (f v)))))
  | XConstruct ref gs ctor =>
      hbind (hall (map (generate fuel) gs)) (fun ls =>
      hbind (hall (map read ls)) (fun vs =>
      hbind (writeRefs ref ls (snd (ctor vs))) (fun _ => alloc (fst (ctor vs)))))
  end.

(** invokeWithGenTuple.hpp:13-20 (and Property.hpp:343-347): the property function gets copies; whatever it does to them is lost.  The values it is
    called with in [n] runs. *)
Fixpoint copyRuns {E V} (fuel : nat) (gs : list (gexp E V)) (n : nat) : H E V (list (list V)) :=
  match n with
  | O => hret []
  | S n' =>
      hbind (hall (map (generate fuel) gs)) (fun ls =>
      hbind (hall (map read ls)) (fun vs =>
      hbind (copyRuns fuel gs n') (fun l => hret (vs :: l))))
  end.

(** concurrency_function.hpp:234-243, concurrency_class.hpp:226-227: the actions get the generated object itself.  The objects at the start of [n]
    runs, if run [i] turns the object [v] into [used i v]. *)
Fixpoint placeRuns {E V} (fuel : nat) (g : gexp E V) (used : nat -> V -> V) (i n : nat) : H E V (list V) :=
  match n with
  | O => hret []
  | S n' =>
      hbind (generate fuel g) (fun l =>
      hbind (read l) (fun v =>
      hbind (write l (used i v)) (fun _ =>
      hbind (placeRuns fuel g used (S i) n') (fun r => hret (v :: r)))))
  end.
