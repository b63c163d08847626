(** The operations of Shrinkable (proptest/Shrinkable.cpp) with callbacks that may have effects: count their calls,
    read something that changes, throw.  TreeModel.v models the same functions for pure callbacks, with lists instead
    of lazy streams; here the moment of every call is kept.  The state of [E] plays the part of everything the
    callbacks can see or change. *)
From Coq Require Import List ZArith Bool.
From Verif Require Import Base TreeModel RandomModel EffModel.
Import ListNotations.
Local Open Scope Z_scope.

(** Shrinkable.cpp:61-85 map with Stream.hpp:54-65 transform: the transformer runs on the value at once, and on the
    head of a stream of shrinks when that stream is computed. *)
Fixpoint lmap {E A B} (f : A -> G E B) (t : etree E A) {struct t} : G E (etree E B) :=
  match t with ENode a shr => gbind (f a) (fun b => gret (ENode b (gbind shr (lmap_s f)))) end
with lmap_s {E A B} (f : A -> G E B) (s : estream E A) {struct s} : G E (estream E B) :=
  match s with
  | ENil => gret ENil
  | ECons h tl => gbind (lmap f h) (fun h' => gret (ECons h' (gbind tl (lmap_s f))))
  end.

(** Shrinkable.cpp:103-118 mapShrinkable: the transformer gets the shrinkable. *)
Fixpoint lmapShrinkable {E A B} (f : etree E A -> G E (etree E B)) (t : etree E A) {struct t} : G E (etree E B) :=
  match t with
  | ENode a shr => gbind (f (ENode a shr)) (fun b => gret (ENode (eroot b) (gbind shr (lmapShrinkable_s f))))
  end
with lmapShrinkable_s {E A B} (f : etree E A -> G E (etree E B)) (s : estream E A) {struct s} : G E (estream E B) :=
  match s with
  | ENil => gret ENil
  | ECons h tl => gbind (lmapShrinkable f h) (fun h' => gret (ECons h' (gbind tl (lmapShrinkable_s f))))
  end.

(** Shrinkable.cpp:121-143 filter(criteria) with Stream.hpp:74-89 filter: Iterator::next (Stream.hpp:120-128) computes
    the tail before the head is looked at; an element that passes is then filtered itself (line 141), which calls the
    criteria on it again. *)
Fixpoint lfilter {E A} (crit : A -> G E bool) (t : etree E A) {struct t} : G E (etree E A) :=
  match t with
  | ENode a shr => gbind (crit a) (fun b =>
      if negb b then gfail (Throw EInvalidArgument) else gret (ENode a (gbind shr (lfilter_s crit))))
  end
with lfilter_s {E A} (crit : A -> G E bool) (s : estream E A) {struct s} : G E (estream E A) :=
  match s with
  | ENil => gret ENil
  | ECons h tl =>
      gbind tl (fun s' =>
      gbind (crit (eroot h)) (fun b =>
        if b then gbind (lfilter crit h) (fun h' => gret (ECons h' (lfilter_s crit s')))
        else lfilter_s crit s'))
  end.

(** Shrinkable.cpp:152-232 filter(criteria, tolerance); [lfilterTol_s s n k] is filterStream (lines 159-181, 200-222)
    on the first [n] elements of [s] (all of them if [n] is negative, Stream.cpp:45-56 take) followed by the stream that
    [k] filters: the take and the concat (Stream.cpp:35-43) of line 176 only build such streams.  As in TreeModel.v the
    decrement of a negative [n] past INT_MIN is not modelled. *)
Fixpoint lfilterTol {E A} (crit : A -> G E bool) (tol : Z) (t : etree E A) {struct t} : G E (etree E A) :=
  match t with
  | ENode a shr => gbind (crit a) (fun b =>
      if negb b then gfail (Throw EInvalidArgument)
      else gret (ENode a (gbind shr (fun s => lfilterTol_s crit tol s (-1) (gret ENil)))))
  end
with lfilterTol_s {E A} (crit : A -> G E bool) (tol : Z) (s : estream E A) (n : Z) (k : G E (estream E A)) {struct s}
  : G E (estream E A) :=
  if n =? 0 then k else
  match s with
  | ENil => k
  | ECons h tl =>
      gbind tl (fun s' =>
      gbind (crit (eroot h)) (fun b =>
        if b then gbind (lfilterTol crit tol h) (fun h' => gret (ECons h' (lfilterTol_s crit tol s' (n - 1) k)))
        else match h with
             | ENode _ shr => gbind shr (fun c => lfilterTol_s crit tol c tol (lfilterTol_s crit tol s' (n - 1) k))
             end))
  end.

(** Stream.cpp:35-43 concat. *)
Fixpoint lappend {E A} (s : estream E A) (other : estream E A) : estream E A :=
  match s with
  | ENil => other
  | ECons h tl => ECons h (gbind tl (fun s' => gret (lappend s' other)))
  end.

(** Shrinkable.cpp:252-266 concat: computing the shrinks computes both parts. *)
Fixpoint lconcat {E A} (thn : etree E A -> G E (estream E A)) (t : etree E A) {struct t} : etree E A :=
  match t with
  | ENode a shr => ENode a (gbind shr (fun s => gbind (thn (ENode a shr)) (fun o => gret (lappend (lconcat_s thn s) o))))
  end
with lconcat_s {E A} (thn : etree E A -> G E (estream E A)) (s : estream E A) {struct s} : estream E A :=
  match s with
  | ENil => ENil
  | ECons h tl => ECons (lconcat thn h) (gbind tl (fun s' => gret (lconcat_s thn s')))
  end.

(** Shrinkable.cpp:235-249 concatStatic. *)
Definition lconcatStatic {E A} (thn : G E (estream E A)) : etree E A -> etree E A := lconcat (fun _ => thn).

(** Shrinkable.cpp:269-287 andThenStatic: as andThen (EffModel.v), the shrinks are computed at once to see whether there
    are any. *)
Definition landThenStatic {E A} (thn : G E (estream E A)) : etree E A -> egen E A := eandThen (fun _ => thn).

(** Shrinkable.cpp:309-316 take with Stream.cpp:45-56 take. *)
Fixpoint ltake {E A} (n : Z) (t : etree E A) {struct t} : etree E A :=
  match t with ENode a shr => ENode a (gbind shr (fun s => gret (ltake_s n n s))) end
with ltake_s {E A} (n k : Z) (s : estream E A) {struct s} : estream E A :=
  match s with
  | ENil => ENil
  | ECons h tl => if k =? 0 then ENil else ECons (ltake n h) (gbind tl (fun s' => gret (ltake_s n (k - 1) s')))
  end.

(** combinator/transform.hpp:34-46 TransformFunctor2. *)
Definition ltransformGen {E A B} (g : egen E A) (f : A -> G E B) : egen E B := gbind g (lmap f).

(** combinator/filter.hpp:34-49 FilterFunctor: the criteria is called on what was generated, and again by filter. *)
Fixpoint lfilterGen {E A} (fuel : nat) (g : egen E A) (crit : A -> G E bool) : egen E A :=
  match fuel with
  | O => fun _ => OutOfFuel
  | S fuel' => gbind g (fun t => gbind (crit (eroot t)) (fun b =>
                 if b then lfilterTol crit 1 t else lfilterGen fuel' g crit))
  end.

(** Property.hpp:371-405 shrinkN for one argument, [s] being its shrinks and [cur] its value: Iterator::next computes
    the tail before the candidate is tested; a candidate that fails is kept and the search goes on with its shrinks.
    The property is [test]; what it does when called (output, exceptions caught at lines 345-356) is not followed
    here, see RunnerModel.v. *)
Fixpoint lsearch_t {E A} (test : A -> G E bool) (t : etree E A) {struct t} : G E A :=
  match t with ENode a shr => gbind shr (lsearch test a) end
with lsearch {E A} (test : A -> G E bool) (cur : A) (s : estream E A) {struct s} : G E A :=
  match s with
  | ENil => gret cur
  | ECons h tl => gbind tl (fun s' => gbind (test (eroot h)) (fun b =>
                    if b then lsearch test cur s' else lsearch_t test h))
  end.
