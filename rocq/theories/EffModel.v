(** Shrinkables whose shrinks draw random values when they are evaluated, and the combinators producing them:
    dependency, chain, derive, aggregate, accumulate (proptest/combinator).  These combinators capture the
    Random& in the functions that compute the shrinks (dependency.hpp:43, chain.hpp:49 and 118, derive.hpp:43),
    so every evaluation of a shrink stream is a computation using the engine.  That the captured reference
    outlives the shrinkable is assumed. *)
From Coq Require Import List ZArith Bool.
From Verif Require Import Base TreeModel RandomModel IntegralModel ListModel ContainerModel.
Import ListNotations.
Local Open Scope Z_scope.

(** Shrinkable.hpp ShrinkableAny (value and shrinksPtr) and Stream.hpp:11-99 Stream (headPtr and tailGen):
    shrinks and the tail of a stream are recomputed at each call. *)
Inductive etree (E : engine) (A : Type) : Type :=
| ENode : A -> (rst E -> res (estream E A * rst E)) -> etree E A
with estream (E : engine) (A : Type) : Type :=
| ENil : estream E A
| ECons : etree E A -> (rst E -> res (estream E A * rst E)) -> estream E A.
Arguments ENode {E A} _ _.
Arguments ENil {E A}.
Arguments ECons {E A} _ _.

(** A GenFunction (GenBase.hpp:35) of such shrinkables. *)
Definition egen (E : engine) (A : Type) : Type := G E (etree E A).

(** Shrinkable.cpp:59 getAnyRef. *)
Definition eroot {E A} (t : etree E A) : A := match t with ENode a _ => a end.
(** Shrinkable.cpp:320 shrinks. *)
Definition eshrinks {E A} (t : etree E A) : G E (estream E A) := match t with ENode _ s => s end.
(** Shrinkable.hpp make_shrinkable. *)
Definition emake {E A} (a : A) : etree E A := ENode a (gret ENil).

(** A shrinkable whose shrinks do not use the engine. (Any shrinkable made without a Random& (generator/util.cpp:8-86, shrinker/).) *)
Fixpoint elift {E A} (t : tree A) : etree E A :=
  match t with
  | Node a ts => ENode a (gret ((fix go (ts : list (tree A)) : estream E A :=
                                   match ts with [] => ENil | s :: r => ECons (elift s) (gret (go r)) end) ts))
  end.
(** Any GenFunction (GenBase.hpp:35) whose shrinkables are made without a Random&. *)
Definition liftGen {E A} (g : gen E A) : egen E A := gbind g (fun t => gret (elift t)).

(** Shrinkable.cpp:67-85 map with Stream.hpp:54-65 transform; the function is pure. *)
Fixpoint emap {E A B} (f : A -> B) (t : etree E A) {struct t} : etree E B :=
  match t with ENode a shr => ENode (f a) (gbind shr (fun s => gret (emap_s f s))) end
with emap_s {E A B} (f : A -> B) (s : estream E A) {struct s} : estream E B :=
  match s with
  | ENil => ENil
  | ECons h tl => ECons (emap f h) (gbind tl (fun s' => gret (emap_s f s')))
  end.

(** Shrinkable.cpp:93-101 flatMap with Stream.hpp:54-65 transform: the transformer, here using the engine,
    runs on the value at once, and on each shrink when that element of the stream is computed. *)
Fixpoint eflatMap {E A B} (f : A -> egen E B) (t : etree E A) {struct t} : egen E B :=
  match t with ENode a shr => gbind (f a) (fun b => gret (ENode (eroot b) (gbind shr (eflatMap_s f)))) end
with eflatMap_s {E A B} (f : A -> egen E B) (s : estream E A) {struct s} : G E (estream E B) :=
  match s with
  | ENil => gret ENil
  | ECons h tl => gbind (eflatMap f h) (fun h' => gret (ECons h' (gbind tl (eflatMap_s f))))
  end.

(** Shrinkable.cpp:295-307 andThen: line 299 evaluates the shrinks once to see whether there are any; they
    are evaluated again (line 303) when asked for. *)
Fixpoint eandThen {E A} (thn : etree E A -> G E (estream E A)) (t : etree E A) {struct t} : egen E A :=
  match t with
  | ENode a shr =>
      gbind shr (fun s => match s with
                          | ENil => gret (ENode a (thn (ENode a shr)))
                          | ECons _ _ => gret (ENode a (gbind shr (eandThen_s thn)))
                          end)
  end
with eandThen_s {E A} (thn : etree E A -> G E (estream E A)) (s : estream E A) {struct s} : G E (estream E A) :=
  match s with
  | ENil => gret ENil
  | ECons h tl => gbind (eandThen thn h) (fun h' => gret (ECons h' (gbind tl (eandThen_s thn))))
  end.

(** dependency.hpp:36-41, chain.hpp:42-47 and 118-123, derive.hpp:36-41: the intermediate pair. *)
Definition interFunctor {E T U} (gen2gen : T -> egen E U) (t : T) : egen E (T * etree E U) :=
  gbind (gen2gen t) (fun u => gret (emake (t, u))).

(** dependency.hpp:64-74, chain.hpp:69-79 and 127-138, derive.hpp:63-73: shrink the second component, keeping
    the first. *)
Definition secondShrinks {E T U} (interShr : etree E (T * etree E U)) : G E (estream E (T * etree E U)) :=
  let '(t, u) := eroot interShr in
  gbind (eflatMap (fun x => gret (emake (t, emake x))) u) (fun n => eshrinks n).

(** dependency.hpp:53-80, chain.hpp:58-88 and 110-146, derive.hpp:52-78 operator(); [fin] is the final
    reformatting.  (derive.hpp:36 declares Shrinkable<U> as the result type of a function returning a
    Shrinkable<pair<T,Shrinkable<U>>>; the type-erased representation makes this harmless.) *)
Definition dependent {E T U W} (gen1 : egen E T) (gen2gen : T -> egen E U) (fin : T * etree E U -> etree E W) : egen E W :=
  gbind gen1 (fun shrinkableT =>
  gbind (eflatMap (interFunctor gen2gen) shrinkableT) (fun intermediate =>
  gbind (eandThen secondShrinks intermediate) (fun intermediate' =>
  eflatMap (fun p => gret (fin p)) intermediate'))).

(** dependency.hpp:97-103 dependency (also Generator/Arbi ::pairWith). *)
Definition dependency {E T U} (gen1 : egen E T) (gen2gen : T -> egen E U) : egen E (T * U) :=
  dependent gen1 gen2gen (fun p => emake (fst p, eroot (snd p))).

(** chain.hpp:94-100 chainImpl for a first generator of a single value; a tuple is a list of values. *)
Definition chain {E V} (gen1 : egen E V) (gen2gen : V -> egen E V) : egen E (list V) :=
  dependent gen1 gen2gen (fun p => emake [fst p; eroot (snd p)]).

(** chain.hpp:102-149 chainImpl for a first generator of a Chain of two or more values. *)
Definition chainMore {E V} (gen1 : egen E (list V)) (gen2gen : list V -> egen E V) : egen E (list V) :=
  dependent gen1 gen2gen (fun p => emake (fst p ++ [eroot (snd p)])).

(** derive.hpp:102-112 derive (also Generator/Arbi ::flatMap). *)
Definition derive {E T U} (gen1 : egen E T) (gen2gen : T -> egen E U) : egen E U :=
  dependent gen1 gen2gen snd.

(** aggregate.hpp:28-31: size steps, each from the value of the previous one. *)
Fixpoint aggregateSteps {E T} (n : nat) (gen2gen : T -> egen E T) (shr : etree E T) : egen E T :=
  match n with
  | O => gret shr
  | S n' => gbind (gen2gen (eroot shr)) (aggregateSteps n' gen2gen)
  end.

(** aggregate.hpp:19-34 aggregateImpl. *)
Definition aggregate {E T} (gen1 : egen E T) (gen2gen : T -> egen E T) (minSize maxSize : Z) : egen E T :=
  derive (liftGen (interval TU64 minSize maxSize)) (fun size =>
    gbind gen1 (fun shr => aggregateSteps (Z.to_nat size) gen2gen shr)).

(** accumulate.hpp:33-40: the chain of size elements. *)
Fixpoint accumulateSteps {E T} (n : nat) (gen2gen : T -> egen E T) (shr : etree E T) : G E (list (etree E T)) :=
  match n with
  | O => gret [shr]
  | S n' => gbind (gen2gen (eroot shr)) (fun shr' =>
            gbind (accumulateSteps n' gen2gen shr') (fun l => gret (shr :: l)))
  end.

(** accumulate.hpp:50-54: Stream::transform replacing the last element; the new shrinkables have no shrinks. *)
Fixpoint lastShrinks {E T} (vec : list (etree E T)) (s : estream E T) : estream E (list (etree E T)) :=
  match s with
  | ENil => ENil
  | ECons h tl => ECons (emake (removelast vec ++ [h])) (gbind tl (fun s' => gret (lastShrinks vec s')))
  end.

(** accumulate.hpp:42-55. *)
Definition shrinkLast {E T} (parent : etree E (list (etree E T))) : G E (estream E (list (etree E T))) :=
  match rev (eroot parent) with
  | [] => gret ENil
  | lst :: _ => gbind (eshrinks lst) (fun s => gret (lastShrinks (eroot parent) s))
  end.

(** accumulate.hpp:21-65 accumulateImpl. *)
Definition accumulate {E T} (gen1 : egen E T) (gen2gen : T -> egen E T) (minSize maxSize : Z) : egen E (list T) :=
  derive (liftGen (interval TU64 minSize maxSize)) (fun size =>
    if size =? 0 then gret (emake [])
    else gbind gen1 (fun shr =>
         gbind (accumulateSteps (Z.to_nat size - 1) gen2gen shr) (fun vec =>
         gbind (gfail (shrinkListLikeLength vec minSize)) (fun lens =>
         gbind (eandThen shrinkLast (elift lens)) (fun t =>
         gret (emap (map eroot) t)))))).
