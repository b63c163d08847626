(** Model of Shrinkable (proptest/Shrinkable.cpp): a value together with the stream of its shrinks.
    A Stream of shrinks is represented by the list of its elements (StreamModel.v relates the lazy Stream to
    lists); recomputing a lazy stream is unobservable because the functions involved are pure. *)
From Coq Require Import List ZArith Bool.
From Verif Require Import Base.
Import ListNotations.

(** Shrinkable.hpp: struct ShrinkableAny (ptr, shrinksPtr), Shrinkable.cpp:318. *)
Inductive tree (A : Type) : Type :=
| Node : A -> list (tree A) -> tree A.
Arguments Node {A} _ _.

(** Shrinkable.cpp:59 getAnyRef. *)
Definition root {A} (t : tree A) : A := match t with Node a _ => a end.

(** Shrinkable.cpp:320 shrinks. *)
Definition shrinks {A} (t : tree A) : list (tree A) := match t with Node _ ts => ts end.

(** Shrinkable.cpp:38 (constructor with empty shrinks), Shrinkable.hpp make_shrinkable. *)
Definition make_shrinkable {A} (a : A) : tree A := Node a [].

(** Shrinkable.cpp:49-57 with. *)
Definition with_ {A} (t : tree A) (ts : list (tree A)) : tree A := Node (root t) ts.

(** Shrinkable.cpp:61-85 map. *)
Fixpoint map_tree {A B} (f : A -> B) (t : tree A) : tree B :=
  match t with Node a ts => with_ (make_shrinkable (f a)) (map (map_tree f) ts) end.

(** Shrinkable.cpp:87-101 flatMap: the shrinks of the transformer's result are replaced. *)
Fixpoint flatMap_tree {A B} (f : A -> tree B) (t : tree A) : tree B :=
  match t with Node a ts => with_ (f a) (map (flatMap_tree f) ts) end.

(** Shrinkable.cpp:103-118 mapShrinkable. *)
Fixpoint mapShrinkable {A B} (f : tree A -> tree B) (t : tree A) : tree B :=
  match t with Node a ts => with_ (f (Node a ts)) (map (mapShrinkable f) ts) end.

(** Shrinkable.cpp:121-143 filter(criteria).  Lines 138-141 (Stream::filter followed by transform) are
    fused into one traversal of the stream. *)
Fixpoint filter_tree {A} (crit : A -> bool) (t : tree A) : res (tree A) :=
  match t with
  | Node a ts =>
      if negb (crit a) then Throw EInvalidArgument
      else
        do ts' <- (fix fstream (ts : list (tree A)) : res (list (tree A)) :=
                     match ts with
                     | [] => Ok []
                     | s :: r =>
                         if crit (root s)
                         then do s' <- filter_tree crit s; do r' <- fstream r; Ok (s' :: r')
                         else fstream r
                     end) ts;
        Ok (Node a ts')
  end.

(** Stream.cpp:45-56 take.  [n] is a C++ int; the decrement of a negative count past INT_MIN (after more
    than 2^31 elements) is not modelled. *)
Fixpoint stake {A} (n : Z) (l : list A) : list A :=
  match l with
  | [] => []
  | x :: r => if (n =? 0)%Z then [] else x :: stake (n - 1)%Z r
  end.

(** Shrinkable.cpp:159-181 and 200-222 filterStream. *)
Fixpoint filterStream {A} (fuel : nat) (crit : A -> bool) (tol : Z) (s : list (tree A)) : res (list (tree A)) :=
  match fuel with
  | O => OutOfFuel
  | S fuel' =>
      match s with
      | [] => Ok []
      | shr :: tail =>
          if crit (root shr)
          then do r <- filterStream fuel' crit tol tail; Ok (shr :: r)
          else filterStream fuel' crit tol (stake tol (shrinks shr) ++ tail)
      end
  end.

(** Shrinkable.cpp:152-191 and 193-232 filter(criteria, tolerance). *)
Fixpoint filter_tol {A} (fuel : nat) (crit : A -> bool) (tol : Z) (t : tree A) : res (tree A) :=
  match fuel with
  | O => OutOfFuel
  | S fuel' =>
      if negb (crit (root t)) then Throw EInvalidArgument
      else do s <- filterStream fuel crit tol (shrinks t);
           do s' <- mapM (filter_tol fuel' crit tol) s;
           Ok (with_ t s')
  end.

(** Shrinkable.cpp:235-249 concatStatic. *)
Fixpoint concatStatic {A} (thn : list (tree A)) (t : tree A) : tree A :=
  match t with Node a ts => Node a (map (concatStatic thn) ts ++ thn) end.

(** Shrinkable.cpp:252-266 concat. *)
Fixpoint concat_tree {A} (thn : tree A -> list (tree A)) (t : tree A) : tree A :=
  match t with Node a ts => Node a (map (concat_tree thn) ts ++ thn (Node a ts)) end.

(** Shrinkable.cpp:269-287 andThenStatic. *)
Fixpoint andThenStatic {A} (thn : list (tree A)) (t : tree A) : tree A :=
  match t with
  | Node a ts => match ts with
                 | [] => Node a thn
                 | _ :: _ => Node a (map (andThenStatic thn) ts)
                 end
  end.

(** Shrinkable.cpp:289-307 andThen. *)
Fixpoint andThen {A} (thn : tree A -> list (tree A)) (t : tree A) : tree A :=
  match t with
  | Node a ts => match ts with
                 | [] => Node a (thn (Node a ts))
                 | _ :: _ => Node a (map (andThen thn) ts)
                 end
  end.

(** Shrinkable.cpp:309-316 take. The transform of line 314 is fused with the stream take of line 313. *)
Fixpoint take_tree {A} (n : Z) (t : tree A) : tree A :=
  match t with
  | Node a ts =>
      Node a ((fix go (k : Z) (ts : list (tree A)) : list (tree A) :=
                 match ts with
                 | [] => []
                 | s :: r => if (k =? 0)%Z then [] else take_tree n s :: go (k - 1)%Z r
                 end) n ts)
  end.
