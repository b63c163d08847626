(** Model of the byte string shrinker (proptest/shrinker/string.cpp).  A string is the list of its chars. *)
From Coq Require Import List ZArith Bool.
From Verif Require Import Base TreeModel BinSearchModel ListModel.
Import ListNotations.
Local Open Scope Z_scope.

(** std::string::substr(pos, count). (string.cpp:10, 21.) *)
Definition substr {X} (s : list X) (pos count : Z) : res (list X) :=
  if size s <? pos then Throw EOutOfRange
  else Ok (firstn (Z.to_nat (Z.min count (size s))) (skipn (Z.to_nat pos) s)).

(** Shrinkable.cpp:61-75 map with a transformer that may have an abnormal outcome. *)
Definition mapTreeM {A B} (f : A -> res B) (t : tree A) : res (tree B) :=
  flatMapM (fun a => do b <- f a; Ok (make_shrinkable b)) t.

(** string.cpp:14-24: the continuation that shrinks the front. *)
Definition shrinkStringFront {X} (minSize : Z) (shr : tree (list X)) : res (list (tree (list X))) :=
  let maxSizeCopy := size (root shr) in
  if maxSizeCopy =? minSize then Ok []
  else do r <- binarySearchU (wrapU 64 (maxSizeCopy - minSize));
       do t <- mapTreeM (fun value => substr (root shr) (wrapU 64 (minSize + value))
                                             (wrapU 64 (maxSizeCopy - (minSize + value)))) r;
       Ok (shrinks t).

(** string.cpp:6-25 shrinkString. *)
Definition shrinkString {X} (str : list X) (minSize : Z) : res (tree (list X)) :=
  do r <- binarySearchU (wrapU 64 (size str - minSize));
  do rear <- mapTreeM (fun sz => substr str 0 (wrapU 64 (sz + minSize))) r;
  concatM (shrinkStringFront minSize) rear.
