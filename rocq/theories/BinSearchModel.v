(** Model of the integer shrinkers (proptest/generator/util.cpp).
    The lazily produced streams are produced eagerly here, with all their arithmetic checked; recursion is
    bounded by fuel. *)
From Coq Require Import List ZArith Bool.
From Verif Require Import Base TreeModel.
Import ListNotations.
Local Open Scope Z_scope.

(** generator/util.cpp:14-24 genpos (int64_t).  `/` and `%` truncate towards zero. *)
Fixpoint genpos (fuel : nat) (min max : Z) : res (list (tree Z)) :=
  match fuel with
  | O => OutOfFuel
  | S fuel' =>
      do half <- chk64 (Z.quot min 2 + Z.quot max 2);
      do mid <- chk64 (half + (if negb (Z.rem min 2 =? 0) && negb (Z.rem max 2 =? 0) then 1 else 0));
      do min1 <- chk64 (min + 1);
      if min1 >=? max then Ok []
      else
        do min2 <- chk64 (min + 2);
        if min2 >=? max then Ok [make_shrinkable mid]
        else
          do inner <- genpos fuel' min mid;
          do tail <- genpos fuel' mid max;
          Ok (with_ (make_shrinkable mid) inner :: tail)
  end.

(** generator/util.cpp:26-36 genneg (int64_t). *)
Fixpoint genneg (fuel : nat) (min max : Z) : res (list (tree Z)) :=
  match fuel with
  | O => OutOfFuel
  | S fuel' =>
      do half <- chk64 (Z.quot min 2 + Z.quot max 2);
      do mid <- chk64 (half + (if negb (Z.rem min 2 =? 0) && negb (Z.rem max 2 =? 0) then -1 else 0));
      do min1 <- chk64 (min + 1);
      if min1 >=? max then Ok []
      else
        do min2 <- chk64 (min + 2);
        if min2 >=? max then Ok [make_shrinkable mid]
        else
          do inner <- genneg fuel' mid max;
          do tail <- genneg fuel' min mid;
          Ok (with_ (make_shrinkable mid) inner :: tail)
  end.

(** Fuel given to the searches: more than the number of times 2^64 can be halved. *)
Definition bs_fuel : nat := 65.

(** generator/util.cpp:8, 38-46 binarySearchShrinkable. *)
Definition binarySearch (value : Z) : res (tree Z) :=
  if value =? 0 then Ok (make_shrinkable value)
  else if value >? 0 then
    do s <- genpos bs_fuel 0 value;
    Ok (with_ (make_shrinkable value) ([make_shrinkable 0] ++ s))
  else
    do s <- genneg bs_fuel value 0;
    Ok (with_ (make_shrinkable value) ([make_shrinkable 0] ++ s)).

(** generator/util.cpp:54-64 genpos (uint64_t): all arithmetic modulo 2^64. *)
Fixpoint genposU (fuel : nat) (min max : Z) : res (list (tree Z)) :=
  match fuel with
  | O => OutOfFuel
  | S fuel' =>
      let mid := wrapU 64 (wrapU 64 (min / 2 + max / 2) +
                           (if negb (min mod 2 =? 0) && negb (max mod 2 =? 0) then 1 else 0)) in
      if wrapU 64 (min + 1) >=? max then Ok []
      else if wrapU 64 (min + 2) >=? max then Ok [make_shrinkable mid]
      else
        do inner <- genposU fuel' min mid;
        do tail <- genposU fuel' mid max;
        Ok (with_ (make_shrinkable mid) inner :: tail)
  end.

(** generator/util.cpp:66-76 genneg (uint64_t); never called with a reachable argument (value > 0 covers
    every non-zero unsigned value), kept for completeness. *)
Fixpoint gennegU (fuel : nat) (min max : Z) : res (list (tree Z)) :=
  match fuel with
  | O => OutOfFuel
  | S fuel' =>
      let mid := wrapU 64 (wrapU 64 (min / 2 + max / 2) +
                           (if negb (min mod 2 =? 0) && negb (max mod 2 =? 0) then -1 else 0)) in
      if wrapU 64 (min + 1) >=? max then Ok []
      else if wrapU 64 (min + 2) >=? max then Ok [make_shrinkable mid]
      else
        do inner <- gennegU fuel' mid max;
        do tail <- gennegU fuel' min mid;
        Ok (with_ (make_shrinkable mid) inner :: tail)
  end.

(** generator/util.cpp:48, 78-86 binarySearchShrinkableU. *)
Definition binarySearchU (value : Z) : res (tree Z) :=
  if value =? 0 then Ok (make_shrinkable value)
  else if value >? 0 then
    do s <- genposU bs_fuel 0 value;
    Ok (with_ (make_shrinkable value) ([make_shrinkable 0] ++ s))
  else
    do s <- gennegU bs_fuel value 0;
    Ok (with_ (make_shrinkable value) ([make_shrinkable 0] ++ s)).
