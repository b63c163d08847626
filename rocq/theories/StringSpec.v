(** Vocabulary for string shrinking. *)
From Coq Require Import List Arith.
Import ListNotations.

(** The characters from position [i] up to but not including position [k]. *)
Definition between_positions {X} (i k : nat) (s : list X) : list X := firstn (k - i) (skipn i s).

(** The prefixes of [m] or more characters; with each prefix of [k] characters, its non-empty suffixes that
    start at position [m] or later. *)
Definition string_shrinks {X} (m : nat) (s : list X) : list (list X) :=
  flat_map (fun k => firstn k s :: map (fun i => between_positions i k s) (seq m (k - m)))
           (seq m (S (length s) - m)).

(** [v] is a contiguous part of [s]. *)
Definition infix {X} (v s : list X) : Prop := exists a b, s = a ++ v ++ b.
