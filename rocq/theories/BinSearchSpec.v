(** Vocabulary for integer shrinking. *)
From Coq Require Import List ZArith.
From Verif Require Import Base TreeModel TreeSpec.
Import ListNotations.
Local Open Scope Z_scope.

(** lo, lo+1, ..., lo+n-1 *)
Fixpoint zseq (lo : Z) (n : nat) : list Z :=
  match n with O => [] | S m => lo :: zseq (lo + 1) m end.

(** All integers x with lo <= x <= hi, ascending. *)
Definition zrange (lo hi : Z) : list Z := zseq lo (Z.to_nat (hi - lo + 1)).

(** Every shrink step strictly decreases the magnitude and never changes sign. *)
Definition toward_zero (t : tree Z) : Prop :=
  all_nodes (fun s => Forall (fun c => Z.abs (root c) < Z.abs (root s) /\ 0 <= root c * root s) (shrinks s)) t.

(** Candidates offered together are ordered by increasing magnitude. *)
Fixpoint increasing_abs (l : list (tree Z)) : Prop :=
  match l with
  | [] => True
  | c :: r => Forall (fun d => Z.abs (root c) < Z.abs (root d)) r /\ increasing_abs r
  end.

(** Number of candidates offered at each node is at most [n]. *)
Definition width_le {A} (n : nat) (t : tree A) : Prop :=
  all_nodes (fun s => (length (shrinks s) <= n)%nat) t.

(** The integers from zero (included) to [v] (excluded), on whichever side of zero [v] is. *)
Definition sign_range (v : Z) : list Z := if 0 <=? v then zrange 0 (v - 1) else zrange (v + 1) 0.
