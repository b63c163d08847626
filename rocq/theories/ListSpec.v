(** Vocabulary for container shrinking. *)
From Coq Require Import List ZArith Arith.
From Verif Require Import Base TreeModel TreeSpec.
Import ListNotations.

(** All ways to delete elements, one entry per choice of surviving positions. *)
Fixpoint sublists {X} (l : list X) : list (list X) :=
  match l with
  | [] => [[]]
  | x :: r => map (cons x) (sublists r) ++ sublists r
  end.

(** Those keeping at least [m] elements. *)
Definition sublists_min {X} (m : nat) (l : list X) : list (list X) :=
  filter (fun s => m <=? length s) (sublists l).

(** The prefixes with at least [m] elements. *)
Definition prefixes_min {X} (m : nat) (l : list X) : list (list X) :=
  map (fun k => firstn k l) (seq m (S (length l) - m)).

(** The candidates of one round of bulk element shrinking: the j-th candidate puts the j-th shrink of every
    element that has one at that element's position, and the element itself where it has none. *)
Definition bulk_candidates {A} (v : list (tree A)) : list (list (tree A)) :=
  map (fun j => map (fun e => nth j (shrinks e) e) v)
      (seq 0 (list_max (map (fun e => length (shrinks e)) v))).

(** One step of element shrinking between lists of the same length: each element stays or moves to one of its
    shrinks, and at least one moves. *)
Definition bulk_step {A} (v w : list (tree A)) : Prop :=
  Forall2 (fun a b => b = a \/ In b (shrinks a)) v w /\
  exists i a b, nth_error v i = Some a /\ nth_error w i = Some b /\ In b (shrinks a).

(** Total number of shrink tree nodes of the elements. *)
Definition weight {A} (v : list (tree A)) : nat := list_sum (map tsize v).

(** A strict total order given by its boolean comparison, as std::set and std::map require. *)
Record strict_order {A} (lt : A -> A -> bool) : Prop := {
  so_irrefl : forall a, lt a a = false;
  so_trans : forall a b c, lt a b = true -> lt b c = true -> lt a c = true
}.

(** Strictly ascending. *)
Fixpoint ascending {A} (lt : A -> A -> bool) (l : list A) : Prop :=
  match l with
  | [] => True
  | x :: r => Forall (fun y => lt x y = true) r /\ ascending lt r
  end.

(** One list shrink step: elements deleted, or elements shrunk in place. *)
Definition list_step {A} (v w : list (tree A)) : Prop :=
  (length w < length v /\ In w (sublists v)) \/ bulk_step v w.
