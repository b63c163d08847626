(** Vocabulary for statements about shrink trees, independent of the operations on them. *)
From Coq Require Import List ZArith.
From Verif Require Import Base TreeModel.
Import ListNotations.

(** The node reached by following shrink choices (0-based index of the candidate at each level). *)
Fixpoint node_at {A} (t : tree A) (p : list nat) : option (tree A) :=
  match p with
  | [] => Some t
  | i :: q => match t with
              | Node _ ts => match nth_error ts i with
                             | Some s => node_at s q
                             | None => None
                             end
              end
  end.

(** The value reached by following shrink choices. *)
Definition value_at {A} (t : tree A) (p : list nat) : option A := option_map root (node_at t p).

(** The number of candidates offered after following shrink choices. *)
Definition width_at {A} (t : tree A) (p : list nat) : option nat :=
  option_map (fun s => length (shrinks s)) (node_at t p).

(** All values in the tree, depth first. *)
Fixpoint values {A} (t : tree A) : list A :=
  match t with Node a ts => a :: flat_map values ts end.

(** All nodes, depth first. *)
Fixpoint nodes {A} (t : tree A) : list (tree A) :=
  match t with Node a ts => Node a ts :: flat_map nodes ts end.

(** All sequences of values met on the way from the root to some node, depth first. *)
Fixpoint walks {A} (t : tree A) : list (list A) :=
  match t with Node a ts => [a] :: map (cons a) (flat_map walks ts) end.

(** [s] is reachable from [t] by zero or more shrink steps. *)
Inductive reach {A} : tree A -> tree A -> Prop :=
| reach_refl : forall t, reach t t
| reach_step : forall t c s, In c (shrinks t) -> reach c s -> reach t s.

(** Number of nodes. *)
Fixpoint tsize {A} (t : tree A) : nat :=
  match t with Node _ ts => S (list_sum (map tsize ts)) end.

(** Length of the longest shrink sequence. *)
Fixpoint tdepth {A} (t : tree A) : nat :=
  match t with Node _ ts => list_max (map (fun s => S (tdepth s)) ts) end.

(** Every node satisfies [P]. *)
Definition all_nodes {A} (P : tree A -> Prop) (t : tree A) : Prop := forall s, reach t s -> P s.

(** Every value satisfies [P]. *)
Definition all_values {A} (P : A -> Prop) (t : tree A) : Prop := forall s, reach t s -> P (root s).

(** What a candidate contributes to a stream filtered with tolerance [tol]: itself if accepted, otherwise
    what its first [tol] shrinks contribute (all of them when [tol] is negative). *)
Fixpoint survivors {A} (crit : A -> bool) (tol : Z) (t : tree A) : list (tree A) :=
  match t with
  | Node a ts =>
      if crit a then [Node a ts]
      else (fix go (k : Z) (ts : list (tree A)) : list (tree A) :=
              match ts with
              | [] => []
              | s :: r => if (k =? 0)%Z then [] else survivors crit tol s ++ go (k - 1)%Z r
              end) tol ts
  end.

(** [t'] is [t] with every level of candidates replaced by its survivors. *)
Inductive filtered {A} (crit : A -> bool) (tol : Z) : tree A -> tree A -> Prop :=
| Filtered : forall a ts ts',
    crit a = true ->
    Forall2 (filtered crit tol) (flat_map (survivors crit tol) ts) ts' ->
    filtered crit tol (Node a ts) (Node a ts').
