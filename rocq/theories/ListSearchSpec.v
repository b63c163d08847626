(** What the search for a simplest failing list is expected to find. *)
From Coq Require Import List.
From Verif Require Import Base TreeModel TreeSpec ListSpec.
Import ListNotations.

(** Among the lists of at least [m] elements obtained from [l] by deletions: putting elements back keeps a failing list failing. *)
Definition stays_failing {X} (fails : list X -> Prop) (m : nat) (l : list X) : Prop :=
  forall a b, In b (sublists l) -> In a (sublists b) -> m <= length a -> fails a -> fails b.

(** No single element of [r] can be deleted. *)
Definition needs_all {X} (fails : list X -> Prop) (r : list X) : Prop :=
  forall a x b, r = a ++ x :: b -> ~ fails (a ++ b).

(** [r] cannot be made smaller: it has the least size allowed, or needs all its elements. *)
Definition minimal_list {X} (fails : list X -> Prop) (m : nat) (r : list X) : Prop :=
  length r = m \/ needs_all fails r.

(** [p] is the shortest failing one among the prefixes of [l] of at least [m] elements. *)
Definition shortest_prefix {X} (fails : list X -> Prop) (m : nat) (l p : list X) : Prop :=
  exists k, p = firstn k l /\ m <= k <= length l /\ fails p /\ forall j, m <= j < k -> ~ fails (firstn j l).

(** The same for the prefixes of at least [m] elements only. *)
Definition prefixes_stay_failing {X} (fails : list X -> Prop) (m : nat) (l : list X) : Prop :=
  forall j k, m <= j -> j <= k -> k <= length l -> fails (firstn j l) -> fails (firstn k l).
