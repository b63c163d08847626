(** Vocabulary for products. *)
From Coq Require Import List.
From Verif Require Import TreeModel TreeSpec.
Import ListNotations.

(** All ways to pick one entry from each list. *)
Fixpoint product {X} (ls : list (list X)) : list (list X) :=
  match ls with
  | [] => [[]]
  | l :: r => flat_map (fun x => map (cons x) (product r)) l
  end.

(** [w] is [v] with exactly one component moved to one of its own shrinks. *)
Definition one_component_step {U} (v w : list (tree U)) : Prop :=
  exists v1 e e' v2, v = v1 ++ e :: v2 /\ w = v1 ++ e' :: v2 /\ In e' (shrinks e).

Definition one_side_step {A B} (v w : tree A * tree B) : Prop :=
  (In (fst w) (shrinks (fst v)) /\ snd w = snd v) \/ (fst w = fst v /\ In (snd w) (shrinks (snd v))).
