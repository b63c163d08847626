(** Trees of boxes as the engine's draws spell them: the number of children of each box in preorder. *)
From Coq Require Import List ZArith Bool.
From Verif Require Import Base TreeModel RandomModel ListSpec RecursiveModel.
Import ListNotations.

(** Numbers of children are drawn one after the other: of a box, then of all boxes below its first child, and so on. *)
Inductive grown {E} (mn mx : Z) : rst E -> list box -> rst E -> Prop :=
| grown_nil : forall r, grown mn mx r [] r
| grown_cons : forall r n r1 cs r2 ts r3, draw mn mx r = Ok (n, r1) -> grown mn mx r1 cs r2 -> Z.of_nat (length cs) = n -> grown mn mx r2 ts r3 ->
    grown mn mx r (Box cs :: ts) r3.

(** The number of boxes, the depth, and that all boxes have between [mn] and [mx] children. *)
Fixpoint boxes (b : box) : nat := match b with Box cs => S (list_sum (map boxes cs)) end.
Fixpoint depth (b : box) : nat := match b with Box cs => S (list_max (map depth cs)) end.
Inductive within (mn mx : Z) : box -> Prop :=
| within_box : forall cs, (mn <= Z.of_nat (length cs) <= mx)%Z -> Forall (within mn mx) cs -> within mn mx (Box cs).

(** The state of the engine after [k] draws of a number between [mn] and [mx], the number drawn next, and the sum of the first [k], each less one. *)
Fixpoint after {E} (mn mx : Z) (r : rst E) (k : nat) : rst E :=
  match k with O => r | S k' => snd (unif E mn mx (after mn mx r k')) end.
Definition drawn {E} (mn mx : Z) (r : rst E) (k : nat) : Z := fst (unif E mn mx (after mn mx r k)).
Fixpoint balance {E} (mn mx : Z) (r : rst E) (k : nat) : Z :=
  match k with O => 0 | S k' => balance mn mx r k' + (drawn mn mx r k' - 1) end.

(** Some boxes are taken out, at all depths. *)
Inductive pruned : box -> box -> Prop :=
| pruned_box : forall cs sub cs', In sub (sublists cs) -> Forall2 pruned sub cs' -> pruned (Box cs) (Box cs').

(** With a level: boxes at depth [level] are empty and take no draw, all others have between [mn] and [mx] children. *)
Inductive leveled (mn mx : Z) : nat -> box -> Prop :=
| leveled_end : leveled mn mx 0 (Box [])
| leveled_box : forall n cs, (mn <= Z.of_nat (length cs) <= mx)%Z -> Forall (leveled mn mx n) cs -> leveled mn mx (S n) (Box cs).
Inductive grownTo {E} (mn mx : Z) : nat -> rst E -> list box -> rst E -> Prop :=
| grownTo_nil : forall level r, grownTo mn mx level r [] r
| grownTo_end : forall r ts r', grownTo mn mx 0 r ts r' -> grownTo mn mx 0 r (Box [] :: ts) r'
| grownTo_cons : forall level r n r1 cs r2 ts r3, draw mn mx r = Ok (n, r1) -> grownTo mn mx level r1 cs r2 -> Z.of_nat (length cs) = n ->
    grownTo mn mx (S level) r2 ts r3 -> grownTo mn mx (S level) r (Box cs :: ts) r3.
(** 1 + mx + ... + mx^level *)
Fixpoint powers (mx : nat) (level : nat) : nat := match level with O => 1 | S n => 1 + mx * powers mx n end.
