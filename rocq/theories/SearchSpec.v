(** What the search for a simplest failing argument is expected to do, and find. *)
From Coq Require Import List ZArith Bool.
From Verif Require Import Base TreeModel TreeSpec RandomModel IntegralModel IntegralSpec.
Import ListNotations.
Local Open Scope Z_scope.

(** Greedy search.  [scan fails cs tried found]: the candidates [cs] are tried in order; at the first one that fails the
    search moves to it, for good, and goes on with its own shrinks.  [tried] are the values tried, in order; [found] is
    the last candidate that failed, if any did. *)
Inductive scan {A} (fails : A -> Prop) : list (tree A) -> list A -> option (tree A) -> Prop :=
| scan_end : scan fails [] [] None
| scan_pass : forall c cs tried found, ~ fails (root c) -> scan fails cs tried found -> scan fails (c :: cs) (root c :: tried) found
| scan_fail : forall c cs tried found, fails (root c) -> scan fails (shrinks c) tried found ->
    scan fails (c :: cs) (root c :: tried) (Some (match found with Some u => u | None => c end)).

(** Where the search from [t] ends. *)
Definition ending {A} (t : tree A) (found : option (tree A)) : tree A := match found with Some u => u | None => t end.

(** [x] lies on the way from [c] to [v], [v] included. *)
Definition on_way (c v x : Z) : Prop := c <= x <= v \/ v <= x <= c.

(** [x] is at most as far from [c] as [y]. *)
Definition nearer (c x y : Z) : Prop := Z.abs (x - c) <= Z.abs (y - c).

(** On the way from [c] to [v]: once [fails] holds it holds for everything further away. *)
Definition monotone (fails : Z -> Prop) (c v : Z) : Prop :=
  forall x y, on_way c v x -> on_way c v y -> nearer c x y -> fails x -> fails y.

(** [k] is the boundary: it fails, and nothing nearer to [c] does. *)
Definition boundary (fails : Z -> Prop) (c v k : Z) : Prop :=
  on_way c v k /\ fails k /\ forall x, on_way c v x -> Z.abs (x - c) < Z.abs (k - c) -> ~ fails x.

(** The range of a generator of integers that can be used (see C04 for ranges of char). *)
Definition usable (ty : ity) (min max : Z) : Prop :=
  tmin ty <= min /\ min <= max /\ max <= tmax ty /\ ~ (ty = TChar /\ min < 0 <= max).
