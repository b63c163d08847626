(** Vocabulary for when and how often callbacks are called. *)
From Coq Require Import List ZArith Bool.
From Verif Require Import Base TreeModel TreeSpec RandomModel EffModel.
Import ListNotations.

(** [t] is the finite tree [u] computed lazily: computing shrinks or a tail, in whatever state and however often, gives
    the same elements and changes nothing. *)
Fixpoint denotes {E A} (t : etree E A) (u : tree A) {struct u} : Prop :=
  match u with
  | Node a us =>
      eroot t = a /\
      forall r, exists s, eshrinks t r = Ok (s, r) /\
        (fix go (us : list (tree A)) (s : estream E A) : Prop :=
           match us with
           | [] => s = ENil
           | v :: vs => exists h tl, s = ECons h tl /\ denotes h v /\ forall r, exists s', tl r = Ok (s', r) /\ go vs s'
           end) us s
  end.
Fixpoint denotes_s {E A} (us : list (tree A)) (s : estream E A) : Prop :=
  match us with
  | [] => s = ENil
  | v :: vs => exists h tl, s = ECons h tl /\ denotes h v /\ forall r, exists s', tl r = Ok (s', r) /\ denotes_s vs s'
  end.
(** A computation of a stream, computed lazily. *)
Definition denotes_g {E A} (us : list (tree A)) (g : G E (estream E A)) : Prop :=
  forall r, exists s, g r = Ok (s, r) /\ denotes_s us s.

(** A computation of a shrinkable that always gives [u], computed lazily, and changes nothing. *)
Definition yields {E A} (g : G E (etree E A)) (u : tree A) : Prop := forall r, exists t, g r = Ok (t, r) /\ denotes t u.

(** Two lazy shrinkables no observer can tell apart: same value; computing shrinks (or a tail) has the same effect in
    every state, and gives indistinguishable streams or the same error. *)
Fixpoint same {E A} (t t' : etree E A) {struct t} : Prop :=
  match t, t' with
  | ENode a shr, ENode a' shr' =>
      a = a' /\ forall r, match shr r, shr' r with
                          | Ok (s, q), Ok (s', q') => q = q' /\ same_s s s'
                          | UB, UB => True
                          | Throw e, Throw e' => e = e'
                          | OutOfFuel, OutOfFuel => True
                          | _, _ => False
                          end
  end
with same_s {E A} (s s' : estream E A) {struct s} : Prop :=
  match s, s' with
  | ENil, ENil => True
  | ECons h tl, ECons h' tl' =>
      same h h' /\ forall r, match tl r, tl' r with
                             | Ok (s, q), Ok (s', q') => q = q' /\ same_s s s'
                             | UB, UB => True
                             | Throw e, Throw e' => e = e'
                             | OutOfFuel, OutOfFuel => True
                             | _, _ => False
                             end
  | _, _ => False
  end.
Definition same_g {E A} (g g' : G E (etree E A)) : Prop :=
  forall r, match g r, g' r with
            | Ok (t, q), Ok (t', q') => q = q' /\ same t t'
            | UB, UB => True
            | Throw e, Throw e' => e = e'
            | OutOfFuel, OutOfFuel => True
            | _, _ => False
            end.

(** What is written down: calls of the callback, with its argument, and tests of the property. *)
Inductive event (A B : Type) : Type :=
| Called : A -> event A B
| Tested : B -> event A B.
Arguments Called {A B} _.
Arguments Tested {A B} _.

(** A state that is nothing but the record; whoever draws from it gets the lower end of the range. *)
Definition journal (A B : Type) : engine.
Proof.
  refine {| rst := list (event A B); unif := fun a _ r => (a, r) |}. intros a b r Hab. cbn. split; [apply Z.le_refl|exact Hab].
Defined.

(** A callback that writes its calls down. *)
Definition noting {A B X Y} (w : X -> event A B) (f : X -> Y) : X -> G (journal A B) Y :=
  fun x log => Ok (f x, log ++ [w x]).

(** A callback that may throw, and has no other effect. *)
Definition raising {E X Y} (f : X -> Y + err) : X -> G E Y :=
  fun x => match f x with inl y => gret y | inr e => gfail (Throw e) end.

(** The greedy search from a shrinkable, level by level: the candidates of [t] being [kids t], each level lists the node
    and the values tried there, in order; all but the last of a level pass, and the last one fails except on the last
    level.  The search ends at the value given last. *)
Inductive descent {A} (kids : tree A -> list (tree A)) (fails : A -> bool) : tree A -> list (tree A * list A) -> A -> Prop :=
| descent_stop : forall t, Forall (fun c => fails (root c) = false) (kids t) ->
    descent kids fails t [(t, map root (kids t))] (root t)
| descent_down : forall t pre c post levels v, kids t = pre ++ c :: post ->
    Forall (fun c => fails (root c) = false) pre -> fails (root c) = true -> descent kids fails c levels v ->
    descent kids fails t ((t, map root pre ++ [root c]) :: levels) v.

(** Reading on to the next element that [ok] accepts: what is read, and what is left. *)
Fixpoint reading {A} (ok : A -> bool) (l : list A) : list A * list A :=
  match l with
  | [] => ([], [])
  | x :: r => if ok x then ([x], r) else let (a, b) := reading ok r in (x :: a, b)
  end.

(** One element is read ahead, then the first is tested, and so on: the record of one level of the search, when the
    elements read are [l] and those tested are [tried]. *)
Fixpoint ahead {A Ev} (note : A -> list Ev) (say : A -> Ev) (ok : A -> bool) (l tried : list A) : list Ev :=
  match tried with
  | [] => []
  | x :: r => let (a, b) := reading ok l in flat_map note a ++ say x :: ahead note say ok b r
  end.
Definition level {A Ev} (note : A -> list Ev) (say : A -> Ev) (ok : A -> bool) (l tried : list A) : list Ev :=
  let (a, b) := reading ok l in flat_map note a ++ ahead note say ok b tried.

(** The calls in a record. *)
Definition calls {A B} (l : list (event A B)) : list A :=
  flat_map (fun e => match e with Called a => [a] | Tested _ => [] end) l.
(** The tests in a record. *)
Definition tests {A B} (l : list (event A B)) : list B :=
  flat_map (fun e => match e with Called _ => [] | Tested b => [b] end) l.

(** The elements looked at when a filter with tolerance [tol] replaces the candidate [t] by its survivors. *)
Fixpoint visited {A} (crit : A -> bool) (tol : Z) (t : tree A) : list A :=
  match t with
  | Node a ts =>
      a :: if crit a then []
           else (fix go (k : Z) (ts : list (tree A)) : list A :=
                   match ts with
                   | [] => []
                   | s :: r => if (k =? 0)%Z then [] else visited crit tol s ++ go (k - 1)%Z r
                   end) tol ts
  end.

(** The first error met along a list. *)
Fixpoint firstError {A B} (f : A -> B + err) (l : list A) : option err :=
  match l with
  | [] => None
  | x :: r => match f x with inl _ => firstError f r | inr e => Some e end
  end.
