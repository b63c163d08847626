(** What generators are meant to give, in terms of values only. *)
From Coq Require Import List Bool.
From Verif Require Import Base RandomModel SharingModel.
Import ListNotations.
Local Open Scope list_scope.

Fixpoint gall {E A} (ms : list (G E A)) : G E (list A) :=
  match ms with
  | [] => gret []
  | m :: r => gbind m (fun a => gbind (gall r) (fun l => gret (a :: l)))
  end.
Fixpoint gretry {E A} (fuel : nat) (m : G E A) (crit : A -> bool) : G E A :=
  match fuel with
  | O => fun _ => OutOfFuel
  | S fuel' => gbind m (fun v => if crit v then gret v else gretry fuel' m crit)
  end.

(** The value the generator is meant to give; [made] are the values that the objects made with the generators had when they were made. *)
Fixpoint meant {E V} (fuel : nat) (made : list V) (g : gexp E V) {struct g} : G E V :=
  match g with
  | XNew g => g
  | XSame l => gfail (match nth_error made l with Some v => Ok v | None => UB end)
  | XOneOf choose gs => gbind choose (fun i => nth i (map (meant fuel made) gs) (fun _ => UB))
  | XFilter crit g => gretry fuel (meant fuel made g) crit
  | XMap f g => gbind (meant fuel made g) (fun v => gret (fst (f v)))
  | XConstruct _ gs ctor => gbind (gall (map (meant fuel made) gs)) (fun vs => gret (fst (ctor vs)))
  end.

(** [n] times. *)
Definition times {E A} (n : nat) (m : G E A) : G E (list A) := gall (repeat m n).

(** Every object it gives is a new one. *)
Fixpoint fresh {E V} (g : gexp E V) : Prop :=
  match g with
  | XNew _ | XMap _ _ | XConstruct _ _ _ => True
  | XSame _ => False
  | XOneOf _ gs => (fix all (l : list (gexp E V)) := match l with [] => True | x :: r => fresh x /\ all r end) gs
  | XFilter _ g => fresh g
  end.

(** The constructor does not change what the given parameter refers to. *)
Definition keeps {V} (ctor : list V -> V * list V) (i : nat) : Prop :=
  forall vs, length (snd (ctor vs)) = length vs /\ nth_error (snd (ctor vs)) i = nth_error vs i.

(** Constructors and transformers change only objects made for them, and the objects made with the generators are among [n]. *)
Fixpoint harmless {E V} (n : nat) (g : gexp E V) : Prop :=
  match g with
  | XNew _ => True
  | XSame l => l < n
  | XOneOf _ gs => (fix all (l : list (gexp E V)) := match l with [] => True | x :: r => harmless n x /\ all r end) gs
  | XFilter _ g => harmless n g
  | XMap f g => harmless n g /\ (fresh g \/ forall v, snd (f v) = v)
  | XConstruct ref gs ctor =>
      (fix all (l : list (gexp E V)) := match l with [] => True | x :: r => harmless n x /\ all r end) gs /\
      (forall vs, length (snd (ctor vs)) = length vs) /\
      forall i g, nth_error ref i = Some true -> nth_error gs i = Some g -> fresh g \/ keeps ctor i
  end.

(** Values and engine only. *)
Definition observed {E V A} (x : res (A * store V * rst E)) : res (A * rst E) :=
  match x with Ok (a, _, r) => Ok (a, r) | UB => UB | Throw e => Throw e | OutOfFuel => OutOfFuel end.
