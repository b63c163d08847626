(** Vocabulary for shrinkables whose shrinks use the engine. *)
From Coq Require Import List ZArith.
From Verif Require Import Base TreeModel RandomModel EffModel.
Import ListNotations.

(** [c] is an element of stream [s], the tails being evaluated in arbitrary engine states. *)
Inductive selem {E A} : estream E A -> etree E A -> Prop :=
| selem_here : forall h tl, selem (ECons h tl) h
| selem_later : forall h tl r s r' c, tl r = Ok (s, r') -> selem s c -> selem (ECons h tl) c.

(** [s] is reachable from [t] by shrinking, the shrinks being evaluated in arbitrary engine states. *)
Inductive ereach {E A} : etree E A -> etree E A -> Prop :=
| ereach_refl : forall t, ereach t t
| ereach_step : forall t r st r' c s, eshrinks t r = Ok (st, r') -> selem st c -> ereach c s -> ereach t s.

(** Every value that can ever be seen. *)
Definition eall {E A} (P : A -> Prop) (t : etree E A) : Prop := forall s, ereach t s -> P (eroot s).

(** Evaluating shrinks never fails, anywhere. *)
Fixpoint etotal {E A} (t : etree E A) {struct t} : Prop :=
  match t with ENode _ shr => forall r, match shr r with Ok (s, _) => stotal s | _ => False end end
with stotal {E A} (s : estream E A) {struct s} : Prop :=
  match s with
  | ENil => True
  | ECons h tl => etotal h /\ forall r, match tl r with Ok (s', _) => stotal s' | _ => False end
  end.

(** No shrinks, whatever the engine state. *)
Definition eleaf {E A} (t : etree E A) : Prop := forall r, exists r', eshrinks t r = Ok (ENil, r').

(** Whether there are shrinks does not depend on the engine state. *)
Definition steady {E A} (t : etree E A) : Prop :=
  forall u, ereach t u -> eleaf u \/ forall r, exists h tl r', eshrinks u r = Ok (ECons h tl, r').

(** The generators made by [g2] always return, and evaluating the shrinks they offer never fails. *)
Definition g2_total {E T U} (g2 : T -> egen E U) : Prop := forall t r, exists tU r', g2 t r = Ok (tU, r') /\ etotal tU.

(** Starting from [t], each element of the list is a result of the generator made from its predecessor's value,
    the draws being made in sequence. *)
Inductive chained {E T} (gen2gen : T -> egen E T) : etree E T -> rst E -> list (etree E T) -> rst E -> Prop :=
| chained_nil : forall t r, chained gen2gen t r [] r
| chained_cons : forall t r u r1 l r2, gen2gen (eroot t) r = Ok (u, r1) -> chained gen2gen u r1 l r2 ->
    chained gen2gen t r (u :: l) r2.

(** Neighbours are related. *)
Fixpoint linked {T} (R : T -> T -> Prop) (l : list T) : Prop :=
  match l with
  | a :: (b :: _) as r => R a b /\ linked R r
  | _ => True
  end.

(** What an observer sees of a stream, and of the candidates of [t], starting in engine state [r]. *)
Fixpoint sroots {E A} (s : estream E A) (r : rst E) : list A :=
  match s with
  | ENil => []
  | ECons h tl => eroot h :: match tl r with Ok (s', r') => sroots s' r' | _ => [] end
  end.
Definition candidates {E A} (t : etree E A) (r : rst E) : list A :=
  match eshrinks t r with Ok (s, r') => sroots s r' | _ => [] end.
