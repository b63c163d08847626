(** Vocabulary for how likely a stateful test finds a failure. *)
From Coq Require Import String List ZArith QArith Bool.
From Verif Require Import Base TreeModel RandomModel ContainerModel ContextModel ContextSpec RunnerModel RunnerSpec ChanceSpec EndingSpec StatefulModel.
Import ListNotations.
Local Open Scope Q_scope.

(** User code that depends on its arguments only and leaves everything else as it is.  It may fail, but does not discard the run or end it early. *)
Definition tame {W X} (m : eff W X) : Prop := exists ops r, (forall w, m w = (ops, r, w)) /\ r <> inr EDiscard /\ r <> inr ESuccess.
(** Its value; none if it throws or one of its expectations fails. *)
Definition settles {W X} (w : W) (m : eff W X) : option X :=
  match m w with (ops, inl x, _) => match failed_expectations ops with [] => Some x | _ => None end | _ => None end.

(** All values the program can end with satisfy [P]. *)
Fixpoint leaves {A} (P : A -> Prop) (p : plan A) : Prop :=
  match p with Ends (Ok a) => P a | Ends _ => True | Draws lo hi next => forall z, (lo <= z <= hi)%Z -> leaves P (next z) end.

(** The probability that [n] actions drawn one after the other all succeed, each in the state left by those before, and the last state is accepted. *)
Fixpoint outlasts {A S} (step : A -> S -> option S) (ok : S -> bool) (pa : plan A) (n : nat) (st : S) : Q :=
  match n with
  | O => tells ok st
  | S n' => mean pa (onValue (fun a => match step a st with Some st' => outlasts step ok pa n' st' | None => 0 end))
  end.
(** With a number of actions between [mn] and [mx], all equally likely, from the state made of a drawn object. *)
Definition survival {A S O} (step : A -> S -> option S) (ok : S -> bool) (start : O -> option S) (mn mx : Z) (po : plan (O + err)) (pa : plan A) : Q :=
  mean po (onValue (fun x => match x with
    | inl o => match start o with Some st => average mn mx (fun k => outlasts step ok pa (Z.to_nat k) st) | None => 0 end
    | inr _ => 0 end)).

(** What an action does to object and model. *)
Definition actionStep {O M W} (w : W) (a : action O M W) (st : O * M) : option (O * M) := settles w (a_func a (fst st) (snd st)).
Definition checkOk {O M W} (w : W) (post : option (O -> M -> eff W unit)) (st : O * M) : bool :=
  match post with None => true | Some f => match settles w (f (fst st) (snd st)) with Some _ => true | None => false end end.
(** A class-based action is passed over if its precondition does not hold, and has to return true. *)
Definition classStep {O M W} (w : W) (a : caction O M W) (st : O * M) : option (O * M) :=
  match settles w (precondition2 a (fst st) (snd st)) with
  | Some true => match settles w (run2 a (fst st) (snd st)) with Some (o, m, true) => Some (o, m) | _ => None end
  | Some false => Some st
  | None => None
  end.
(** The same without a model. *)
Definition classStep1 {O M W} (w : W) (a : caction O M W) (o : O) : option O :=
  match settles w (precondition1 a o) with
  | Some true => match settles w (run1 a o) with Some (o', true) => Some o' | _ => None end
  | Some false => Some o
  | None => None
  end.
Definition accepts {S} (_ : S) : bool := true.

(** The actions of a list one after the other, as long as they succeed. *)
Fixpoint walks {A S} (step : A -> S -> option S) (l : list A) (st : S) : option S :=
  match l with [] => Some st | a :: l' => match step a st with Some st' => walks step l' st' | None => None end end.
Definition walksWell {A S} (step : A -> S -> option S) (ok : S -> bool) (l : list A) (st : S) : bool := match walks step l st with Some st' => ok st' | None => false end.
(** The list begins with elements satisfying these conditions, one after the other. *)
Fixpoint begins {A} (evs : list (A -> bool)) (l : list A) : bool :=
  match evs, l with [], _ => true | ev :: evs', a :: l' => andb (ev a) (begins evs' l') | _ :: _, [] => false end.
