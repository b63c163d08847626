(** Vocabulary for exceptions thrown while shrinking. *)
From Coq Require Import String List ZArith Bool.
From Verif Require Import Base TreeModel RandomModel TupleModel EffModel ContextModel RunnerModel RunnerSpec ThrowModel.
Import ListNotations.
Local Open Scope list_scope.

(** The view of RunnerModel.v: an exception thrown while shrinks are computed ends everything. *)
Fixpoint strict {E A} (t : xtree E A) {struct t} : etree E A :=
  match t with
  | XNode a shr => ENode a (fun r => match shr r with
                                     | Ok (inl s, r') => Ok (strict_s s, r')
                                     | Ok (inr e, _) => Throw e
                                     | UB => UB | Throw e => Throw e | OutOfFuel => OutOfFuel
                                     end)
  end
with strict_s {E A} (s : xstream E A) {struct s} : estream E A :=
  match s with
  | XNil => ENil
  | XCons h tl => ECons (strict h) (fun r => match tl r with
                                            | Ok (inl s, r') => Ok (strict_s s, r')
                                            | Ok (inr e, _) => Throw e
                                            | UB => UB | Throw e => Throw e | OutOfFuel => OutOfFuel
                                            end)
  end.
Definition strictly {E V W} (X : xproperty E V W) : property E V W :=
  {| func := func (base X);
     gens := map (fun g => gbind g (fun x => gret (match x with inl t => inl (strict t) | inr e => inr e end))) (xgens X);
     onStartup := onStartup (base X); onCleanup := onCleanup (base X); numRuns := numRuns (base X); maxDurationMs := maxDurationMs (base X);
     seed := seed (base X) |}.

(** Every exception that can be thrown when shrinks of [t] are computed, anywhere, in whatever state, satisfies [Q]. *)
Fixpoint xall {E A} (Q : err -> Prop) (t : xtree E A) {struct t} : Prop :=
  match t with
  | XNode _ shr => forall r, match shr r with Ok (inl s, _) => xall_s Q s | Ok (inr e, _) => Q e | Throw _ => False | _ => True end
  end
with xall_s {E A} (Q : err -> Prop) (s : xstream E A) {struct s} : Prop :=
  match s with
  | XNil => True
  | XCons h tl => xall Q h /\ forall r, match tl r with Ok (inl s, _) => xall_s Q s | Ok (inr e, _) => Q e | Throw _ => False | _ => True end
  end.
(** The same for all shrinkables a generator may return. *)
Definition shrinksThrow {E A} (Q : err -> Prop) (g : G E (xtree E A + err)) : Prop :=
  forall r t r', g r = Ok (inl t, r') -> xall Q t.
(** Every exception a generator may throw satisfies [Q]. *)
Definition genThrows {E A} (Q : err -> Prop) (g : G E (xtree E A + err)) : Prop :=
  forall r, match g r with Ok (inr e, _) => Q e | Throw _ => False | _ => True end.

(** Neither of the signals that change the course of a run. *)
Definition noSignal (e : err) : Prop := e <> ESuccess /\ e <> EDiscard.

(** A sequence of attempts: ordinary ones, passed or discarded, and failing ones that were announced and then lost,
    because shrinking them threw Success (the run counts as passed) or Discard (it is repeated). *)
Inductive course {E V W} (ev : env E) (X : xproperty E V W) : rs E V W -> list (kind * option reason) -> rs E V W -> Prop :=
| co_nil : forall s, course ev X s [] s
| co_step : forall s k s1 l s', history ev (plain X) s [k] s1 -> course ev X s1 l s' -> course ev X s ((k, None) :: l) s'
| co_lost : forall s why s1 e s2 k l s', falsifies ev (plain X) s why s1 -> (forall x, why <> RException x) ->
    xshrink ev X (with_rnd (rnd s) s1) = Ok (inr e, s2) -> (e = ESuccess /\ k = Passed \/ e = EDiscard /\ k = Discarded) ->
    course ev X (with_rnd (rnd s1) s2) l s' -> course ev X s ((k, Some why) :: l) s'.

(** The announcements of such a sequence, with the number of the run, [i] runs having passed before. *)
Fixpoint announcements (i : nat) (l : list (kind * option reason)) : list (nat * reason) :=
  match l with
  | [] => []
  | (k, o) :: r => match o with Some why => [(S i, why)] | None => [] end
                   ++ announcements (match k with Passed => S i | Discarded => i end) r
  end.

(** The verdict and the announcements of a run of which no part of shrinking throws. *)
Definition asX {V} (v : verdict V) : xverdict V :=
  match v with VPassed sm => XPassed sm | VTimedOut k sm => XTimedOut k sm | VFalsified _ _ rep => XFalsified rep end.
Definition announced {V} (v : verdict V) : list (nat * reason) :=
  match v with VFalsified t why _ => [(t, why)] | _ => [] end.

(** How a run ends that makes forAll return false: the failing attempt is announced and shrunk; or shrinking throws, the
    exception is announced too, and shrinking is tried once more, with what is left of the saved random state. *)
Inductive fails {E V W} (ev : env E) (X : xproperty E V W) : rs E V W -> list reason -> report V -> rs E V W -> Prop :=
| fa_once : forall s why s1 rep s', falsifies ev (plain X) s why s1 -> xshrink ev X (with_rnd (rnd s) s1) = Ok (inl rep, s') -> fails ev X s [why] rep s'
| fa_twice : forall s why s1 e s2 rep s', falsifies ev (plain X) s why s1 -> (forall x, why <> RException x) ->
    xshrink ev X (with_rnd (rnd s) s1) = Ok (inr e, s2) -> noSignal e -> e <> ENonStd ->
    xshrink ev X s2 = Ok (inl rep, s') -> fails ev X s [why; RException e] rep s'.

(** The run numbered [i] is not prevented by the time limit. *)
Definition inTime {E V W} (ev : env E) (P : property E V W) (i : nat) : Prop := maxDurationMs P = 0%Z \/ (elapsed ev i <= maxDurationMs P)%Z.
