(** What is said about generator objects: callables that share nothing, the settings a chain of setters leaves, which
    variables a statement names. *)
From Coq Require Import List ZArith Bool.
From Verif Require Import Base TreeModel RandomModel ContainerModel SettingsModel.
Import ListNotations.

(** A callable without pointers and references: all its state is its own. *)
Fixpoint owned {V U} (f : fn V U) : Prop :=
  match f with
  | FEmpty | FUser _ _ => True
  | FArbi _ _ g0 g1 => owned g0 /\ owned g1
  | FPtr _ | FRef _ | FDerive _ _ => False
  end.

(** The value given last, or [d]. *)
Fixpoint lastGiven {A X} (gives : A -> option X) (ss : list A) (d : X) : X :=
  match ss with
  | [] => d
  | a :: r => lastGiven gives r (match gives a with Some x => x | None => d end)
  end.
Definition givesMin {U} (a : setter U) : option Z :=
  match a with SetMin n | SetSize n | SetSize2 n _ => Some n | _ => None end.
Definition givesMax {U} (a : setter U) : option Z :=
  match a with SetMax n | SetSize n | SetSize2 _ n => Some n | _ => None end.
Definition givesKey {U} (a : setter U) : option (source U) := match a with SetKey g => Some g | _ => None end.
Definition givesElem {U} (a : setter U) : option (source U) := match a with SetElem g => Some g | _ => None end.
Definition setsGenerator {U} (a : setter U) : Prop := match a with SetKey _ | SetElem _ => True | _ => False end.

(** The setters of the chain that reach the object the chain starts from: those up to the first that sets a generator. *)
Fixpoint reaching {U} (ss : list (setter U)) : list (setter U) :=
  match ss with
  | [] => []
  | (SetKey _ | SetElem _) as a :: _ => [a]
  | a :: r => a :: reaching r
  end.

(** The variables a statement names. *)
Definition namesIn {U} (g : source U) : list nat := match g with FromUser _ _ => [] | FromVar y => [y] end.
Definition namesOf {U} (a : setter U) : list nat := match a with SetKey g | SetElem g => namesIn g | _ => [] end.
Definition names {E V U} (c : stmt E V U) : list nat :=
  match c with
  | SNew _ g0 g1 => namesIn g0 ++ namesIn g1
  | SFun g | SGen g => namesIn g
  | SCopy y ss | SBind y ss | SChain y ss | SDerive y ss _ | SRefer y ss => y :: flat_map namesOf ss
  | SUse y | SForAll y _ _ _ | SDrop y => [y]
  | SDefaults _ => []
  end.
Definition unnamed {E V U} (y : nat) (p : list (stmt E V U)) : Prop := forall c, In c p -> ~ In y (names c).

(** The object of variable [y]. *)
Definition objectOf {E V U} (q : st E V U) (y : nat) : option (fn V U) :=
  match nth_error (vars q) y with
  | Some v => match nth_error (hp q) (vloc v) with Some (Some f) => Some f | _ => None end
  | None => None
  end.

(** What y(rand) gives with the engine in state [r], and the state it leaves the engine in. *)
Definition observe {E V U} user seq seq2 lt (fuel : nat) (q : st E V U) (y : nat) (r : rst E) : res (tree V * rst E) :=
  match exec user seq seq2 lt fuel (SUse y) {| hp := hp q; vars := vars q; defaults := defaults q; rnd := r; out := [] |} with
  | Ok q' => match out q' with [t] => Ok (t, rnd q') | _ => OutOfFuel end
  | UB => UB | Throw e => Throw e | OutOfFuel => OutOfFuel
  end.

(** States of programs. *)
Definition reachable {E V U} user seq seq2 lt (q : st E V U) : Prop :=
  exists fuel p r z, run user seq seq2 lt fuel p (begin r z) = Ok q.

(** The callable a setter gives. *)
Definition valueOf {E V U} (q : st E V U) (g : source U) : option (fn V U) :=
  match g with FromUser c u => Some (FUser c u) | FromVar y => objectOf q y end.
Definition keyFn {E V U} (q : st E V U) (a : setter U) : option (fn V U) := match a with SetKey g => valueOf q g | _ => None end.
Definition elemFn {E V U} (q : st E V U) (a : setter U) : option (fn V U) := match a with SetElem g => valueOf q g | _ => None end.

(** The object a list of setters makes of an object: for each setting the value given last. *)
Definition settled {E V U} (q : st E V U) (ss : list (setter U)) (f : fn V U) : option (fn V U) :=
  match f with
  | FArbi k z g0 g1 =>
      let z' := {| minSize := lastGiven givesMin ss (minSize z); maxSize := lastGiven givesMax ss (maxSize z) |} in
      match k with
      | KMap => Some (FArbi k z' (lastGiven (keyFn q) ss g0) (lastGiven (elemFn q) ss g1))
      | _ => Some (FArbi k z' (lastGiven (elemFn q) ss g0) g1)
      end
  | _ => None
  end.

(** Callables of the user that keep no state. *)
Definition stateless {E V U} (user : nat -> U -> G E (tree V * U)) : Prop :=
  forall c u r t u' r', user c u r = Ok ((t, u'), r') -> u' = u.

(** No setter of the chain on [y] is given a generator that is the chained object itself. *)
Definition otherSources {E V U} (q : st E V U) (y : nat) (ss : list (setter U)) : Prop :=
  forall v y' v', nth_error (vars q) y = Some v -> In y' (flat_map namesOf ss) -> nth_error (vars q) y' = Some v' -> vloc v' <> vloc v.

(** The last setter sets a generator. *)
Definition lastSetsGenerator {U} (ss : list (setter U)) : Prop := exists r a, ss = r ++ [a] /\ setsGenerator a.
