(** What forAll tells about a property of one argument: nothing if it returns true, else the simplest arguments it reports. Used by C93. *)
From Coq Require Import List ZArith QArith Bool.
From Verif Require Import Base ContextModel RunnerModel RunnerSpec.
Import ListNotations.

Definition told {E V W} (x : res (verdict V * rs E V W)) : res (option (list V)) :=
  match x with
  | Ok (VFalsified _ _ rep, _) => Ok (Some (simplest_args rep))
  | Ok (VPassed _, _) => Ok None
  | Ok (VTimedOut _ _, _) => Ok None
  | UB => UB
  | Throw e => Throw e
  | OutOfFuel => OutOfFuel
  end.

(** The property holds for [a] exactly if [ok a]; it discards nothing, signals no success and throws only std::exceptions. *)
Definition decides {A V} (beh : list V -> list op * ures) (inj : A -> V) (ok : A -> bool) : Prop :=
  forall a, (bad beh [inj a] <-> ok a = false) /\
    snd (beh [inj a]) <> UThrow EDiscard /\ snd (beh [inj a]) <> UThrow ESuccess /\ snd (beh [inj a]) <> UThrow ENonStd.

(** Two outcomes: the first with probability [q]. *)
Definition split (q : Q) (first second : bool) : Q := (q * (if first then 1 else 0) + (1 - q) * (if second then 1 else 0))%Q.

(** The shortest prefix of [s] for which [ok] does not hold. *)
Fixpoint failing_prefix {A} (ok : list A -> bool) (before s : list A) : list A :=
  if ok before then match s with [] => before | x :: s' => failing_prefix ok (before ++ [x]) s' end else before.
