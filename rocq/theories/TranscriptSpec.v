(** Vocabulary for what forAll prints. *)
From Coq Require Import String List ZArith Bool.
From Verif Require Import Base RandomModel TupleModel EffModel ContextModel ContextSpec RunnerModel RunnerSpec PrintModel TranscriptModel.
Import ListNotations.
Local Open Scope list_scope.

(** Everything written to one of the two streams. *)
Definition is_on (st : stream) (p : stream * text) : bool := match st, fst p with Cout, Cout | Cerr, Cerr => true | _, _ => false end.
Definition on (st : stream) (out : printed) : text := flat_map snd (filter (is_on st) out).

(** A text that starts with, ends with, another. *)
Definition startsWith (p t : text) : Prop := exists r, t = p ++ r.
Definition endsWith (q t : text) : Prop := exists r, t = r ++ q.
Definition oneLine (t : text) : Prop := ~ In 10%Z t.

(** A step of shrinking, as told by the output: position, tuple after the step, expectations that failed. *)
Record shrinkStep (V : Type) := { at_ : nat; tuple : list V; unmet : list failure }.
Arguments at_ {V} _.
Arguments tuple {V} _.
Arguments unmet {V} _.

(** Texts with a separator between them; a tuple; a failed expectation, and several of them. *)
Fixpoint joined (sep : text) (l : list text) : text :=
  match l with
  | [] => []
  | t :: r => match r with [] => t | _ => t ++ sep ++ joined sep r end
  end.
Definition tupleText {V} (w : wording V) (l : list V) : text := lit "{ " ++ joined (lit ", ") (map (showArg w) l) ++ lit " }".
Definition described (f : failure) : text :=
  lit (f_cond f) ++ lit " (" ++ lit (f_file f) ++ lit ":" ++ dec (f_line f) ++ lit ")" ++
  (if String.eqb (f_str f) "" then [] else lit " with " ++ lit (f_str f)).
Definition listing (indent : string) (fs : list failure) : text := joined (lit "," ++ nl ++ lit indent) (map described fs).

(** The line or two lines telling a step. *)
Definition told {V} (w : wording V) (x : shrinkStep V) : text :=
  lit "  shrinking found simpler failing arg " ++ dec (Z.of_nat (at_ x)) ++ lit ": " ++ tupleText w (tuple x) ++ nl ++
  match unmet x with [] => [] | fs => lit "    by failed expectation: " ++ listing "    " fs ++ nl end.

(** [l] leads from the tuple [a] to the tuple [b], each step replacing one component. *)
Fixpoint leads {V} (a : list V) (l : list (shrinkStep V)) (b : list V) : Prop :=
  match l with
  | [] => b = a
  | x :: r => (at_ x < length a)%nat /\ (exists v, tuple x = set_nth (at_ x) v a) /\ leads (tuple x) r b
  end.

(** [l] is a subsequence of [m]. *)
Inductive within {A} : list A -> list A -> Prop :=
| within_nil : forall m, within [] m
| within_take : forall a l m, within l m -> within (a :: l) (a :: m)
| within_skip : forall a l m, within l m -> within l (a :: m).

(** What happened, without what was printed. *)
Definition silent {A S} (r : res (A * printed * S)) : res (A * S) :=
  match r with
  | Ok (a, _, s) => Ok (a, s)
  | UB => UB | Throw e => Throw e | OutOfFuel => OutOfFuel
  end.

(** Lines, each ended. *)
Definition lines (l : list text) : text := flat_map (fun t => t ++ nl) l.

(** The message saying why the property does not hold: expectations are listed one below the other, without a final line end. *)
Definition message {V} (w : wording V) (n : nat) (why : reason) : text :=
  lit "Falsifiable, after " ++ dec (Z.of_nat n) ++ lit " tests" ++
  match why with
  | RExpectation fs => lit ": " ++ listing "" fs
  | RFalse => nl
  | RException e =>
      match e with
      | EAssert | EPropFailed => lit ": " ++ what w e ++ lit " (" ++ fst (place w e) ++ lit ":" ++ dec (snd (place w e)) ++ lit ")" ++ nl
      | _ => lit " - unhandled exception thrown: " ++ what w e ++ nl
      end
  end.

(** What example says about an input, for a function depending on its arguments only. *)
Definition verdictText {V} (w : wording V) (beh : list V -> list op * ures) (args : list V) : text :=
  match snd (beh args) with
  | URet _ | UThrow ESuccess => []
  | UThrow EDiscard => lines [lit "Discard is not supported for single run"]
  | UThrow e =>
      lines [match e with
             | EAssert | EPropFailed => lit "example failed: " ++ what w e ++ lit " (" ++ fst (place w e) ++ lit ":" ++ dec (snd (place w e)) ++ lit ")"
             | _ => lit "example failed by exception: " ++ what w e
             end; lit "  with args: " ++ tupleText w args]
  end.
