(** Model of generator combinators over pure shrinkables: filter, transform, oneOf, elementOf, just, lazy,
    intervals (proptest/combinator). *)
From Coq Require Import List ZArith Bool SpecFloat.
From Verif Require Import Base TreeModel RandomModel IntegralModel ListModel ContainerModel.
Import ListNotations.
Local Open Scope Z_scope.

(** combinator/filter.hpp:38-46 FilterFunctor::operator(): retry until the criteria holds, then filter the
    shrinks with tolerance 1.  [fuel] bounds the number of attempts; the shrink tree filter gets its own
    sufficient bound. *)
Fixpoint filterGen {E A} (fuel : nat) (g : gen E A) (crit : A -> bool) : gen E A :=
  match fuel with
  | O => fun _ => OutOfFuel
  | S fuel' => gbind g (fun t => if crit (root t) then gfail (filter_tol (tnodes t) crit 1 t)
                                 else filterGen fuel' g crit)
  end.

(** combinator/transform.hpp:38-41 TransformFunctor2::operator() (also Generator/Arbi ::map). *)
Definition transformGen {E A B} (g : gen E A) (f : A -> B) : gen E B := gbind g (fun t => gret (map_tree f t)).

(** combinator/just.hpp:19-61 just: every overload returns a shrinkable without shrinks. *)
Definition just {E A} (a : A) : gen E A := gret (make_shrinkable a).

(** combinator/lazy.hpp:23-28 lazy: the function is evaluated at every generation; its effects are confined
    to the (abstract) state it shares with the engine. *)
Definition lazyGen {E A} (f : G E A) : gen E A := gbind f (fun a => gret (make_shrinkable a)).

(** oneof.hpp:28-38 Weighted.  A generator used in oneOf returns [Some] shrinkable, or [None] when it
    throws Discard (the engine state after the throw is the one returned). *)
Definition dgen (E : engine) (A : Type) : Type := G E (option (tree A)).
(** A generator that never throws Discard, where oneof.hpp:90-96 calls one. *)
Definition no_discard {E A} (g : gen E A) : dgen E A := gbind g (fun t => gret (Some t)).
(** oneof.hpp:28-38 Weighted: generator and weight. *)
Definition weighted (E : engine) (A : Type) : Type := (dgen E A * spec_float)%type.

(** double arithmetic: round to nearest even. (oneof.hpp:69.) *)
Definition d_add := SFadd dprec demax.
(** oneof.hpp:81: 1.0 - sum. *)
Definition d_sub := SFsub dprec demax.
(** oneof.hpp:81 and intervals.cpp:17-21, 41-45: the quotient. *)
Definition d_div := SFdiv dprec demax.
(** Conversion of an integer to double. (oneof.hpp:81, intervals.cpp:17-21, 41-45.) *)
Definition d_of_Z (z : Z) : spec_float := binary_normalize dprec demax z 0 false.

(** oneof.hpp:63-72: validity of each weight, their sum, the number of zero weights. *)
Fixpoint scanWeights (ws : list spec_float) (sum : spec_float) (numUnassigned : Z) : res (spec_float * Z) :=
  match ws with
  | [] => Ok (sum, numUnassigned)
  | w :: r =>
      if SFltb w d_zero || SFltb d_one w then Throw ERuntime
      else scanWeights r (d_add sum w) (if SFeqb w d_zero then numUnassigned + 1 else numUnassigned)
  end.

(** oneof.hpp:60-82: weights after construction. *)
Definition oneOfWeights (ws : list spec_float) : res (list spec_float) :=
  do '(sum, numUnassigned) <- scanWeights ws d_zero 0;
  if SFltb d_one sum then Throw ERuntime
  else if (0 <? numUnassigned) && SFltb sum d_one
       then Ok (map (fun w => if SFeqb w d_zero then d_div (d_sub d_one sum) (d_of_Z numUnassigned) else w) ws)
       else Ok ws.

(** oneof.hpp:90-96: retry the same generator while it throws Discard. *)
Fixpoint retry {E A} (fuel : nat) (g : dgen E A) : gen E A :=
  match fuel with
  | O => fun _ => OutOfFuel
  | S fuel' => gbind g (fun o => match o with Some t => gret t | None => retry fuel' g end)
  end.

(** oneof.hpp:84-99: the generator returned by oneOfHelper. *)
Fixpoint oneOfLoop {E A} (fuel : nat) (gws : list (weighted E A)) : gen E A :=
  match fuel with
  | O => fun _ => OutOfFuel
  | S fuel' =>
      gbind (getRandomSize 0 (Z.of_nat (length gws))) (fun dice =>
      gbind (gfail (idx gws dice)) (fun gw =>
      gbind (getRandomBool (snd gw)) (fun hit =>
      if hit then retry fuel' (fst gw) else oneOfLoop fuel' gws)))
  end.

(** oneof.hpp:60-100 oneOfHelper, 134-146 oneOf: construction may throw; the result is a generator. *)
Definition oneOf {E A} (gws : list (weighted E A)) : res (nat -> gen E A) :=
  do ws <- oneOfWeights (map snd gws);
  Ok (fun fuel => oneOfLoop fuel (combine (map fst gws) ws)).

(** elementof.hpp:74-88 elementOf: oneOf over just of the values. *)
Definition elementOf {E A} (vals : list (A * spec_float)) : res (nat -> gen E A) :=
  oneOf (map (fun vw => (no_discard (just (fst vw)), snd vw)) vals).

(** intervals.hpp:18 Interval::size: int64_t arithmetic. *)
Definition interval_size (i : Z * Z) : res Z := do d <- chk64 (snd i - fst i); chk64 (d + 1).
(** intervals.hpp:27 UInterval::size: uint64_t arithmetic. *)
Definition uinterval_size (i : Z * Z) : res Z := Ok (wrapU 64 (wrapU 64 (snd i - fst i) + 1)).

(** intervals.cpp:9-15 and 32-39: the sum of the sizes (uint64_t), rejecting empty intervals. *)
Fixpoint sumSizes (sz : Z * Z -> res Z) (is : list (Z * Z)) (sum : Z) : res Z :=
  match is with
  | [] => Ok sum
  | i :: r => do s <- sz i; if s =? 0 then Throw ERuntime else sumSizes sz r (wrapU 64 (sum + s))
  end.

(** intervals.cpp:17-21 and 41-45: weight of each interval: static_cast<double>(size) / sum. *)
Definition intervalWeights (sz : Z * Z -> res Z) (is : list (Z * Z)) (sum : Z) : res (list spec_float) :=
  mapM (fun i => do s <- sz i; Ok (d_div (d_of_Z s) (d_of_Z sum))) is.

(** intervals.cpp:5-26 intervals, 28-50 uintervals. *)
Definition intervalsOf {E} (ty : ity) (sz : Z * Z -> res Z) (is : list (Z * Z)) : res (nat -> gen E Z) :=
  do sum <- sumSizes sz is 0;
  do ws <- intervalWeights sz is sum;
  oneOf (combine (map (fun i => no_discard (interval ty (fst i) (snd i))) is) ws).
(** intervals.cpp:5-26 intervals. *)
Definition intervals {E} (is : list (Z * Z)) : res (nat -> gen E Z) := intervalsOf TI64 interval_size is.
(** intervals.cpp:28-50 uintervals. *)
Definition uintervals {E} (is : list (Z * Z)) : res (nat -> gen E Z) := intervalsOf TU64 uinterval_size is.
