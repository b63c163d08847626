(** Vocabulary for weights as numbers. *)
From Coq Require Import List ZArith QArith SpecFloat.
From Verif Require Import Base TreeModel RandomModel IntegralModel ContainerModel GenModel FloatPrintSpec.
Import ListNotations.
Local Open Scope Z_scope.

(** Number of integers in an interval, and in a list of intervals. *)
Definition width (i : Z * Z) : Z := snd i - fst i + 1.
Definition total (is : list (Z * Z)) : Z := fold_right (fun i z => width i + z) 0 is.
(** Intervals whose width the type of the bounds can hold. *)
Definition legal (signed : bool) (i : Z * Z) : Prop :=
  (if signed then INT64_MIN else 0) <= fst i /\ fst i <= snd i /\ snd i <= (if signed then INT64_MAX else UINT64_MAX) /\
  snd i - fst i < (if signed then INT64_MAX else UINT64_MAX).
(** gen::intervals and gen::uintervals. *)
Definition choice {E} (signed : bool) (is : list (Z * Z)) : res (nat -> gen E Z) :=
  if signed then intervals is else uintervals is.
Definition accepted {A} (r : res A) : Prop := exists a, r = Ok a.
(** The generators of the intervals. *)
Definition each {E} (signed : bool) (is : list (Z * Z)) : list (dgen E Z) :=
  map (fun i => no_discard (interval (if signed then TI64 else TU64) (fst i) (snd i))) is.
(** The sum of the weights as numbers. *)
Definition exact_sum (ws : list spec_float) : Q := fold_right (fun w q => (fval w + q)%Q) 0%Q ws.
(** The coin of weight [w] comes up true for [c] of the 2^64 values of the engine: those below [c]. *)
Definition wins {E} (w : spec_float) (c : Z) : Prop :=
  (c = 2 ^ 64 /\ forall r : rst E, getRandomBool w r = Ok (true, r)) \/
  forall (r : rst E) u r', unif E 0 UINT64_MAX r = (u, r') -> getRandomBool w r = Ok (u <? c, r').
