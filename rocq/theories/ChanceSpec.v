(** Vocabulary for how likely a result is when every number drawn from a range is any of the numbers of that range, all of them equally
    likely and independent of the numbers drawn before. *)
From Coq Require Import List ZArith QArith SpecFloat.
From Verif Require Import Base TreeModel RandomModel ContainerModel EffModel ContextModel RunnerModel RunnerSpec.
Import ListNotations.

(** What a program does with the numbers it draws: it ends, or it draws a number between [lo] and [hi] and goes on in a way depending on
    that number. *)
Inductive plan (A : Type) := Ends (x : res A) | Draws (lo hi : Z) (next : Z -> plan A).
Arguments Ends {A} _.
Arguments Draws {A} _ _ _.

(** The program, for a given source of random numbers. *)
Fixpoint play {E A} (p : plan A) (r : rst E) : res (A * rst E) :=
  match p with
  | Ends x => match x with Ok a => Ok (a, r) | UB => UB | Throw e => Throw e | OutOfFuel => OutOfFuel end
  | Draws lo hi next => if (lo <=? hi)%Z then play (next (fst (unif E lo hi r))) (snd (unif E lo hi r)) else UB
  end.

(** The average of [f lo], ..., [f hi]. *)
Fixpoint sum (n : nat) (f : nat -> Q) : Q := match n with O => 0 | S n' => sum n' f + f n' end.
Definition average (lo hi : Z) (f : Z -> Q) : Q := sum (Z.to_nat (hi - lo + 1)) (fun i => f (lo + Z.of_nat i)%Z) / inject_Z (hi - lo + 1).

(** The mean value of a quantity depending on how the program ends. *)
Fixpoint mean {A} (p : plan A) (f : res A -> Q) : Q :=
  match p with
  | Ends x => f x
  | Draws lo hi next => if (lo <=? hi)%Z then average lo hi (fun z => mean (next z) f) else f UB
  end.

(** The probability that the program ends normally with a result for which [ev] is true. *)
Definition when {A} (ev : A -> bool) (x : res A) : Q := match x with Ok a => if ev a then 1 else 0 | _ => 0 end.
Definition prob {A} (p : plan A) (ev : A -> bool) : Q := mean p (when ev).

(** Only what [see] shows of the result. *)
Definition seen {X A S} (see : X -> A) (x : res (X * S)) : res (A * S) :=
  match x with Ok (a, s) => Ok (see a, s) | UB => UB | Throw e => Throw e | OutOfFuel => OutOfFuel end.
Definition result {A S} (x : res (A * S)) : res A :=
  match x with Ok (a, _) => Ok a | UB => UB | Throw e => Throw e | OutOfFuel => OutOfFuel end.

(** The generator produces values as the plan says: with every source of random numbers. *)
Definition law {A} (g : forall E, gen E A) (p : plan A) : Prop := forall E r, seen root (g E r) = play p r.
(** The generator produces a value for which [ev] is true with probability [q]. *)
Definition likely {A} (g : forall E, gen E A) (ev : A -> bool) (q : Q) : Prop := exists p, law g p /\ prob p ev == q.
(** The generator has such a plan at all. *)
Definition lawful {A} (g : forall E, gen E A) : Prop := exists p, law g p.
(** The same for a result that depends on the random numbers drawn. *)
Definition likelyResult {A} (o : forall E, rst E -> res A) (ev : A -> bool) (q : Q) : Prop :=
  exists p, (forall E r, o E r = result (play p r)) /\ prob p ev == q.
(** Tossing the coin [w] gives true with probability [c] and false otherwise. *)
Definition coin (w : spec_float) (c : Q) : Prop :=
  exists p, (forall E (r : rst E), getRandomBool w r = play p r) /\ prob p (fun b => b) == c /\ prob p negb == 1 - c.

(** [k + 1] of the 2^64 numbers. *)
Definition odds (k : Z) : Q := inject_Z (k + 1) / inject_Z (2 ^ 64).
(** 1 where [ev] holds; the share of the elements of a list where it holds. *)
Definition tells {A} (ev : A -> bool) (a : A) : Q := if ev a then 1 else 0.
Definition share {A} (ev : A -> bool) (l : list A) : Q := inject_Z (Z.of_nat (length (filter ev l))) / inject_Z (Z.of_nat (length l)).

(** Lists: the right length, and each element satisfying its own condition. *)
Fixpoint each {A} (evs : list (A -> bool)) (l : list A) : bool :=
  match evs, l with
  | [], [] => true
  | ev :: evs', a :: l' => andb (ev a) (each evs' l')
  | _, _ => false
  end.
Definition product (qs : list Q) : Q := fold_right Qmult 1 qs.
Definition total (qs : list Q) : Q := fold_right Qplus 0 qs.
Fixpoint dot (qs ps : list Q) : Q := match qs, ps with q :: qs', p :: ps' => q * p + dot qs' ps' | _, _ => 0 end.
Fixpoint power (q : Q) (n : nat) : Q := match n with O => 1 | S n' => q * power q n' end.
(** 1 + q + ... + q^(n-1). *)
Fixpoint series (q : Q) (n : nat) : Q := match n with O => 0 | S n' => 1 + q * series q n' end.

(** ** Runs of forAll *)

(** The orders of evaluation and the clock, for every source of random numbers; the seed comes with [starting]. (There is no [forall E, env E]: a source of random numbers
    without any state, which [engine] does not exclude, cannot be seeded.) *)
Definition unseeded : engine := {| rst := unit; unif := fun a _ r => (a, r); unif_range := fun a b _ H => conj (Z.le_refl a) H |}.
Definition setting : Type := engine -> env unseeded.
(** Arguments and functions are evaluated from the first to the last of [n]; no time passes. *)
Definition leftToRight (n : nat) : setting :=
  fun _ => {| ord_call := seq 0 n; ord_regen := seq 0 n; ord_shrinks := seq 0 n; ord_each := seq 0 n; seeded := fun _ => (tt : rst unseeded); elapsed := fun _ => 0%Z |}.

(** A result that may be an exception instead. *)
Definition onLeft {X A} (see : X -> A) (x : X + err) : A + err := match x with inl t => inl (see t) | inr e => inr e end.
Definition left {A} (ev : A -> bool) (x : A + err) : bool := match x with inl a => ev a | inr _ => false end.
(** The arguments of a run are drawn as the plan says; an argument's generator may throw. *)
Definition inputsFollow {V W} (ev : setting) (P : forall E, property E V W) (p : plan (list V + err)) : Prop :=
  forall E r, seen (onLeft (map eroot)) (evalTuple (ord_call (ev E)) (gens (P E)) r) = play p r.
(** The same for a single argument. *)
Definition argumentFollows {V} (g : forall E, xgen E V) (p : plan (V + err)) : Prop := forall E r, seen (onLeft eroot) (g E r) = play p r.
(** What becomes of a run with these arguments. *)
Definition judgeInput {V} (beh : list V -> list op * ures) (x : list V + err) : judgement :=
  judge (match x with inl args => beh args | inr e => ([], UThrow e) end).
Definition passing {V} (beh : list V -> list op * ures) (x : list V + err) : bool := match judgeInput beh x with JPass => true | _ => false end.
Definition discarding {V} (beh : list V -> list op * ures) (x : list V + err) : bool := match judgeInput beh x with JDiscard => true | _ => false end.
(** The engine is seeded with state [r]. *)
Definition starting {E E'} (r : rst E) (ev : env E') : env E :=
  {| ord_call := ord_call ev; ord_regen := ord_regen ev; ord_shrinks := ord_shrinks ev; ord_each := ord_each ev; seeded := fun _ => r; elapsed := elapsed ev |}.
(** forAll returns true. *)
Definition returnedTrue {E V W} (x : res (verdict V * rs E V W)) : bool := match x with Ok (v, _) => succeeded v | _ => false end.
