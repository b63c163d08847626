(** Model of Property::runForAll (proptest/Property.hpp) when computing shrinks may throw.  RunnerModel.v ends with the
    exception in that case; here the try blocks around the calls of shrink are followed.  Generators and computations
    of shrinks keep the state when they throw, as the caller may catch. *)
From Coq Require Import String List ZArith Bool.
From Verif Require Import Base TreeModel RandomModel TupleModel EffModel ContextModel RunnerModel.
Import ListNotations.
Local Open Scope list_scope.

(** Shrinkable.hpp ShrinkableAny and Stream.hpp:11-99 Stream, as [etree] of EffModel.v; computing shrinks or a tail may
    throw. *)
Inductive xtree (E : engine) (A : Type) : Type :=
| XNode : A -> (rst E -> res ((xstream E A + err) * rst E)) -> xtree E A
with xstream (E : engine) (A : Type) : Type :=
| XNil : xstream E A
| XCons : xtree E A -> (rst E -> res ((xstream E A + err) * rst E)) -> xstream E A.
Arguments XNode {E A} _ _.
Arguments XNil {E A}.
Arguments XCons {E A} _ _.

(** Shrinkable.cpp:59 getAnyRef. *)
Definition xroot {E A} (t : xtree E A) : A := match t with XNode a _ => a end.
(** Shrinkable.cpp:320 shrinks. *)
Definition xshrinks {E A} (t : xtree E A) : G E (xstream E A + err) := match t with XNode _ s => s end.

(** Shrinkable.cpp:61-85 map with Stream.hpp:54-65 transform, for a transformer that may throw, on a shrinkable whose
    shrinks are computed without effects. *)
Fixpoint xmap {E A B} (f : A -> B + err) (t : tree A) : xtree E B + err :=
  match t with
  | Node a ts =>
      match f a with
      | inr e => inr e
      | inl b => inl (XNode b (gret ((fix go (ts : list (tree A)) : xstream E B + err :=
                                        match ts with
                                        | [] => inl XNil
                                        | h :: r => match xmap f h with
                                                    | inr e => inr e
                                                    | inl h' => inl (XCons h' (gret (go r)))
                                                    end
                                        end) ts)))
      end
  end.
(** combinator/transform.hpp:34-46 TransformFunctor2. *)
Definition xtransform {E A B} (g : G E (tree A)) (f : A -> B + err) : G E (xtree E B + err) := gbind g (fun t => gret (xmap f t)).

(** A property with generators of such shrinkables, in place of the generators of [base]. (PropertyBase.hpp:95-104.) *)
Record xproperty (E : engine) (V W : Type) := { base : property E V W; xgens : list (G E (xtree E V + err)) }.
Arguments base {E V W} _.
Arguments xgens {E V W} _.

(** What a run (lines 217-222) sees of the generators: the values. *)
Definition valued {E V} (g : G E (xtree E V + err)) : xgen E V :=
  gbind g (fun x => gret (match x with inl t => inl (emake (xroot t)) | inr e => inr e end)).
(** PropertyBase.hpp:95-104: a property whose shrinks do not throw. *)
Definition plain {E V W} (X : xproperty E V W) : property E V W :=
  {| func := func (base X); gens := map valued (xgens X); onStartup := onStartup (base X); onCleanup := onCleanup (base X);
     numRuns := numRuns (base X); maxDurationMs := maxDurationMs (base X); seed := seed (base X) |}.

(** Property.hpp:371-405 shrinkN, as [shrinkTree] and [shrinkStream] of RunnerModel.v; an exception from next() (line 386)
    or from shrinks() (line 389) leaves the function; the context (line 381) is then destroyed, which brings back the
    outer one. *)
Fixpoint xshrinkTree {E V W} (X : xproperty E V W) (N : nat) (cur : list (xtree E V)) (t : xtree E V) (s : rs E V W) {struct t}
  : res ((list (xtree E V) + err) * rs E V W) :=
  match t with
  | XNode _ shr =>
      match shr (rnd s) with
      | Ok (inl st, r') => xshrinkStream X N (set_nth N t cur) newctx st (with_rnd r' s)
      | Ok (inr e, r') => Ok (inr e, with_rnd r' s)
      | UB => UB | Throw e => Throw e | OutOfFuel => OutOfFuel
      end
  end
with xshrinkStream {E V W} (X : xproperty E V W) (N : nat) (cur : list (xtree E V)) (c : ctx) (st : xstream E V) (s : rs E V W) {struct st}
  : res ((list (xtree E V) + err) * rs E V W) :=
  match st with
  | XNil => Ok (inl cur, s)
  | XCons h tl =>
      match tl (rnd s) with
      | Ok (inl st', r') =>
          do '(b, c', s2) <- test (plain X) N (map (fun t => emake (xroot t)) cur) (xroot h) c (with_rnd r' s);
          if negb b || hasFailures c' then xshrinkTree X N cur h s2
          else xshrinkStream X N cur c' st' s2
      | Ok (inr e, r') => Ok (inr e, with_rnd r' s)
      | UB => UB | Throw e => Throw e | OutOfFuel => OutOfFuel
      end
  end.

(** Property.hpp:407-412 shrinkEach. *)
Fixpoint xshrinkEach {E V W} (X : xproperty E V W) (ord : list nat) (streams : list (xstream E V)) (cur : list (xtree E V)) (s : rs E V W)
  : res ((list (xtree E V) + err) * rs E V W) :=
  match ord with
  | [] => Ok (inl cur, s)
  | N :: o =>
      match nth_error streams N with
      | None => UB
      | Some st => do '(x, s') <- xshrinkStream X N cur newctx st s;
                   match x with inl cur' => xshrinkEach X o streams cur' s' | inr e => Ok (inr e, s') end
      end
  end.

(** Property.hpp:414-428 shrink; [rnd s] is savedRand, advanced also when the function throws.  What is printed before
    an exception (line 420 and "shrinking found simpler failing arg") is not kept. *)
Definition xshrink {E V W} (ev : env E) (X : xproperty E V W) (s : rs E V W) : res ((report V + err) * rs E V W) :=
  do '(x, r1) <- evalTuple (ord_regen ev) (xgens X) (rnd s);
  match x with
  | inr e => Ok (inr e, with_rnd r1 s)
  | inl ts =>
      do '(y, r2) <- evalTuple (ord_shrinks ev) (map xshrinks ts) r1;
      match y with
      | inr e => Ok (inr e, with_rnd r2 s)
      | inl streams =>
          do '(z, s') <- xshrinkEach X (ord_each ev) streams ts (with_rnd r2 s);
          match z with
          | inr e => Ok (inr e, s')
          | inl ts' => Ok (inl {| with_args := map xroot ts; simplest_args := map xroot ts' |}, s')
          end
      end
  end.

(** Result of one counted run: lines 213-261; [ann] are the messages "Falsifiable, after ..." printed, one by one. *)
Inductive xstep (E : engine) (V W : Type) :=
| XSPassed (ann : list reason) (s : rs E V W)
| XSFailed (ann : list reason) (rep : report V) (s : rs E V W).
Arguments XSPassed {E V W} _ _.
Arguments XSFailed {E V W} _ _ _.

(** Property.hpp:244-261, the handlers of the outer try: the message, then shrink with savedRand; an exception thrown by
    it leaves runForAll. *)
Definition handler {E V W} (ev : env E) (X : xproperty E V W) (ann : list reason) (e : err) (s : rs E V W) : res (xstep E V W) :=
  do '(x, s') <- xshrink ev X s;
  match x with
  | inl rep => Ok (XSFailed (ann ++ [RException e]) rep s')
  | inr e' => Throw e'
  end.

(** Property.hpp:214-261: the loop retrying after Discard.  savedRand is [rnd s] at the start of an attempt (line 216), and
    rand is [rnd s1] after it.  The calls of shrink at lines 228 and 232 are inside the inner try: if shrink throws
    Success the run counts as passed (236), if it throws Discard the run is retried (238), both with rand as the failing
    attempt left it; any other std::exception gets to the outer handlers, savedRand staying as shrink left it. *)
Fixpoint xretryRun {E V W} (fuel : nat) (ev : env E) (X : xproperty E V W) (ann : list reason) (s : rs E V W) : res (xstep E V W) :=
  match fuel with
  | O => OutOfFuel
  | S fuel' =>
      do '(o, s1) <- attempt ev (plain X) s;
      match o with
      | AReturned b =>
          let '(fs, c') := ctx_flush (cx s1) in
          let s2 := with_cx c' s1 in
          let falsified why :=
            do '(x, s3) <- xshrink ev X (with_rnd (rnd s) s2);
            match x with
            | inl rep => Ok (XSFailed (ann ++ [why]) rep s3)
            | inr ESuccess => Ok (XSPassed (ann ++ [why]) (with_rnd (rnd s1) s3))
            | inr EDiscard => xretryRun fuel' ev X (ann ++ [why]) (with_rnd (rnd s1) s3)
            | inr ENonStd => Throw ENonStd
            | inr e => handler ev X (ann ++ [why]) e s3
            end in
          match fs with
          | _ :: _ => falsified (RExpectation fs)
          | [] => if b then Ok (XSPassed ann s2) else falsified RFalse
          end
      | AThrew ESuccess => Ok (XSPassed ann s1)
      | AThrew EDiscard => xretryRun fuel' ev X ann s1
      | AThrew ENonStd => Throw ENonStd
      | AThrew e => handler ev X ann e (with_rnd (rnd s) s1)
      end
  end.

(** What runForAll returns, and prints at its end. (Property.hpp:208-210, 225-265.) *)
Inductive xverdict (V : Type) :=
| XPassed (summary : list (string * nat * list (string * nat)))
| XTimedOut (passed : nat) (summary : list (string * nat * list (string * nat)))
| XFalsified (rep : report V).
Arguments XPassed {V} _.
Arguments XTimedOut {V} _ _.
Arguments XFalsified {V} _.

(** The value returned by forAll. (Property.hpp:193-266.) *)
Definition xsucceeded {V} (v : xverdict V) : bool := match v with XFalsified _ => false | _ => true end.

(** Property.hpp:203-212: the loop over the runs; the messages come with the number of the run. *)
Fixpoint xrunLoop {E V W} (fuel : nat) (ev : env E) (X : xproperty E V W) (n i : nat) (ann : list (nat * reason)) (s : rs E V W)
  : res (xverdict V * list (nat * reason) * rs E V W) :=
  match n with
  | O => Ok (XPassed (printSummary (cx s)), ann, s)
  | S n' =>
      if negb (maxDurationMs (base X) =? 0)%Z && (maxDurationMs (base X) <? elapsed ev i)%Z
      then Ok (XTimedOut i (printSummary (cx s)), ann, s)
      else
        do st <- xretryRun fuel ev X [] s;
        match st with
        | XSPassed a s' => xrunLoop fuel ev X n' (S i) (ann ++ map (fun why => (S i, why)) a) s'
        | XSFailed a rep s' => Ok (XFalsified rep, ann ++ map (fun why => (S i, why)) a, s')
        end
  end.

(** Property.hpp:193-266 runForAll, started in user world [w]. *)
Definition xrunForAll {E V W} (fuel : nat) (ev : env E) (X : xproperty E V W) (w : W) : res (xverdict V * list (nat * reason) * rs E V W) :=
  xrunLoop fuel ev X (numRuns (base X)) 0 [] {| rnd := seeded ev (seed (base X)); cx := newctx; wd := w; lg := [] |}.
