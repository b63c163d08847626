(** Model of Property: runForAll, example, matrix, shrinking of a failing input (proptest/Property.hpp), with
    proptest/util/invokeWithGenTuple.hpp, invokeWithArgs.hpp, tuple.hpp, createGenTuple.hpp.

    Argument values of all types are values of one type [V] (a tuple is a list).  User code (the property function and
    the two hooks) is an arbitrary function on a user world [W], recording tags and expectations and returning or
    throwing; undefined behaviour and non-termination of user code are not modelled.  The observable calls of
    user code are appended to a log.  Text printed to cout/cerr is represented by the verdict and the report.
    Arguments of a function call are evaluated in an unspecified order: every call site has its order as a
    parameter, a permutation of the argument positions. *)
From Coq Require Import String List ZArith Bool.
From Verif Require Import Base RandomModel TupleModel EffModel ContextModel.
Import ListNotations.
Local Open Scope list_scope.

(** How a call of the property function ends. (Property.hpp:220, 347.) *)
Inductive ures := URet (b : bool) | UThrow (e : err).

(** A generator which may throw: the engine state is kept, since the caller may catch. (Property.hpp:214-261, 417-418.) *)
Definition xgen (E : engine) (V : Type) : Type := G E (etree E V + err).

(** Observable calls of user code. (Property.hpp:217-222, 274-278, 339-358.) *)
Inductive event (V : Type) := EStartup | ECall (args : list V) (u : ures) | ECleanup.
Arguments EStartup {V}.
Arguments ECall {V} _ _.
Arguments ECleanup {V}.

(** The parts of a Property: PropertyBase.hpp:95-104. *)
Record property (E : engine) (V W : Type) := {
  func : list V -> W -> list op * ures * W;
  gens : list (xgen E V);
  onStartup : option (W -> list op * option err * W);
  onCleanup : option (W -> list op * option err * W);
  numRuns : nat;
  maxDurationMs : Z;
  seed : Z
}.
Arguments func {E V W} _.
Arguments gens {E V W} _.
Arguments onStartup {E V W} _.
Arguments onCleanup {E V W} _.
Arguments numRuns {E V W} _.
Arguments maxDurationMs {E V W} _.
Arguments seed {E V W} _.

(** What the implementation fixes: evaluation orders of the argument lists at invokeWithGenTuple.hpp:14 and
    tuple.hpp:59 (regeneration), tuple.hpp:38 (GetShrinks), Property.hpp:411 (shrinkEach); the seeding of the
    engine; the milliseconds elapsed at the start of each run. *)
Record env (E : engine) := {
  ord_call : list nat;
  ord_regen : list nat;
  ord_shrinks : list nat;
  ord_each : list nat;
  seeded : Z -> rst E;
  elapsed : nat -> Z
}.
Arguments ord_call {E} _.
Arguments ord_regen {E} _.
Arguments ord_shrinks {E} _.
Arguments ord_each {E} _.
Arguments seeded {E} _ _.
Arguments elapsed {E} _ _.

(** State while running: engine, current context, user world, log of calls. (Property.hpp:193-203.) *)
Record rs (E : engine) (V W : Type) := { rnd : rst E; cx : ctx; wd : W; lg : list (event V) }.
Arguments rnd {E V W} _.
Arguments cx {E V W} _.
Arguments wd {E V W} _.
Arguments lg {E V W} _.

(** The engine of Property.hpp:195 has moved on. *)
Definition with_rnd {E V W} (r : rst E) (s : rs E V W) : rs E V W := {| rnd := r; cx := cx s; wd := wd s; lg := lg s |}.
(** The context of Property.hpp:198 has changed. *)
Definition with_cx {E V W} (c : ctx) (s : rs E V W) : rs E V W := {| rnd := rnd s; cx := c; wd := wd s; lg := lg s |}.

(** if (hookPtr) ( *hookPtr)(), Property.hpp:218-222, 274-278, 345-349. *)
Definition runHook {E V W} (h : option (W -> list op * option err * W)) (ev : event V) (s : rs E V W) : option err * rs E V W :=
  match h with
  | None => (None, s)
  | Some f => let '(ops, r, w) := f (wd s) in
              (r, {| rnd := rnd s; cx := apply_ops ops (cx s); wd := w; lg := lg s ++ [ev] |})
  end.

(** invokeWithArgs.hpp:8-19 invokeWithArgTuple. *)
Definition callFunc {E V W} (P : property E V W) (args : list V) (s : rs E V W) : ures * rs E V W :=
  let '(ops, u, w) := func P args (wd s) in
  (u, {| rnd := rnd s; cx := apply_ops ops (cx s); wd := w; lg := lg s ++ [ECall args u] |}).

(** Evaluation of make_tuple(f<0>(rand), ..., f<n-1>(rand)) in the order [ord]; an exception abandons the rest. *)
Fixpoint evalIn {E X} (ord : list nat) (fs : list (G E (X + err))) (acc : list (option X)) : G E (list (option X) + err) :=
  match ord with
  | [] => gret (inl acc)
  | i :: o =>
      match nth_error fs i with
      | None => gfail UB
      | Some f => gbind f (fun x => match x with
                                    | inl a => evalIn o fs (set_nth i (Some a) acc)
                                    | inr e => gret (inr e)
                                    end)
      end
  end.
(** The values of such a tuple (invokeWithGenTuple.hpp:14, Property.hpp:417-418). *)
Fixpoint collect {X} (l : list (option X)) : option (list X) :=
  match l with
  | [] => Some []
  | Some x :: r => match collect r with Some r' => Some (x :: r') | None => None end
  | None :: _ => None
  end.
(** invokeWithGenTuple.hpp:14, Property.hpp:417-418: all generators of the tuple. *)
Definition evalTuple {E X} (ord : list nat) (fs : list (G E (X + err))) : G E (list X + err) :=
  gbind (evalIn ord fs (map (fun _ => None) fs)) (fun x =>
    match x with
    | inr e => gret (inr e)
    | inl acc => match collect acc with Some l => gret (inl l) | None => gfail UB end
    end).

(** How one execution of the body of the inner try block ends, lines 217-222. *)
Inductive aout := AReturned (b : bool) | AThrew (e : err).

(** Property.hpp:217-222 with invokeWithGenTuple.hpp:10-31. *)
Definition attempt {E V W} (ev : env E) (P : property E V W) (s : rs E V W) : res (aout * rs E V W) :=
  match runHook (onStartup P) EStartup s with
  | (Some e, s1) => Ok (AThrew e, s1)
  | (None, s1) =>
      do '(x, r1) <- evalTuple (ord_call ev) (gens P) (rnd s1);
      let s2 := with_rnd r1 s1 in
      match x with
      | inr e => Ok (AThrew e, s2)
      | inl ts =>
          match callFunc P (map eroot ts) s2 with
          | (UThrow EAssert, s3) => Ok (AThrew EPropFailed, s3)
          | (UThrow e, s3) => Ok (AThrew e, s3)
          | (URet b, s3) =>
              match runHook (onCleanup P) ECleanup s3 with
              | (Some e, s4) => Ok (AThrew e, s4)
              | (None, s4) => Ok (AReturned b, s4)
              end
          end
      end
  end.

(** Property.hpp:339-358 test, for the values [cur] with the N-th replaced by [v]; [c] is the context of the caller
    (line 381).  An exception not derived from std::exception is not caught. *)
Definition test {E V W} (P : property E V W) (N : nat) (cur : list (etree E V)) (v : V) (c : ctx) (s : rs E V W)
  : res (bool * ctx * rs E V W) :=
  let outer := cx s in
  let caught e (s' : rs E V W) := match e with ENonStd => Throw ENonStd | _ => Ok (false, cx s', with_cx outer s') end in
  match runHook (onStartup P) EStartup (with_cx c s) with
  | (Some e, s1) => caught e s1
  | (None, s1) =>
      match callFunc P (set_nth N v (map eroot cur)) s1 with
      | (UThrow e, s2) => caught e s2
      | (URet b, s2) =>
          match runHook (onCleanup P) ECleanup s2 with
          | (Some e, s3) => caught e s3
          | (None, s3) => Ok (b, cx s3, with_cx outer s3)
          end
      end
  end.

(** Property.hpp:371-405 shrinkN: [shrinkStream] is the inner loop (383-394) on the remaining candidates, with the
    context of the current round; [shrinkTree] starts the next round with the shrinks of the candidate that failed
    (389-390, 377-381).  Stream.hpp:120-128: next() evaluates the tail before the candidate is tested. *)
Fixpoint shrinkTree {E V W} (P : property E V W) (N : nat) (cur : list (etree E V)) (t : etree E V) (s : rs E V W) {struct t}
  : res (list (etree E V) * rs E V W) :=
  match t with
  | ENode _ shr =>
      match shr (rnd s) with
      | Ok (st, r') => shrinkStream P N cur newctx st (with_rnd r' s)
      | UB => UB | Throw e => Throw e | OutOfFuel => OutOfFuel
      end
  end
with shrinkStream {E V W} (P : property E V W) (N : nat) (cur : list (etree E V)) (c : ctx) (st : estream E V) (s : rs E V W) {struct st}
  : res (list (etree E V) * rs E V W) :=
  match st with
  | ENil => Ok (cur, s)
  | ECons h tl =>
      match tl (rnd s) with
      | Ok (st', r') =>
          do '(b, c', s2) <- test P N cur (eroot h) c (with_rnd r' s);
          if negb b || hasFailures c' then shrinkTree P N (set_nth N h cur) h s2
          else shrinkStream P N cur c' st' s2
      | UB => UB | Throw e => Throw e | OutOfFuel => OutOfFuel
      end
  end.

(** Property.hpp:407-412 shrinkEach: shrinkN for every position, in the order [ord], on the shared tuple. *)
Fixpoint shrinkEach {E V W} (P : property E V W) (ord : list nat) (streams : list (estream E V)) (cur : list (etree E V)) (s : rs E V W)
  : res (list (etree E V) * rs E V W) :=
  match ord with
  | [] => Ok (cur, s)
  | N :: o =>
      match nth_error streams N with
      | None => UB
      | Some st => do '(cur', s') <- shrinkStream P N cur newctx st s; shrinkEach P o streams cur' s'
      end
  end.

(** What shrink prints: lines 420 and 427. *)
Record report (V : Type) := { with_args : list V; simplest_args : list V }.
Arguments with_args {V} _.
Arguments simplest_args {V} _.

(** Property.hpp:414-428 shrink; [rnd s] is savedRand.  An exception from regeneration or from evaluating shrinks
    is reported as [Throw]; the calls at lines 228 and 232 are inside the try block, and what then happens is modelled in
    ThrowModel.v. *)
Definition shrink {E V W} (ev : env E) (P : property E V W) (s : rs E V W) : res (report V * rs E V W) :=
  do '(x, r1) <- evalTuple (ord_regen ev) (gens P) (rnd s);
  match x with
  | inr e => Throw e
  | inl ts =>
      do '(y, r2) <- evalTuple (ord_shrinks ev) (map (fun t => gbind (eshrinks t) (fun st => gret (inl st))) ts) r1;
      match y with
      | inr e => Throw e
      | inl streams =>
          do '(ts', s') <- shrinkEach P (ord_each ev) streams ts (with_rnd r2 s);
          Ok ({| with_args := map eroot ts; simplest_args := map eroot ts' |}, s')
      end
  end.

(** Why an input is reported as falsifying: lines 225, 230, and 244-256. *)
Inductive reason := RExpectation (fs : list failure) | RFalse | RException (e : err).

(** Result of one counted run: lines 213-242. *)
Inductive step (E : engine) (V W : Type) :=
| SPassed (s : rs E V W)
| SFailed (why : reason) (saved : rst E) (s : rs E V W).
Arguments SPassed {E V W} _.
Arguments SFailed {E V W} _ _ _.

(** Property.hpp:214-242, the loop retrying after Discard, with the catch clauses 236-241 and 244-261. *)
Fixpoint retryRun {E V W} (fuel : nat) (ev : env E) (P : property E V W) (s : rs E V W) : res (step E V W) :=
  match fuel with
  | O => OutOfFuel
  | S fuel' =>
      do '(o, s1) <- attempt ev P s;
      match o with
      | AReturned b =>
          let '(fs, c') := ctx_flush (cx s1) in
          let s2 := with_cx c' s1 in
          match fs with
          | _ :: _ => Ok (SFailed (RExpectation fs) (rnd s) s2)
          | [] => if b then Ok (SPassed s2) else Ok (SFailed RFalse (rnd s) s2)
          end
      | AThrew ESuccess => Ok (SPassed s1)
      | AThrew EDiscard => retryRun fuel' ev P s1
      | AThrew ENonStd => Throw ENonStd
      | AThrew e => Ok (SFailed (RException e) (rnd s) s1)
      end
  end.

(** What runForAll reports: lines 263-265, 208-210, 225-260. *)
Inductive verdict (V : Type) :=
| VPassed (summary : list (string * nat * list (string * nat)))
| VTimedOut (passed : nat) (summary : list (string * nat * list (string * nat)))
| VFalsified (tests : nat) (why : reason) (rep : report V).
Arguments VPassed {V} _.
Arguments VTimedOut {V} _ _.
Arguments VFalsified {V} _ _ _.

(** The value returned by forAll. (Property.hpp:210, 227-260, 265.) *)
Definition succeeded {V} (v : verdict V) : bool := match v with VFalsified _ _ _ => false | _ => true end.

(** Property.hpp:203-212: the loop over the runs; [n] runs remain, [i] have been done. *)
Fixpoint runLoop {E V W} (fuel : nat) (ev : env E) (P : property E V W) (n i : nat) (s : rs E V W) : res (verdict V * rs E V W) :=
  match n with
  | O => Ok (VPassed (printSummary (cx s)), s)
  | S n' =>
      if negb (maxDurationMs P =? 0)%Z && (maxDurationMs P <? elapsed ev i)%Z
      then Ok (VTimedOut i (printSummary (cx s)), s)
      else
        do st <- retryRun fuel ev P s;
        match st with
        | SPassed s' => runLoop fuel ev P n' (S i) s'
        | SFailed why saved s' =>
            do '(rep, s2) <- shrink ev P (with_rnd saved s');
            Ok (VFalsified (S i) why rep, s2)
        end
  end.

(** Property.hpp:193-266 runForAll, started in user world [w]. *)
Definition runForAll {E V W} (fuel : nat) (ev : env E) (P : property E V W) (w : W) : res (verdict V * rs E V W) :=
  runLoop fuel ev P (numRuns P) 0 {| rnd := seeded ev (seed P); cx := newctx; wd := w; lg := [] |}.

(** Property.hpp:268-300 example; the context (line 270) is its own.  [rnd] is not used. *)
Definition example {E V W} (P : property E V W) (args : list V) (s : rs E V W) : res (bool * rs E V W) :=
  let outer := cx s in
  let caught e (s' : rs E V W) :=
    match e with ENonStd => Throw ENonStd | ESuccess => Ok (true, with_cx outer s') | _ => Ok (false, with_cx outer s') end in
  match runHook (onStartup P) EStartup (with_cx newctx s) with
  | (Some e, s1) => caught e s1
  | (None, s1) =>
      match callFunc P args s1 with
      | (UThrow e, s2) => caught e s2
      | (URet b, s2) =>
          match runHook (onCleanup P) ECleanup s2 with
          | (Some e, s3) => caught e s3
          | (None, s3) => Ok (b, with_cx outer s3)
          end
      end
  end.

(** Property.hpp:26-40 Matrix::pickN, pickEach. *)
Fixpoint pickEach {V} (lists : list (list V)) (indices : list Z) : res (list V) :=
  match lists, indices with
  | [], [] => Ok []
  | l :: ls, i :: is => do v <- idx l i; do vs <- pickEach ls is; Ok (v :: vs)
  | _, _ => UB
  end.

(** Property.hpp:42-57 progressN for position N; static_cast<int>(list.size() - 1). *)
Definition progressN {V} (N : nat) (lists : list (list V)) (st : bool * list Z) : bool * list Z :=
  let '(incremented, indices) := st in
  if incremented then st
  else match nth_error lists N, nth_error indices N with
       | Some l, Some i =>
           if (i <? wrapS 32 (wrapU 64 (Z.of_nat (length l) - 1)))%Z then (true, set_nth N (i + 1)%Z indices)
           else (false, set_nth N 0%Z indices)
       | _, _ => st
       end.

(** Property.hpp:59-67 progress: positions Size-1 down to 0 (the elements of a braced list are evaluated in order). *)
Definition progress {V} (lists : list (list V)) (indices : list Z) : bool * list Z :=
  fold_left (fun st k => progressN (length lists - k - 1) lists st) (seq 0 (length lists)) (false, indices).

(** Property.hpp:328-333, the loop; [fuel] bounds the number of combinations. *)
Fixpoint matrixLoop {E V W} (fuel : nat) (P : property E V W) (lists : list (list V)) (indices : list Z) (s : rs E V W)
  : res (rs E V W) :=
  match fuel with
  | O => OutOfFuel
  | S fuel' =>
      do args <- pickEach lists indices;
      do '(_, s') <- example P args s;
      let '(more, indices') := progress lists indices in
      if more then matrixLoop fuel' P lists indices' s' else Ok s'
  end.

(** Property.hpp:320-336 matrix. *)
Definition matrix {E V W} (fuel : nat) (P : property E V W) (lists : list (list V)) (s : rs E V W) : res (bool * rs E V W) :=
  do s' <- matrixLoop fuel P lists (map (fun _ => 0%Z) lists) s; Ok (true, s').

(** invokeWithGenTuple.hpp:33-62 setTupleFromTuple, overrideTuple: a copy of the tuple with the leading positions
    replaced (the positions are distinct, so the order of the assignments does not matter). *)
Definition overrideTuple {X} (tup args : list X) : list X :=
  fold_left (fun copy ix => set_nth (fst ix) (snd ix) copy) (combine (seq 0 (length args)) args) tup.

(** createGenTuple.hpp:25-29 createGenHelperListed: the default generators of the listed positions. *)
Definition createGenHelperListed {X} (defaults : list X) (index : list nat) : list X :=
  flat_map (fun i => match nth_error defaults i with Some d => [d] | None => [] end) index.

(** createGenTuple.hpp:31-63 createGenTuple, its three overloads; [defaults] are Arbi<ARG> for all arguments.  More
    explicit generators than arguments do not compile: they are given back as they are. *)
Definition createGenTuple {X} (defaults explicits : list X) : list X :=
  let explicitSize := length explicits in
  let implicitSize := (length defaults - explicitSize)%nat in
  if (explicitSize =? 0)%nat then createGenHelperListed defaults (seq 0 (length defaults))
  else if (explicitSize =? length defaults)%nat then explicits
  else explicits ++ createGenHelperListed defaults (map (fun i => explicitSize + i)%nat (seq 0 implicitSize)).

(** Property.hpp:170-176 forAll with explicit generators: the property itself is not changed. *)
Definition forAll {E V W} (fuel : nat) (ev : env E) (P : property E V W) (explicit : list (xgen E V)) (w : W)
  : res (verdict V * rs E V W) :=
  runForAll fuel ev {| func := func P; gens := overrideTuple (gens P) explicit; onStartup := onStartup P; onCleanup := onCleanup P;
                       numRuns := numRuns P; maxDurationMs := maxDurationMs P; seed := seed P |} w.

(** Property.hpp:503-511 property(callable, gens...) with PropertyBase.hpp:76-78; [defaultRuns] and [defaultDuration] are the
    static members (Property.cpp:24-25), [globalSeed] is getGlobalSeed(). *)
Definition mkProperty {E V W} (f : list V -> W -> list op * ures * W) (defaults explicits : list (xgen E V))
  (defaultRuns : nat) (defaultDuration globalSeed : Z) : property E V W :=
  {| func := f; gens := createGenTuple defaults explicits; onStartup := None; onCleanup := None;
     numRuns := defaultRuns; maxDurationMs := defaultDuration; seed := globalSeed |}.

(** Property.hpp:100-152, the setters. *)
Inductive setter (W : Type) :=
| SetSeed (v : Z) | SetNumRuns (v : nat) | SetMaxDurationMs (v : Z)
| SetOnStartup (h : W -> list op * option err * W) | SetOnCleanup (h : W -> list op * option err * W).
Arguments SetSeed {W} _.
Arguments SetNumRuns {W} _.
Arguments SetMaxDurationMs {W} _.
Arguments SetOnStartup {W} _.
Arguments SetOnCleanup {W} _.

(** A chain of setters, Property.hpp:100-152. *)
Definition configure {E V W} (P : property E V W) (x : setter W) : property E V W :=
  match x with
  | SetSeed v => {| func := func P; gens := gens P; onStartup := onStartup P; onCleanup := onCleanup P;
                    numRuns := numRuns P; maxDurationMs := maxDurationMs P; seed := v |}
  | SetNumRuns v => {| func := func P; gens := gens P; onStartup := onStartup P; onCleanup := onCleanup P;
                       numRuns := v; maxDurationMs := maxDurationMs P; seed := seed P |}
  | SetMaxDurationMs v => {| func := func P; gens := gens P; onStartup := onStartup P; onCleanup := onCleanup P;
                             numRuns := numRuns P; maxDurationMs := v; seed := seed P |}
  | SetOnStartup h => {| func := func P; gens := gens P; onStartup := Some h; onCleanup := onCleanup P;
                         numRuns := numRuns P; maxDurationMs := maxDurationMs P; seed := seed P |}
  | SetOnCleanup h => {| func := func P; gens := gens P; onStartup := onStartup P; onCleanup := Some h;
                         numRuns := numRuns P; maxDurationMs := maxDurationMs P; seed := seed P |}
  end.
