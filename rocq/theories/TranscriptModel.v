(** Model of what Property prints (proptest/Property.hpp, proptest/PropertyContext.cpp): the runner of RunnerModel.v with the texts written
    to cout and cerr, in the order in which they are written.  The streams are in their default state (decimal, no width); what the functions
    under test print themselves is not included.  [endl] is the character 10. *)
From Coq Require Import String List ZArith Bool.
From Verif Require Import Base RandomModel TupleModel EffModel ContextModel RunnerModel PrintModel FloatPrintModel.
Import ListNotations.
Local Open Scope list_scope.

(** cout or cerr, Property.hpp:197, 208, 225-264. *)
Inductive stream := Cout | Cerr.
(** What Property.hpp:193-300, 395-428 print, in order. *)
Definition printed := list (stream * text).
(** endl: Property.hpp:197. *)
Definition nl : text := [10%Z].

(** How values and exceptions are described: [showArg] is Show<T> for the type of each argument (printing.hpp:96-112; a Shrinkable is shown as
    its value, 96-101), [what] is e.what(), [place] is e.filename and e.lineno (assert.hpp:11-37). *)
Record wording (V : Type) := { showArg : V -> text; what : err -> text; place : err -> text * Z }.
Arguments showArg {V} _ _.
Arguments what {V} _ _.
Arguments place {V} _ _.
(** Show<tuple<...>>, printing.hpp:172-182. *)
Definition showArgs {V} (w : wording V) (l : list V) : text := show_tuple (map (showArg w) l).

(** PropertyContext.cpp:7-15 operator<< for Failure. *)
Definition failureText (f : failure) : text :=
  lit (f_cond f) ++ lit " (" ++ lit (f_file f) ++ lit ":" ++ dec (f_line f) ++ lit ")" ++
  (match lit (f_str f) with [] => [] | _ => lit " with " ++ lit (f_str f) end).
(** PropertyContext.cpp:69-89 flushFailures: the text returned. *)
Definition failuresText (indent : nat) (fs : list failure) : text :=
  match fs with
  | [] => []
  | f :: r => failureText f ++ flat_map (fun g => lit "," ++ nl ++ repeat 32%Z indent ++ failureText g) r
  end.

(** Property.hpp:395-400: what is printed when a candidate has failed.  [cur] is the tuple of values after the replacement, [c] the context of
    the round. *)
Definition foundLines {V} (w : wording V) (N : nat) (vals : list V) (c : ctx) : printed :=
  (Cout, lit "  shrinking found simpler failing arg " ++ dec (Z.of_nat N) ++ lit ": " ++ showArgs w vals ++ nl) ::
  (if hasFailures c then [(Cout, lit "    by failed expectation: " ++ failuresText 4 (failures c) ++ nl)] else []).

(** Property.hpp:371-405 shrinkN, as in RunnerModel.v. *)
Fixpoint pshrinkTree {E V W} (wo : wording V) (P : property E V W) (N : nat) (cur : list (etree E V)) (t : etree E V) (s : rs E V W) {struct t}
  : res (list (etree E V) * printed * rs E V W) :=
  match t with
  | ENode _ shr =>
      match shr (rnd s) with
      | Ok (st, r') => pshrinkStream wo P N cur newctx st (with_rnd r' s)
      | UB => UB | Throw e => Throw e | OutOfFuel => OutOfFuel
      end
  end
with pshrinkStream {E V W} (wo : wording V) (P : property E V W) (N : nat) (cur : list (etree E V)) (c : ctx) (st : estream E V) (s : rs E V W) {struct st}
  : res (list (etree E V) * printed * rs E V W) :=
  match st with
  | ENil => Ok (cur, [], s)
  | ECons h tl =>
      match tl (rnd s) with
      | Ok (st', r') =>
          do '(b, c', s2) <- test P N cur (eroot h) c (with_rnd r' s);
          if negb b || hasFailures c'
          then let cur' := set_nth N h cur in
               do '(fin, out, s3) <- pshrinkTree wo P N cur' h s2;
               Ok (fin, foundLines wo N (map eroot cur') c' ++ out, s3)
          else pshrinkStream wo P N cur c' st' s2
      | UB => UB | Throw e => Throw e | OutOfFuel => OutOfFuel
      end
  end.

(** Property.hpp:407-412 shrinkEach. *)
Fixpoint pshrinkEach {E V W} (wo : wording V) (P : property E V W) (ord : list nat) (streams : list (estream E V)) (cur : list (etree E V)) (s : rs E V W)
  : res (list (etree E V) * printed * rs E V W) :=
  match ord with
  | [] => Ok (cur, [], s)
  | N :: o =>
      match nth_error streams N with
      | None => UB
      | Some st => do '(cur', out, s') <- pshrinkStream wo P N cur newctx st s;
                   do '(fin, out', s2) <- pshrinkEach wo P o streams cur' s';
                   Ok (fin, out ++ out', s2)
      end
  end.

(** Property.hpp:414-428 shrink. *)
Definition pshrink {E V W} (wo : wording V) (ev : env E) (P : property E V W) (s : rs E V W) : res (report V * printed * rs E V W) :=
  do '(x, r1) <- evalTuple (ord_regen ev) (gens P) (rnd s);
  match x with
  | inr e => Throw e
  | inl ts =>
      do '(y, r2) <- evalTuple (ord_shrinks ev) (map (fun t => gbind (eshrinks t) (fun st => gret (inl st))) ts) r1;
      match y with
      | inr e => Throw e
      | inl streams =>
          do '(ts', out, s') <- pshrinkEach wo P (ord_each ev) streams ts (with_rnd r2 s);
          Ok ({| with_args := map eroot ts; simplest_args := map eroot ts' |},
              [(Cout, lit "  with args: " ++ showArgs wo (map eroot ts) ++ nl)] ++ out ++
              [(Cout, lit "  simplest args found by shrinking: " ++ showArgs wo (map eroot ts') ++ nl)], s')
      end
  end.

(** Property.hpp:225-232 and 244-260: the message for a falsifying run, the [n]-th. *)
Definition falsifiable {V} (wo : wording V) (n : nat) (why : reason) : printed :=
  let head := lit "Falsifiable, after " ++ dec (Z.of_nat n) ++ lit " tests" in
  match why with
  | RExpectation fs => [(Cerr, head ++ lit ": "); (Cerr, failuresText 0 fs)]
  | RFalse => [(Cerr, head ++ nl)]
  | RException EAssert | RException EPropFailed =>
      let e := match why with RException e => e | _ => EAssert end in
      [(Cerr, head ++ lit ": " ++ what wo e ++ lit " (" ++ fst (place wo e) ++ lit ":" ++ dec (snd (place wo e)) ++ lit ")" ++ nl)]
  | RException e => [(Cerr, head ++ lit " - unhandled exception thrown: " ++ what wo e ++ nl)]
  end.

(** PropertyContext.cpp:91-110 printSummary. *)
Definition summaryText (c : ctx) : printed := map (fun l => (Cout, l ++ nl)) (summaryLines c).

(** Property.hpp:203-266, as [runLoop] of RunnerModel.v. *)
Fixpoint prunLoop {E V W} (wo : wording V) (fuel : nat) (ev : env E) (P : property E V W) (n i : nat) (s : rs E V W) : res (verdict V * printed * rs E V W) :=
  match n with
  | O => Ok (VPassed (printSummary (cx s)),
             (Cout, lit "OK, passed " ++ dec (Z.of_nat (numRuns P)) ++ lit " tests" ++ nl) :: summaryText (cx s), s)
  | S n' =>
      if negb (maxDurationMs P =? 0)%Z && (maxDurationMs P <? elapsed ev i)%Z
      then Ok (VTimedOut i (printSummary (cx s)),
               (Cout, lit "Timed out after " ++ dec (elapsed ev i) ++ lit "ms , passed " ++ dec (Z.of_nat i) ++ lit " tests" ++ nl) :: summaryText (cx s), s)
      else
        do st <- retryRun fuel ev P s;
        match st with
        | SPassed s' => prunLoop wo fuel ev P n' (S i) s'
        | SFailed why saved s' =>
            do '(rep, out, s2) <- pshrink wo ev P (with_rnd saved s');
            Ok (VFalsified (S i) why rep, falsifiable wo (S i) why ++ out, s2)
        end
  end.

(** Property.hpp:193-266 runForAll. *)
Definition prunForAll {E V W} (wo : wording V) (fuel : nat) (ev : env E) (P : property E V W) (w : W) : res (verdict V * printed * rs E V W) :=
  do '(v, out, s) <- prunLoop wo fuel ev P (numRuns P) 0 {| rnd := seeded ev (seed P); cx := newctx; wd := w; lg := [] |};
  Ok (v, (Cout, lit "random seed: " ++ dec (seed P) ++ nl) :: out, s).

(** Property.hpp:268-300 example: the result and what is printed, when no exception leaves it. *)
Definition pexample {E V W} (wo : wording V) (P : property E V W) (args : list V) (s : rs E V W) : res (bool * printed * rs E V W) :=
  let outer := cx s in
  let withArgs := (Cerr, lit "  with args: " ++ showArgs wo args ++ nl) in
  let caught e (s' : rs E V W) :=
    match e with
    | ENonStd => Throw ENonStd
    | ESuccess => Ok (true, [], with_cx outer s')
    | EDiscard => Ok (false, [(Cerr, lit "Discard is not supported for single run" ++ nl)], with_cx outer s')
    | EAssert | EPropFailed =>
        Ok (false, [(Cerr, lit "example failed: " ++ what wo e ++ lit " (" ++ fst (place wo e) ++ lit ":" ++ dec (snd (place wo e)) ++ lit ")" ++ nl); withArgs], with_cx outer s')
    | _ => Ok (false, [(Cerr, lit "example failed by exception: " ++ what wo e ++ nl); withArgs], with_cx outer s')
    end in
  match runHook (onStartup P) EStartup (with_cx newctx s) with
  | (Some e, s1) => caught e s1
  | (None, s1) =>
      match callFunc P args s1 with
      | (UThrow e, s2) => caught e s2
      | (URet b, s2) =>
          match runHook (onCleanup P) ECleanup s2 with
          | (Some e, s3) => caught e s3
          | (None, s3) => Ok (b, [], with_cx outer s3)
          end
      end
  end.

(** Property.hpp:320-336 matrix: the examples one after the other. *)
Fixpoint pmatrixLoop {E V W} (wo : wording V) (fuel : nat) (P : property E V W) (lists : list (list V)) (indices : list Z) (s : rs E V W)
  : res (printed * rs E V W) :=
  match fuel with
  | O => OutOfFuel
  | S fuel' =>
      do args <- pickEach lists indices;
      do '(_, out, s') <- pexample wo P args s;
      let '(more, indices') := progress lists indices in
      if more then do '(out', s2) <- pmatrixLoop wo fuel' P lists indices' s'; Ok (out ++ out', s2) else Ok (out, s')
  end.
