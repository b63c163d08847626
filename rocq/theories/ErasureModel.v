(** Type erasure (proptest/util/any.hpp, Shrinkable.hpp, Shrinkable.cpp, shrinker/, combinator/): a value is kept behind
    a pointer to void and read back by an unchecked cast.  The other files take every cast to be right; here each value
    carries the name of the type it was created with, each cast names the type it reads, and a cast to another type is
    undefined behaviour.
    Not followed here: the elements of a Stream are pointers to void as well (Stream.hpp:43, 120-128); they are taken to
    be Shrinkables. *)
From Coq Require Import List ZArith Bool.
From Verif Require Import Base TreeModel BinSearchModel RandomModel ListModel TupleModel StringModel ContainerModel IntegralModel EffModel LazyModel.
Import ListNotations.
Local Open Scope Z_scope.

(** Names of C++ types.  [CName n]: a type that is not one of the templates below, by number; tuple<A,B> is
    [CTupS A (CTupS B CTup0)]. *)
Inductive cty : Set :=
| CName (n : nat)
| CVector (t : cty) | CList (t : cty) | CSet (t : cty) | CMap (k v : cty) | CPair (a b : cty)
| CTup0 | CTupS (a ts : cty)
| CShr (t : cty)        (* Shrinkable<T> *)
| CShrAny.              (* ShrinkableAny *)
(** C++ types are equal or not. (The T of any.hpp:19-22.) *)
Definition cty_eqb : forall a b : cty, {a = b} + {a <> b}.
Proof. decide equality. apply Nat.eq_dec. Defined.
(** int64_t; uint64_t, which is also size_t; string. *)
Definition CI64 : cty := CName 0.
(** uint64_t, also size_t: generator/util.cpp:48-86, shrinker/listlike.cpp:116, 137. *)
Definition CU64 : cty := CName 1.
(** string: shrinker/string.cpp:6-25. *)
Definition CStr : cty := CName 2.
(** vector<ShrinkableAny>. (shrinker/listlike.cpp:7-161.) *)
Definition CVecAny : cty := CVector CShrAny.

(** any.hpp:8-26 Any: the value and, to state what is read, the type make_shared<T> created it with (lines 14 and 33). *)
Inductive obj (A : Type) : Type := Obj (t : cty) (a : A).
Arguments Obj {A} _ _.

(** any.hpp:19-22 cast<T>, Shrinkable.hpp:186-189 get, getPtr, getRef, getSharedPtr: static_pointer_cast<T> of the pointer
    to void; reading through it is undefined unless a T was stored.  (C++ also lets an object be read as the signed or
    unsigned variant of its type, or as char: such types would get one name here.) *)
Definition cast {A} (t : cty) (o : obj A) : res A :=
  match o with Obj t' a => if cty_eqb t' t then Ok a else UB end.

(** ** Shrinkable *)

(** Shrinkable.hpp:191-195 map<U> with 272-280 AnyFunctionFunc. *)
Definition mapE {A B} (T U : cty) (f : A -> B) (t : tree (obj A)) : res (tree (obj B)) :=
  mapTreeM (fun o => do a <- cast T o; Ok (Obj U (f a))) t.

(** Shrinkable.hpp:203-207 flatMap<U> with 282-290 ShrinkableAnyFunctionFunc. *)
Definition flatMapE {A B} (T : cty) (f : A -> res (tree (obj B))) (t : tree (obj A)) : res (tree (obj B)) :=
  flatMapM (fun o => do a <- cast T o; f a) t.

(** Shrinkable.hpp:209-213 mapShrinkable<U> with 292-300 ShrinkableAnyFunction1Func, Shrinkable.cpp:103-118: as<T>()
    casts nothing, the function reads what it reads. *)
Fixpoint mapShrinkableE {A B} (f : tree (obj A) -> res (tree (obj B))) (t : tree (obj A)) : res (tree (obj B)) :=
  match t with Node a ts => do b <- f (Node a ts); do ts' <- mapM (mapShrinkableE f) ts; Ok (with_ b ts') end.

(** Shrinkable.hpp:302-310 BoolFunctionFunc. *)
Definition boolFunction {A} (T : cty) (crit : A -> bool) (o : obj A) : res bool := do a <- cast T o; Ok (crit a).

(** Shrinkable.hpp:216-219 filter(criteria), Shrinkable.cpp:121-143 (as TreeModel.filter_tree). *)
Fixpoint filterM {X} (crit : X -> res bool) (t : tree X) : res (tree X) :=
  match t with
  | Node a ts =>
      do b <- crit a;
      if negb b then Throw EInvalidArgument
      else
        do ts' <- (fix fstream (ts : list (tree X)) : res (list (tree X)) :=
                     match ts with
                     | [] => Ok []
                     | s :: r =>
                         do b <- crit (root s);
                         if b
                         then do s' <- filterM crit s; do r' <- fstream r; Ok (s' :: r')
                         else fstream r
                     end) ts;
        Ok (Node a ts')
  end.
(** Shrinkable.hpp:216-219 filter(criteria) of a Shrinkable<T>. *)
Definition filterE {A} (T : cty) (crit : A -> bool) : tree (obj A) -> res (tree (obj A)) := filterM (boolFunction T crit).

(** Shrinkable.cpp:159-181 and 200-222 filterStream (as TreeModel.filterStream). *)
Fixpoint filterStreamM {X} (fuel : nat) (crit : X -> res bool) (tol : Z) (s : list (tree X)) : res (list (tree X)) :=
  match fuel with
  | O => OutOfFuel
  | S fuel' =>
      match s with
      | [] => Ok []
      | shr :: tail =>
          do b <- crit (root shr);
          if b
          then do r <- filterStreamM fuel' crit tol tail; Ok (shr :: r)
          else filterStreamM fuel' crit tol (stake tol (shrinks shr) ++ tail)
      end
  end.
(** Shrinkable.cpp:152-191 and 193-232 filter(criteria, tolerance) (as TreeModel.filter_tol). *)
Fixpoint filterTolM {X} (fuel : nat) (crit : X -> res bool) (tol : Z) (t : tree X) : res (tree X) :=
  match fuel with
  | O => OutOfFuel
  | S fuel' =>
      do b <- crit (root t);
      if negb b then Throw EInvalidArgument
      else do s <- filterStreamM fuel crit tol (shrinks t);
           do s' <- mapM (filterTolM fuel' crit tol) s;
           Ok (with_ t s')
  end.
(** Shrinkable.hpp:222-225 filter(criteria, tolerance) of a Shrinkable<T>. *)
Definition filterTolE {A} (T : cty) (fuel : nat) (crit : A -> bool) (tol : Z) : tree (obj A) -> res (tree (obj A)) :=
  filterTolM fuel (boolFunction T crit) tol.

(** ** Shrinkers *)

(** generator/util.cpp:8-46 binarySearchShrinkable: every shrinkable is made by make_shrinkable<int64_t> (line 38) or
    make_shrinkable_any<int64_t> (lines 20-44). *)
Definition binarySearchE (v : Z) : res (tree (obj Z)) :=
  do t <- binarySearch v; Ok (map_tree (Obj CI64) t).
(** generator/util.cpp:48-86 binarySearchShrinkableU, with uint64_t. *)
Definition binarySearchUE (v : Z) : res (tree (obj Z)) :=
  do t <- binarySearchU v; Ok (map_tree (Obj CU64) t).

(** listlike.cpp:116, 137, listlike.hpp:115-116, map.hpp:14-17 (as ListModel.sizeRange): the mapped function takes the
    int64_t of the Shrinkable<int64_t>, converting it for its own parameter. *)
Definition sizeRangeE (d m : Z) : res (tree (obj Z)) :=
  do t <- binarySearchE (wrapS 64 d); mapE CI64 CU64 (fun s => wrapU 64 (wrapU 64 s + m)) t.

(** listlike.cpp:111-130 shrinkMid (as ListModel.shrinkMid); lines 120, 124 and 128 read a vector<ShrinkableAny>. *)
Fixpoint shrinkMidE {X} (fuel : nat) (cont : list X) (minSize frontSize rearSize : Z) : res (tree (obj (list X))) :=
  match fuel with
  | O => OutOfFuel
  | S fuel' =>
      let minRear := if frontSize <=? minSize then minSize - frontSize else 0 in
      let maxRear := wrapU 64 (size cont - frontSize) in
      do range <- sizeRangeE (wrapU 64 (maxRear - minRear)) minRear;
      do t <- flatMapE CU64 (fun rear =>
                do front <- slice cont 0 frontSize;
                let any := Obj CVecAny front in
                do contRef <- cast CVecAny any;
                do tail <- slice cont (wrapU 64 (size contRef - rear)) (size cont);
                Ok (make_shrinkable (Obj CVecAny (contRef ++ tail)))) range;
      concatM (fun parent =>
        do parentRef <- cast CVecAny (root parent);
        let parentSize := size parentRef in
        if (parentSize <=? minSize) || (parentSize <=? frontSize) then Ok []
        else do shared <- cast CVecAny (root parent);
             do s <- shrinkMidE fuel' shared minSize (frontSize + 1) rearSize; Ok (shrinks s)) t
  end.

(** listlike.cpp:132-161 shrinkFrontAndThenMid (as ListModel.frontAndThenMid). *)
Fixpoint frontAndThenMidE {X} (mid : list X -> Z -> Z -> Z -> res (tree (obj (list X))))
         (fuel : nat) (cont : list X) (minSize rearSize : Z) : res (tree (obj (list X))) :=
  match fuel with
  | O => OutOfFuel
  | S fuel' =>
      let minFront := if rearSize <=? minSize then minSize - rearSize else 0 in
      let maxFront := wrapU 64 (size cont - rearSize) in
      do range <- sizeRangeE (wrapU 64 (maxFront - minFront)) minFront;
      do t <- flatMapE CU64 (fun front =>
                do head <- slice cont 0 front;
                let any := Obj CVecAny head in
                do contRef <- cast CVecAny any;
                do tail <- slice cont maxFront (size cont);
                Ok (make_shrinkable (Obj CVecAny (contRef ++ tail)))) range;
      concatM (fun parent =>
        do parentRef <- cast CVecAny (root parent);
        let parentSize := size parentRef in
        if (parentSize <=? minSize) || (parentSize <=? rearSize) then
          if (minSize <? parentSize) && (rearSize + 1 <? parentSize)
          then do shared <- cast CVecAny (root parent);
               do s <- mid shared minSize 1 (rearSize + 1); Ok (shrinks s)
          else Ok []
        else do shared <- cast CVecAny (root parent);
             do s <- frontAndThenMidE mid fuel' shared minSize (rearSize + 1); Ok (shrinks s)) t
  end.

(** listlike.cpp:165-167 shrinkMembershipwise. *)
Definition shrinkMembershipwiseE {X} (cont : list X) (minSize : Z) : res (tree (obj (list X))) :=
  frontAndThenMidE (shrinkMidE (S (length cont))) (S (length cont)) cont minSize 0.

(** listlike.cpp:9-54 genStream (as ListModel.bulkStream); lines 23 and 24 read vectors, lines 46-49 make one. *)
Fixpoint bulkStreamE {X} (shrinkBulk' : tree (obj (list (tree X))) -> res (list (tree (obj (list (tree X))))))
         (fuel : nat) (ancestor parent : tree (obj (list (tree X)))) (elemStreams : list (list (tree X)))
  : res (list (tree (obj (list (tree X))))) :=
  match fuel with
  | O => OutOfFuel
  | S fuel' =>
      do ancestorVec <- cast CVecAny (root ancestor);
      if size ancestorVec =? 0 then Ok []
      else if negb (size elemStreams =? size ancestorVec) then Throw ERuntime
      else
        do parentVec <- cast CVecAny (root parent);
        if negb (size parentVec =? size ancestorVec) then Throw ERuntime
        else
          let newVec := bulkStep ancestorVec elemStreams in
          if forallb isEmpty elemStreams then Ok []
          else let newShrinkable := make_shrinkable (Obj CVecAny newVec) in
               do sub <- shrinkBulk' newShrinkable;
               do rest <- bulkStreamE shrinkBulk' fuel' ancestor newShrinkable (map (@tl (tree X)) elemStreams);
               Ok (with_ newShrinkable sub :: rest)
  end.

(** listlike.cpp:7, 56-86 shrinkBulk (as ListModel.shrinkBulk); lines 56 and 71 read the vector. *)
Fixpoint shrinkBulkE {X} (fuel : nat) (ancestor : tree (obj (list (tree X)))) : res (list (tree (obj (list (tree X))))) :=
  match fuel with
  | O => OutOfFuel
  | S fuel' =>
      do parentVec <- cast CVecAny (root ancestor);
      if size parentVec / 1 <? 1 then Ok []
      else
        let elemStreams := map shrinks parentVec in
        if forallb isEmpty elemStreams then Ok []
        else bulkStreamE (shrinkBulkE fuel') (S (list_max (map (@length (tree X)) elemStreams)))
                         ancestor ancestor elemStreams
  end.

(** listlike.cpp:89-109 shrinkElementwise (as ListModel.shrinkElementwise). *)
Definition shrinkElementwiseE {X} (shr : tree (obj (list (tree X)))) : res (list (tree (obj (list (tree X))))) :=
  do vec <- cast CVecAny (root shr);
  if isEmpty vec then Ok []
  else if size vec / 1 <? 1 then Ok []
  else do t <- concatM (fun s => do v <- cast CVecAny (root s);
                                 if size v / 1 <? 1 then Ok [] else shrinkBulkE (bulkFuel v) s) shr;
       Ok (shrinks t).

(** listlike.hpp:79-101 shrinkListLike<ListLike, T>: line 98 reads every element as a T. *)
Definition shrinkListLikeE {A} (L : cty -> cty) (T : cty) (vec : list (tree (obj A))) (minSize : Z) (elementwise : bool)
  : res (tree (obj (list A))) :=
  do t <- shrinkMembershipwiseE vec minSize;
  do t' <- (if elementwise then andThenM shrinkElementwiseE t else Ok t);
  flatMapE CVecAny (fun v => do l <- mapM (fun shr => cast T (root shr)) v; Ok (make_shrinkable (Obj (L T) l))) t'.

(** listlike.hpp:43-64 shrinkContainer<set, T>: line 60 reads every element as a T. *)
Definition shrinkContainerE {A} (lt : A -> A -> bool) (T : cty) (cont : list (tree (obj A))) (minSize : Z)
  : res (tree (obj (list A))) :=
  do t <- shrinkMembershipwiseE cont minSize;
  flatMapE CVecAny (fun v =>
    do l <- mapM (fun shr => cast T (root shr)) v;
    Ok (make_shrinkable (Obj (CSet T) (fold_left (fun s e => set_insert lt e s) l [])))) t.

(** listlike.hpp:110-123 shrinkListLikeLength<ListLike, T>; line 117 maps to ListLike<Shrinkable<T>>. *)
Definition shrinkListLikeLengthE {X} (L : cty -> cty) (T : cty) (elems : list X) (minSize : Z) : res (tree (obj (list X))) :=
  do range <- sizeRangeE (wrapU 64 (size elems - minSize)) minSize;
  flatMapE CU64 (fun n => if n =? 0 then Ok (make_shrinkable (Obj (L (CShr T)) []))
                          else do l <- slice elems 0 n; Ok (make_shrinkable (Obj (L (CShr T)) l))) range.

(** map.hpp:9-44 shrinkMap<Key, T>; line 38 reads a key and a value. *)
Definition shrinkMapE {K V} (lt : K -> K -> bool) (CK CV : cty) (m : list (tree (obj K) * tree (obj V))) (minSize : Z)
  : res (tree (obj (list (K * V)))) :=
  let M := CMap (CShr CK) (CShr CV) in
  do range <- sizeRangeE (wrapU 64 (size m - minSize)) minSize;
  do t <- flatMapE CU64 (fun n => if n =? 0 then Ok (make_shrinkable (Obj M []))
                                  else Ok (make_shrinkable (Obj M (map_prefix m n)))) range;
  flatMapE M (fun v =>
    do l <- mapM (fun e => do k <- cast CK (root (fst e)); do x <- cast CV (root (snd e)); Ok (k, x)) v;
    Ok (make_shrinkable (Obj (CMap CK CV) (fold_left (fun s e => map_insert lt e s) l [])))) t.

(** pair.hpp:11 pair_t. *)
Definition pairE (A B : cty) : cty := CPair (CShr A) (CShr B).
(** pair.hpp:16-33 shrinkFirst: line 22 reads the pair, lines 25-27 its first component. *)
Definition shrinkFirstE {X Y} (A B : cty) (parent : tree (obj (tree (obj X) * tree (obj Y)))) :=
  do parentRef <- cast (pairE A B) (root parent);
  do t <- flatMapE A (fun val =>
            Ok (make_shrinkable (Obj (pairE A B) (make_shrinkable (Obj A val), snd parentRef)))) (fst parentRef);
  Ok (shrinks t).
(** pair.hpp:35-52 shrinkSecond: line 41 reads the pair, lines 44-46 its second component. *)
Definition shrinkSecondE {X Y} (A B : cty) (parent : tree (obj (tree (obj X) * tree (obj Y)))) :=
  do parentRef <- cast (pairE A B) (root parent);
  do t <- flatMapE B (fun val =>
            Ok (make_shrinkable (Obj (pairE A B) (fst parentRef, make_shrinkable (Obj B val))))) (snd parentRef);
  Ok (shrinks t).

(** pair.hpp:55-61 PairShrinker::shrink and 66-73 shrinkPair: line 59 reads both components. *)
Definition shrinkPairE {X Y} (A B : cty) (firstShr : tree (obj X)) (secondShr : tree (obj Y)) : res (tree (obj (X * Y))) :=
  do t1 <- concatM (shrinkFirstE A B) (make_shrinkable (Obj (pairE A B) (firstShr, secondShr)));
  do t2 <- concatM (shrinkSecondE A B) t1;
  flatMapE (pairE A B) (fun p =>
    do a <- cast A (root (fst p)); do b <- cast B (root (snd p));
    Ok (make_shrinkable (Obj (CPair A B) (a, b)))) t2.

(** tuple.hpp:13 out_tuple_t. *)
Fixpoint tupleOfTypes (ts : list cty) : cty := match ts with [] => CTup0 | t :: r => CTupS t (tupleOfTypes r) end.
(** tuple.hpp:14 tuple_t. *)
Definition tupleE (ts : list cty) : cty := tupleOfTypes (map CShr ts).

(** tuple.hpp:35-56 genStream<N>: line 45 reads the tuple, lines 49-51 the element_t of component N. *)
Definition genStreamE {U} (ts : list cty) (N : nat) (parent : tree (obj (list (tree (obj U))))) :=
  do parentRef <- cast (tupleE ts) (root parent);
  match nth_error parentRef N, nth_error ts N with
  | Some elem, Some T =>
      do t <- flatMapE T (fun val =>
                Ok (make_shrinkable (Obj (tupleE ts) (set_nth N (make_shrinkable (Obj T val)) parentRef)))) elem;
      Ok (shrinks t)
  | _, _ => Ok []
  end.

(** tuple.hpp:21-33 ConcatHelper<N>; [rest] = Size - N. *)
Fixpoint ConcatHelperE {U} (ts : list cty) (rest N : nat) (aggr : tree (obj (list (tree (obj U))))) :=
  match rest with
  | O => Ok aggr
  | S rest' => do t <- concatM (genStreamE ts N) aggr; ConcatHelperE ts rest' (S N) t
  end.

(** tuple.hpp:58-62 GetValueFromShrinkable on each component. *)
Fixpoint getTuple {U} (ts : list cty) (tup : list (tree (obj U))) : res (list U) :=
  match ts, tup with
  | T :: ts', shr :: r => do a <- cast T (root shr); do l <- getTuple ts' r; Ok (a :: l)
  | _, _ => Ok []
  end.

(** tuple.hpp:64-70 TupleShrinker::shrink and 75-79 shrinkTuple. *)
Definition shrinkTupleE {U} (ts : list cty) (elemTup : list (tree (obj U))) : res (tree (obj (list U))) :=
  do t <- ConcatHelperE ts (length ts) 0 (make_shrinkable (Obj (tupleE ts) elemTup));
  flatMapE (tupleE ts) (fun tup => do l <- getTuple ts tup; Ok (make_shrinkable (Obj (tupleOfTypes ts) l))) t.

(** shrinker/string.cpp:14-24 (as StringModel.shrinkStringFront): line 15 reads a string, line 20 a uint64_t. *)
Definition shrinkStringFrontE {X} (minSize : Z) (shr : tree (obj (list X))) : res (list (tree (obj (list X)))) :=
  do str <- cast CStr (root shr);
  let maxSizeCopy := size str in
  if maxSizeCopy =? minSize then Ok []
  else do r <- binarySearchUE (wrapU 64 (maxSizeCopy - minSize));
       do t <- mapTreeM (fun o => do value <- cast CU64 o;
                           do s <- substr str (wrapU 64 (minSize + value)) (wrapU 64 (maxSizeCopy - (minSize + value)));
                           Ok (Obj CStr s)) r;
       Ok (shrinks t).
(** shrinker/string.cpp:6-25 (as StringModel.shrinkString): line 9 reads a uint64_t. *)
Definition shrinkStringE {X} (str : list X) (minSize : Z) : res (tree (obj (list X))) :=
  do r <- binarySearchUE (wrapU 64 (size str - minSize));
  do rear <- mapTreeM (fun o => do sz <- cast CU64 o; do s <- substr str 0 (wrapU 64 (sz + minSize)); Ok (Obj CStr s)) r;
  concatM (shrinkStringFrontE minSize) rear.

(** ** Combinators *)

(** A cast inside a computation using the engine.
    (The casts of combinator/transform.hpp:27, filter.hpp:42, aggregate.hpp:30, accumulate.hpp:38, 43, 60-61.) *)
Definition gcast {E A} (t : cty) (o : obj A) : G E A := gfail (cast t o).

(** combinator/transform.hpp:22-46 TransformFunctor1 (line 27) and TransformFunctor2; [f] is the user's function. *)
Definition transformE {E A B} (T U : cty) (g : egen E (obj A)) (f : A -> G E B) : egen E (obj B) :=
  ltransformGen g (fun o => gbind (gcast T o) (fun a => gbind (f a) (fun b => gret (Obj U b)))).

(** combinator/filter.hpp:20-50 FilterCastFunctor (line 26) and FilterFunctor: line 42 reads the T and passes a new Any
    made of it. *)
Fixpoint filterGenE {E A} (fuel : nat) (T : cty) (g : egen E (obj A)) (crit : A -> G E bool) : egen E (obj A) :=
  match fuel with
  | O => fun _ => OutOfFuel
  | S fuel' => gbind g (fun t =>
               gbind (gcast T (eroot t)) (fun a =>
               gbind (gcast T (Obj T a)) (fun a' =>
               gbind (crit a') (fun b =>
                 if b then lfilterTol (fun o => gbind (gcast T o) crit) 1 t else filterGenE fuel' T g crit))))
  end.

(** pair<T, Shrinkable<U>>, the Intermediate of dependency.hpp:57, chain.hpp:61 and 112, derive.hpp:55. *)
Definition interE (T U : cty) : cty := CPair T (CShr U).

(** dependency.hpp:36-41, chain.hpp:42-47 and 118-123, derive.hpp:36-41: called with a T (Shrinkable.hpp:282-290).  The
    pair is made with its own type whatever type of Shrinkable the functor is declared to return; derive.hpp:36 declares
    Shrinkable<U>, and the conversion of its result (Shrinkable.hpp:176) checks nothing. *)
Definition interFunctorE {E A B} (T U : cty) (gen2gen : A -> egen E (obj B)) (o : obj A) : egen E (obj (A * etree E (obj B))) :=
  gbind (gcast T o) (fun t => gbind (gen2gen t) (fun u => gret (emake (Obj (interE T U) (t, u))))).

(** dependency.hpp:64-74, chain.hpp:69-79 and 127-138, derive.hpp:63-73. *)
Definition secondShrinksE {E A B} (T U : cty) (interShr : etree E (obj (A * etree E (obj B))))
  : G E (estream E (obj (A * etree E (obj B)))) :=
  gbind (gcast (interE T U) (eroot interShr)) (fun p =>
  gbind (eflatMap (fun o => gbind (gcast U o) (fun x => gret (emake (Obj (interE T U) (fst p, emake (Obj U x)))))) (snd p))
        (fun n => eshrinks n)).

(** dependency.hpp:53-80, chain.hpp:58-88 and 110-146, derive.hpp:52-78 operator(). *)
Definition dependentE {E A B W} (T U : cty) (gen1 : egen E (obj A)) (gen2gen : A -> egen E (obj B))
           (fin : A * etree E (obj B) -> egen E (obj W)) : egen E (obj W) :=
  gbind gen1 (fun shrinkableT =>
  gbind (eflatMap (interFunctorE T U gen2gen) shrinkableT) (fun intermediate =>
  gbind (eandThen (secondShrinksE T U) intermediate) (fun intermediate' =>
  eflatMap (fun o => gbind (gcast (interE T U) o) fin) intermediate'))).

(** dependency.hpp:97-103 with 77-79. *)
Definition dependencyE {E A B} (T U : cty) (gen1 : egen E (obj A)) (gen2gen : A -> egen E (obj B)) : egen E (obj (A * B)) :=
  dependentE T U gen1 gen2gen (fun p => gbind (gcast U (eroot (snd p))) (fun u => gret (emake (Obj (CPair T U) (fst p, u))))).

(** chain.hpp:94-100 with 81-88; the chain of one value and the next. *)
Definition chainE {E V} (T U : cty) (gen1 : egen E (obj V)) (gen2gen : V -> egen E (obj V)) : egen E (obj (list V)) :=
  dependentE T U gen1 gen2gen (fun p =>
    gbind (gcast U (eroot (snd p))) (fun u => gret (emake (Obj (tupleOfTypes [T; U]) [fst p; u])))).

(** chain.hpp:102-149 with 140-145; [ts] are the types of the values chained so far. *)
Definition chainMoreE {E V} (ts : list cty) (U : cty) (gen1 : egen E (obj (list V))) (gen2gen : list V -> egen E (obj V))
  : egen E (obj (list V)) :=
  dependentE (tupleOfTypes ts) U gen1 gen2gen (fun p =>
    gbind (gcast U (eroot (snd p))) (fun u => gret (emake (Obj (tupleOfTypes (ts ++ [U])) (fst p ++ [u]))))).

(** derive.hpp:102-112 with 75-77. *)
Definition deriveE {E A B} (T U : cty) (gen1 : egen E (obj A)) (gen2gen : A -> egen E (obj B)) : egen E (obj B) :=
  dependentE T U gen1 gen2gen (fun p => gret (snd p)).

(** interval<uint64_t> (aggregate.hpp:26, accumulate.hpp:29). *)
Definition sizesE {E} (minSize maxSize : Z) : egen E (obj Z) :=
  gbind (liftGen (interval TU64 minSize maxSize)) (fun t => gret (emap (Obj CU64) t)).

(** aggregate.hpp:28-31: line 30 reads the T. *)
Fixpoint aggregateStepsE {E A} (T : cty) (n : nat) (gen2gen : A -> egen E (obj A)) (shr : etree E (obj A)) : egen E (obj A) :=
  match n with
  | O => gret shr
  | S n' => gbind (gcast T (eroot shr)) (fun a => gbind (gen2gen a) (aggregateStepsE T n' gen2gen))
  end.
(** aggregate.hpp:19-34 aggregateImpl<T>. *)
Definition aggregateE {E A} (T : cty) (gen1 : egen E (obj A)) (gen2gen : A -> egen E (obj A)) (minSize maxSize : Z)
  : egen E (obj A) :=
  deriveE CU64 T (sizesE minSize maxSize) (fun size =>
    gbind gen1 (fun shr => aggregateStepsE T (Z.to_nat size) gen2gen shr)).

(** accumulate.hpp:33-40: line 38 reads the T. *)
Fixpoint accumulateStepsE {E A} (T : cty) (n : nat) (gen2gen : A -> egen E (obj A)) (shr : etree E (obj A))
  : G E (list (etree E (obj A))) :=
  match n with
  | O => gret [shr]
  | S n' => gbind (gcast T (eroot shr)) (fun a =>
            gbind (gen2gen a) (fun shr' =>
            gbind (accumulateStepsE T n' gen2gen shr') (fun l => gret (shr :: l))))
  end.

(** accumulate.hpp:50-54. *)
Fixpoint lastShrinksE {E A} (T : cty) (vec : list (etree E (obj A))) (s : estream E (obj A))
  : estream E (obj (list (etree E (obj A)))) :=
  match s with
  | ENil => ENil
  | ECons h tl => ECons (emake (Obj (CVector (CShr T)) (removelast vec ++ [h])))
                        (gbind tl (fun s' => gret (lastShrinksE T vec s')))
  end.

(** accumulate.hpp:42-55: line 43 reads a vector<Shrinkable<T>>. *)
Definition shrinkLastE {E A} (T : cty) (parent : etree E (obj (list (etree E (obj A)))))
  : G E (estream E (obj (list (etree E (obj A))))) :=
  gbind (gcast (CVector (CShr T)) (eroot parent)) (fun vec =>
  match rev vec with
  | [] => gret ENil
  | lst :: _ => gbind (eshrinks lst) (fun s => gret (lastShrinksE T vec s))
  end).

(** accumulate.hpp:60-61: every element read as a T. *)
Fixpoint gcastAll {E A} (T : cty) (l : list (etree E (obj A))) : G E (list A) :=
  match l with
  | [] => gret []
  | t :: r => gbind (gcast T (eroot t)) (fun a => gbind (gcastAll T r) (fun l' => gret (a :: l')))
  end.

(** accumulate.hpp:21-65 accumulateImpl<T>. *)
Definition accumulateE {E A} (T : cty) (gen1 : egen E (obj A)) (gen2gen : A -> egen E (obj A)) (minSize maxSize : Z)
  : egen E (obj (list A)) :=
  deriveE CU64 (CVector T) (sizesE minSize maxSize) (fun size =>
    if size =? 0 then gret (emake (Obj (CVector T) []))
    else gbind gen1 (fun shr =>
         gbind (accumulateStepsE T (Z.to_nat size - 1) gen2gen shr) (fun vec =>
         gbind (gfail (shrinkListLikeLengthE CVector T vec minSize)) (fun lens =>
         gbind (eandThen (shrinkLastE T) (elift lens)) (fun t =>
         lmap (fun o => gbind (gcast (CVector (CShr T)) o) (fun v =>
                        gbind (gcastAll T v) (fun l => gret (Obj (CVector T) l)))) t))))).

(** ** Generators of containers, and the arguments of a property *)

(** vector.hpp:46-56 and list.hpp:44-53 (as ContainerModel.arbi_vector); [elemGen] is whatever was converted to a
    GenFunction<T> (vector.hpp:38-40, list.hpp:37): Shrinkable.hpp:176 converts a Shrinkable of any type. *)
Definition arbiVectorE {E A} (L : cty -> cty) (T : cty) (elemGen : gen E (obj A)) (s : sizes) : gen E (obj (list A)) :=
  gbind (containerSize s) (fun n =>
  gbind (times (Z.to_nat n) elemGen) (fun vec =>
  gfail (shrinkListLikeE L T vec (minSize s) true))).

(** Property.hpp:343-347 (transformHeteroTuple<ShrinkableGet>) with util/createGenTuple.hpp:49-63 and util/invokeWithArgs.hpp: generators given for some
    arguments only are converted to GenFunction<decay_t<ARGS>>; the value passed is read with the type of the parameter.
    (With a generator for every argument, createGenTuple.hpp:39-47, each keeps its own type.) *)
Definition argumentE {E A} (T : cty) (g : gen E (obj A)) : G E A := gbind g (fun shr => gcast T (root shr)).
