(** Model of the list shrinkers (proptest/shrinker/listlike.cpp, listlike.hpp, map.hpp).
    size_t values are integers modulo 2^64.  Iterator arithmetic outside the container is [UB].  Streams are
    computed completely: undefined behaviour or an exception in any part of the lazily computed tree is the
    outcome of the whole. *)
From Coq Require Import List ZArith Bool.
From Verif Require Import Base TreeModel BinSearchModel.
Import ListNotations.
Local Open Scope Z_scope.

(** Shrinkable.cpp:87-101 flatMap with a transformer that may have an abnormal outcome. *)
Fixpoint flatMapM {A B} (f : A -> res (tree B)) (t : tree A) : res (tree B) :=
  match t with Node a ts => do b <- f a; do ts' <- mapM (flatMapM f) ts; Ok (with_ b ts') end.

(** Shrinkable.cpp:252-266 concat with a continuation that may have an abnormal outcome. *)
Fixpoint concatM {A} (thn : tree A -> res (list (tree A))) (t : tree A) : res (tree A) :=
  match t with
  | Node a ts => do ts' <- mapM (concatM thn) ts; do more <- thn (Node a ts); Ok (Node a (ts' ++ more))
  end.

(** Shrinkable.cpp:289-307 andThen with a continuation that may have an abnormal outcome. *)
Fixpoint andThenM {A} (thn : tree A -> res (list (tree A))) (t : tree A) : res (tree A) :=
  match t with
  | Node a ts => match ts with
                 | [] => do more <- thn (Node a ts); Ok (Node a more)
                 | _ :: _ => do ts' <- mapM (andThenM thn) ts; Ok (Node a ts')
                 end
  end.

(** vector::size(). (listlike.cpp:7-161.) *)
Definition size {A} (l : list A) : Z := Z.of_nat (length l).

(** The elements between two iterators begin()+from and begin()+to. (listlike.cpp:120-128, 140-157.) *)
Definition slice {A} (l : list A) (from to : Z) : res (list A) :=
  if (0 <=? from) && (from <=? to) && (to <=? size l)
  then Ok (firstn (Z.to_nat (to - from)) (skipn (Z.to_nat from) l))
  else UB.

(** binarySearchShrinkable(d).map<size_t>(s -> s + m), listlike.cpp:116, 137, listlike.hpp:115-116,
    map.hpp:14-17: d is a size_t converted to int64_t; each value is converted back to size_t. *)
Definition sizeRange (d m : Z) : res (tree Z) :=
  do t <- binarySearch (wrapS 64 d); Ok (map_tree (fun s => wrapU 64 (wrapU 64 s + m)) t).

(** listlike.cpp:111-130 shrinkMid.  The lambda parameter of line 117 shadows rearSize; line 121 subtracts it
    from the size of the copied front. *)
Fixpoint shrinkMid {X} (fuel : nat) (cont : list X) (minSize frontSize rearSize : Z) : res (tree (list X)) :=
  match fuel with
  | O => OutOfFuel
  | S fuel' =>
      let minRear := if frontSize <=? minSize then minSize - frontSize else 0 in
      let maxRear := wrapU 64 (size cont - frontSize) in
      do range <- sizeRange (wrapU 64 (maxRear - minRear)) minRear;
      do t <- flatMapM (fun rear =>
                do front <- slice cont 0 frontSize;
                do tail <- slice cont (wrapU 64 (size front - rear)) (size cont);
                Ok (make_shrinkable (front ++ tail))) range;
      concatM (fun parent =>
        let parentSize := size (root parent) in
        if (parentSize <=? minSize) || (parentSize <=? frontSize) then Ok []
        else do s <- shrinkMid fuel' (root parent) minSize (frontSize + 1) rearSize; Ok (shrinks s)) t
  end.

(** listlike.cpp:132-161 shrinkFrontAndThenMid; the callee of line 151 is the parameter [mid]. *)
Fixpoint frontAndThenMid {X} (mid : list X -> Z -> Z -> Z -> res (tree (list X)))
         (fuel : nat) (cont : list X) (minSize rearSize : Z) : res (tree (list X)) :=
  match fuel with
  | O => OutOfFuel
  | S fuel' =>
      let minFront := if rearSize <=? minSize then minSize - rearSize else 0 in
      let maxFront := wrapU 64 (size cont - rearSize) in
      do range <- sizeRange (wrapU 64 (maxFront - minFront)) minFront;
      do t <- flatMapM (fun front =>
                do head <- slice cont 0 front;
                do tail <- slice cont maxFront (size cont);
                Ok (make_shrinkable (head ++ tail))) range;
      concatM (fun parent =>
        let parentSize := size (root parent) in
        if (parentSize <=? minSize) || (parentSize <=? rearSize) then
          if (minSize <? parentSize) && (rearSize + 1 <? parentSize)
          then do s <- mid (root parent) minSize 1 (rearSize + 1); Ok (shrinks s)
          else Ok []
        else do s <- frontAndThenMid mid fuel' (root parent) minSize (rearSize + 1); Ok (shrinks s)) t
  end.

(** listlike.cpp:132: the recursion fixes one more element each time, so |cont| + 1 calls suffice. *)
Definition shrinkFrontAndThenMid {X} (cont : list X) (minSize rearSize : Z) : res (tree (list X)) :=
  frontAndThenMid (shrinkMid (S (length cont))) (S (length cont)) cont minSize rearSize.

(** listlike.cpp:165-167 shrinkMembershipwise. *)
Definition shrinkMembershipwise {X} (cont : list X) (minSize : Z) : res (tree (list X)) :=
  shrinkFrontAndThenMid cont minSize 0.

(** Stream::isEmpty. (Stream.hpp:37.) *)
Definition isEmpty {A} (l : list A) : bool := match l with [] => true | _ => false end.

(** listlike.cpp:33-42: the loop computing newVec. *)
Fixpoint bulkStep {A} (ancestorVec : list (tree A)) (elemStreams : list (list (tree A))) : list (tree A) :=
  match ancestorVec, elemStreams with
  | a :: anc, st :: sts => (match st with [] => a | h :: _ => h end) :: bulkStep anc sts
  | _, _ => []
  end.

(** listlike.cpp:9-54 genStream with frompos = 0 and topos = size (power and offset are 0 at every call,
    listlike.hpp:88; lines 48 and 51 pass them on).  [shrinkBulk'] is the recursive call of line 48. *)
Fixpoint bulkStream {A} (shrinkBulk' : list (tree A) -> res (list (tree (list (tree A)))))
         (fuel : nat) (ancestorVec parentVec : list (tree A)) (elemStreams : list (list (tree A)))
  : res (list (tree (list (tree A)))) :=
  match fuel with
  | O => OutOfFuel
  | S fuel' =>
      if size ancestorVec =? 0 then Ok []
      else if negb (size elemStreams =? size ancestorVec) then Throw ERuntime
      else if negb (size parentVec =? size ancestorVec) then Throw ERuntime
      else
        let newVec := bulkStep ancestorVec elemStreams in
        if forallb isEmpty elemStreams then Ok []
        else do sub <- shrinkBulk' newVec;
             do rest <- bulkStream shrinkBulk' fuel' ancestorVec newVec (map (@tl (tree A)) elemStreams);
             Ok (Node newVec sub :: rest)
  end.

(** listlike.cpp:7, 56-86 shrinkBulk with power = 0 and offset = 0 (numSplits = 1). *)
Fixpoint shrinkBulk {A} (fuel : nat) (ancestor : list (tree A)) : res (list (tree (list (tree A)))) :=
  match fuel with
  | O => OutOfFuel
  | S fuel' =>
      if size ancestor / 1 <? 1 then Ok []
      else
        let elemStreams := map shrinks ancestor in
        if forallb isEmpty elemStreams then Ok []
        else bulkStream (shrinkBulk fuel') (S (list_max (map (@length (tree A)) elemStreams)))
                        ancestor ancestor elemStreams
  end.

(** Total number of nodes of the elements: bounds the recursion of shrinkBulk. (For listlike.cpp:7-86.) *)
Fixpoint tnodes {A} (t : tree A) : nat := match t with Node _ ts => S (list_sum (map tnodes ts)) end.
(** Enough for the recursion of listlike.cpp:7-86. *)
Definition bulkFuel {A} (l : list (tree A)) : nat := S (list_sum (map tnodes l)).

(** listlike.cpp:89-109 shrinkElementwise with power = 0 and offset = 0. *)
Definition shrinkElementwise {A} (shr : tree (list (tree A))) : res (list (tree (list (tree A)))) :=
  if isEmpty (root shr) then Ok []
  else if size (root shr) / 1 <? 1 then Ok []
  else do t <- concatM (fun s => if size (root s) / 1 <? 1 then Ok []
                                 else shrinkBulk (bulkFuel (root s)) (root s)) shr;
       Ok (shrinks t).

(** listlike.hpp:79-90: the tree before the transformation to the output type. *)
Definition shrinkListLike_elems {A} (vec : list (tree A)) (minSize : Z) (elementwise : bool)
  : res (tree (list (tree A))) :=
  do t <- shrinkMembershipwise vec minSize;
  if elementwise then andThenM shrinkElementwise t else Ok t.

(** listlike.hpp:79-101 shrinkListLike. *)
Definition shrinkListLike {A} (vec : list (tree A)) (minSize : Z) (elementwise : bool) : res (tree (list A)) :=
  do t <- shrinkListLike_elems vec minSize elementwise;
  Ok (flatMap_tree (fun v => make_shrinkable (map root v)) t).

(** listlike.hpp:110-123 shrinkListLikeLength. *)
Definition shrinkListLikeLength {X} (elems : list X) (minSize : Z) : res (tree (list X)) :=
  do range <- sizeRange (wrapU 64 (size elems - minSize)) minSize;
  flatMapM (fun n => if n =? 0 then Ok (make_shrinkable []) else do l <- slice elems 0 n; Ok (make_shrinkable l)) range.

(** std::set<T>::insert / std::set iteration: [insert] into a strictly sorted list under the element order. (listlike.hpp:58-61.) *)
Fixpoint set_insert {A} (lt : A -> A -> bool) (x : A) (l : list A) : list A :=
  match l with
  | [] => [x]
  | y :: r => if lt x y then x :: l else if lt y x then y :: set_insert lt x r else l
  end.

(** listlike.hpp:43-64 shrinkContainer for std::set; [cont] is the iteration order of set<Shrinkable<T>>. *)
Definition shrinkContainer {A} (lt : A -> A -> bool) (cont : list (tree A)) (minSize : Z) : res (tree (list A)) :=
  do t <- shrinkMembershipwise cont minSize;
  Ok (flatMap_tree (fun v => make_shrinkable (fold_left (fun s e => set_insert lt (root e) s) v [])) t).

(** std::map<K,V>::insert. (map.hpp:36-39.) *)
Fixpoint map_insert {K V} (lt : K -> K -> bool) (p : K * V) (l : list (K * V)) : list (K * V) :=
  match l with
  | [] => [p]
  | q :: r => if lt (fst p) (fst q) then p :: l
              else if lt (fst q) (fst p) then q :: map_insert lt p r else l
  end.

(** map.hpp:25-29: the first n entries, the loop stopping at end(). *)
Definition map_prefix {X} (l : list X) (n : Z) : list X := firstn (Z.to_nat n) l.

(** map.hpp:9-44 shrinkMap; [m] is the iteration order of map<Shrinkable<Key>,Shrinkable<T>>.  Lines 28-29
    build a new map from an ordered range of distinct keys, which is that range. *)
Definition shrinkMap {K V} (lt : K -> K -> bool) (m : list (tree K * tree V)) (minSize : Z)
  : res (tree (list (K * V))) :=
  do range <- sizeRange (wrapU 64 (size m - minSize)) minSize;
  let t := flatMap_tree (fun n => if n =? 0 then make_shrinkable [] else make_shrinkable (map_prefix m n)) range in
  Ok (flatMap_tree (fun v => make_shrinkable
        (fold_left (fun s e => map_insert lt (root (fst e), root (snd e)) s) v [])) t).
