(** Values behind pointers to void are read as the type they were stored with (C77). *)
From Coq Require Import List ZArith Bool Lia.
From Verif Require Import Base TreeModel TreeSpec TreeProof BinSearchModel RandomModel ListModel TupleModel StringModel ContainerModel IntegralModel IntegralProof
  EffModel LazyModel ErasureModel ErasureSpec ErasureProof ErasureEffProof.
Import ListNotations.
Local Open Scope Z_scope.

(** ** Operations on a Shrinkable<T> *)

(** Each operation, given a shrinkable whose values are all stored as the type of the template argument, reads only values of
    that type and gives what the operation without erasure gives, stored as the type the result is declared with. *)
Theorem C77_operations : forall A B T U (t : tree A) (crit : A -> bool) fuel tol,
  (forall f : A -> B, mapE T U f (stored T t) = Ok (stored U (map_tree f t))) /\
  (forall (f' : A -> res (tree (obj B))) f, (forall a, f' a = Ok (stored U (f a))) ->
     flatMapE T f' (stored T t) = Ok (stored U (flatMap_tree f t))) /\
  (forall (f' : tree (obj A) -> res (tree (obj B))) f, (forall u, f' (stored T u) = Ok (stored U (f u))) ->
     mapShrinkableE f' (stored T t) = Ok (stored U (mapShrinkable f t))) /\
  filterE T crit (stored T t) = result (stored T) (filter_tree crit t) /\
  filterTolE T fuel crit tol (stored T t) = result (stored T) (filter_tol fuel crit tol t) /\
  take_tree tol (stored T t) = stored T (take_tree tol t) /\
  (forall (thn' : tree (obj A) -> res (list (tree (obj A)))) thn, (forall u, thn' (stored T u) = Ok (map (stored T) (thn u))) ->
     concatM thn' (stored T t) = Ok (stored T (concat_tree thn t)) /\
     andThenM thn' (stored T t) = Ok (stored T (andThen thn t))).
Proof.
  intros. repeat match goal with |- _ /\ _ => split end.
  - intros. apply mapE_stored.
  - intros. apply flatMap_stored. auto.
  - intros. apply mapShrinkableE_stored. auto.
  - apply filterE_stored.
  - apply filterTolE_stored.
  - apply take_stored.
  - intros. split; [apply concat_stored|apply andThen_stored]; auto.
Qed.
(** Example: an int (type number 5) that shrinks, doubled and kept as a long (number 6). *)
Example C77_operations_example :
  let t := Node 5%Z [Node 0 []; Node 2 [Node 1 []]] in
  mapE (CName 5) (CName 6) (fun z => 2 * z) (stored (CName 5) t)
    = Ok (Node (Obj (CName 6) 10) [Node (Obj (CName 6) 0) []; Node (Obj (CName 6) 4) [Node (Obj (CName 6) 2) []]]) /\
  mapE (CName 4) (CName 6) (fun z => 2 * z) (stored (CName 5) t) = UB /\
  filterE (CName 5) (fun z => negb (z =? 2)) (stored (CName 5) t) = Ok (Node (Obj (CName 5) 5) [Node (Obj (CName 5) 0) []]).
Proof. vm_compute. repeat split. Qed.

(** ** Shrinkers *)

(** Every cast in the shrinkers of containers, pairs, tuples and strings names the type stored: given elements stored as
    the type the shrinker is instantiated with, each shrinker ends as without erasure, and its values are stored as the
    declared type (vector<T> or list<T>, set<T>, map<K,V>, pair<A,B>, tuple<...>, string). *)
Theorem C77_shrinkers : forall A B U L T T' (elems : list (tree A)) (f : tree A) (s : tree B) (m : list (tree A * tree B)) lt n ew,
  shrinkListLikeE L T (map (stored T) elems) n ew = result (stored (L T)) (shrinkListLike elems n ew) /\
  shrinkContainerE lt T (map (stored T) elems) n = result (stored (CSet T)) (shrinkContainer lt elems n) /\
  shrinkMapE lt T T' (map (fun e => (stored T (fst e), stored T' (snd e))) m) n = result (stored (CMap T T')) (shrinkMap lt m n) /\
  shrinkPairE T T' (stored T f) (stored T' s) = Ok (stored (CPair T T') (shrinkPair f s)) /\
  (forall ts (es : list (tree U)), length es = length ts ->
     shrinkTupleE ts (storedAll ts es) = Ok (stored (tupleOfTypes ts) (shrinkTuple es))) /\
  (forall str : list U, shrinkStringE str n = result (stored CStr) (shrinkString str n)).
Proof.
  intros. repeat match goal with |- _ /\ _ => split end.
  - apply listLikeE_ok.
  - apply containerE_ok.
  - apply mapShrE_ok.
  - apply pairE_ok.
  - intros. apply tupleE_ok. auto.
  - intros. apply stringE_ok.
Qed.
(** Example: a pair of an int and a bool (numbers 5 and 7), and the tuple of both; read with the types exchanged, nothing is
    defined. *)
Example C77_shrinkers_example :
  let a := Node 3%Z [Node 0 []] in
  let b := Node 1%Z [Node 0 []] in
  shrinkPairE (CName 5) (CName 7) (stored (CName 5) a) (stored (CName 7) b) = Ok (stored (CPair (CName 5) (CName 7)) (shrinkPair a b)) /\
  shrinkPairE (CName 7) (CName 5) (stored (CName 5) a) (stored (CName 7) b) = UB /\
  shrinkTupleE [CName 5; CName 7] (storedAll [CName 5; CName 7] [a; b]) =
    Ok (stored (CTupS (CName 5) (CTupS (CName 7) CTup0)) (Node [3; 1] [Node [0; 1] [Node [0; 0] []]; Node [3; 0] []])) /\
  shrinkTupleE [CName 7; CName 5] (storedAll [CName 5; CName 7] [a; b]) = UB /\
  shrinkListLikeE CVector (CName 5) [stored (CName 5) a] 0 true =
    Ok (stored (CVector (CName 5)) (Node [3] [Node [] []])) /\
  shrinkStringE [97; 98] 1 = Ok (stored CStr (Node [97; 98] [Node [97] []; Node [98] []])).
Proof. vm_compute. repeat split. Qed.

(** ** Combinators *)

(** With generators that store the types the combinators are instantiated with, every cast in transform, filter, dependency,
    chain, derive, aggregate and accumulate reads the type stored: the generator does what it does without erasure -- same
    draws, same shrinks, same values -- and stores the declared type.  (derive.hpp:36 declares Shrinkable<U> for a function
    that returns a Shrinkable<pair<T, Shrinkable<U>>>; nothing is read through that declaration.) *)
Theorem C77_combinators : forall E A B V T U ts (g1 : egen E A) g1' (g2 : A -> egen E B) g2' (h2 : A -> egen E A) h2' (c1 : egen E V) c1' (c2 : V -> egen E V) c2'
    (d1 : egen E (list V)) d1' (d2 : list V -> egen E V) d2' (f : A -> G E B) crit fuel lo hi,
  gensAs T g1 g1' -> (forall a, gensAs U (g2 a) (g2' a)) -> (forall a, gensAs T (h2 a) (h2' a)) ->
  gensAs T c1 c1' -> (forall v, gensAs U (c2 v) (c2' v)) -> gensAs (tupleOfTypes ts) d1 d1' -> (forall l, gensAs U (d2 l) (d2' l)) ->
  gensAs U (ltransformGen g1 f) (transformE T U g1' f) /\
  gensAs T (lfilterGen fuel g1 crit) (filterGenE fuel T g1' crit) /\
  gensAs (CPair T U) (dependency g1 g2) (dependencyE T U g1' g2') /\
  gensAs (tupleOfTypes [T; U]) (chain c1 c2) (chainE T U c1' c2') /\
  gensAs (tupleOfTypes (ts ++ [U])) (chainMore d1 d2) (chainMoreE ts U d1' d2') /\
  gensAs U (derive g1 g2) (deriveE T U g1' g2') /\
  gensAs T (aggregate g1 h2 lo hi) (aggregateE T g1' h2' lo hi) /\
  gensAs (CVector T) (accumulate g1 h2 lo hi) (accumulateE T g1' h2' lo hi).
Proof.
  intros * H1 H2 H3 H4 H5 H6 H7. repeat match goal with |- _ /\ _ => split end.
  - apply transformE_ok; auto.
  - apply filterGenE_ok; auto.
  - apply dependencyE_ok; auto.
  - apply chainE_ok; auto.
  - apply chainMoreE_ok; auto.
  - apply deriveE_ok; auto.
  - apply aggregateE_ok; auto.
  - apply accumulateE_ok; auto.
Qed.
(** There is a generator storing a [T] for every generator. *)
Theorem C77_storing : forall E A T (g : egen E A), gensAs T g (storing T g).
Proof. intros. apply storing_ok. Qed.
(** Example: a size below 4, then a size up to it, as a pair and as the second alone; what the shrinks of the pair hold. *)
Definition upTo (n : Z) : egen replay (obj Z) := sizesE 0 n.
Definition got {A} (x : res (etree replay (obj A) * rst replay)) : option (obj A) :=
  match x with Ok (t, _) => Some (eroot t) | _ => None end.
Definition firstShrink {A} (x : res (etree replay (obj A) * rst replay)) : option (obj A) :=
  match x with
  | Ok (t, _) => match eshrinks t ([1; 1] : rst replay) with Ok (ECons h _, _) => Some (eroot h) | _ => None end
  | _ => None
  end.
Example C77_combinators_example :
  (forall n, gensAs CU64 (liftGen (interval TU64 0 n)) (upTo n)) /\
  got (dependencyE CU64 CU64 (upTo 3) upTo ([3; 2] : rst replay)) = Some (Obj (CPair CU64 CU64) (3, 2)) /\
  firstShrink (dependencyE CU64 CU64 (upTo 3) upTo ([3; 2] : rst replay)) = Some (Obj (CPair CU64 CU64) (0, 0)) /\
  got (deriveE CU64 CU64 (upTo 3) upTo ([3; 2] : rst replay)) = Some (Obj CU64 2) /\
  got (deriveE CU64 CI64 (upTo 3) upTo ([3; 2] : rst replay)) = Some (Obj CU64 2) /\
  got (accumulateE CU64 (upTo 9) upTo 1 3 ([3; 5; 4; 2] : rst replay)) = Some (Obj (CVector CU64) [5; 4; 2]) /\
  accumulateE CI64 (upTo 9) upTo 1 3 ([3; 5; 4; 2] : rst replay) = UB.
Proof. split; [intros; apply sizesE_ok|]. vm_compute. repeat split. Qed.

(** ** Generators of vectors and arguments of a property *)

(** Arbi<vector<T>> and Arbi<list<T>> with a generator of T. *)
Theorem C77_vectors : forall E A L T (g : gen E A) s r,
  arbiVectorE L T (results (stored T) g) s r = results (stored (L T)) (arbi_vector g s) r.
Proof.
  intros. unfold arbiVectorE, arbi_vector. unfold results at 2. unfold gbind. destruct (containerSize s r) as [[n q]| | |]; auto.
  rewrite times_results. unfold results. destruct (times (Z.to_nat n) g q) as [[vec q']| | |]; auto. cbn [result fst snd].
  unfold gfail. rewrite listLikeE_ok. destruct (shrinkListLike _ _ _); reflexivity.
Qed.

(** Example: two coins. *)
Definition coin : gen replay Z := fun r => Ok (Node 1 [Node 0 []], r).
Example C77_vectors_example :
  arbiVectorE CList (CName 7) (results (stored (CName 7)) coin) {| minSize := 2; maxSize := 2 |} ([2] : rst replay) =
    Ok (stored (CList (CName 7)) (Node [1; 1] [Node [0; 0] []]), []) /\
  arbiVectorE CList (CName 5) (results (stored (CName 7)) coin) {| minSize := 0; maxSize := 2 |} ([0] : rst replay) =
    Ok (Node (Obj (CList (CName 5)) []) [], []).
Proof. vm_compute. repeat split. Qed.

(** The conversion of a Shrinkable<U> to a Shrinkable<T> (Shrinkable.hpp:176) checks nothing and is implicit, so a generator of
    another type is accepted wherever a GenFunction<T> is expected: as the element generator of Arbi<vector<T>> and
    Arbi<list<T>> (vector.hpp:38, list.hpp:37), by filter<T> and transform<T,U>, whose checks use is_convertible
    (filter.hpp:70, transform.hpp), as the function of aggregate and accumulate, whose concept does not compare the
    types (GenBase.hpp:43-47), and for an argument of a property when generators are given for only some arguments
    (createGenTuple.hpp:49-63).  Whatever is then read is undefined behaviour. *)
Theorem C77_wrong_elements : forall E A L T U (g : gen E A) s r t q, U <> T ->
  arbi_vector g s r = Ok (t, q) -> root t <> [] -> arbiVectorE L T (results (stored U) g) s r = UB.
Proof.
  intros E A L T U g s r t q HU H Hne. unfold arbiVectorE, arbi_vector in *. unfold gbind in *. destruct (containerSize s r) as [[n q0]| | |]; try discriminate.
  rewrite times_results. unfold results. destruct (times (Z.to_nat n) g q0) as [[vec q']| | |]; try discriminate. cbn [result fst snd] in *.
  unfold gfail in *. destruct (shrinkListLike vec (minSize s) true) as [t0| | |] eqn:Hs; try discriminate.
  assert (t0 = t) by congruence. subst t0. rewrite (wrong_listLike _ L T U vec _ _ t) by auto. reflexivity.
Qed.
Theorem C77_wrong_type : forall E A B W T U V (g : egen E A) g' r t q, U <> T -> gensAs U g g' -> g r = Ok (t, q) ->
  (forall f : A -> G E B, transformE T V g' f r = UB) /\
  (forall fuel crit, filterGenE (S fuel) T g' crit r = UB) /\
  (forall (g2 : A -> egen E (obj B)) (fin : A * etree E (obj B) -> egen E (obj W)), dependentE T V g' g2 fin r = UB) /\
  (forall n gen2gen, gbind g' (aggregateStepsE T (S n) gen2gen) r = UB) /\
  (forall n gen2gen, gbind g' (accumulateStepsE T (S n) gen2gen) r = UB).
Proof.
  intros E A B W T U V g g' r t q HU Hg Hr. specialize (Hg r). rewrite Hr in Hg. unfold outcomes in Hg.
  destruct (g' r) as [[t' q']| | |] eqn:Hr'; try contradiction. destruct Hg as [<- Ht]. destruct t as [a shr]. apply alike_node in Ht.
  destruct Ht as (o & shr' & -> & Ho & _). unfold storedAs in Ho. subst o.
  repeat split; intros; unfold transformE, ltransformGen, dependentE, gbind; cbn [filterGenE]; unfold gbind; rewrite Hr'; unfold interFunctorE;
    cbn; unfold gbind, gcast, gfail; rewrite cast_other by auto; reflexivity.
Qed.
(** An argument read with the type of the parameter. *)
Theorem C77_arguments : forall E A T U (g : gen E A) r t q, g r = Ok (t, q) ->
  argumentE T (results (stored T) g) r = Ok (root t, q) /\ (U <> T -> argumentE T (results (stored U) g) r = UB).
Proof.
  intros E A T U g r t q H. unfold argumentE, gbind, results. rewrite H. cbn [result fst snd]. rewrite !root_stored. unfold gcast, gfail.
  rewrite cast_ok. split; auto. intros HU. rewrite cast_other by auto. reflexivity.
Qed.
(** So that no use of the library reads a value as a type it was not stored with is false: a vector of ints (number 5) from a
    generator of bools (number 7), both int-valued here. *)
Theorem C77_no_wrong_reads_refuted : ~ (forall (T U : cty) (g : gen replay Z) (s : sizes) r t q,
  arbi_vector g s r = Ok (t, q) -> arbiVectorE CVector T (results (stored U) g) s r <> UB).
Proof.
  intros H. apply (H (CName 5) (CName 7) coin {| minSize := 2; maxSize := 2 |} ([2] : rst replay) (Node [1; 1] [Node [0; 0] []]) []).
  - vm_compute. reflexivity.
  - vm_compute. reflexivity.
Qed.

Print Assumptions C77_operations.
Print Assumptions C77_shrinkers.
Print Assumptions C77_combinators.
Print Assumptions C77_storing.
Print Assumptions C77_vectors.
Print Assumptions C77_wrong_elements.
Print Assumptions C77_wrong_type.
Print Assumptions C77_arguments.
Print Assumptions C77_no_wrong_reads_refuted.
