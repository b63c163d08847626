(** Generator objects of a test program: their settings, copies of them, generators derived from them, references to them
    (Arbitrary.hpp:44-209, Generator.hpp:26-183, combinator/reference.hpp, generator/vector.hpp, list.hpp, set.hpp, map.hpp, string.cpp).
    A std::function holds its callable by value, so copying a GenFunction copies the state of the callable; a shared_ptr shares it.  Every object has a
    place in a store, which only grows; an object whose lifetime has ended leaves its place empty.  [V] is the type of all values, [U] that of
    the states of the callables given by the user. *)
From Coq Require Import List ZArith Bool.
From Verif Require Import Base TreeModel TupleModel RandomModel ListModel ContainerModel GenModel.
Import ListNotations.

(** An engine with a further state that drawing leaves alone. *)
Lemma ext_range : forall (E : engine) X a b (s : rst E * X), (a <= b)%Z ->
  (a <= fst (let '(z, r) := unif E a b (fst s) in (z, (r, snd s))) <= b)%Z.
Proof. intros E X a b s H. pose proof (unif_range E a b (fst s) H) as R. destruct (unif E a b (fst s)). exact R. Qed.
(** The Random& given to a generator that calls others with state of their own (vector.hpp:46-56). *)
Definition ext (E : engine) (X : Type) : engine :=
  {| rst := rst E * X;
     unif := fun a b s => let '(z, r) := unif E a b (fst s) in (z, (r, snd s));
     unif_range := ext_range E X |}.

(** The place of an object, as kept in the pointers of Generator.hpp:182, reference.hpp:28. *)
Definition loc := nat.

(** The container generators: Arbi<vector<T>> and Arbi<list<T>>, Arbi<string> and the like, Arbi<set<T>>, Arbi<map<K,T>>.
    (vector.hpp, list.hpp, string.hpp, set.hpp, map.hpp (Arbitrary.hpp:177-209).) *)
Inductive kind := KVector | KString | KSet | KMap.

(** What the methods map and filter do with the values (Arbitrary.hpp:58-91, Generator.hpp:59-93). *)
Inductive derivation (V : Type) :=
| DMap (f : V -> V)
| DFilter (crit : V -> bool).
Arguments DMap {V} _.
Arguments DFilter {V} _.

(** Callables producing a Shrinkable from a Random&:
    - [FEmpty]: an empty std::function;
    - [FUser c u]: a callable of the user with code [c] and state [u];
    - [FArbi k s g0 g1]: an Arbi of a container (Arbitrary.hpp:177-209), with its element generator [g0] (vector.hpp:60, list.hpp:55, set.hpp:66, string.hpp:33);
      for a map, [g0] generates the keys and [g1] the elements (map.hpp:77-78), otherwise [g1] is not there ([FEmpty]);
    - [FPtr l]: a Generator<T>, whose member genPtr points to the GenFunction at [l] (Generator.hpp:182);
    - [FRef l]: the lambda of reference(), which refers to the object at [l] (reference.hpp:28);
    - [FDerive l d]: the functors of transform and filter (transform.hpp:32-46, filter.hpp:29-52).  Their GenFunction holds an ArbiFunctor or a GeneratorFunctor
      (Arbitrary.hpp:30-35, Generator.hpp:27-32), which points to the clone at [l]; these never change and are left out. *)
Inductive fn (V U : Type) :=
| FEmpty
| FUser (c : nat) (u : U)
| FArbi (k : kind) (s : sizes) (g0 g1 : fn V U)
| FPtr (l : loc)
| FRef (l : loc)
| FDerive (l : loc) (d : derivation V).
Arguments FEmpty {V U}.
Arguments FUser {V U} _ _.
Arguments FArbi {V U} _ _ _ _.
Arguments FPtr {V U} _.
Arguments FRef {V U} _.
Arguments FDerive {V U} _ _.

(** Setters of an Arbi (Arbitrary.hpp:181-205, vector.hpp:38-42, map.hpp:53-75), with where the given generator comes from: a callable of the user,
    or a copy of a named one (conversion to GenFunction copies; so does the constructor taking an Arbi<T>&, vector.hpp:29-33). *)
Inductive source (U : Type) :=
| FromUser (c : nat) (u : U)
| FromVar (y : nat).
Arguments FromUser {U} _ _.
Arguments FromVar {U} _.
(** Arbitrary.hpp:181-205, vector.hpp:38-42, map.hpp:53-75. *)
Inductive setter (U : Type) :=
| SetMin (n : Z)
| SetMax (n : Z)
| SetSize (n : Z)
| SetSize2 (mn mx : Z)
| SetKey (g : source U)
| SetElem (g : source U).
Arguments SetMin {U} _.
Arguments SetMax {U} _.
Arguments SetSize {U} _.
Arguments SetSize2 {U} _ _.
Arguments SetKey {U} _.
Arguments SetElem {U} _.

(** Statements.  Variables are numbered in the order of their declaration; [ss] is a chain of setters called on the variable [y]:
    - [SNew k g0 g1]: auto x = Arbi<...>(g0), for a map Arbi<map<K,T>>() followed by assignments of its two public members;
    - [SFun g]: GenFunction<T> x = g;
    - [SGen g]: auto x = generator(g);
    - [SCopy y ss]: auto x = y.s1().s2()...;
    - [SBind y ss]: auto&& x = y.s1().s2()...;
    - [SChain y ss]: y.s1().s2()...;
    - [SDerive y ss d]: auto x = y.s1().s2()....map(f), or .filter(crit);
    - [SRefer y ss]: auto x = reference(y.s1().s2()...);
    - [SUse y]: y(rand);
    - [SForAll y r n fails]: forAll of a property with one parameter, y given as its generator: the n inputs drawn from an engine in state [r]; if
      [fails], the last one failed;
    - [SDrop y]: the scope of y ends;
    - [SDefaults s]: Arbi<...>::defaultMinSize = ..., defaultMaxSize = ... (one for all containers here). *)
Inductive stmt (E : engine) (V U : Type) :=
| SNew (k : kind) (g0 : source U) (g1 : source U)
| SFun (g : source U)
| SGen (g : source U)
| SCopy (y : nat) (ss : list (setter U))
| SBind (y : nat) (ss : list (setter U))
| SChain (y : nat) (ss : list (setter U))
| SDerive (y : nat) (ss : list (setter U)) (d : derivation V)
| SRefer (y : nat) (ss : list (setter U))
| SUse (y : nat)
| SForAll (y : nat) (r : rst E) (n : nat) (fails : bool)
| SDrop (y : nat)
| SDefaults (s : sizes).
Arguments SNew {E V U} _ _ _.
Arguments SFun {E V U} _.
Arguments SGen {E V U} _.
Arguments SCopy {E V U} _ _.
Arguments SBind {E V U} _ _.
Arguments SChain {E V U} _ _.
Arguments SDerive {E V U} _ _ _.
Arguments SRefer {E V U} _ _.
Arguments SUse {E V U} _.
Arguments SForAll {E V U} _ _ _ _.
Arguments SDrop {E V U} _.
Arguments SDefaults {E V U} _.

(** A variable: the object it stands for, and whether the lifetime of the object ends with it.
    (Variables of Arbi<T> (Arbitrary.hpp:177-209), GenFunction<T>, Generator<T> (Generator.hpp:26-183).) *)
Record var := { vloc : loc; vown : bool }.

(** The objects of Arbitrary.hpp:177-209, Generator.hpp:182. *)
Definition heap (V U : Type) := list (option (fn V U)).

(** The state of the test program; [out] has the generated shrinkables. (Arbitrary.hpp:177-209, Generator.hpp:26-183.) *)
Record st (E : engine) (V U : Type) := { hp : heap V U; vars : list var; defaults : sizes; rnd : rst E; out : list (tree V) }.
Arguments hp {E V U} _.
Arguments vars {E V U} _.
Arguments defaults {E V U} _.
Arguments rnd {E V U} _.
Arguments out {E V U} _.

Section Programs.
Context {E : engine} {V U : Type}.
(** The codes of the user's callables; containers as values; the order of set elements and map keys. *)
Context (user : nat -> U -> G E (tree V * U)) (seq : list V -> V) (seq2 : list (V * V) -> V) (lt : V -> V -> bool).

(** A statement that does not compile (a setter of Arbitrary.hpp:181-205 on another type, a name not declared). *)
Definition wrongProgram {A} : res A := Throw EOther.

(** Arbi<...>::operator() of the containers (ContainerModel), with the values in [V]. (vector.hpp:46-56, list.hpp:44-53, set.hpp, map.hpp, string.cpp.) *)
Definition container {E'} (fuel : nat) (k : kind) (g0 g1 : gen E' V) (s : sizes) : gen E' V :=
  match k with
  | KVector => transformGen (arbi_vector g0 s) seq
  | KString => transformGen (arbi_string g0 s) seq
  | KSet => transformGen (arbi_set fuel lt g0 s) seq
  | KMap => transformGen (arbi_map fuel lt g0 g1 s) seq2
  end.

(** Calling the callable at [l], which is left in its new state.  An empty place is an object whose lifetime has ended.
    (A callable that is called again while it is running, which takes a reference to itself, has no state of its own.)
    (Generator.hpp:182, reference.hpp:28.) *)
Definition inPlace (call : fn V U -> G (ext E (heap V U)) (tree V * fn V U)) (l : loc) : gen (ext E (heap V U)) V :=
  fun s => match nth_error (snd s) l with
           | Some (Some g) => do '((t, g'), (r, h)) <- call g s; Ok (t, (r, set_nth l (Some g') h))
           | _ => UB
           end.

(** Calling one of the two generators kept in an Arbi, held in the further state.
    (vector.hpp:60, list.hpp:55, set.hpp:66, string.hpp:33, map.hpp:77-78.) *)
Definition member (call : fn V U -> G (ext E (heap V U)) (tree V * fn V U)) (second : bool)
  : gen (ext (ext E (heap V U)) (fn V U * fn V U)) V :=
  fun q => let '(s, (g0, g1)) := q in
    if second then do '((t, g1'), s') <- call g1 s; Ok (t, (s', (g0, g1')))
    else do '((t, g0'), s') <- call g0 s; Ok (t, (s', (g0', g1))).

(** GenFunction<T>::operator(): the shrinkable and the callable with its new state.
    (Arbitrary.hpp:30-35, Generator.hpp:27-32, reference.hpp:28, transform.hpp:32-46, filter.hpp:29-52.) *)
Fixpoint call (fuel : nat) (f : fn V U) : G (ext E (heap V U)) (tree V * fn V U) :=
  match fuel with
  | O => fun _ => OutOfFuel
  | S n =>
      match f with
      | FEmpty => fun _ => Throw EOther
      | FUser c u => fun s => do '((t, u'), r) <- user c u (fst s); Ok ((t, FUser c u'), (r, snd s))
      | FArbi k z g0 g1 => fun s =>
          do '(t, (s', (g0', g1'))) <- container n k (member (call n) false) (member (call n) true) z (s, (g0, g1));
          Ok ((t, FArbi k z g0' g1'), s')
      | FPtr l | FRef l => gbind (inPlace (call n) l) (fun t => gret (t, f))
      | FDerive l (DMap g) => gbind (transformGen (inPlace (call n) l) g) (fun t => gret (t, f))
      | FDerive l (DFilter crit) => gbind (filterGen n (inPlace (call n) l) crit) (fun t => gret (t, f))
      end
  end.

(** The object of a variable. (Arbitrary.hpp:177-209, Generator.hpp:26-183.) *)
Definition objectAt (h : heap V U) (l : loc) : res (fn V U) :=
  match nth_error h l with Some (Some f) => Ok f | Some None => UB | None => wrongProgram end.
(** The place of a variable of type Arbi<T> (Arbitrary.hpp:177-209), GenFunction<T> or Generator<T> (Generator.hpp:26-183). *)
Definition varLoc (vs : list var) (y : nat) : res loc :=
  match nth_error vs y with Some v => Ok (vloc v) | None => wrongProgram end.
(** The generator given to a constructor or setter: vector.hpp:29-42, map.hpp:53-75. *)
Definition given (vs : list var) (h : heap V U) (g : source U) : res (fn V U) :=
  match g with
  | FromUser c u => Ok (FUser c u)
  | FromVar y => do l <- varLoc vs y; objectAt h l
  end.

(** A chain of setters called on the object at [l]: the object denoted by the expression, the temporaries made on the way, the store.
    setMinSize, setMaxSize and setSize return a reference to the object (Arbitrary.hpp:181-205); setElemGen and setKeyGen
    return a copy of it (vector.hpp:38-42, map.hpp:53-75).  Lists, sets and strings have none of the latter. *)
Fixpoint chain (vs : list var) (ss : list (setter U)) (l : loc) (temps : list loc) (h : heap V U) : res (loc * list loc * heap V U) :=
  match ss with
  | [] => Ok (l, temps, h)
  | a :: r =>
      do f <- objectAt h l;
      match f with
      | FArbi k z g0 g1 =>
          let refer z' := chain vs r l temps (set_nth l (Some (FArbi k z' g0 g1)) h) in
          let copy f' := chain vs r (length h) (temps ++ [length h]) (set_nth l (Some f') h ++ [Some f']) in
          match a with
          | SetMin n => refer (setMinSize n z)
          | SetMax n => refer (setMaxSize n z)
          | SetSize n => refer (setSize n z)
          | SetSize2 mn mx => refer (setSize2 mn mx z)
          | SetElem g => do f' <- given vs h g;
                         match k with KVector => copy (FArbi k z f' g1) | KMap => copy (FArbi k z g0 f') | _ => wrongProgram end
          | SetKey g => do f' <- given vs h g; match k with KMap => copy (FArbi k z f' g1) | _ => wrongProgram end
          end
      | _ => wrongProgram
      end
  end.

(** The temporaries are destroyed at the end of the statement. (Those made by map.hpp:53-75, Arbitrary.hpp:170.) *)
Definition destroy (h : heap V U) (ls : list loc) : heap V U := fold_left (fun h l => set_nth l None h) ls h.

(** Whether the last call of a chain gives a temporary object, whose lifetime auto&& extends, rather than a reference.
    (map.hpp:53-75 against Arbitrary.hpp:181-205.) *)
Definition isCopy (a : setter U) : bool := match a with SetKey _ | SetElem _ => true | _ => false end.
(** The same of a chain (map.hpp:53-75, Arbitrary.hpp:181-205). *)
Fixpoint endsInCopy (ss : list (setter U)) : bool :=
  match ss with [] => false | [a] => isCopy a | _ :: r => endsInCopy r end.

(** The inputs of a property whose generator is [f]: the tuple of generators is copied (Property.hpp:174, invokeWithGenTuple.hpp:46-62); one call per run
    (invokeWithGenTuple.hpp:14); the engine before the last call. *)
Fixpoint inputs (fuel n : nat) (f : fn V U) (s : rst (ext E (heap V U))) : res (list (tree V) * fn V U * rst (ext E (heap V U)) * rst E) :=
  match n with
  | O => Ok ([], f, s, fst s)
  | S n' => do '((t, f'), s') <- call fuel f s;
            match n' with
            | O => Ok ([t], f', s', fst s)
            | _ => do '(ts, f2, s2, saved) <- inputs fuel n' f' s'; Ok (t :: ts, f2, s2, saved)
            end
  end.

(** forAll: the inputs; if the last one failed, the generator is called again, with the engine as it was before (Property.hpp:217, 228-232, 414-418). *)
Definition forAllInputs (fuel n : nat) (fails : bool) (f : fn V U) (r : rst E) (h : heap V U) : res (list (tree V) * heap V U) :=
  do '(ts, f', s, saved) <- inputs fuel n f (r, h);
  if fails then do '((t, _), s') <- call fuel f' (saved, snd s); Ok (ts ++ [t], snd s') else Ok (ts, snd s).

(** A statement. (Arbitrary.hpp:44-209, Generator.hpp:26-183, reference.hpp:25-29.) *)
Definition exec (fuel : nat) (c : stmt E V U) (q : st E V U) : res (st E V U) :=
  let h := hp q in
  let declare l own h' := Ok {| hp := h'; vars := vars q ++ [{| vloc := l; vown := own |}]; defaults := defaults q; rnd := rnd q; out := out q |} in
  let setHeap h' := Ok {| hp := h'; vars := vars q; defaults := defaults q; rnd := rnd q; out := out q |} in
  let onChain y ss (k : loc -> list loc -> heap V U -> res (st E V U)) :=
    do l <- varLoc (vars q) y; do '(l', temps, h') <- chain (vars q) ss l [] h; k l' temps h' in
  match c with
  | SNew k g0 g1 =>
      do f0 <- given (vars q) h g0;
      do f1 <- match k with KMap => given (vars q) h g1 | _ => Ok FEmpty end;
      declare (length h) true (h ++ [Some (FArbi k (defaults q) f0 f1)])
  | SFun g => do f <- given (vars q) h g; declare (length h) true (h ++ [Some f])
  | SGen g => do f <- given (vars q) h g; declare (S (length h)) true (h ++ [Some f; Some (FPtr (length h))])
  | SCopy y ss =>
      onChain y ss (fun l temps h' => do f <- objectAt h' l; declare (length h') true (destroy (h' ++ [Some f]) temps))
  | SBind y ss =>
      onChain y ss (fun l temps h' =>
        if endsInCopy ss then declare l true (destroy h' (removelast temps)) else declare l false (destroy h' temps))
  | SChain y ss => onChain y ss (fun l temps h' => setHeap (destroy h' temps))
  | SDerive y ss d =>
      onChain y ss (fun l temps h' => do f <- objectAt h' l; let n := length h' in
        declare (S (S n)) true (destroy (h' ++ [Some f; Some (FDerive n d); Some (FPtr (S n))]) temps))
  | SRefer y ss =>
      onChain y ss (fun l temps h' => let n := length h' in
        declare (S n) true (destroy (h' ++ [Some (FRef l); Some (FPtr n)]) temps))
  | SUse y =>
      do l <- varLoc (vars q) y;
      do '(t, (r, h')) <- inPlace (call fuel) l (rnd q, h);
      Ok {| hp := h'; vars := vars q; defaults := defaults q; rnd := r; out := out q ++ [t] |}
  | SForAll y r n fails =>
      do l <- varLoc (vars q) y; do f <- objectAt h l;
      do '(ts, h') <- forAllInputs fuel n fails f r h;
      Ok {| hp := h'; vars := vars q; defaults := defaults q; rnd := rnd q; out := out q ++ ts |}
  | SDrop y =>
      match nth_error (vars q) y with
      | Some v => setHeap (if vown v then set_nth (vloc v) None h else h)
      | None => wrongProgram
      end
  | SDefaults s => Ok {| hp := h; vars := vars q; defaults := s; rnd := rnd q; out := out q |}
  end.

(** Statements one after the other, using Arbitrary.hpp:44-209, Generator.hpp:26-183. *)
Fixpoint run (fuel : nat) (p : list (stmt E V U)) (q : st E V U) : res (st E V U) :=
  match p with
  | [] => Ok q
  | c :: r => do q' <- exec fuel c q; run fuel r q'
  end.

(** Before the first statement. (No object of Arbitrary.hpp:177-209 or Generator.hpp:26-183 yet.) *)
Definition begin (r : rst E) (z : sizes) : st E V U := {| hp := []; vars := []; defaults := z; rnd := r; out := [] |}.

End Programs.
