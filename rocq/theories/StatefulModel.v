(** Model of stateful properties: the function-based interface (proptest/stateful/stateful_function.hpp, proptest/util/action.hpp) and
    the class-based one (proptest/stateful/stateful_class.hpp), on top of the property runner.
    User code (actions, preconditions, model factories, checks) may record tags and expectations, change the user world [W], and throw.
    An object or model is a value; what actions share through pointers is part of [W].  The arguments of the property are the initial
    object ([inl]) and the list of actions ([inr]). *)
From Coq Require Import String List ZArith Bool.
From Verif Require Import Base TreeModel RandomModel ContainerModel GenModel EffModel ContextModel RunnerModel.
Import ListNotations.
Local Open Scope list_scope.

(** User code: what it records, its result or what it throws, the world it leaves. (action.hpp:13-57, stateful_function.hpp:99-108.) *)
Definition eff (W X : Type) : Type := W -> list op * (X + err) * W.
(** Such code (action.hpp:13-57) that only returns, *)
Definition eret {W X} (x : X) : eff W X := fun w => ([], inl x, w).
(** that throws (action.hpp:13-57), *)
Definition ethrow {W X} (e : err) : eff W X := fun w => ([], inr e, w).
(** one piece of it after the other (stateful_function.hpp:102-107). *)
Definition ebind {W X Y} (m : eff W X) (f : X -> eff W Y) : eff W Y := fun w =>
  let '(o1, r, w1) := m w in
  match r with
  | inr e => (o1, inr e, w1)
  | inl x => let '(o2, r2, w2) := f x w1 in (o1 ++ o2, r2, w2)
  end.

(** action.hpp:33-57 Action: a name and a function on the object and the model, both by reference. *)
Record action (O M W : Type) := { a_name : string; a_func : O -> M -> eff W (O * M) }.
Arguments a_name {O M W} _.
Arguments a_func {O M W} _ _ _.
(** action.hpp:13-31 SimpleAction. *)
Record simple_action (O W : Type) := { s_name : string; s_func : O -> eff W O }.
Arguments s_name {O W} _.
Arguments s_func {O W} _ _.
(** action.hpp:36 and 16, the constructors without a name. *)
Definition unnamed {O M W} (f : O -> M -> eff W (O * M)) : action O M W := {| a_name := "Action<?>"; a_func := f |}.
(** action.hpp:40-44, from a simple action. *)
Definition of_simple {O M W} (s : simple_action O W) : action O M W :=
  {| a_name := s_name s; a_func := fun obj model => ebind (s_func s obj) (fun obj' => eret (obj', model)) |}.

(** stateful_function.hpp:102-104: for (auto action : actions) action(obj, model). *)
Fixpoint applyAll {O M W} (actions : list (action O M W)) (obj : O) (model : M) : eff W (O * M) :=
  match actions with
  | [] => eret (obj, model)
  | a :: r => ebind (a_func a obj model) (fun '(obj', model') => applyAll r obj' model')
  end.

(** stateful_function.hpp:99-108: the property function.  The model factory gets the object by reference. *)
Definition statefulBody {O M W} (modelFactory : O -> eff W (O * M)) (postCheck : option (O -> M -> eff W unit)) (obj : O) (actions : list (action O M W))
  : eff W bool :=
  ebind (modelFactory obj) (fun '(obj1, model) =>
  ebind (applyAll actions obj1 model) (fun '(obj2, model2) =>
  ebind (match postCheck with Some f => f obj2 model2 | None => eret tt end) (fun _ => eret true))).

(** As a property function; other argument lists do not occur. (stateful_function.hpp:99.) *)
Definition on_args {O A W} (body : O -> list A -> eff W bool) (args : list (O + list A)) (w : W) : list op * ures * W :=
  match args with
  | [inl o; inr l] => let '(ops, r, w') := body o l w in (ops, match r with inl b => URet b | inr e => UThrow e end, w')
  | _ => ([], UThrow EOther, w)
  end.

(** A generator of values of one type as a generator of arguments. (stateful_function.hpp:94-97, 110.) *)
Definition arg_gen {E A V} (inj : A -> V) (g : xgen E A) : xgen E V :=
  gbind g (fun x => gret (match x with inl t => inl (emap inj t) | inr e => inr e end)).
(** A generator that does not throw, as a generator of arguments (stateful_function.hpp:94-97). *)
Definition pure_gen {E A} (g : gen E A) : xgen E A := gbind g (fun t => gret (inl (elift t))).

(** stateful_function.hpp:125-134: the parts of a StatefulProperty.  Generators of actions neither throw nor draw while shrinking. *)
Record sprop (E : engine) (O M W : Type) := {
  sp_seed : Z;
  sp_numRuns : Z;
  sp_maxDurationMs : Z;
  sp_initialGen : xgen E O;
  sp_modelFactory : O -> eff W (O * M);
  sp_actionGen : gen E (action O M W);
  sp_postCheck : option (O -> M -> eff W unit);
  sp_onStartup : option (W -> list op * option err * W);
  sp_onCleanup : option (W -> list op * option err * W)
}.
Arguments sp_seed {E O M W} _.
Arguments sp_numRuns {E O M W} _.
Arguments sp_maxDurationMs {E O M W} _.
Arguments sp_initialGen {E O M W} _.
Arguments sp_modelFactory {E O M W} _.
Arguments sp_actionGen {E O M W} _.
Arguments sp_postCheck {E O M W} _.
Arguments sp_onStartup {E O M W} _.
Arguments sp_onCleanup {E O M W} _.

(** stateful_function.hpp:37, 115. *)
Definition UINT64_MAX : Z := 18446744073709551615.
(** stateful_function.hpp:37, 117, 119. *)
Definition UINT32_MAX : Z := 4294967295.

(** stateful_function.hpp:36-39, the constructor. *)
Definition new_sprop {E O M W} (initialGen : xgen E O) (modelFactory : O -> eff W (O * M)) (actionGen : gen E (action O M W)) : sprop E O M W :=
  {| sp_seed := UINT64_MAX; sp_numRuns := UINT32_MAX; sp_maxDurationMs := UINT32_MAX;
     sp_initialGen := initialGen; sp_modelFactory := modelFactory; sp_actionGen := actionGen;
     sp_postCheck := None; sp_onStartup := None; sp_onCleanup := None |}.

(** stateful_function.hpp:137-146: statefulProperty without a model; the model is the one value of EmptyModel. *)
Definition new_simple_sprop {E O W} (initialGen : xgen E O) (actionGen : gen E (simple_action O W)) : sprop E O unit W :=
  new_sprop initialGen (fun o => eret (o, tt)) (transformGen actionGen of_simple).

(** stateful_function.hpp:41-89, the setters. *)
Inductive sset (O M W : Type) :=
| SSeed (v : Z) | SNumRuns (v : Z) | SMaxDurationMs (v : Z)
| SOnStartup (h : W -> list op * option err * W) | SOnCleanup (h : W -> list op * option err * W)
| SPostCheck (f : O -> M -> eff W unit).
Arguments SSeed {O M W} _.
Arguments SNumRuns {O M W} _.
Arguments SMaxDurationMs {O M W} _.
Arguments SOnStartup {O M W} _.
Arguments SOnCleanup {O M W} _.
Arguments SPostCheck {O M W} _.
(** A chain of setters, stateful_function.hpp:41-89. *)
Definition sconfigure {E O M W} (s : sprop E O M W) (x : sset O M W) : sprop E O M W :=
  {| sp_seed := match x with SSeed v => v | _ => sp_seed s end;
     sp_numRuns := match x with SNumRuns v => v | _ => sp_numRuns s end;
     sp_maxDurationMs := match x with SMaxDurationMs v => v | _ => sp_maxDurationMs s end;
     sp_initialGen := sp_initialGen s; sp_modelFactory := sp_modelFactory s; sp_actionGen := sp_actionGen s;
     sp_postCheck := match x with SPostCheck f => Some f | _ => sp_postCheck s end;
     sp_onStartup := match x with SOnStartup h => Some h | _ => sp_onStartup s end;
     sp_onCleanup := match x with SOnCleanup h => Some h | _ => sp_onCleanup s end |}.

(** stateful_function.hpp:94-120: the property made by go().  [defaultRuns], [defaultDuration] and [globalSeed] as for mkProperty. *)
Definition sbuild {E O M W} (defaultRuns : nat) (defaultDuration globalSeed : Z) (s : sprop E O M W) : property E (O + list (action O M W)) W :=
  let actionListGen := arbi_vector (sp_actionGen s) defaultSizes in
  let prop := {| func := on_args (statefulBody (sp_modelFactory s) (sp_postCheck s));
                 gens := [arg_gen inl (sp_initialGen s); arg_gen inr (pure_gen actionListGen)];
                 onStartup := None; onCleanup := None; numRuns := defaultRuns; maxDurationMs := defaultDuration; seed := globalSeed |} in
  let prop := match sp_onStartup s with Some h => configure prop (SetOnStartup h) | None => prop end in
  let prop := match sp_onCleanup s with Some h => configure prop (SetOnStartup h) | None => prop end in
  let prop := if (sp_seed s =? UINT64_MAX)%Z then prop else configure prop (SetSeed (sp_seed s)) in
  let prop := if (sp_numRuns s =? UINT32_MAX)%Z then prop else configure prop (SetNumRuns (Z.to_nat (sp_numRuns s))) in
  if (sp_maxDurationMs s =? UINT32_MAX)%Z then prop else configure prop (SetMaxDurationMs (sp_maxDurationMs s)).

(** stateful_function.hpp:91-122 go().  Lines 95 and 97 move the initial generator and the model factory out of the object; what is left
    in them ([stale]) is not specified by the language (with the usual libraries: an empty function, which throws when called). *)
Definition sgo {E O M W} (fuel : nat) (ev : env E) (defaultRuns : nat) (defaultDuration globalSeed : Z)
  (stale : xgen E O * (O -> eff W (O * M))) (s : sprop E O M W) (w : W)
  : res (verdict (O + list (action O M W)) * rs E (O + list (action O M W)) W) * sprop E O M W :=
  (runForAll fuel ev (sbuild defaultRuns defaultDuration globalSeed s) w,
   {| sp_seed := sp_seed s; sp_numRuns := sp_numRuns s; sp_maxDurationMs := sp_maxDurationMs s;
      sp_initialGen := fst stale; sp_modelFactory := snd stale; sp_actionGen := sp_actionGen s;
      sp_postCheck := sp_postCheck s; sp_onStartup := sp_onStartup s; sp_onCleanup := sp_onCleanup s |}).

(** * The class-based interface *)

(** stateful_class.hpp:46-60 Action and its overridable members. *)
Record caction (O M W : Type) := {
  c_pre2 : option (O -> M -> eff W bool);
  c_pre1 : option (O -> eff W bool);
  c_run2 : option (O -> M -> eff W (O * M * bool));
  c_run1 : option (O -> eff W (O * bool))
}.
Arguments c_pre2 {O M W} _.
Arguments c_pre1 {O M W} _.
Arguments c_run2 {O M W} _.
Arguments c_run1 {O M W} _.
(** Line 55. *)
Definition precondition1 {O M W} (a : caction O M W) (o : O) : eff W bool := match c_pre1 a with Some f => f o | None => eret true end.
(** Line 53. *)
Definition precondition2 {O M W} (a : caction O M W) (o : O) (m : M) : eff W bool := match c_pre2 a with Some f => f o m | None => precondition1 a o end.
(** Line 59. *)
Definition run1 {O M W} (a : caction O M W) (o : O) : eff W (O * bool) := match c_run1 a with Some f => f o | None => ethrow ERuntime end.
(** Line 57. *)
Definition run2 {O M W} (a : caction O M W) (o : O) (m : M) : eff W (O * M * bool) :=
  match c_run2 a with Some f => f o m | None => ebind (run1 a o) (fun '(o', b) => eret (o', m, b)) end.

(** assert.hpp:75-81, 94 PROP_ASSERT. *)
Definition prop_assert {W} (b : bool) : eff W unit := if b then eret tt else ethrow EAssert.

(** stateful_class.hpp:123-129: the property function without a model. *)
Fixpoint classLoop1 {O M W} (actions : list (caction O M W)) (obj : O) : eff W O :=
  match actions with
  | [] => eret obj
  | a :: r => ebind (precondition1 a obj) (fun p =>
              if p then ebind (run1 a obj) (fun '(obj', b) => ebind (prop_assert b) (fun _ => classLoop1 r obj'))
              else classLoop1 r obj)
  end.
(** stateful_class.hpp:123-129: the whole function. *)
Definition classBody1 {O M W} (obj : O) (actions : list (caction O M W)) : eff W bool :=
  ebind (classLoop1 actions obj) (fun _ => eret true).

(** stateful_class.hpp:143-150: the property function with a model. *)
Fixpoint classLoop2 {O M W} (actions : list (caction O M W)) (obj : O) (model : M) : eff W (O * M) :=
  match actions with
  | [] => eret (obj, model)
  | a :: r => ebind (precondition2 a obj model) (fun p =>
              if p then ebind (run2 a obj model) (fun '(obj', model', b) => ebind (prop_assert b) (fun _ => classLoop2 r obj' model'))
              else classLoop2 r obj model)
  end.
(** stateful_class.hpp:143-150: the whole function. *)
Definition classBody2 {O M W} (modelFactory : O -> eff W (O * M)) (obj : O) (actions : list (caction O M W)) : eff W bool :=
  ebind (modelFactory obj) (fun '(obj1, model) => ebind (classLoop2 actions obj1 model) (fun _ => eret true)).

(** stateful_class.hpp:78-83 StatefulProperty with 117-131 and 133-152 statefulProperty; the setters 85-101 are those of the property, go (103) is forAll. *)
Definition classProperty {E O M W} (defaultRuns : nat) (defaultDuration globalSeed : Z) (modelFactory : option (O -> eff W (O * M)))
  (initialGen : xgen E O) (actionListGen : gen E (list (caction O M W))) : property E (O + list (caction O M W)) W :=
  {| func := on_args (match modelFactory with Some f => classBody2 f | None => classBody1 end);
     gens := [arg_gen inl initialGen; arg_gen inr (pure_gen actionListGen)];
     onStartup := None; onCleanup := None; numRuns := defaultRuns; maxDurationMs := defaultDuration; seed := globalSeed |}.
