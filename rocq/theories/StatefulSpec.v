(** Vocabulary for stateful properties. *)
From Coq Require Import String List ZArith Bool.
From Verif Require Import Base TreeModel RandomModel ContainerModel ContextModel ContextSpec RunnerModel RunnerSpec StatefulModel.
Import ListNotations.
Local Open Scope list_scope.

(** [ran l st ops st']: from object, model and world [st], the actions of [l] all end normally, each started where the previous one
    ended; together they record [ops] and end in [st']. *)
Inductive ran {O M W} : list (action O M W) -> O * M * W -> list op -> O * M * W -> Prop :=
| ran_nil : forall st, ran [] st [] st
| ran_cons : forall a l o m w ops1 o1 m1 w1 ops2 st, a_func a o m w = (ops1, inl (o1, m1), w1) -> ran l (o1, m1, w1) ops2 st ->
    ran (a :: l) (o, m, w) (ops1 ++ ops2) st.

(** How the last of several steps ended: the object, the model, the world. *)
Inductive ends {O M W} (factory : O -> eff W (O * M)) (post : option (O -> M -> eff W unit)) (o : O) (l : list (action O M W)) (w : W)
  : list op -> ures -> W -> Prop :=
| e_factory : forall ops e w', factory o w = (ops, inr e, w') -> ends factory post o l w ops (UThrow e) w'
| e_action : forall ops1 o1 m1 w1 l1 a l2 ops2 o2 m2 w2 ops3 e w3, factory o w = (ops1, inl (o1, m1), w1) ->
    l = l1 ++ a :: l2 -> ran l1 (o1, m1, w1) ops2 (o2, m2, w2) -> a_func a o2 m2 w2 = (ops3, inr e, w3) ->
    ends factory post o l w (ops1 ++ ops2 ++ ops3) (UThrow e) w3
| e_check : forall ops1 o1 m1 w1 ops2 o2 m2 w2 f ops3 e w3, factory o w = (ops1, inl (o1, m1), w1) ->
    ran l (o1, m1, w1) ops2 (o2, m2, w2) -> post = Some f -> f o2 m2 w2 = (ops3, inr e, w3) ->
    ends factory post o l w (ops1 ++ ops2 ++ ops3) (UThrow e) w3
| e_all : forall ops1 o1 m1 w1 ops2 o2 m2 w2 ops3 w3, factory o w = (ops1, inl (o1, m1), w1) ->
    ran l (o1, m1, w1) ops2 (o2, m2, w2) ->
    match post with Some f => f o2 m2 w2 = (ops3, inl tt, w3) | None => ops3 = [] /\ w3 = w2 end ->
    ends factory post o l w (ops1 ++ ops2 ++ ops3) (URet true) w3.

(** With actions satisfying [A], what a run does depends neither on the world nor changes it. *)
Definition independent {O M W} (A : action O M W -> Prop) (factory : O -> eff W (O * M)) (post : option (O -> M -> eff W unit)) : Prop :=
  forall o l w ops u w', Forall A l -> ends factory post o l w ops u w' -> w' = w /\ forall w0, ends factory post o l w0 ops u w0.
(** No run with such actions fails an expectation and then discards or signals success. *)
Definition no_hidden_failure {O M W} (A : action O M W -> Prop) (factory : O -> eff W (O * M)) (post : option (O -> M -> eff W unit)) : Prop :=
  forall o l w ops e w', Forall A l -> ends factory post o l w ops (UThrow e) w' -> e = EDiscard \/ e = ESuccess -> failed_expectations ops = [].
(** Every value that [g] can generate satisfies [A]. *)
Definition generates_only {E X} (A : X -> Prop) (g : gen E X) : Prop := forall r t r', g r = Ok (t, r') -> A (root t).

(** A run: the initial object, the actions, what was recorded and how it ended. *)
Definition srun (O M W : Type) : Type := O * list (action O M W) * (list op * ures).
Definition run_args {O M W} (x : srun O M W) : list (O + list (action O M W)) := [inl (fst (fst x)); inr (snd (fst x))].
Definition run_judge {O M W} (x : srun O M W) : judgement := judge (snd x).
Definition run_passed {O M W} (x : srun O M W) : bool := match run_judge x with JPass => true | _ => false end.
(** It is what the code would do from world [w]; it has at most 200 actions, all satisfying [A]. *)
Definition genuine {O M W} (A : action O M W -> Prop) (factory : O -> eff W (O * M)) (post : option (O -> M -> eff W unit)) (w : W) (x : srun O M W) : Prop :=
  (length (snd (fst x)) <= 200)%nat /\ Forall A (snd (fst x)) /\ ends factory post (fst (fst x)) (snd (fst x)) w (fst (snd x)) (snd (snd x)) w.

(** ** Watching which actions are called *)

(** The world with a record of the calls. *)
Definition watched_eff {W X} (n : nat) (m : eff W X) : eff (W * list nat) X := fun '(w, calls) =>
  let '(ops, r, w') := m w in (ops, r, (w', calls ++ [n])).
Definition unwatched_eff {W X} (m : eff W X) : eff (W * list nat) X := fun '(w, calls) =>
  let '(ops, r, w') := m w in (ops, r, (w', calls)).
Definition watch {O M W} (n : nat) (a : action O M W) : action O M (W * list nat) :=
  {| a_name := a_name a; a_func := fun o m => watched_eff n (a_func a o m) |}.
(** Actions numbered from [n]. *)
Fixpoint watch_all {O M W} (n : nat) (l : list (action O M W)) : list (action O M (W * list nat)) :=
  match l with [] => [] | a :: r => watch n a :: watch_all (S n) r end.

(** ** Class-based actions *)

(** [cran l st ops done st']: each action of [l] whose precondition holds when its turn comes is run once and reports true, the others are
    passed over; [done] are the positions (from [n]) of those run. *)
Inductive cran {O M W} : nat -> list (caction O M W) -> O * M * W -> list op -> list nat -> O * M * W -> Prop :=
| cran_nil : forall n st, cran n [] st [] [] st
| cran_skip : forall n a l o m w ops1 w1 ops2 done st, precondition2 a o m w = (ops1, inl false, w1) -> cran (S n) l (o, m, w1) ops2 done st ->
    cran n (a :: l) (o, m, w) (ops1 ++ ops2) done st
| cran_run : forall n a l o m w ops1 w1 ops2 o2 m2 w2 ops3 done st, precondition2 a o m w = (ops1, inl true, w1) ->
    run2 a o m w1 = (ops2, inl (o2, m2, true), w2) -> cran (S n) l (o2, m2, w2) ops3 done st ->
    cran n (a :: l) (o, m, w) (ops1 ++ ops2 ++ ops3) (n :: done) st.

(** How an action stops the run. *)
Inductive cstops {O M W} (a : caction O M W) (o : O) (m : M) (w : W) : list op -> err -> W -> Prop :=
| cs_pre : forall ops e w', precondition2 a o m w = (ops, inr e, w') -> cstops a o m w ops e w'
| cs_throw : forall ops1 w1 ops2 e w2, precondition2 a o m w = (ops1, inl true, w1) -> run2 a o m w1 = (ops2, inr e, w2) -> cstops a o m w (ops1 ++ ops2) e w2
| cs_false : forall ops1 w1 ops2 o2 m2 w2, precondition2 a o m w = (ops1, inl true, w1) -> run2 a o m w1 = (ops2, inl (o2, m2, false), w2) ->
    cstops a o m w (ops1 ++ ops2) EAssert w2.

Inductive cends {O M W} (factory : O -> eff W (O * M)) (o : O) (l : list (caction O M W)) (w : W) : list op -> ures -> W -> Prop :=
| ce_factory : forall ops e w', factory o w = (ops, inr e, w') -> cends factory o l w ops (UThrow e) w'
| ce_action : forall ops1 o1 m1 w1 l1 a l2 ops2 done o2 m2 w2 ops3 e w3, factory o w = (ops1, inl (o1, m1), w1) ->
    l = l1 ++ a :: l2 -> cran 0 l1 (o1, m1, w1) ops2 done (o2, m2, w2) -> cstops a o2 m2 w2 ops3 e w3 ->
    cends factory o l w (ops1 ++ ops2 ++ ops3) (UThrow e) w3
| ce_all : forall ops1 o1 m1 w1 ops2 done o2 m2 w2, factory o w = (ops1, inl (o1, m1), w1) ->
    cran 0 l (o1, m1, w1) ops2 done (o2, m2, w2) -> cends factory o l w (ops1 ++ ops2) (URet true) w2.

Definition without_model {O M W} (a : caction O M W) : caction O unit W :=
  {| c_pre2 := None; c_pre1 := c_pre1 a; c_run2 := None; c_run1 := c_run1 a |}.
