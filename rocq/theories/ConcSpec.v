(** Vocabulary for concurrent runs. *)
From Coq Require Import List ZArith Bool.
From Verif Require Import Base ConcModel.
Import ListNotations.
Local Open Scope list_scope.

(** A run of invoke, as far as some schedule takes it: what was observed, and the state reached. *)
Definition outcome {O M} (a : api) (front : list (act O M)) (rears : list (list (act O M))) (check : option (code O M unit)) (obj : O) (model : M)
  (tr : list (ev O M)) (c : cfg O M) : Prop :=
  exists schedule, run a front check schedule (start obj model rears) = (tr, c).
(** It returned true. *)
Definition returned {O M} (c : cfg O M) : Prop := c_status c = Running /\ c_co c = KDone.

Definition who_eqb (a b : option nat) : bool :=
  match a, b with None, None => true | Some i, Some j => Nat.eqb i j | _, _ => false end.
(** What the front or one rear thread did. *)
Definition of {O M} (who : option nat) (tr : list (ev O M)) : list tev :=
  flat_map (fun e => match e with V w x => if who_eqb who w then [x] else [] | _ => [] end) tr.

(** [x] happened before [y]. *)
Definition before {X} (x y : X) (tr : list X) : Prop := exists t1 t2 t3, tr = t1 ++ x :: t2 ++ y :: t3.

(** Events of rear threads, of the front. *)
Definition is_rear {O M} (n : nat) (e : ev O M) : Prop := match e with V (Some i) _ => (i < n)%nat | _ => False end.
Definition is_front {O M} (e : ev O M) : Prop := match e with V None _ => True | _ => False end.

(** ** What a rear thread does for one action *)

(** What comes before the start of action [k]: taking and writing a log entry / evaluating the precondition. *)
Inductive head : api -> nat -> list tev -> Prop :=
| hd_func : forall k s, head Func k [TTake k false s; TWrite s]
| hd_class : forall k n, head Class k (repeat (TPre k) n).
(** The action is run from start to end and its end is logged; or (class-based) it is passed over. *)
Inductive chunk : api -> nat -> list tev -> Prop :=
| ch_run : forall a k h n s, head a k h -> chunk a k (h ++ TStart k :: repeat (TStep k) n ++ [TEnd k; TTake k true s; TWrite s])
| ch_skip : forall k n, chunk Class k (repeat (TPre k) n ++ [TSkip k]).
(** Actions 0, 1, ..., k - 1, one after the other. *)
Inductive chunks (a : api) : nat -> list tev -> Prop :=
| chs_nil : chunks a 0 []
| chs_snoc : forall k l x, chunks a k l -> chunk a k x -> chunks a (S k) (l ++ x).

(** The same for an action of the front, which is not logged here. *)
Inductive fchunk : api -> nat -> list tev -> Prop :=
| fch_func : forall k n, fchunk Func k (TStart k :: repeat (TStep k) n ++ [TEnd k])
| fch_class : forall k m n, fchunk Class k (repeat (TPre k) m ++ TStart k :: repeat (TStep k) n ++ [TEnd k])
| fch_skip : forall k n, fchunk Class k (repeat (TPre k) n ++ [TSkip k]).
Inductive fchunks (a : api) : nat -> list tev -> Prop :=
| fchs_nil : fchunks a 0 []
| fchs_snoc : forall k l x, fchunks a k l -> fchunk a k x -> fchunks a (S k) (l ++ x).

(** ** The log *)

(** The log entries taken, in the order of taking: thread, action, start or end, entry. *)
Definition takes {O M} (tr : list (ev O M)) : list (nat * nat * bool * nat) :=
  flat_map (fun e => match e with V (Some i) (TTake k last s) => [(i, k, last, s)] | _ => [] end) tr.
Definition t_slot (x : nat * nat * bool * nat) : nat := snd x.
Definition t_who (x : nat * nat * bool * nat) : nat := fst (fst (fst x)).
Definition t_which (x : nat * nat * bool * nat) : nat * bool := (snd (fst (fst x)), snd (fst x)).
(** The log entries written. *)
Definition writes {O M} (tr : list (ev O M)) : list nat :=
  flat_map (fun e => match e with V (Some i) (TWrite s) => [s] | _ => [] end) tr.
(** What is printed for an entry. *)
Definition item_of (x : nat * nat * bool * nat) : item :=
  let '(i, k, last, _) := x in if last then IEnd i k else IStart i k.

(** Is it printed for thread i? *)
Definition item_by (i : nat) (x : item) : bool := match x with IStart j _ | IEnd j _ => Nat.eqb i j | _ => false end.

(** The most entries a rear thread with [n] actions needs. *)
Definition entries (a : api) (n : nat) : nat := match a with Func => 2 * n | Class => n end.
Definition total {O M} (a : api) (rears : list (list (act O M))) : nat := list_sum (map (fun l => entries a (length l)) rears).

(** ** The front on its own *)

(** Running user code alone. *)
Fixpoint alone {O M R} (c : code O M R) (o : O) (m : M) : O * M * (R + err) :=
  match c with
  | Ret r => (o, m, inl r)
  | Fail e => (o, m, inr e)
  | Step u n => let '(o', m') := u o m in alone (n o m) o' m'
  end.
(** Running actions one after the other; [None] if one throws or reports false. *)
Fixpoint sequentially {O M} (a : api) (l : list (act O M)) (o : O) (m : M) : option (O * M) :=
  match l with
  | [] => Some (o, m)
  | x :: r =>
      let run_it o m := match alone (body x) o m with (o', m', inl true) => sequentially a r o' m' | _ => None end in
      match a with
      | Func => run_it o m
      | Class => match alone (pre x) o m with
                 | (o', m', inl true) => run_it o' m'
                 | (o', m', inl false) => sequentially a r o' m'
                 | _ => None
                 end
      end
  end.

(** User code may come to this point, whatever the others do to the object and the model meanwhile. *)
Inductive comes_to {O M R} : code O M R -> code O M R -> Prop :=
| ct_here : forall c, comes_to c c
| ct_step : forall u n o m c, comes_to (n o m) c -> comes_to (Step u n) c.
