(** Model of one concurrent run: Concurrency::invoke and RearRunner of proptest/stateful/concurrency_function.hpp and
    proptest/stateful/concurrency_class.hpp, under every interleaving.
    User code (actions, preconditions, the check) is a tree of atomic steps on the shared object and on a model, so that
    steps of different threads interleave freely; what happens in C++ if such steps race is up to the user's object and not modelled.
    The atomics are sequentially consistent.  The main thread only waits while the spawner thread runs, so they are one actor here, [Coord].
    [atomic<int> counter] is unbounded: more than 2^31 log entries do not occur. *)
From Coq Require Import List ZArith Bool.
From Verif Require Import Base TupleModel.
Import ListNotations.
Local Open Scope list_scope.

(** User code: it ends, throws, or makes one step (new object and model) and goes on depending on what it saw.
    (What concurrency_function.hpp:213, 252, 260, 332 and concurrency_class.hpp:205, 207, 238-239, 271 call.) *)
Inductive code (O M R : Type) :=
| Ret (r : R)
| Fail (e : err)
| Step (upd : O -> M -> O * M) (next : O -> M -> code O M R).
Arguments Ret {O M R} _.
Arguments Fail {O M R} _.
Arguments Step {O M R} _ _.

(** The function-based interface (concurrency_function.hpp) or the class-based one (concurrency_class.hpp). *)
Inductive api := Func | Class.

(** An action: stateful_class.hpp:46-60.  An Action of action.hpp:33-57 has no precondition and its function has no result ([of_action]). *)
Record act (O M : Type) := { pre : code O M bool; body : code O M bool }.
Arguments pre {O M} _.
Arguments body {O M} _.
(** The function of an Action (action.hpp:56) with a result: true. *)
Fixpoint returning {O M} (c : code O M unit) : code O M bool :=
  match c with Ret _ => Ret true | Fail e => Fail e | Step u n => Step u (fun o m => returning (n o m)) end.
(** action.hpp:33-57 Action as an [act]. *)
Definition of_action {O M} (c : code O M unit) : act O M := {| pre := Ret true; body := returning c |}.

(** Where a rear thread is: concurrency_function.hpp:206-217, concurrency_class.hpp:199-211.  [k] is the number of the action. *)
Inductive pc (O M : Type) :=
| PNone                                       (* not created yet *)
| PBegin                                      (* line 208 / 201: thread_ready = true *)
| PSpin                                       (* line 209 / 202: while (!sync_ready) {} *)
| PNext (k : nat)                             (* the head of the loop *)
| PPre (k : nat) (c : code O M bool)          (* class: line 205 *)
| PTake (k : nat) (last : bool)               (* counter++ of line 212 ([last] = false), 215 or 209 *)
| PWrite (k : nat) (last : bool) (slot : nat) (* log[slot] = num of the same line *)
| PBody (k : nat) (c : code O M bool)         (* line 213 / 207 *)
| PEnd.
Arguments PNone {O M}.
Arguments PBegin {O M}.
Arguments PSpin {O M}.
Arguments PNext {O M} _.
Arguments PPre {O M} _ _.
Arguments PTake {O M} _ _.
Arguments PWrite {O M} _ _ _.
Arguments PBody {O M} _ _.
Arguments PEnd {O M}.

(** A RearRunner (188-204, 219-227 / 180-197, 213-221) with its thread_ready flag.  [t_model] is the member of line 221, a copy; the class-based
    one has a reference instead (line 215) and does not use [t_model]. *)
Record thread (O M : Type) := { t_pc : pc O M; t_ready : bool; t_acts : list (act O M); t_model : M }.
Arguments t_pc {O M} _.
Arguments t_ready {O M} _.
Arguments t_acts {O M} _.
Arguments t_model {O M} _.

(** Where invoke is: concurrency_function.hpp:243-334, concurrency_class.hpp:236-274. *)
Inductive coord (O M : Type) :=
| KFront (k : nat)                            (* the head of the front loop, 251 / 237 *)
| KFrontPre (k : nat) (c : code O M bool)     (* 238 *)
| KFrontBody (k : nat) (c : code O M bool)    (* 252 / 239 *)
| KFrontPush (k : nat)                        (* 253-254 *)
| KPrepare                                    (* 258, 266-279 / 244-249 *)
| KStart (i : nat)                            (* 282-285 / 251-252 *)
| KWait (i : nat)                             (* 287-289 / 253-254 *)
| KSync                                       (* 291 / 256 *)
| KJoin (i : nat)                             (* 293-295 / 258-259 *)
| KPrint                                      (* 297-326 / 261-265 *)
| KCheck                                      (* 331 or 259 / 270 *)
| KChecking (c : code O M unit)               (* 332 or 260 / 271 *)
| KDone.                                      (* 333 or 261 / 273: return true *)
Arguments KFront {O M} _.
Arguments KFrontPre {O M} _ _.
Arguments KFrontBody {O M} _ _.
Arguments KFrontPush {O M} _.
Arguments KPrepare {O M}.
Arguments KStart {O M} _.
Arguments KWait {O M} _.
Arguments KSync {O M}.
Arguments KJoin {O M} _.
Arguments KPrint {O M}.
Arguments KCheck {O M}.
Arguments KChecking {O M} _.
Arguments KDone {O M}.

(** Going on; an exception left invoke; an exception left a thread (std::terminate); undefined behaviour.
    (concurrency_function.hpp:229-334, concurrency_class.hpp:223-274.) *)
Inductive status := Running | Threw (e : err) | Terminated (e : err) | Undefined.

(** concurrency_function.hpp:234-248, 266-269, concurrency_class.hpp:226-234, 244-249: the variables of invoke and of the spawner. *)
Record cfg (O M : Type) := {
  c_obj : O;
  c_model : M;
  c_counter : nat;
  c_log : list Z;
  c_sync : bool;
  c_threads : list (thread O M);
  c_co : coord O M;
  c_status : status
}.
Arguments c_obj {O M} _.
Arguments c_model {O M} _.
Arguments c_counter {O M} _.
Arguments c_log {O M} _.
Arguments c_sync {O M} _.
Arguments c_threads {O M} _.
Arguments c_co {O M} _.
Arguments c_status {O M} _.

(** What an observer sees.  Of the front (who = None) or of rear thread i (who = Some i): an action starts, makes a step, ends; a step of a precondition;
    an action is passed over; an entry of the log is taken, written.
    (concurrency_function.hpp:213, 252, 260, 297-332, concurrency_class.hpp:205-207, 238-239, 261-271.) *)
Inductive tev := TStart (k : nat) | TStep (k : nat) | TEnd (k : nat) | TPre (k : nat) | TSkip (k : nat)
| TTake (k : nat) (last : bool) (slot : nat) | TWrite (slot : nat).
(** What is printed by 306-324: an entry of the front, or the start or end of an action of a rear thread; by the class-based API, the entry. *)
Inductive item := IFront (k : nat) | IStart (i k : nat) | IEnd (i k : nat) | IRaw (z : Z).
(** What is seen of one run, concurrency_function.hpp:213, 252, 297-332, concurrency_class.hpp:205-207, 238-239, 261-271. *)
Inductive ev (O M : Type) :=
| V (who : option nat) (e : tev)
| VPrint (l : list item)
| VCheck (o : O) (m : M).
Arguments V {O M} _ _.
Arguments VPrint {O M} _.
Arguments VCheck {O M} _ _.

(** 283 (thread i is number i) / 251-252 (numbers 1 and 2). *)
Definition threadId (a : api) (i : nat) : Z := match a with Func => Z.of_nat i | Class => Z.of_nat (S i) end.

(** concurrency_function.hpp:206-217, concurrency_class.hpp:199-211: the thread goes on. *)
Definition with_pc {O M} (p : pc O M) (t : thread O M) : thread O M :=
  {| t_pc := p; t_ready := t_ready t; t_acts := t_acts t; t_model := t_model t |}.
(** concurrency_function.hpp:221: assignment to the member. *)
Definition with_model {O M} (m : M) (t : thread O M) : thread O M :=
  {| t_pc := t_pc t; t_ready := t_ready t; t_acts := t_acts t; t_model := m |}.
(** concurrency_function.hpp:268, concurrency_class.hpp:251-252: a thread has changed. *)
Definition set_thread {O M} (i : nat) (t : thread O M) (c : cfg O M) : cfg O M :=
  {| c_obj := c_obj c; c_model := c_model c; c_counter := c_counter c; c_log := c_log c; c_sync := c_sync c;
     c_threads := set_nth i t (c_threads c); c_co := c_co c; c_status := c_status c |}.
(** An exception or undefined behaviour ends concurrency_function.hpp:229-334, concurrency_class.hpp:223-274. *)
Definition with_status {O M} (s : status) (c : cfg O M) : cfg O M :=
  {| c_obj := c_obj c; c_model := c_model c; c_counter := c_counter c; c_log := c_log c; c_sync := c_sync c;
     c_threads := c_threads c; c_co := c_co c; c_status := s |}.
(** concurrency_function.hpp:243-334, concurrency_class.hpp:236-274: invoke goes on. *)
Definition with_co {O M} (k : coord O M) (c : cfg O M) : cfg O M :=
  {| c_obj := c_obj c; c_model := c_model c; c_counter := c_counter c; c_log := c_log c; c_sync := c_sync c;
     c_threads := c_threads c; c_co := k; c_status := c_status c |}.
(** concurrency_function.hpp:243-244, concurrency_class.hpp:227-228: assignment to obj and model. *)
Definition with_obj_model {O M} (o : O) (m : M) (c : cfg O M) : cfg O M :=
  {| c_obj := o; c_model := m; c_counter := c_counter c; c_log := c_log c; c_sync := c_sync c;
     c_threads := c_threads c; c_co := c_co c; c_status := c_status c |}.
(** concurrency_function.hpp:247-248, concurrency_class.hpp:247-248: assignment to log and counter. *)
Definition with_log {O M} (n : nat) (l : list Z) (c : cfg O M) : cfg O M :=
  {| c_obj := c_obj c; c_model := c_model c; c_counter := n; c_log := l; c_sync := c_sync c;
     c_threads := c_threads c; c_co := c_co c; c_status := c_status c |}.
(** concurrency_function.hpp:291, concurrency_class.hpp:256. *)
Definition with_sync {O M} (c : cfg O M) : cfg O M :=
  {| c_obj := c_obj c; c_model := c_model c; c_counter := c_counter c; c_log := c_log c; c_sync := true;
     c_threads := c_threads c; c_co := c_co c; c_status := c_status c |}.

(** The model a rear action works on: its copy / the one of invoke. (concurrency_function.hpp:221, concurrency_class.hpp:215.) *)
Definition seen_model {O M} (a : api) (c : cfg O M) (t : thread O M) : M := match a with Func => t_model t | Class => c_model c end.
(** Object and model after a step of thread i, which goes on at [p]. (concurrency_function.hpp:213, concurrency_class.hpp:205, 207.) *)
Definition stepped {O M} (a : api) (i : nat) (t : thread O M) (om : O * M) (p : pc O M) (c : cfg O M) : cfg O M :=
  match a with
  | Func => set_thread i (with_pc p (with_model (snd om) t)) (with_obj_model (fst om) (c_model c) c)
  | Class => set_thread i (with_pc p t) (with_obj_model (fst om) (snd om) c)
  end.

(** One step of rear thread i: concurrency_function.hpp:206-217, concurrency_class.hpp:199-211.  [None]: it cannot take one. *)
Definition stepThread {O M} (a : api) (i : nat) (c : cfg O M) : option (list (ev O M) * cfg O M) :=
  match nth_error (c_threads c) i with
  | None => None
  | Some t =>
    match t_pc t with
    | PNone | PEnd => None
    | PBegin => Some ([], set_thread i {| t_pc := PSpin; t_ready := true; t_acts := t_acts t; t_model := t_model t |} c)
    | PSpin => Some ([], if c_sync c then set_thread i (with_pc (PNext 0) t) c else c)
    | PNext k =>
        match nth_error (t_acts t) k with
        | None => Some ([], set_thread i (with_pc PEnd t) c)
        | Some x => Some ([], set_thread i (with_pc (match a with Func => PTake k false | Class => PPre k (pre x) end) t) c)
        end
    | PPre k p =>
        match p with
        | Ret true => match nth_error (t_acts t) k with
                      | Some x => Some ([V (Some i) (TStart k)], set_thread i (with_pc (PBody k (body x)) t) c)
                      | None => None
                      end
        | Ret false => Some ([V (Some i) (TSkip k)], set_thread i (with_pc (PNext (S k)) t) c)
        | Fail e => Some ([], with_status (Terminated e) c)
        | Step u n => let m := seen_model a c t in
                      Some ([V (Some i) (TPre k)], stepped a i t (u (c_obj c) m) (PPre k (n (c_obj c) m)) c)
        end
    | PTake k last =>
        Some ([V (Some i) (TTake k last (c_counter c))],
              set_thread i (with_pc (PWrite k last (c_counter c)) t) (with_log (S (c_counter c)) (c_log c) c))
    | PWrite k last slot =>
        if Nat.ltb slot (length (c_log c)) then
          let c' := with_log (c_counter c) (set_nth slot (threadId a i) (c_log c)) c in
          if last then Some ([V (Some i) (TWrite slot)], set_thread i (with_pc (PNext (S k)) t) c')
          else match nth_error (t_acts t) k with
               | Some x => Some ([V (Some i) (TWrite slot); V (Some i) (TStart k)], set_thread i (with_pc (PBody k (body x)) t) c')
               | None => None
               end
        else Some ([], with_status Undefined c)
    | PBody k p =>
        match p with
        | Ret true => Some ([V (Some i) (TEnd k)], set_thread i (with_pc (PTake k true) t) c)
        | Ret false => Some ([], with_status (Terminated EAssert) c)
        | Fail e => Some ([], with_status (Terminated e) c)
        | Step u n => let m := seen_model a c t in
                      Some ([V (Some i) (TStep k)], stepped a i t (u (c_obj c) m) (PBody k (n (c_obj c) m)) c)
        end
    end
  end.

(** concurrency_function.hpp:298-324: [fi], [its] and [started] are frontItr, rearItrs and rearStarted as numbers of actions. *)
Fixpoint printOrder (front : nat) (rears : list nat) (fi : nat) (its : list nat) (started : list bool) (log : list Z) : res (list item) :=
  match log with
  | [] => Ok []
  | z :: r =>
      if (z =? -1)%Z then
        if Nat.ltb fi front then do l <- printOrder front rears (S fi) its started r; Ok (IFront fi :: l) else UB
      else
        do s <- idx started z;
        do k <- idx its z;
        do n <- idx rears z;
        if Nat.ltb k n then
          let i := Z.to_nat z in
          do l <- printOrder front rears fi (if s then set_nth i (S k) its else its) (set_nth i (negb s) started) r;
          Ok ((if s then IEnd i k else IStart i k) :: l)
        else UB
  end.

(** 297-324 / 261-265: the entries log[0], ..., log[counter - 1] are read. *)
Definition printing {O M} (a : api) (front : nat) (c : cfg O M) : res (list item) :=
  if Nat.leb (c_counter c) (length (c_log c)) then
    let entries := firstn (c_counter c) (c_log c) in
    match a with
    | Func => printOrder front (map (fun t => length (t_acts t)) (c_threads c)) 0 (map (fun _ => 0%nat) (c_threads c)) (map (fun _ => false) (c_threads c)) entries
    | Class => Ok (map IRaw entries)
    end
  else UB.

(** One step of invoke (or of the spawner thread, 265-327 / 243-266).  [front] are the front actions, [check] is postCheckPtr. *)
Definition stepCoord {O M} (a : api) (front : list (act O M)) (check : option (code O M unit)) (c : cfg O M) : option (list (ev O M) * cfg O M) :=
  match c_co c with
  | KFront k =>
      match nth_error front k with
      | None => Some ([], with_co KPrepare c)
      | Some x => Some match a with
                       | Func => ([V None (TStart k)], with_co (KFrontBody k (body x)) c)
                       | Class => ([], with_co (KFrontPre k (pre x)) c)
                       end
      end
  | KFrontPre k p =>
      match p with
      | Ret true => match nth_error front k with
                    | Some x => Some ([V None (TStart k)], with_co (KFrontBody k (body x)) c)
                    | None => None
                    end
      | Ret false => Some ([V None (TSkip k)], with_co (KFront (S k)) c)
      | Fail e => Some ([], with_status (Threw e) c)
      | Step u n => let '(o, m) := u (c_obj c) (c_model c) in
                    Some ([V None (TPre k)], with_co (KFrontPre k (n (c_obj c) (c_model c))) (with_obj_model o m c))
      end
  | KFrontBody k p =>
      match p with
      | Ret true => Some ([V None (TEnd k)], with_co (match a with Func => KFrontPush k | Class => KFront (S k) end) c)
      | Ret false => Some ([], with_status (Threw EAssert) c)
      | Fail e => Some ([], with_status (Threw e) c)
      | Step u n => let '(o, m) := u (c_obj c) (c_model c) in
                    Some ([V None (TStep k)], with_co (KFrontBody k (n (c_obj c) (c_model c))) (with_obj_model o m c))
      end
  | KFrontPush k => Some ([], with_co (KFront (S k)) (with_log (S (c_counter c)) (c_log c ++ [(-1)%Z]) c))
  | KPrepare =>
      Some ([], match a with
                | Func => if Nat.leb (length (c_threads c)) 1 then with_co KCheck c
                          else with_co (KStart 0) (with_log (c_counter c) (c_log c ++ flat_map (fun t => repeat (-2)%Z (length (t_acts t) * 2)) (c_threads c)) c)
                | Class => with_co (KStart 0) (with_log 0 (repeat 0%Z 5000) c)
                end)
  | KStart i =>
      match nth_error (c_threads c) i with
      | None => Some ([], with_co (KWait 0) c)
      | Some t => Some ([], with_co (KStart (S i)) (set_thread i {| t_pc := PBegin; t_ready := false; t_acts := t_acts t; t_model := c_model c |} c))
      end
  | KWait i =>
      match nth_error (c_threads c) i with
      | None => Some ([], with_co KSync c)
      | Some t => Some ([], if t_ready t then with_co (KWait (S i)) c else c)
      end
  | KSync => Some ([], with_co (KJoin 0) (with_sync c))
  | KJoin i =>
      match nth_error (c_threads c) i with
      | None => Some ([], with_co KPrint c)
      | Some t => match t_pc t with PEnd => Some ([], with_co (KJoin (S i)) c) | _ => None end
      end
  | KPrint =>
      match printing a (length front) c with
      | Ok l => Some ([VPrint l], with_co KCheck c)
      | _ => Some ([], with_status Undefined c)
      end
  | KCheck =>
      match check with
      | Some p => Some ([VCheck (c_obj c) (c_model c)], with_co (KChecking p) c)
      | None => Some ([], with_co KDone c)
      end
  | KChecking p =>
      match p with
      | Ret _ => Some ([], with_co KDone c)
      | Fail e => Some ([], with_status (Threw e) c)
      | Step u n => let '(o, m) := u (c_obj c) (c_model c) in Some ([], with_co (KChecking (n (c_obj c) (c_model c))) (with_obj_model o m c))
      end
  | KDone => None
  end.

(** Who moves next. (concurrency_function.hpp:265-295, concurrency_class.hpp:243-259.) *)
Inductive actor := Coord | Rear (i : nat).
(** One step of concurrency_function.hpp:206-217, 243-334, concurrency_class.hpp:199-211, 236-274. *)
Definition move {O M} (a : api) (front : list (act O M)) (check : option (code O M unit)) (who : actor) (c : cfg O M) : option (list (ev O M) * cfg O M) :=
  match c_status c with
  | Running => match who with Coord => stepCoord a front check c | Rear i => stepThread a i c end
  | _ => None
  end.

(** The state in which the front starts: 234-248 / 226-234.  [rears]: the generated lists, as many as numThreads says (none if it is negative) / two. *)
Definition start {O M} (obj : O) (model : M) (rears : list (list (act O M))) : cfg O M :=
  {| c_obj := obj; c_model := model; c_counter := 0; c_log := []; c_sync := false;
     c_threads := map (fun l => {| t_pc := PNone; t_ready := false; t_acts := l; t_model := model |}) rears; c_co := KFront 0; c_status := Running |}.

(** A schedule: whose turn it is, over and over; somebody who cannot move loses the turn.
    (For concurrency_function.hpp:243-334, concurrency_class.hpp:236-274.) *)
Fixpoint run {O M} (a : api) (front : list (act O M)) (check : option (code O M unit)) (schedule : list actor) (c : cfg O M) : list (ev O M) * cfg O M :=
  match schedule with
  | [] => ([], c)
  | who :: r => match move a front check who c with
                | None => run a front check r c
                | Some (evs, c') => let '(tr, c2) := run a front check r c' in (evs ++ tr, c2)
                end
  end.
