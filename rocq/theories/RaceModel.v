(** What the steps of a concurrent run read, write and synchronise on: Concurrency::invoke and RearRunner of
    proptest/stateful/concurrency_function.hpp and proptest/stateful/concurrency_class.hpp (line numbers: function / class), step by step as in ConcModel.
    Not listed: what a single thread owns from creation to destruction (loop variables, copies of actions, [rears] of 269, rearItrs, rearStarted),
    and cout, whose use from several threads is no data race. *)
From Coq Require Import List ZArith Bool.
From Verif Require Import Base TupleModel ConcModel.
Import ListNotations.
Local Open Scope list_scope.

(** Memory that is not atomic. (concurrency_function.hpp, concurrency_class.hpp: lines below.) *)
Inductive loc :=
| LModel              (* [model] of invoke, 244 / 228 *)
| LCopy (i : nat)     (* the member of RearRunner i, 221 *)
| LVec                (* the vector [log] itself (its size and where its elements are), 248 / 248 *)
| LSlot (s : nat)     (* log[s] *)
| LFront              (* the list of front actions, 245 / 232 *)
| LActs (i : nat)     (* the list of actions of thread i, rearShrs[i].getRef() of 273 and 283 / 233-234 *)
| LUser (x : nat).    (* memory of the user's code, 213 / 205-207: of the object, of the context (PropertyBase.hpp:87), globals *)
Inductive access := Rd (l : loc) | Wr (l : loc).

(** What synchronises: the creation of a thread with its beginning, a store to an atomic with a load that reads it, the end of a thread with join.
    (concurrency_function.hpp, concurrency_class.hpp: lines below.) *)
Inductive sync :=
| SCreate (i : nat)   (* 283 / 251-252 -> the beginning of operator(), 206 / 199 *)
| SReady (i : nat)    (* 208 -> 288 / 201 -> 253-254 *)
| SSync               (* 291 -> 209 / 256 -> 202 *)
| SCounter            (* counter++ of 254, 212, 215 / 209; read in 297, 306 / 261-262 *)
| SEnd (i : nat).     (* the end of operator() -> 294 / 258-259 *)

(** The step is one of user code. (concurrency_function.hpp:213, 252, 332, concurrency_class.hpp:205-207, 238-239, 271.) *)
Definition is_step {O M R} (p : code O M R) : bool := match p with Step _ _ => true | _ => false end.
(** Where thread i is, concurrency_function.hpp:206-217, concurrency_class.hpp:199-211. *)
Definition pc_of {O M} (i : nat) (c : cfg O M) : pc O M := match nth_error (c_threads c) i with Some t => t_pc t | None => PNone end.

(** [touch who c]: which user memory the step of user code that [who] makes in [c] reads and writes.  A step of user code may always write its model.
    (concurrency_function.hpp, concurrency_class.hpp: lines below.) *)
Definition accesses {O M} (touch : actor -> cfg O M -> list (nat * bool)) (a : api) (front : list (act O M)) (who : actor) (c : cfg O M) : list access :=
  let user := map (fun x : nat * bool => if snd x then Wr (LUser (fst x)) else Rd (LUser (fst x))) (touch who c) in
  match who with
  | Rear i =>
      match pc_of i c with
      | PNext _ => [Rd (LActs i)]                                   (* 211 / 204 *)
      | PPre _ p | PBody _ p =>                                     (* 213 / 205, 207 *)
          if is_step p then Wr (match a with Func => LCopy i | Class => LModel end) :: user else []
      | PWrite _ _ s => [Rd LVec; Wr (LSlot s)]                     (* 212, 215 / 209 *)
      | _ => []
      end
  | Coord =>
      match c_co c with
      | KFront _ => [Rd LFront]                                     (* 251 / 237 *)
      | KFrontPre _ p | KFrontBody _ p => if is_step p then Wr LModel :: user else []   (* 252 / 238-239 *)
      | KFrontPush _ => Wr LVec :: map (fun s => Wr (LSlot s)) (seq 0 (S (length (c_log c))))   (* 253: the elements may move *)
      | KPrepare =>                                                 (* 266-279 / 248-249 *)
          match a with
          | Func => map (fun i => Rd (LActs i)) (seq 0 (length (c_threads c))) ++ Wr LVec ::
                    map (fun s => Wr (LSlot s)) (seq 0 (length (c_log c) + list_sum (map (fun t => length (t_acts t) * 2) (c_threads c))))
          | Class => Wr LVec :: map (fun s => Wr (LSlot s)) (seq 0 5000)
          end
      | KStart i => match a with Func => [Rd LModel; Wr (LCopy i)] | Class => [] end    (* 283, 197 / 251-252 *)
      | KPrint => Rd LVec :: Rd LFront :: map (fun s => Rd (LSlot s)) (seq 0 (c_counter c))   (* 297-324 / 261-265 *)
      | KChecking p => if is_step p then Wr LModel :: user else []  (* 332 / 271 *)
      | _ => []
      end
  end.

(** The step makes what happened before it in its thread visible to whoever acquires [s] later ...
    (concurrency_function.hpp, concurrency_class.hpp: lines below.) *)
Definition releases {O M} (who : actor) (c : cfg O M) : list sync :=
  match who with
  | Rear i =>
      match nth_error (c_threads c) i with
      | None => []
      | Some t =>
          match t_pc t with
          | PBegin => [SReady i]                                    (* 208 / 201 *)
          | PTake _ _ => [SCounter]                                 (* 212, 215 / 209 *)
          | PNext k => match nth_error (t_acts t) k with None => [SEnd i] | Some _ => [] end   (* 217 / 211 *)
          | _ => []
          end
      end
  | Coord =>
      match c_co c with
      | KFrontPush _ => [SCounter]                                  (* 254 *)
      | KStart i => match nth_error (c_threads c) i with Some _ => [SCreate i] | None => [] end   (* 283 / 251-252 *)
      | KSync => [SSync]                                            (* 291 / 256 *)
      | _ => []
      end
  end.
(** ... and this one sees what was released.  Loads of a flag count when they read true.  Counter increments read what the one before wrote, so each
    acquires from all earlier ones (a release sequence). (concurrency_function.hpp, concurrency_class.hpp: lines below.) *)
Definition acquires {O M} (who : actor) (c : cfg O M) : list sync :=
  match who with
  | Rear i =>
      match pc_of i c with
      | PBegin => [SCreate i]
      | PSpin => if c_sync c then [SSync] else []                   (* 209 / 202 *)
      | PTake _ _ => [SCounter]                                     (* 212, 215 / 209 *)
      | _ => []
      end
  | Coord =>
      match c_co c with
      | KFrontPush _ => [SCounter]                                  (* 254 *)
      | KWait i => match nth_error (c_threads c) i with Some t => if t_ready t then [SReady i] else [] | None => [] end   (* 288 / 253-254 *)
      | KJoin i => match nth_error (c_threads c) i with Some _ => [SEnd i] | None => [] end   (* 294 / 258-259 *)
      | KPrint => [SCounter]                                        (* 297, 306 / 261-262 *)
      | _ => []
      end
  end.
