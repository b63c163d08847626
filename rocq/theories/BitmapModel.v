(** Model of the slot bitmap (proptest/util/bitmap.hpp, proptest/util/bitmap.cpp) used by any number of threads.
    Each operation is cut into its accesses to the atomics; all of them are sequentially consistent, so an execution is an
    interleaving of the accesses.  The number of slots (bitmap.hpp:11, 10000) is a parameter. *)
From Coq Require Import List ZArith Bool.
From Verif Require Import Base TupleModel.
Import ListNotations.
Local Open Scope Z_scope.

(** bitmap.hpp:13-18 State. *)
Inductive slot := Available | Changing | Unavailable.
(** The comparison inside compare_exchange_strong and of bitmap.cpp:71, 78. *)
Definition slot_eqb (a b : slot) : bool :=
  match a, b with Available, Available => true | Changing, Changing => true | Unavailable, Unavailable => true | _, _ => false end.

(** bitmap.hpp:39 states; bitmap.cpp:9-14 the constructor; 83-88 reset, when nothing else runs. *)
Definition fresh (size : nat) : list slot := repeat Available size.

(** bitmap.cpp:16-21 the copy constructor, when nothing else runs. *)
Definition copy (size : nat) (other : list slot) : res (list slot) := mapM (idx other) (map Z.of_nat (seq 0 size)).

(** states[n] = s. (bitmap.cpp:73, 80.) *)
Definition put_slot (m : list slot) (n : Z) (s : slot) : list slot := set_nth (Z.to_nat n) s m.

(** states[n].compare_exchange_strong(expected, desired): whether it succeeded, and the new contents. (bitmap.cpp:58, 94.) *)
Definition cas (m : list slot) (n : Z) (expected desired : slot) : res (bool * list slot) :=
  do s <- idx m n;
  if slot_eqb s expected then Ok (true, put_slot m n desired) else Ok (false, m).

(** bitmap.cpp:90-104 occupyAvailable(n): the slots it visits, in order. *)
Definition visits (size : nat) (n : nat) : list Z := map Z.of_nat (seq n (size - n) ++ seq 0 n).

(** Where a thread is.  [retry] tells acquire from tryAcquire. (bitmap.cpp:23-43.) *)
Inductive pc :=
| Idle                                   (* outside the bitmap *)
| Scan (retry : bool) (rest : list Z)    (* occupyAvailable, line 93 or 99, the slots still to visit *)
| TakeCheck (n : Z)                      (* take, line 71 *)
| TakeStore (n : Z)                      (* take, line 73 *)
| Release (n : Z)                        (* setChangingFromAcquired, line 58 *)
| PutCheck (n : Z)                       (* put, line 78 *)
| PutStore (n : Z)                       (* put, line 80 *)
| Died                                   (* an exception left the operation *)
| Broken.                                (* access outside the array *)

(** One access by a thread inside an operation: it goes on, or the operation returns (nothing for unacquire). (bitmap.cpp:58, 71, 73, 78, 80, 94.) *)
Inductive out := Go (p : pc) (m : list slot) | Return (v : option Z) (m : list slot).

(** bitmap.cpp:23-31 acquire, 33-38 tryAcquire, 40-43 unacquire, with 54-59, 68-81, 90-104. *)
Definition advance (size : nat) (p : pc) (m : list slot) : option out :=
  match p with
  | Idle | Died | Broken => None
  | Scan true [] => Some (Go (Scan true (visits size 0)) m)
  | Scan false [] => Some (Return (Some (-1)) m)
  | Scan retry (i :: rest) =>
      Some match cas m i Available Changing with
           | Ok (true, m') => Go (TakeCheck i) m'
           | Ok (false, m') => Go (Scan retry rest) m'
           | _ => Go Broken m
           end
  | TakeCheck n => Some match idx m n with
                        | Ok Changing => Go (TakeStore n) m
                        | Ok _ => Go Died m
                        | _ => Go Broken m
                        end
  | TakeStore n => Some (Return (Some n) (put_slot m n Unavailable))
  | Release n => Some match cas m n Unavailable Changing with
                      | Ok (_, m') => Go (PutCheck n) m'
                      | _ => Go Broken m
                      end
  | PutCheck n => Some match idx m n with
                       | Ok Changing => Go (PutStore n) m
                       | Ok _ => Go Died m
                       | _ => Go Broken m
                       end
  | PutStore n => Some (Return None (put_slot m n Available))
  end.

(** What a thread may call. (bitmap.hpp:34-36.) *)
Inductive call := Acquire | TryAcquire | Unacquire (n : Z).
(** The first access of bitmap.cpp:23, 33, 40. *)
Definition entry (size : nat) (c : call) : pc :=
  match c with
  | Acquire => Scan true (visits size 0)
  | TryAcquire => Scan false (visits size 0)
  | Unacquire n => Release n
  end.

(** A thread: where it is, and the indices it was given and has not given back. (Threads calling bitmap.cpp:23-43.) *)
Record thread := { at_ : pc; owns : list Z }.
(** bitmap.hpp:39 states, and the threads that use them. *)
Record config := { slots : list slot; threads : list thread }.

(** A thread before its first call of bitmap.cpp:23-43. *)
Definition newborn : thread := {| at_ := Idle; owns := [] |}.
(** bitmap.hpp:11 size. *)
Definition bitmap_size : nat := Z.to_nat 10000.

(** bitmap.cpp:9-14: a new Bitmap, no threads yet. *)
Definition start (size : nat) : config := {| slots := fresh size; threads := [] |}.

(** The indices left after giving back one [n]. (The caller of bitmap.cpp:40-43.) *)
Fixpoint without (n : Z) (l : list Z) : list Z :=
  match l with [] => [] | x :: r => if x =? n then r else x :: without n r end.

(** What an observer of the accesses sees. (Of the accesses of bitmap.cpp:23-104.) *)
Inductive label :=
| LSpawn                             (* a new thread *)
| LCall (t : nat) (c : call)         (* thread [t] calls *)
| LTry (t : nat) (n : Z) (ok : bool) (* thread [t] tries to occupy slot [n] *)
| LStep (t : nat)                    (* another access *)
| LRet (t : nat) (v : option Z)      (* its call returns *)
| LGive (t u : nat) (n : Z).         (* [t] hands the index over to [u] (in the client) *)

(** What is seen of one access of bitmap.cpp:23-104. *)
Definition label_of (t : nat) (p : pc) (o : out) : label :=
  match o with
  | Return v _ => LRet t v
  | Go p' _ => match p with
               | Scan _ (i :: _) => LTry t i (match p' with TakeCheck _ => true | _ => false end)
               | _ => LStep t
               end
  end.

(** What becomes of a thread. (After one access of bitmap.cpp:23-104.) *)
Definition settle (th : thread) (o : out) : thread :=
  match o with
  | Go p _ => {| at_ := p; owns := owns th |}
  | Return (Some v) _ => {| at_ := Idle; owns := if v =? -1 then owns th else v :: owns th |}
  | Return None _ => {| at_ := Idle; owns := owns th |}
  end.
(** The contents of [states] (bitmap.hpp:39) after one access. *)
Definition left_by (o : out) : list slot := match o with Go _ m => m | Return _ m => m end.

(** The argument of bitmap.cpp:40 is given back when the call starts. *)
Definition gives_back (c : call) (l : list Z) : list Z := match c with Unacquire n => without n l | _ => l end.

(** One step of the program.  [polite] clients give back only indices they own. (bitmap.cpp:23-104, one access at a time.) *)
Inductive step (size : nat) (polite : bool) : config -> label -> config -> Prop :=
| st_spawn : forall c, step size polite c LSpawn {| slots := slots c; threads := threads c ++ [newborn] |}
| st_call : forall c t th k, nth_error (threads c) t = Some th -> at_ th = Idle ->
    (forall n, polite = true -> k = Unacquire n -> In n (owns th)) ->
    step size polite c (LCall t k)
      {| slots := slots c; threads := set_nth t {| at_ := entry size k; owns := gives_back k (owns th) |} (threads c) |}
| st_advance : forall c t th o, nth_error (threads c) t = Some th -> advance size (at_ th) (slots c) = Some o ->
    step size polite c (label_of t (at_ th) o) {| slots := left_by o; threads := set_nth t (settle th o) (threads c) |}
| st_give : forall c t u th uh n, t <> u -> nth_error (threads c) t = Some th -> nth_error (threads c) u = Some uh ->
    In n (owns th) ->
    step size polite c (LGive t u n)
      {| slots := slots c;
         threads := set_nth u {| at_ := at_ uh; owns := n :: owns uh |}
                      (set_nth t {| at_ := at_ th; owns := without n (owns th) |} (threads c)) |}.

(** Executions: the labels seen, oldest first. (Of bitmap.cpp:23-104.) *)
Inductive exec (size : nat) (polite : bool) : config -> list label -> config -> Prop :=
| ex_nil : forall c, exec size polite c [] c
| ex_snoc : forall c ls d l e, exec size polite c ls d -> step size polite d l e -> exec size polite c (ls ++ [l]) e.
