(** Vocabulary for the slot bitmap. *)
From Coq Require Import List ZArith.
From Verif Require Import Base TupleModel BitmapModel.
Import ListNotations.
Local Open Scope Z_scope.

(** Thread [t] holds index [n]: it was given it and has not begun to give it back. *)
Definition holds (c : config) (t : nat) (n : Z) : Prop := exists th, nth_error (threads c) t = Some th /\ In n (owns th).

(** Thread [t] is inside a call that is about to return [n], or to free it. *)
Definition handling (c : config) (t : nat) (n : Z) : Prop := exists th, nth_error (threads c) t = Some th /\
  (at_ th = TakeCheck n \/ at_ th = TakeStore n \/ at_ th = Release n \/ at_ th = PutCheck n \/ at_ th = PutStore n).

(** The slot is in somebody's hands. *)
Definition in_use (c : config) (n : Z) : Prop := exists t, holds c t n \/ handling c t n.

(** All indices held, thread after thread. *)
Definition all_held (c : config) : list Z := flat_map owns (threads c).

(** No call has failed. *)
Definition sound (c : config) : Prop := forall t th, nth_error (threads c) t = Some th -> at_ th <> Died /\ at_ th <> Broken.

(** The accesses thread [t] makes. *)
Definition access_of (t : nat) (l : label) : Prop :=
  match l with LTry u _ _ => u = t | LStep u => u = t | LRet u _ => u = t | _ => False end.
Definition access_ofb (t : nat) (l : label) : bool :=
  match l with LTry u _ _ => Nat.eqb u t | LStep u => Nat.eqb u t | LRet u _ => Nat.eqb u t | _ => false end.
Definition call_by (t : nat) (l : label) : Prop := match l with LCall u _ => u = t | _ => False end.

(** Thread [t] alone makes [k] accesses (fewer if its call returns or fails). *)
Fixpoint alone (size : nat) (k : nat) (t : nat) (c : config) : config :=
  match k with
  | O => c
  | S k' => match nth_error (threads c) t with
            | Some th => match advance size (at_ th) (slots c) with
                         | Some o => alone size k' t {| slots := left_by o; threads := set_nth t (settle th o) (threads c) |}
                         | None => c
                         end
            | None => c
            end
  end.
