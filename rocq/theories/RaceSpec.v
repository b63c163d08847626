(** Vocabulary for data races: [intro.races] of the C++ standard, for executions in which all atomics are sequentially consistent. *)
From Coq Require Import List ZArith Bool.
From Verif Require Import Base ConcModel RaceModel.
Import ListNotations.
Local Open Scope list_scope.

(** The steps of an execution in order: who made it, and the state it was made in. *)
Fixpoint history {O M} (a : api) (front : list (act O M)) (check : option (code O M unit)) (schedule : list actor) (c : cfg O M) : list (actor * cfg O M) :=
  match schedule with
  | [] => []
  | who :: r => match move a front check who c with
                | None => history a front check r c
                | Some (_, c') => (who, c) :: history a front check r c'
                end
  end.

Section Races.
Context {O M : Type} (h : list (actor * cfg O M)).
Definition at_ (p : nat) (who : actor) (c : cfg O M) : Prop := nth_error h p = Some (who, c).

(** Sequenced before (the same thread), or synchronises with. *)
Inductive edge (p q : nat) : Prop :=
| e_same : forall w c c', p < q -> at_ p w c -> at_ q w c' -> edge p q
| e_sync : forall w c w' c' s, p < q -> at_ p w c -> at_ q w' c' -> In s (releases w c) -> In s (acquires w' c') -> edge p q.
Inductive happens_before (p : nat) : nat -> Prop :=
| hb_one : forall q, edge p q -> happens_before p q
| hb_more : forall r q, happens_before p r -> edge r q -> happens_before p q.

(** Steps p and q touch [l], one of them writes it. *)
Definition conflict (l : loc) (x y : list access) : Prop := (In (Wr l) x /\ (In (Wr l) y \/ In (Rd l) y)) \/ (In (Rd l) x /\ In (Wr l) y).
Definition race touch (a : api) (front : list (act O M)) (l : loc) (p q : nat) : Prop :=
  p < q /\ exists w c w' c', at_ p w c /\ at_ q w' c' /\ w <> w' /\
    conflict l (accesses touch a front w c) (accesses touch a front w' c') /\ ~ happens_before p q.
End Races.

(** Thread i is in the middle of action k: a step of its body (or of its precondition). *)
Definition in_action {O M} (k : nat) (p : pc O M) : Prop := exists c, is_step c = true /\ (p = PBody k c \/ p = PPre k c).
