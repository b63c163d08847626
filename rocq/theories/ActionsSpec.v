(** What the search for a simplest failing list of actions is expected to find. *)
From Coq Require Import List ZArith Bool.
From Verif Require Import Base TreeModel TreeSpec RandomModel ContainerModel ContextModel ContextSpec RunnerModel RunnerSpec ListSpec ListSearchSpec StatefulModel StatefulSpec.
Import ListNotations.
Local Open Scope list_scope.

(** Appending elements keeps a failing list failing: all that matters has happened before. *)
Definition decided_early {X} (fails : list X -> Prop) : Prop := forall a b, fails a -> fails (a ++ b).

(** [e] comes from [l] in this way: [l] is cut off after the first element with which it fails, then elements before that one may be left out.  A list that
    fails with no more than the [m] elements it must have is cut off there. *)
Inductive cut_off {X} (fails : list X -> Prop) (m : nat) (l : list X) : list X -> Prop :=
| cut_at_once : m <= length l -> fails (firstn m l) -> cut_off fails m l (firstn m l)
| cut_after : forall p x q s, l = p ++ x :: q -> m <= length p -> (forall j, m <= j <= length p -> ~ fails (firstn j l)) -> fails (p ++ [x]) ->
    In s (sublists p) -> cut_off fails m l (s ++ [x]).

(** A run of the actions [l] on the object [o] does not pass: it ends with an exception, or an expectation failed in it. *)
Definition run_fails {O M W} (factory : O -> eff W (O * M)) (post : option (O -> M -> eff W unit)) (w : W) (o : O) (l : list (action O M W)) : Prop :=
  exists ops u w', ends factory post o l w ops u w' /\ (u <> URet true \/ failed_expectations ops <> []).

(** The same for the class-based interface. *)
Definition crun_fails {O M W} (factory : O -> eff W (O * M)) (w : W) (o : O) (l : list (caction O M W)) : Prop :=
  exists ops u w', cends factory o l w ops u w' /\ (u <> URet true \/ failed_expectations ops <> []).

(** With actions satisfying [A], what a run does depends neither on the world nor changes it. *)
Definition cindependent {O M W} (A : caction O M W -> Prop) (factory : O -> eff W (O * M)) : Prop :=
  forall o l w ops u w', Forall A l -> cends factory o l w ops u w' -> w' = w /\ forall w0, cends factory o l w0 ops u w0.
(** No run with such actions fails an expectation and then discards or signals success. *)
Definition cno_hidden_failure {O M W} (A : caction O M W -> Prop) (factory : O -> eff W (O * M)) : Prop :=
  forall o l w ops e w', Forall A l -> cends factory o l w ops (UThrow e) w' -> e = EDiscard \/ e = ESuccess -> failed_expectations ops = [].

(** All values that [g] can generate, and all their shrinks, satisfy [A]. *)
Definition offers_only {E X} (A : X -> Prop) (g : gen E X) : Prop := forall r t r', g r = Ok (t, r') -> all_values A t.

(** The value used for an argument while another is shrunk: the final one if it has been shrunk before, the initial one otherwise. *)
Definition meanwhile {X} (before : bool) (final initial : X) : X := if before then final else initial.
