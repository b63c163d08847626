(** Vocabulary for Concurrency::go: what a log of hook calls and runs should look like. *)
From Coq Require Import List ZArith Bool.
From Verif Require Import Base RandomModel ContextModel EffModel RunnerModel ConcModel ConcSpec ConcGoModel.
Import ListNotations.
Local Open Scope list_scope.

(** How the part of an attempt told by an event ended. *)
Definition ending {Ob M A} (x : gev Ob M A) : iout :=
  match x with
  | GStartup r | GCleanup r => match r with None => IReturned | Some e => IThrew e end
  | GRun _ _ _ _ o => o
  | GNoRun e => IThrew e
  end.
(** Nothing happened that go regards as a failure. *)
Definition harmless (o : iout) : Prop := o = IReturned \/ o = IThrew ESuccess \/ o = IThrew EDiscard.
(** Exceptions which are reported. *)
Definition reported (e : err) : Prop := e <> ESuccess /\ e <> EDiscard /\ e <> ENonStd.

(** What one attempt looks like: startup hook, generation, a run of the actions, cleanup hook - and how it ends.  [hs], [hc]: there is a
    startup, a cleanup hook. *)
Definition called {X} (h : bool) (e : X) : list X := if h then [e] else [].
Inductive try_ {Ob M A} (hs hc : bool) : list (gev Ob M A) -> iout -> Prop :=
| try_startup : forall e, hs = true -> try_ hs hc [GStartup (Some e)] (IThrew e)
| try_norun : forall e, try_ hs hc (called hs (GStartup None) ++ [GNoRun e]) (IThrew e)
| try_stop : forall o m f r out, out <> IReturned -> try_ hs hc (called hs (GStartup None) ++ [GRun o m f r out]) out
| try_cleanup : forall o m f r e, hc = true -> try_ hs hc (called hs (GStartup None) ++ [GRun o m f r IReturned; GCleanup (Some e)]) (IThrew e)
| try_done : forall o m f r, try_ hs hc (called hs (GStartup None) ++ GRun o m f r IReturned :: called hc (GCleanup None)) IReturned.
(** A counted run: discarded attempts, then one that is not. *)
Inductive counted {Ob M A} (hs hc : bool) : list (gev Ob M A) -> iout -> Prop :=
| counted_last : forall l o, try_ hs hc l o -> o <> IThrew EDiscard -> counted hs hc l o
| counted_more : forall l l' o, try_ hs hc l (IThrew EDiscard) -> counted hs hc l' o -> counted hs hc (l ++ l') o.
(** [k] counted runs which passed. *)
Inductive passing {Ob M A} (hs hc : bool) : nat -> list (gev Ob M A) -> Prop :=
| passing_0 : passing hs hc 0 []
| passing_S : forall k l l' o, passing hs hc k l -> counted hs hc l' o -> o = IReturned \/ o = IThrew ESuccess -> passing hs hc (S k) (l ++ l').

(** The verdict, from how the failing run ended. *)
Definition verdict_of (i : nat) (o : iout) : gout :=
  match o with
  | IReturned | IThrew ESuccess | IThrew EDiscard => GUnfinished
  | IThrew ENonStd => GEscaped
  | IThrew e => GFalsified i e
  | ITerminated e => GTerminated e
  | IUndefined => GUndefined
  | IUnfinished => GUnfinished
  end.

Definition has {X} (h : option X) : bool := match h with Some _ => true | None => false end.

(** The calls of invoke. *)
Definition invocations {Ob M A} (l : list (gev Ob M A)) : list (gev Ob M A) :=
  filter (fun x => match x with GRun _ _ _ _ _ | GNoRun _ => true | _ => false end) l.

(** What the generators give, call after call, from a state of the engine: object, then lists of actions. *)
Definition inputs {E Ob M W} (C : conc E Ob M W) : G E ((Ob * list (list (act (shared Ob W) M))) + err) :=
  gbind (g_initial C) (fun x => match x with
    | inr e => gret (inr e)
    | inl t => gbind (genLists (S (rearCount C)) (g_actions C)) (fun y => gret (match y with inr e => inr e | inl l => inl (eroot t, l) end))
    end).
Fixpoint iterate {E X} (g : G E X) (j : nat) (r : rst E) : res (X * rst E) :=
  match j with O => g r | S j' => match g r with Ok (_, r') => iterate g j' r' | UB => UB | Throw e => Throw e | OutOfFuel => OutOfFuel end end.
