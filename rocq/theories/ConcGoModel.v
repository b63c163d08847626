(** Model of Concurrency::go (concurrency_function.hpp:129-185, concurrency_class.hpp:122-177) and of the generation at the start
    of invoke (concurrency_function.hpp:234-248, concurrency_class.hpp:226-234); the rest of invoke is ConcModel.
    User code works on the object, the model and the rest of the world, which is the current PropertyContext (go's [ctx], which is where failed
    expectations go) and a user world [W].  PropertyBase::context is not thread-local and not locked: two threads recording at
    the same time race, which like all races in user code is not modelled.  The object generated is taken to be a new one (concurrency_function.hpp:243 works on it
    in place; see SharingModel for generators giving one object several times). *)
From Coq Require Import List ZArith Bool.
From Verif Require Import Base RandomModel TreeModel ContainerModel EffModel ContextModel RunnerModel ConcModel.
Import ListNotations.
Local Open Scope list_scope.

(** What user code works on beside the model. (concurrency_function.hpp:252, 260, 332.) *)
Definition shared (Ob W : Type) : Type := (Ob * (ctx * W))%type.

(** concurrency_function.hpp:117-126, concurrency_class.hpp:111-119.  [g_actions] gives lists of actions: Arbi<list<Action>> of the action
    generator (function-based, line 236; see [actionLists]) or the list generator (class-based).  [g_factory] = None: the default-constructed
    model [g_default] (244 / 228).  [g_threads]: numThreads, class-based unused. *)
Record conc (E : engine) (Ob M W : Type) := {
  g_api : api;
  g_initial : xgen E Ob;
  g_actions : xgen E (list (act (shared Ob W) M));
  g_factory : option (shared Ob W -> (M + err) * shared Ob W);
  g_default : M;
  g_check : option (code (shared Ob W) M unit);
  g_startup : option (W -> list op * option err * W);
  g_cleanup : option (W -> list op * option err * W);
  g_runs : Z;
  g_threads : Z;
  g_duration : Z;
  g_seed : Z
}.
Arguments g_api {E Ob M W} _.
Arguments g_initial {E Ob M W} _.
Arguments g_actions {E Ob M W} _.
Arguments g_factory {E Ob M W} _.
Arguments g_default {E Ob M W} _.
Arguments g_check {E Ob M W} _.
Arguments g_startup {E Ob M W} _.
Arguments g_cleanup {E Ob M W} _.
Arguments g_runs {E Ob M W} _.
Arguments g_threads {E Ob M W} _.
Arguments g_duration {E Ob M W} _.
Arguments g_seed {E Ob M W} _.

(** concurrency_function.hpp:236: Arbi<list<Action>> with its default sizes. *)
Definition actionLists {E X} (actionGen : gen E X) : xgen E (list X) :=
  gbind (arbi_vector actionGen defaultSizes) (fun t => gret (inl (elift t))).

(** concurrency_function.hpp:38-61, concurrency_class.hpp:41-61: the constructors; defaultNumRuns is 200, two threads. *)
Definition mkConc {E Ob M W} (a : api) (ini : xgen E Ob) (acts : xgen E (list (act (shared Ob W) M)))
  (factory : option (shared Ob W -> (M + err) * shared Ob W)) (dflt : M) (globalSeed : Z) : conc E Ob M W :=
  {| g_api := a; g_initial := ini; g_actions := acts; g_factory := factory; g_default := dflt; g_check := None; g_startup := None; g_cleanup := None;
     g_runs := 200; g_threads := 2; g_duration := 0; g_seed := globalSeed |}.

(** concurrency_function.hpp:124-125 (int) / concurrency_class.hpp:118 (uint32_t): a uint32_t argument as it is stored. *)
Definition stored (a : api) (v : Z) : Z := match a with Func => wrapS 32 v | Class => v end.

(** concurrency_function.hpp:63-114, concurrency_class.hpp:67-108: the setters; setMaxConcurrency exists only in the function-based API. *)
Inductive gset (Ob M W : Type) :=
| GSeed (v : Z) | GRuns (v : Z) | GThreads (v : Z) | GDuration (v : Z)
| GOnStartup (h : W -> list op * option err * W) | GOnCleanup (h : W -> list op * option err * W)
| GPostCheck (c : code (shared Ob W) M unit).
Arguments GSeed {Ob M W} _.
Arguments GRuns {Ob M W} _.
Arguments GThreads {Ob M W} _.
Arguments GDuration {Ob M W} _.
Arguments GOnStartup {Ob M W} _.
Arguments GOnCleanup {Ob M W} _.
Arguments GPostCheck {Ob M W} _.
(** A chain of setters, concurrency_function.hpp:63-114, concurrency_class.hpp:67-108. *)
Definition gconfigure {E Ob M W} (C : conc E Ob M W) (x : gset Ob M W) : conc E Ob M W :=
  {| g_api := g_api C; g_initial := g_initial C; g_actions := g_actions C; g_factory := g_factory C; g_default := g_default C;
     g_check := match x with GPostCheck c => Some c | _ => g_check C end;
     g_startup := match x with GOnStartup h => Some h | _ => g_startup C end;
     g_cleanup := match x with GOnCleanup h => Some h | _ => g_cleanup C end;
     g_runs := match x with GRuns v => stored (g_api C) v | _ => g_runs C end;
     g_threads := match x with GThreads v => match g_api C with Func => stored Func v | Class => g_threads C end | _ => g_threads C end;
     g_duration := match x with GDuration v => v | _ => g_duration C end;
     g_seed := match x with GSeed v => v | _ => g_seed C end |}.

(** How an execution of invoke ends: it returns true, throws, a thread throws (std::terminate), undefined behaviour; or it has not ended
    when its schedule is over. (concurrency_function.hpp:229-334, concurrency_class.hpp:223-274.) *)
Inductive iout := IReturned | IThrew (e : err) | ITerminated (e : err) | IUndefined | IUnfinished.

(** Observable: a hook is called and returns or throws; a run of the actions starts from this object and model, with these actions, and ends so; the model
    factory or a generator throws instead. (concurrency_function.hpp:152-156, 234-334, concurrency_class.hpp:145-149, 226-273.) *)
Inductive gev (Ob M A : Type) :=
| GStartup (r : option err) | GCleanup (r : option err)
| GRun (obj : Ob) (m : M) (front : list A) (rears : list (list A)) (o : iout)
| GNoRun (e : err).
Arguments GStartup {Ob M A} _.
Arguments GCleanup {Ob M A} _.
Arguments GRun {Ob M A} _ _ _ _ _.
Arguments GNoRun {Ob M A} _.

(** State of go: engine, context, world, log of observable events, number of calls of invoke (which selects the schedule).
    (concurrency_function.hpp:132-136, concurrency_class.hpp:125-129.) *)
Record gs (E : engine) (Ob M W : Type) := {
  gs_rnd : rst E; gs_cx : ctx; gs_wd : W; gs_log : list (gev Ob M (act (shared Ob W) M)); gs_calls : nat }.
Arguments gs_rnd {E Ob M W} _.
Arguments gs_cx {E Ob M W} _.
Arguments gs_wd {E Ob M W} _.
Arguments gs_log {E Ob M W} _.
Arguments gs_calls {E Ob M W} _.

(** if (hookPtr) ( *hookPtr)(): 153-156 / 146-149. *)
Definition gHook {E Ob M W} (h : option (W -> list op * option err * W)) (e : option err -> gev Ob M (act (shared Ob W) M)) (s : gs E Ob M W)
  : option err * gs E Ob M W :=
  match h with
  | None => (None, s)
  | Some f => let '(ops, r, w) := f (gs_wd s) in
              (r, {| gs_rnd := gs_rnd s; gs_cx := apply_ops ops (gs_cx s); gs_wd := w; gs_log := gs_log s ++ [e r]; gs_calls := gs_calls s |})
  end.

(** The list generator, [n] times: 239-241 / 230-231; an exception abandons the rest. *)
Fixpoint genLists {E A} (n : nat) (g : xgen E A) : G E (list A + err) :=
  match n with
  | O => gret (inl [])
  | S n' => gbind g (fun x => match x with
                              | inr e => gret (inr e)
                              | inl t => gbind (genLists n' g) (fun y => match y with inr e => gret (inr e) | inl l => gret (inl (eroot t :: l)) end)
                              end)
  end.
(** for (i = 0; i < numThreads; i++): 239 / two: 230-231. *)
Definition rearCount {E Ob M W} (C : conc E Ob M W) : nat := match g_api C with Func => Z.to_nat (g_threads C) | Class => 2 end.

(** concurrency_function.hpp:244, concurrency_class.hpp:228. *)
Definition makeModel {E Ob M W} (C : conc E Ob M W) (o : shared Ob W) : (M + err) * shared Ob W :=
  match g_factory C with None => (inl (g_default C), o) | Some f => f o end.

(** The state a run was left in. (At the end of concurrency_function.hpp:229-334, concurrency_class.hpp:223-274.) *)
Definition iend {O M} (c : cfg O M) : iout :=
  match c_status c with
  | Threw e => IThrew e
  | Terminated e => ITerminated e
  | Undefined => IUndefined
  | Running => match c_co c with KDone => IReturned | _ => IUnfinished end
  end.

(** invoke without having got to the actions. (concurrency_function.hpp:234-244, concurrency_class.hpp:226-231.) *)
Definition noRun {E Ob M W} (e : err) (r : rst E) (cw : ctx * W) (s : gs E Ob M W) : iout * gs E Ob M W :=
  (IThrew e, {| gs_rnd := r; gs_cx := fst cw; gs_wd := snd cw; gs_log := gs_log s ++ [GNoRun e]; gs_calls := S (gs_calls s) |}).
(** The actions are run: 243-334 / 236-274. *)
Definition runActions {E Ob M W} (sched : list actor) (C : conc E Ob M W) (obj : Ob) (m : M) (cw : ctx * W) (front : list (act (shared Ob W) M))
  (rears : list (list (act (shared Ob W) M))) (r : rst E) (s : gs E Ob M W) : iout * gs E Ob M W :=
  let c := snd (run (g_api C) front (g_check C) sched (start (obj, cw) m rears)) in
  (iend c, {| gs_rnd := r; gs_cx := fst (snd (c_obj c)); gs_wd := snd (snd (c_obj c)); gs_log := gs_log s ++ [GRun obj m front rears (iend c)];
              gs_calls := S (gs_calls s) |}).

(** invoke: concurrency_function.hpp:229-334, concurrency_class.hpp:223-274.  The lists are generated before the model is made / after. *)
Definition invoke {E Ob M W} (sched : list actor) (C : conc E Ob M W) (s : gs E Ob M W) : res (iout * gs E Ob M W) :=
  let cw := (gs_cx s, gs_wd s) in
  do '(x, r1) <- g_initial C (gs_rnd s);
  match x with
  | inr e => Ok (noRun e r1 cw s)
  | inl t =>
      match g_api C with
      | Func =>
          do '(y, r2) <- genLists (S (rearCount C)) (g_actions C) r1;
          match y with
          | inr e => Ok (noRun e r2 cw s)
          | inl ls =>
              match makeModel C (eroot t, cw) with
              | (inr e, (_, cw')) => Ok (noRun e r2 cw' s)
              | (inl m, (obj, cw')) => Ok (runActions sched C obj m cw' (hd [] ls) (tl ls) r2 s)
              end
          end
      | Class =>
          match makeModel C (eroot t, cw) with
          | (inr e, (_, cw')) => Ok (noRun e r1 cw' s)
          | (inl m, (obj, cw')) =>
              do '(y, r2) <- genLists (S (rearCount C)) (g_actions C) r1;
              match y with
              | inr e => Ok (noRun e r2 cw' s)
              | inl ls => Ok (runActions sched C obj m cw' (hd [] ls) (tl ls) r2 s)
              end
          end
      end
  end.

(** The body of the inner try block: 152-156 / 145-149. *)
Definition gattempt {E Ob M W} (sched : nat -> list actor) (C : conc E Ob M W) (s : gs E Ob M W) : res (iout * gs E Ob M W) :=
  match gHook (g_startup C) GStartup s with
  | (Some e, s1) => Ok (IThrew e, s1)
  | (None, s1) =>
      do '(o, s2) <- invoke (sched (gs_calls s1)) C s1;
      match o with
      | IReturned => match gHook (g_cleanup C) GCleanup s2 with
                     | (Some e, s3) => Ok (IThrew e, s3)
                     | (None, s3) => Ok (IReturned, s3)
                     end
      | _ => Ok (o, s2)
      end
  end.

(** What go does: returns true having printed "OK, passed n tests" or "Timed out"; returns false having printed "Falsifiable, after n tests"; lets an
    exception not derived from std::exception escape; the process is terminated; undefined behaviour; not ended with these schedules.
    (concurrency_function.hpp:144-145, 167-184, concurrency_class.hpp:137-138, 159-176.) *)
Inductive gout := GPassed (n : Z) | GTimedOut (passed : nat) | GFalsified (tests : nat) (e : err) | GEscaped
| GTerminated (e : err) | GUndefined | GUnfinished.
(** The value returned, if it returns. (concurrency_function.hpp:145, 173, 179, 184, concurrency_class.hpp:138, 165, 171, 176.) *)
Definition greturn (o : gout) : option bool :=
  match o with GPassed _ | GTimedOut _ => Some true | GFalsified _ _ => Some false | _ => None end.

(** How a counted run ends. (concurrency_function.hpp:151-180, concurrency_class.hpp:144-172.) *)
Inductive gone := OPass | OFail (e : err) | OEscaped | OTerminated (e : err) | OUndefined | OUnfinished.
(** 149-165 / 142-157 with the outer catch clauses: repeated as long as Discard is thrown. *)
Fixpoint gretry {E Ob M W} (fuel : nat) (sched : nat -> list actor) (C : conc E Ob M W) (s : gs E Ob M W) : res (gone * gs E Ob M W) :=
  match fuel with
  | O => OutOfFuel
  | S fuel' =>
      do '(o, s1) <- gattempt sched C s;
      match o with
      | IReturned | IThrew ESuccess => Ok (OPass, s1)
      | IThrew EDiscard => gretry fuel' sched C s1
      | IThrew ENonStd => Ok (OEscaped, s1)
      | IThrew e => Ok (OFail e, s1)
      | ITerminated e => Ok (OTerminated e, s1)
      | IUndefined => Ok (OUndefined, s1)
      | IUnfinished => Ok (OUnfinished, s1)
      end
  end.

(** 139-166 / 132-158 and what is printed; [n] runs remain, [i] have been done.  handleShrink (337-339 / 277-279) is empty. *)
Fixpoint gloop {E Ob M W} (fuel : nat) (ev : env E) (sched : nat -> list actor) (C : conc E Ob M W) (n i : nat) (s : gs E Ob M W) : res (gout * gs E Ob M W) :=
  match n with
  | O => Ok (GPassed (g_runs C), s)
  | S n' =>
      if negb (g_duration C =? 0)%Z && (g_duration C <? elapsed ev i)%Z then Ok (GTimedOut i, s)
      else
        do '(o, s1) <- gretry fuel sched C s;
        match o with
        | OPass => gloop fuel ev sched C n' (S i) s1
        | OFail e => Ok (GFalsified (S i) e, s1)
        | OEscaped => Ok (GEscaped, s1)
        | OTerminated e => Ok (GTerminated e, s1)
        | OUndefined => Ok (GUndefined, s1)
        | OUnfinished => Ok (GUnfinished, s1)
        end
  end.

(** go, started in user world [w]; [sched] says how the threads of each call of invoke interleave.
    (concurrency_function.hpp:129-185, concurrency_class.hpp:122-177.) *)
Definition gogo {E Ob M W} (fuel : nat) (ev : env E) (sched : nat -> list actor) (C : conc E Ob M W) (w : W) : res (gout * gs E Ob M W) :=
  gloop fuel ev sched C (Z.to_nat (g_runs C)) 0 {| gs_rnd := seeded ev (g_seed C); gs_cx := newctx; gs_wd := w; gs_log := []; gs_calls := 0 |}.
