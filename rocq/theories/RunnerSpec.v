(** Vocabulary for running properties. *)
From Coq Require Import String List ZArith Bool Permutation.
From Verif Require Import Base TreeModel TreeSpec RandomModel TupleModel EffModel EffSpec ContextModel ContextSpec RunnerModel.
Import ListNotations.
Local Open Scope list_scope.

(** ** Histories of attempts *)

(** A completed attempt either counts as a passed run or is discarded. *)
Inductive kind := Passed | Discarded.

Inductive history {E V W} (ev : env E) (P : property E V W) : rs E V W -> list kind -> rs E V W -> Prop :=
| h_nil : forall s, history ev P s [] s
| h_true : forall s s1 ks s', attempt ev P s = Ok (AReturned true, s1) -> failures (cx s1) = [] ->
    history ev P s1 ks s' -> history ev P s (Passed :: ks) s'
| h_success : forall s s1 ks s', attempt ev P s = Ok (AThrew ESuccess, s1) ->
    history ev P s1 ks s' -> history ev P s (Passed :: ks) s'
| h_discard : forall s s1 ks s', attempt ev P s = Ok (AThrew EDiscard, s1) ->
    history ev P s1 ks s' -> history ev P s (Discarded :: ks) s'.

(** An attempt that falsifies the property, with the state after it. *)
Inductive falsifies {E V W} (ev : env E) (P : property E V W) : rs E V W -> reason -> rs E V W -> Prop :=
| f_expectation : forall s b s1, attempt ev P s = Ok (AReturned b, s1) -> failures (cx s1) <> [] ->
    falsifies ev P s (RExpectation (failures (cx s1))) (with_cx (snd (ctx_flush (cx s1))) s1)
| f_false : forall s s1, attempt ev P s = Ok (AReturned false, s1) -> failures (cx s1) = [] ->
    falsifies ev P s RFalse s1
| f_exception : forall s e s1, attempt ev P s = Ok (AThrew e, s1) -> e <> ESuccess -> e <> EDiscard -> e <> ENonStd ->
    falsifies ev P s (RException e) s1.

Definition passes (ks : list kind) : nat := length (filter (fun k => match k with Passed => true | Discarded => false end) ks).

(** Nothing, or something whose last element is accepted by [f]. *)
Definition ends_in {A} (f : A -> Prop) (l : list A) : Prop := l = [] \/ exists l' a, l = l' ++ [a] /\ f a.

(** ** Properties that depend on their arguments only *)

(** The function records [fst (beh args)], then ends as [snd (beh args)]; there are no hooks. *)
Definition pure_property {E V W} (P : property E V W) (beh : list V -> list op * ures) : Prop :=
  (forall args w, func P args w = (fst (beh args), snd (beh args), w)) /\ onStartup P = None /\ onCleanup P = None.

(** No input fails an expectation and then discards or signals success. *)
Definition no_leak {V} (beh : list V -> list op * ures) : Prop :=
  forall args, failed_expectations (fst (beh args)) <> [] -> snd (beh args) <> UThrow EDiscard /\ snd (beh args) <> UThrow ESuccess.

(** The same, for the arguments satisfying [Q] only. *)
Definition pure_on {E V W} (Q : list V -> Prop) (P : property E V W) (beh : list V -> list op * ures) : Prop :=
  (forall args w, Q args -> func P args w = (fst (beh args), snd (beh args), w)) /\ onStartup P = None /\ onCleanup P = None.
Definition no_leak_on {V} (Q : list V -> Prop) (beh : list V -> list op * ures) : Prop :=
  forall args, Q args -> failed_expectations (fst (beh args)) <> [] -> snd (beh args) <> UThrow EDiscard /\ snd (beh args) <> UThrow ESuccess.
(** Every input that can be drawn satisfies [Q]. *)
Definition inputs_in {E V W} (Q : list V -> Prop) (ev : env E) (P : property E V W) : Prop :=
  forall r ts r1, evalTuple (ord_call ev) (gens P) r = Ok (inl ts, r1) -> Q (map eroot ts).

(** The judgement on one input. *)
Inductive judgement := JPass | JDiscard | JFail (why : reason) | JEscape.
Definition judge (b : list op * ures) : judgement :=
  match snd b with
  | URet r => match failed_expectations (fst b) with
              | [] => if r then JPass else JFail RFalse
              | fs => JFail (RExpectation fs)
              end
  | UThrow ESuccess => JPass
  | UThrow EDiscard => JDiscard
  | UThrow ENonStd => JEscape
  | UThrow EAssert => JFail (RException EPropFailed)
  | UThrow e => JFail (RException e)
  end.

(** The inputs drawn one after the other, starting in engine state [r]. *)
Inductive drawn {E V W} (ev : env E) (P : property E V W) : rst E -> list (list V) -> rst E -> Prop :=
| drawn_nil : forall r, drawn ev P r [] r
| drawn_cons : forall r ts r1 l r2, evalTuple (ord_call ev) (gens P) r = Ok (inl ts, r1) -> drawn ev P r1 l r2 ->
    drawn ev P r (map eroot ts :: l) r2.

(** The generators never throw. *)
Definition quiet {E V} (gs : list (xgen E V)) : Prop := Forall (fun g => forall r e r', g r <> Ok (inr e, r')) gs.

Definition calls {V} (beh : list V -> list op * ures) (l : list (list V)) : list (event V) :=
  map (fun a => ECall a (snd (beh a))) l.

Definition is_pass {V} (beh : list V -> list op * ures) (a : list V) : bool :=
  match judge (beh a) with JPass => true | _ => false end.
Definition acceptable {V} (beh : list V -> list op * ures) (a : list V) : Prop := judge (beh a) = JPass \/ judge (beh a) = JDiscard.

(** ** Shrinking *)

(** What counts as failing while shrinking: anything but returning true with no failed expectation. *)
Definition bad {V} (beh : list V -> list op * ures) (args : list V) : Prop :=
  snd (beh args) <> URet true \/ failed_expectations (fst (beh args)) <> [].

(** The candidates of a stream as they are met when it is walked from engine state [r]. *)
Inductive walk {E A} : estream E A -> rst E -> list (etree E A) -> rst E -> Prop :=
| walk_nil : forall r, walk ENil r [] r
| walk_cons : forall h tl r s' r1 l r2, tl r = Ok (s', r1) -> walk s' r1 l r2 -> walk (ECons h tl) r (h :: l) r2.

(** No candidate met when the shrinks of [t] were walked fails as argument [N], the other arguments being those of
    [base].  (Shrinks may use the engine: they are evaluated in one state and walked from another.) *)
Definition minimal_at {E V} (beh : list V -> list op * ures) (N : nat) (base : list V) (t : etree E V) : Prop :=
  exists r st r1 r' l r2, eshrinks t r = Ok (st, r1) /\ walk st r' l r2 /\
    Forall (fun c => ~ bad beh (set_nth N (eroot c) base)) l.

(** [fin] at the positions of [done], [ini] elsewhere. *)
Definition partly {X} (done : list nat) (fin ini : list X) : list X :=
  map (fun ip => if existsb (Nat.eqb (fst ip)) done then fst (snd ip) else snd (snd ip))
      (combine (seq 0 (length ini)) (combine fin ini)).

(** No exception outside the std::exception hierarchy is thrown by user code. *)
Definition tame {E V W} (P : property E V W) : Prop :=
  (forall args w, snd (fst (func P args w)) <> UThrow ENonStd) /\
  (forall h w, onStartup P = Some h -> snd (fst (h w)) <> Some ENonStd) /\
  (forall h w, onCleanup P = Some h -> snd (fst (h w)) <> Some ENonStd).

(** An order of evaluation: a permutation of the positions. *)
Definition order (n : nat) (ord : list nat) : Prop := Permutation ord (seq 0 n).

(** ** Hooks *)

(** The calls of one attempt: start-up first; clean-up last and only after a return. *)
Inductive bracketed {V} (hasS hasC : bool) : list (event V) -> Prop :=
| br_start_threw : hasS = true -> bracketed hasS hasC [EStartup]
| br_no_input : bracketed hasS hasC (if hasS then [EStartup] else [])
| br_threw : forall args e, bracketed hasS hasC ((if hasS then [EStartup] else []) ++ [ECall args (UThrow e)])
| br_returned : forall args b,
    bracketed hasS hasC ((if hasS then [EStartup] else []) ++ [ECall args (URet b)] ++ (if hasC then [ECleanup] else [])).
Definition has {A} (o : option A) : bool := match o with Some _ => true | None => false end.

(** The calls of the property function in a log. *)
Definition ncalls {V} (l : list (event V)) : nat := length (filter (fun e => match e with ECall _ _ => true | _ => false end) l).

(** The arguments of those calls. *)
Definition args_of {V} (l : list (event V)) : list (list V) := flat_map (fun e => match e with ECall a _ => [a] | _ => [] end) l.

(** The input ends in a Success or Discard signal. *)
Definition signals {V} (beh : list V -> list op * ures) (a : list V) : Prop :=
  snd (beh a) = UThrow ESuccess \/ snd (beh a) = UThrow EDiscard.
Definition is_success {V} (beh : list V -> list op * ures) (a : list V) : bool :=
  match snd (beh a) with UThrow ESuccess => true | _ => false end.

(** The last value chosen by a sequence of setters. *)
Definition last_set {X Y} (get : X -> option Y) (l : list X) (d : Y) : Y :=
  fold_left (fun y x => match get x with Some y' => y' | None => y end) l d.
