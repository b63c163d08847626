(** C61: Concurrency::go. *)
From Coq Require Import List ZArith Bool Lia Arith.
From Verif Require Import Base TreeModel RandomModel IntegralProof ContainerModel EffModel ContextModel RunnerModel RunnerSpec ConcModel ConcSpec ConcGoModel ConcGoSpec ConcGoProof PropConc.
Import ListNotations.
Local Open Scope list_scope.

(** * A set-up used by the examples: a counter; the context is beside it *)

Definition Sh : Type := shared Z unit.
Definition up : act Sh Z := of_action (Step (fun o m => ((fst o + 1, snd o), m + 1)%Z) (fun _ _ => Ret tt)).
(** Throws [e] when the counter has passed 1. *)
Definition fussy (e : err) : act Sh Z := of_action (Step (fun o m => (o, m)) (fun o _ => if (1 <? fst o)%Z then Fail e else Ret tt)).
(** A failed expectation. *)
Definition expects : act Sh Z :=
  of_action (Step (fun o m => ((fst o, (ctx_fail {| f_file := String.EmptyString; f_line := 0; f_cond := String.EmptyString; f_str := String.EmptyString |} (fst (snd o)), snd (snd o))), m)) (fun _ _ => Ret tt)).
(** Some number of [x], then [y]. *)
Definition some_then (x y : act Sh Z) : xgen replay (list (act Sh Z)) :=
  gbind (draw 0 3) (fun z => gret (inl (elift (Node (repeat x (Z.to_nat z) ++ [y]) [])))).
Definition zero : xgen replay Z := gret (inl (elift (Node 0%Z []))).
Definition goEnv : env replay := {| ord_call := []; ord_regen := []; ord_shrinks := []; ord_each := []; seeded := fun _ : Z => ([1; 0; 0; 2; 1; 0; 3; 1; 0]%Z : rst replay); elapsed := fun i => (100 * Z.of_nat i)%Z |}.
Definition fair (_ : nat) : list actor := turns 2 120.
Definition hook (w : unit) : list op * option err * unit := ([], None, w).
Definition counter (a : api) (x y : act Sh Z) (n : Z) : conc replay Z Z unit :=
  fold_left gconfigure [GRuns n; GOnStartup hook; GOnCleanup hook] (mkConc a zero (some_then x y) None 0%Z 5).
Definition heads {Ob M A} (l : list (gev Ob M A)) : list iout := map ending l.

(** * The verdict *)

(** go returns true iff nothing it called (hooks, generators, the model factory, actions, the check) threw anything but Success or Discard and no thread
    died; it returns false iff its last call threw an exception derived from std::exception other than these two. *)
Theorem C61_verdict : forall E Ob M W fuel ev sched (C : conc E Ob M W) w o s, gogo fuel ev sched C w = Ok (o, s) ->
  (greturn o = Some true <-> Forall (fun x => harmless (ending x)) (gs_log s)) /\
  (greturn o = Some false <-> exists l x e, gs_log s = l ++ [x] /\ ending x = IThrew e /\ reported e).
Proof.
  intros E Ob M W fuel ev sched C w o s H. apply gogo_ok in H. destruct H as (A & _ & _).
  assert (L : Forall (fun x => harmless (ending x)) (gs_log s) -> ~ exists l x e, gs_log s = l ++ [x] /\ ending x = IThrew e /\ reported e).
  { intros F (l & x & e & Eq & Ee & (R1 & R2 & _)). rewrite Eq in F. apply Forall_app in F. destruct F as [_ F]. inversion F as [|? ? Hx]; subst. rewrite Ee in Hx.
    destruct Hx as [Hx|[Hx|Hx]]; congruence. }
  destruct A as [[-> P]|[(k & -> & _ & P & _)|(k & l1 & l2 & io & -> & _ & -> & P & Cn & N1 & N2)]].
  1, 2: apply passing_harmless in P; split; [split; auto|split; [discriminate|intros X; destruct (L P X)]].
  assert (N3 := counted_not_discard _ _ _ _ _ _ _ Cn). apply counted_endings in Cn. destruct Cn as (l' & x & -> & _ & Ex).
  assert (NH : ~ Forall (fun x => harmless (ending x)) (l1 ++ l' ++ [x])).
  { intros F. apply Forall_app in F. destruct F as [_ F]. apply Forall_app in F. destruct F as [_ F]. inversion F as [|? ? Hx]; subst. destruct Hx as [Hx|[Hx|Hx]]; congruence. }
  split; split; intros X; try tauto.
  - destruct io as [|e|e| |]; try discriminate. destruct e; discriminate.
  - destruct io as [|e|e| |]; try discriminate. exists (l1 ++ l'), x, e. split; [apply app_assoc|]. split; auto. destruct e; try discriminate; repeat split; discriminate.
  - destruct X as (l3 & y & e & Eq & Ey & (R1 & R2 & R3)). rewrite app_assoc in Eq. apply app_inj_tail in Eq. destruct Eq as [_ <-]. rewrite Ex in Ey. rewrite Ey. destruct e; try contradiction; reflexivity.
Qed.
Example C61_verdict_ex : exists s, gogo 5 goEnv fair (counter Func up up 3) tt = Ok (GPassed 3, s) /\ heads (gs_log s) = repeat IReturned 9.
Proof. eexists. split; [vm_compute; reflexivity|vm_compute; reflexivity]. Qed.
Example C61_verdict_ex2 : exists s, gogo 5 goEnv fair (counter Func up (fussy EOther) 3) tt = Ok (GFalsified 2 EOther, s) /\ heads (gs_log s) = repeat IReturned 4 ++ [IThrew EOther].
Proof. eexists. split; [vm_compute; reflexivity|vm_compute; reflexivity]. Qed.

(** Nothing is called after a failure: nothing is tried again, nothing is shrunk. *)
Theorem C61_stops : forall E Ob M W fuel ev sched (C : conc E Ob M W) w o s l x r, gogo fuel ev sched C w = Ok (o, s) ->
  gs_log s = l ++ x :: r -> ~ harmless (ending x) -> r = [].
Proof.
  intros E Ob M W fuel ev sched C w o s l x r H Eq N. apply gogo_ok in H. destruct H as (A & _ & _).
  assert (F : exists l0 y, (gs_log s = l0 \/ gs_log s = l0 ++ [y]) /\ Forall (fun x => harmless (ending x)) l0).
  { destruct A as [[-> P]|[(k & -> & _ & P & _)|(k & l1 & l2 & io & -> & _ & -> & P & Cn & N1 & N2)]].
    - exists (gs_log s), x. split; auto. eapply passing_harmless; eauto.
    - exists (gs_log s), x. split; auto. eapply passing_harmless; eauto.
    - apply counted_endings in Cn. destruct Cn as (l' & y & -> & F & Ex). exists (l1 ++ l'), y. split; [right; apply app_assoc|]. apply Forall_app. split; [eapply passing_harmless; eauto|].
      eapply Forall_impl; [|apply F]. cbn. unfold harmless. intros a [->| ->]; auto. }
  destruct F as (l0 & y & [El|El] & F).
  - rewrite <- El, Eq in F. apply Forall_app in F. destruct F as [_ F]. inversion F; subst. contradiction.
  - destruct r as [|z r _] using rev_ind; auto. rewrite Eq in El. rewrite app_comm_cons, app_assoc in El. apply app_inj_tail in El. destruct El as [El _]. rewrite <- El in F.
    apply Forall_app in F. destruct F as [_ F]. inversion F; subst. contradiction.
Qed.
Example C61_stops_ex : exists s x, gogo 5 goEnv fair (counter Func up (fussy EOther) 3) tt = Ok (GFalsified 2 EOther, s) /\ nth_error (gs_log s) 4 = Some x /\ ~ harmless (ending x).
Proof. eexists _, _. split; [vm_compute; reflexivity|]. split; [reflexivity|]. intros [X|[X|X]]; discriminate. Qed.

(** How many runs: "passed n tests" after exactly n runs, the number set; the time limit is looked at between runs only; "after k tests" with k - 1 runs
    before that passed.  Every attempt is: startup hook, generation and the actions, and the cleanup hook - this one only if the actions
    returned.  An attempt throwing Discard is not counted. *)
Theorem C61_runs : forall E Ob M W fuel ev sched (C : conc E Ob M W) w o s, gogo fuel ev sched C w = Ok (o, s) ->
  let hs := has (g_startup C) in let hc := has (g_cleanup C) in
  match o with
  | GPassed n => n = g_runs C /\ passing hs hc (Z.to_nat n) (gs_log s)
  | GTimedOut k => k < Z.to_nat (g_runs C) /\ passing hs hc k (gs_log s) /\ (g_duration C <> 0 /\ g_duration C < elapsed ev k)%Z
  | GFalsified k e => 1 <= k <= Z.to_nat (g_runs C) /\ reported e /\
      exists l1 l2, gs_log s = l1 ++ l2 /\ passing hs hc (k - 1) l1 /\ counted hs hc l2 (IThrew e)
  | GEscaped => exists k l1 l2, k < Z.to_nat (g_runs C) /\ gs_log s = l1 ++ l2 /\ passing hs hc k l1 /\ counted hs hc l2 (IThrew ENonStd)
  | GTerminated e => exists k l1 l2, k < Z.to_nat (g_runs C) /\ gs_log s = l1 ++ l2 /\ passing hs hc k l1 /\ counted hs hc l2 (ITerminated e)
  | GUndefined => exists k l1 l2, k < Z.to_nat (g_runs C) /\ gs_log s = l1 ++ l2 /\ passing hs hc k l1 /\ counted hs hc l2 IUndefined
  | GUnfinished => exists k l1 l2, k < Z.to_nat (g_runs C) /\ gs_log s = l1 ++ l2 /\ passing hs hc k l1 /\ counted hs hc l2 IUnfinished
  end.
Proof.
  intros E Ob M W fuel ev sched C w o s H. apply gogo_ok in H. destruct H as (A & _ & _).
  destruct A as [[-> P]|[(k & -> & K & P & D)|(k & l1 & l2 & io & -> & K & Eq & P & Cn & N1 & N2)]]; [split; auto|split; auto|].
  cbn [Nat.add]. destruct io as [|e|e| |]; [destruct (N1 eq_refl)| |cbn [verdict_of]; eauto 10|cbn [verdict_of]; eauto 10|cbn [verdict_of]; eauto 10].
  assert (N3 := counted_not_discard _ _ _ _ _ _ _ Cn).
  destruct e; cbn [verdict_of]; try congruence; eauto 10; (split; [lia|]; split; [repeat split; discriminate|]; replace (S k - 1) with k by lia; eauto 10).
Qed.
Example C61_runs_ex : exists s, gogo 5 goEnv fair (counter Class up up 3) tt = Ok (GPassed 3, s) /\ passing true true 3 (gs_log s) /\ length (gs_log s) = 9.
Proof.
  eexists. split; [vm_compute; reflexivity|]. split; [|reflexivity].
  match goal with |- passing _ _ _ ?l => change l with (((firstn 3 l) ++ firstn 3 (skipn 3 l)) ++ skipn 6 l) end.
  eapply passing_S; [eapply passing_S; [apply (passing_S true true 0 [] _ IReturned); [constructor| |auto]| |left; reflexivity]| |left; reflexivity];
    (apply counted_last; [apply (try_done true true)|discriminate]).
Qed.
(** With a time limit of 150 ms and 100 ms per run, two of three runs. *)
Example C61_runs_ex2 : exists s, gogo 5 goEnv fair (gconfigure (counter Func up up 3) (GDuration 150)) tt = Ok (GTimedOut 2, s).
Proof. eexists. vm_compute. reflexivity. Qed.

(** The runs are runs of the actions under some interleaving, as C46-C49 describe them, with as many rear threads as configured. *)
Theorem C61_real : forall E Ob M W fuel ev sched (C : conc E Ob M W) w o s obj m f r io, gogo fuel ev sched C w = Ok (o, s) -> In (GRun obj m f r io) (gs_log s) ->
  exists cw tr c, outcome (g_api C) f r (g_check C) (obj, cw) m tr c /\ (io = IReturned <-> returned c) /\ (forall e, io = IThrew e <-> c_status c = Threw e) /\
    (forall e, io = ITerminated e <-> c_status c = Terminated e) /\ (io = IUndefined <-> c_status c = Undefined) /\ length r = rearCount C.
Proof.
  intros E Ob M W fuel ev sched C w o s obj m f r io H Hin. apply gogo_ok in H. destruct H as (_ & R & _). rewrite Forall_forall in R. apply R in Hin.
  destruct Hin as (cw & tr & c & Ho & <- & Hl). exists cw, tr, c. split; auto. unfold iend, returned.
  destruct (c_status c) eqn:Es; [destruct (c_co c)| | |]; split; try (split; [split|split; [split|split; [split|auto]]]); try split; intros; try congruence; try tauto;
    try (match goal with X : _ /\ _ |- _ => destruct X; discriminate end); split; auto.
Qed.
Example C61_real_ex : exists s obj m f r, gogo 5 goEnv fair (counter Func up up 3) tt = Ok (GPassed 3, s) /\ nth_error (gs_log s) 4 = Some (GRun obj m f r IReturned) /\ length f = 3 /\ map (@length _) r = [2; 1].
Proof. eexists _, _, _, _, _. split; [vm_compute; reflexivity|]. split; [reflexivity|]. split; reflexivity. Qed.

(** setNumRuns and setMaxConcurrency with values below 2^31. *)
Theorem C61_config : forall E Ob M W (C : conc E Ob M W) v, (0 <= v < 2 ^ 31)%Z ->
  g_runs (gconfigure C (GRuns v)) = v /\ (g_api C = Func -> rearCount (gconfigure C (GThreads v)) = Z.to_nat v) /\ (g_api C = Class -> rearCount (gconfigure C (GThreads v)) = 2).
Proof.
  intros E Ob M W C v Hv. assert (Ws : wrapS 32 v = v) by (unfold wrapS; change (2 ^ (32 - 1))%Z with (2 ^ 31)%Z; rewrite Z.mod_small; [lia|]; change (2 ^ 32)%Z with (2 ^ 31 + 2 ^ 31)%Z; lia).
  split; [|split].
  - cbn. destruct (g_api C); auto.
  - intros H. unfold rearCount. cbn [gconfigure g_api g_threads]. rewrite H. cbn [stored]. rewrite Ws. auto.
  - intros H. unfold rearCount. cbn [gconfigure g_api]. rewrite H. auto.
Qed.
Example C61_config_ex : g_runs (gconfigure (counter Func up up 3) (GRuns 1000)) = 1000%Z /\ rearCount (gconfigure (counter Func up up 3) (GThreads 4)) = 4.
Proof. split; reflexivity. Qed.
(** Of several settings of the same kind the last one counts, the others stay as they are; without any: 200 runs, two threads, no limit, no hooks, no check, the seed
    the process was started with.  setMaxConcurrency is not there in the class-based API. *)
Theorem C61_settings : forall E Ob M W a (ini : xgen E Ob) acts factory (dflt : M) sd (l : list (gset Ob M W)),
  let C := fold_left gconfigure l (mkConc a ini acts factory dflt sd) in
  g_api C = a /\ g_initial C = ini /\ g_actions C = acts /\ g_factory C = factory /\ g_default C = dflt /\
  g_runs C = last_set (fun x => match x with GRuns v => Some (stored a v) | _ => None end) l 200%Z /\
  g_threads C = last_set (fun x => match x with GThreads v => match a with Func => Some (stored Func v) | Class => None end | _ => None end) l 2%Z /\
  g_duration C = last_set (fun x => match x with GDuration v => Some v | _ => None end) l 0%Z /\
  g_seed C = last_set (fun x => match x with GSeed v => Some v | _ => None end) l sd /\
  g_startup C = last_set (fun x => match x with GOnStartup h => Some (Some h) | _ => None end) l None /\
  g_cleanup C = last_set (fun x => match x with GOnCleanup h => Some (Some h) | _ => None end) l None /\
  g_check C = last_set (fun x => match x with GPostCheck c => Some (Some c) | _ => None end) l None.
Proof.
  intros E Ob M W a ini acts factory dflt sd l.
  assert (G : forall l (C : conc E Ob M W), let D := fold_left gconfigure l C in
    g_api D = g_api C /\ g_initial D = g_initial C /\ g_actions D = g_actions C /\ g_factory D = g_factory C /\ g_default D = g_default C /\
    g_runs D = last_set (fun x => match x with GRuns v => Some (stored (g_api C) v) | _ => None end) l (g_runs C) /\
    g_threads D = last_set (fun x => match x with GThreads v => match g_api C with Func => Some (stored Func v) | Class => None end | _ => None end) l (g_threads C) /\
    g_duration D = last_set (fun x => match x with GDuration v => Some v | _ => None end) l (g_duration C) /\
    g_seed D = last_set (fun x => match x with GSeed v => Some v | _ => None end) l (g_seed C) /\
    g_startup D = last_set (fun x => match x with GOnStartup h => Some (Some h) | _ => None end) l (g_startup C) /\
    g_cleanup D = last_set (fun x => match x with GOnCleanup h => Some (Some h) | _ => None end) l (g_cleanup C) /\
    g_check D = last_set (fun x => match x with GPostCheck c => Some (Some c) | _ => None end) l (g_check C)).
  { clear. induction l as [|y l IH]; intros C D; [unfold D; cbn; repeat (split; [reflexivity|]); reflexivity|].
    specialize (IH (gconfigure C y)). unfold D. cbn [fold_left]. cbv zeta in IH.
    destruct IH as (-> & -> & -> & -> & -> & -> & -> & -> & -> & -> & -> & ->). unfold last_set. cbn [fold_left gconfigure g_api g_initial g_actions g_factory g_default g_runs g_threads g_duration g_seed g_startup g_cleanup g_check].
    repeat (split; [reflexivity|]). split; [destruct y; reflexivity|]. split; [destruct y; try reflexivity; destruct (g_api C); reflexivity|].
    repeat (split; [destruct y; reflexivity|]). destruct y; reflexivity. }
  apply (G l (mkConc a ini acts factory dflt sd)).
Qed.
Example C61_settings_ex : let C := fold_left gconfigure [GThreads 7; GRuns 3; GSeed 8; GRuns 4; GOnCleanup hook] (mkConc Class zero (some_then up up) None 0%Z 5) : conc replay Z Z unit in
  g_runs C = 4%Z /\ g_threads C = 2%Z /\ g_seed C = 8%Z /\ g_startup C = None /\ g_cleanup C = Some hook.
Proof. repeat split. Qed.
(** Larger ones, which the parameter types admit, do not do what they say (function-based): no run is made and go returns true. *)
Theorem C61_runs_refuted : forall E Ob M W fuel ev sched (C : conc E Ob M W) w v, g_api C = Func -> (2 ^ 31 <= v < 2 ^ 32)%Z ->
  exists s, gogo fuel ev sched (gconfigure C (GRuns v)) w = Ok (GPassed (v - 2 ^ 32), s) /\ gs_log s = [].
Proof.
  intros E Ob M W fuel ev sched C w v Ha Hv.
  assert (Ws : wrapS 32 v = (v - 2 ^ 32)%Z).
  { unfold wrapS. change (2 ^ (32 - 1))%Z with (2 ^ 31)%Z. replace (v + 2 ^ 31)%Z with ((v - 2 ^ 31) + 1 * 2 ^ 32)%Z by (change (2 ^ 32)%Z with (2 ^ 31 + 2 ^ 31)%Z; lia).
    rewrite Z.mod_add by discriminate. rewrite Z.mod_small; change (2 ^ 32)%Z with (2 ^ 31 + 2 ^ 31)%Z in *; lia. }
  assert (R : g_runs (gconfigure C (GRuns v)) = (v - 2 ^ 32)%Z) by (cbn [gconfigure g_runs]; rewrite Ha; exact Ws).
  unfold gogo. rewrite R. assert (Z.to_nat (v - 2 ^ 32) = 0) as -> by (change (2 ^ 32)%Z with (2 ^ 31 + 2 ^ 31)%Z in *; lia). cbn [gloop]. rewrite R. eexists. split; reflexivity.
Qed.
Example C61_runs_refuted_ex : exists s, gogo 5 goEnv fair (gconfigure (counter Func up (fussy EOther) 3) (GRuns 4294967295)) tt = Ok (GPassed (-1), s).
Proof. eexists. vm_compute. reflexivity. Qed.

(** * What is and what is not noticed *)

(** Failed expectations - of the actions, of the hooks - are recorded and never looked at: go returns true. *)
Definition grumpy (w : unit) : list op * option err * unit :=
  ([OExpect false {| f_file := String.EmptyString; f_line := 0; f_cond := String.EmptyString; f_str := String.EmptyString |} String.EmptyString], None, w).
Theorem C61_expectations_refuted : exists (C C2 : conc replay Z Z unit) s s2, gogo 5 goEnv fair C tt = Ok (GPassed 3, s) /\ length (failures (gs_cx s)) = 9 /\
  gogo 5 goEnv fair C2 tt = Ok (GPassed 3, s2) /\ length (failures (gs_cx s2)) = 3.
Proof. exists (counter Func up expects 3), (gconfigure (counter Func up up 3) (GOnCleanup grumpy)). eexists _, _. split; [vm_compute; reflexivity|]. split; [vm_compute; reflexivity|]. split; vm_compute; reflexivity. Qed.
(** An exception in a rear thread does not make go return false: the process is terminated - in the schedule given and, since no catch clause of go is
    reached, no later call is made (C61_stops). *)
Theorem C61_terminates : forall E Ob M W fuel ev sched (C : conc E Ob M W) w o s, gogo fuel ev sched C w = Ok (o, s) ->
  forall e, o = GTerminated e <-> exists l obj m f r, gs_log s = l ++ [GRun obj m f r (ITerminated e)].
Proof.
  intros E Ob M W fuel ev sched C w o s H e. apply gogo_ok in H. destruct H as (A & _ & _).
  assert (L : Forall (fun x => harmless (ending x)) (gs_log s) -> ~ exists l obj m f r, gs_log s = l ++ [GRun obj m f r (ITerminated e)]).
  { intros F (l & obj & m & f & r & Eq). rewrite Eq in F. apply Forall_app in F. destruct F as [_ F]. inversion F as [|? ? Hx]; subst. destruct Hx as [Hx|[Hx|Hx]]; discriminate. }
  destruct A as [[-> P]|[(k & -> & _ & P & _)|(k & l1 & l2 & io & -> & _ & -> & P & Cn & N1 & N2)]].
  1, 2: apply passing_harmless in P; split; [discriminate|intros X; destruct (L P X)].
  apply counted_endings in Cn. destruct Cn as (l' & x & -> & _ & Ex). split.
  - intros V. assert (io = ITerminated e) as -> by (destruct io as [|e0|e0| |]; try discriminate; [destruct e0; discriminate|cbn in V; congruence]).
    destruct x as [[]|[]|obj m f r o|]; try discriminate. cbn in Ex. subst o. exists (l1 ++ l'), obj, m, f, r. apply app_assoc.
  - intros (l & obj & m & f & r & Eq). rewrite app_assoc in Eq. apply app_inj_tail in Eq. destruct Eq as [_ ->]. cbn in Ex. subst io. reflexivity.
Qed.
Theorem C61_rear_refuted : exists (C : conc replay Z Z unit) s l obj m f r, gogo 5 goEnv fair C tt = Ok (GTerminated EAssert, s) /\ gs_log s = l ++ [GRun obj m f r (ITerminated EAssert)].
Proof.
  exists (fold_left gconfigure [GRuns 3] (mkConc Func zero (gbind (draw 0 3) (fun z => gret (inl (elift (Node (if (z =? 1)%Z then [up; up] else [fussy EAssert]) []))))) None 0%Z 5)).
  eexists _, [], _, _, _, _. split; [vm_compute; reflexivity|reflexivity].
Qed.

(** Attempts throwing Discard are repeated without bound, and the time limit does not stop them: if every attempt discards, go never ends. *)
Theorem C61_never_ends : forall E Ob M W (C : conc E Ob M W) (h : W -> list op * option err * W) ev sched w,
  g_startup C = Some h -> (forall w', snd (fst (h w')) = Some EDiscard) -> (0 < g_runs C)%Z -> (elapsed ev 0 <= g_duration C)%Z ->
  forall fuel, gogo fuel ev sched C w = OutOfFuel.
Proof.
  intros E Ob M W C h ev sched w Hh Hd Hr He fuel. unfold gogo. destruct (Z.to_nat (g_runs C)) eqn:En; [lia|]. cbn [gloop].
  replace (g_duration C <? elapsed ev 0)%Z with false by (symmetry; apply Z.ltb_ge; auto). rewrite andb_false_r.
  assert (R : forall fuel s, gretry fuel sched C s = OutOfFuel).
  { clear fuel. induction fuel as [|fuel IH]; intros s; auto. cbn [gretry]. unfold gattempt, gHook. rewrite Hh. specialize (Hd (gs_wd s)). destruct (h (gs_wd s)) as [[ops q] w']. cbn in Hd. subst q. cbn [bind]. apply IH. }
  rewrite R. auto.
Qed.
Example C61_never_ends_ex : forall fuel, gogo fuel goEnv fair (fold_left gconfigure [GOnStartup (fun w => ([], Some EDiscard, w)); GDuration 10] (counter Func up up 3)) tt = OutOfFuel.
Proof. intros. eapply C61_never_ends; [reflexivity|reflexivity|reflexivity|cbn; lia]. Qed.
(** A discard now and then is fine: here the second run is tried three times. *)
Example C61_discard_ex : exists s, gogo 5 goEnv fair (counter Func up (fussy EDiscard) 2) tt = Ok (GPassed 2, s) /\
  heads (gs_log s) = repeat IReturned 3 ++ [IReturned; IThrew EDiscard; IReturned; IThrew EDiscard] ++ repeat IReturned 3.
Proof. eexists. split; vm_compute; reflexivity. Qed.

(** * The inputs depend only on the seed *)

(** The j-th call of invoke gets the object and the actions that the generators give at the j-th time from the seed - whatever the interleavings, hooks, checks, discards.
    Class-based only without a model factory, which there runs before the actions are generated and, by throwing, keeps them from being drawn. *)
Theorem C61_replay : forall E Ob M W fuel ev sched (C : conc E Ob M W) w o s j obj m f r io, g_api C = Func \/ g_factory C = None -> gogo fuel ev sched C w = Ok (o, s) ->
  nth_error (invocations (gs_log s)) j = Some (GRun obj m f r io) ->
  exists o0 q, iterate (inputs C) j (seeded ev (g_seed C)) = Ok (inl (o0, f :: r), q) /\ (g_factory C = None -> obj = o0).
Proof.
  intros E Ob M W fuel ev sched C w o s j obj m f r io HF H Hj. apply gogo_ok in H. destruct H as (_ & _ & D). destruct (D HF) as (q & Dq). clear D.
  remember (seeded ev (g_seed C)) as r0 eqn:E0. clear E0. revert j Hj. induction Dq as [|r0 x v r' l r2 Hi Hm Dq IH]; intros j Hj; [destruct j; discriminate|].
  destruct j as [|j].
  - cbn in Hj. injection Hj as ->. destruct Hm as (o0 & -> & Hf). exists o0, r'. split; auto.
  - cbn [nth_error] in Hj. destruct (IH j Hj) as (o0 & q & Hit & Hf). exists o0, q. split; auto. cbn [iterate]. rewrite Hi. auto.
Qed.
Example C61_replay_ex : exists s obj m f r io, gogo 5 goEnv fair (counter Func up up 3) tt = Ok (GPassed 3, s) /\ nth_error (invocations (gs_log s)) 2 = Some (GRun obj m f r io) /\ f = [up; up; up; up].
Proof. eexists _, _, _, _, _, _. split; [vm_compute; reflexivity|]. split; reflexivity. Qed.

Print Assumptions C61_verdict.
Print Assumptions C61_stops.
Print Assumptions C61_runs.
Print Assumptions C61_real.
Print Assumptions C61_config.
Print Assumptions C61_settings.
Print Assumptions C61_runs_refuted.
Print Assumptions C61_expectations_refuted.
Print Assumptions C61_terminates.
Print Assumptions C61_rear_refuted.
Print Assumptions C61_never_ends.
Print Assumptions C61_replay.
