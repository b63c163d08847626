(** Stateful properties: the actions of a run (C43), configuration (C44), class-based actions (C45). *)
From Coq Require Import String List ZArith Bool Lia.
From Verif Require Import Base TreeModel RandomModel IntegralProof ContainerModel GenModel EffModel ContextModel ContextSpec RunnerModel RunnerSpec RunnerProof PropRun
  StatefulModel StatefulSpec StatefulProof.
Import ListNotations.
Local Open Scope string_scope.
Local Open Scope list_scope.

(** * A set-up used by the examples: a stack of integers, its size as the model *)

Definition push (z : Z) : action (list Z) nat unit := {| a_name := "push"; a_func := fun o m => eret (z :: o, S m) |}.
(** Fails an assertion on an empty stack. *)
Definition pop : action (list Z) nat unit :=
  {| a_name := "pop"; a_func := fun o m => match o with [] => ethrow EAssert | _ :: o' => eret (o', pred m) end |}.
(** Forgets the model. *)
Definition clear : action (list Z) nat unit := {| a_name := "clear"; a_func := fun o m => eret ([], m) |}.
Definition sizeOf (o : list Z) : eff unit (list Z * nat) := eret (o, length o).
Definition sameSize (o : list Z) (m : nat) : eff unit unit := fun w => ([OExpect (Nat.eqb (length o) m) fail0 "size"], inl tt, w).
Definition anAction : gen replay (action (list Z) nat unit) :=
  gbind (draw 0 2) (fun z => gret (Node (if (z =? 0)%Z then pop else if (z =? 1)%Z then push 7 else clear) [])).
Definition aStack : xgen replay (list Z) := gbind (draw 0 9) (fun z => gret (inl (elift (Node [z] [])))).
Definition stackProp : sprop replay (list Z) nat unit := sconfigure (new_sprop aStack sizeOf anAction) (SPostCheck sameSize).

(** * C43: one run *)

(** The property function of a stateful property does exactly this: the model is made from the initial object; each action starts from the object,
    model and world the previous one left; the first one that throws ends the run with its exception; after the last one the check is called
    once, and the function returns true. *)
Theorem C43_run : forall O M W (factory : O -> eff W (O * M)) post o l w ops u w',
  on_args (statefulBody factory post) [inl o; inr l] w = (ops, u, w') <-> ends factory post o l w ops u w'.
Proof. exact body_ends. Qed.
Example C43_run_ex : ends sizeOf (Some sameSize) [5]%Z [push 1; pop; pop; pop; clear] tt [] (UThrow EAssert) tt.
Proof. apply C43_run. reflexivity. Qed.
Example C43_run_ex2 : ends sizeOf (Some sameSize) [5]%Z [push 1; pop; pop; push 2] tt [OExpect true fail0 "size"] (URet true) tt.
Proof. apply C43_run. reflexivity. Qed.

(** Watched from outside: a run that returns has called action 0, 1, ..., k-1 and then the check, each exactly once, in this order; a run that throws
    has called an initial part of this sequence, each once.  Watching changes nothing else. *)
Theorem C43_order : forall O M W (factory : O -> eff W (O * M)) post o l w,
  let post' := option_map (fun f o m => watched_eff (length l) (f o m)) post in
  let factory' := fun o => unwatched_eff (factory o) in
  exists k, (k <= length l + (if has post then 1 else 0))%nat /\
  on_args (statefulBody factory' post') [inl o; inr (watch_all 0 l)] (w, []) =
    (let '(ops, u, w') := on_args (statefulBody factory post) [inl o; inr l] w in (ops, u, (w', seq 0 k))) /\
  (snd (fst (on_args (statefulBody factory post) [inl o; inr l] w)) = URet true -> k = (length l + (if has post then 1 else 0))%nat).
Proof. exact watch_body. Qed.
Example C43_order_ex :
  on_args (statefulBody (fun o => unwatched_eff (sizeOf o)) (Some (fun o m => watched_eff 4 (sameSize o m)))) [inl [5]%Z; inr (watch_all 0 [push 1; pop; clear; push 2])] (tt, [])
    = ([OExpect false fail0 "size"], URet true, (tt, [0; 1; 2; 3; 4]%nat)) /\
  on_args (statefulBody (fun o => unwatched_eff (sizeOf o)) (Some (fun o m => watched_eff 4 (sameSize o m)))) [inl [5]%Z; inr (watch_all 0 [pop; pop; clear; push 2])] (tt, [])
    = ([], UThrow EAssert, (tt, [0; 1]%nat)).
Proof. split; reflexivity. Qed.

(** Actions made from simple actions see the object only. *)
Theorem C43_simple : forall O M W (s : simple_action O W) o (m : M) w ops r w', s_func s o w = (ops, r, w') ->
  a_func (of_simple s) o m w = (ops, match r with inl o' => inl (o', m) | inr e => inr e end, w') /\ a_name (of_simple (M := M) s) = s_name s.
Proof.
  intros * H; split; [|reflexivity]. cbn [of_simple a_func]. unfold ebind; rewrite H. destruct r; auto. unfold eret; rewrite app_nil_r; auto.
Qed.
Example C43_simple_ex : a_func (of_simple (M := nat) {| s_name := "inc"; s_func := fun o : Z => fun w : unit => ([], inl (o + 1)%Z, w) |}) 4%Z 9%nat tt = ([], inl (5%Z, 9%nat), tt).
Proof. reflexivity. Qed.

(** ** go() *)

(** What go() runs when the hooks are not set and the actions that can be generated ([A]), the factory and the check depend on their arguments only: if it returns true,
    then the runs, on freshly drawn objects and action lists, all passed or were discarded, as many passed as asked for, and each was what [ends] says ... *)
Theorem C43_go : forall E O M W A fuel ev dr dd gs stale (s : sprop E O M W) w v s' after,
  generates_only A (sp_actionGen s) ->
  independent A (sp_modelFactory s) (sp_postCheck s) -> no_hidden_failure A (sp_modelFactory s) (sp_postCheck s) ->
  (forall r e r', sp_initialGen s r <> Ok (inr e, r')) -> sp_onStartup s = None -> sp_onCleanup s = None ->
  (if (sp_maxDurationMs s =? UINT32_MAX)%Z then dd else sp_maxDurationMs s) = 0%Z ->
  sgo fuel ev dr dd gs stale s w = (Ok (v, s'), after) -> succeeded v = true ->
  exists runs r', drawn ev (sbuild dr dd gs s) (seeded ev (if (sp_seed s =? UINT64_MAX)%Z then gs else sp_seed s)) (map run_args runs) r' /\
    Forall (fun x => genuine A (sp_modelFactory s) (sp_postCheck s) w x /\ (run_judge x = JPass \/ run_judge x = JDiscard)) runs /\
    length (filter run_passed runs) = (if (sp_numRuns s =? UINT32_MAX)%Z then dr else Z.to_nat (sp_numRuns s)).
Proof.
  intros E O M W A fuel ev dr dd gs stale s w v s' after HA Hi Hh Hq H1 H2 Ht Hg Hv.
  destruct (sbuild_parts E O M W dr dd gs s) as (P1 & P2 & P3 & P4 & P5 & P6 & P7).
  assert (Hr : runForAll fuel ev (sbuild dr dd gs s) w = Ok (v, s')) by exact (f_equal fst Hg). clear Hg. rewrite <- P5 in Ht.
  destruct (C32_true_on E _ W (shaped A) fuel ev _ (sbeh s w) w v s' (sbuild_pure A dr dd gs s w Hi H1 H2) (drawn_shape _ _ _ _ _ ev dr dd gs s HA)
    (sbuild_quiet dr dd gs s Hq) (sbuild_no_leak A s w Hh) Ht Hr Hv) as (l & r' & D & Ac & C & _).
  rewrite P3 in D. rewrite P4 in C.
  destruct (sbuild_runs A s w Hi l (sbuild_drawn A ev dr dd gs s HA _ _ _ D)) as (runs & -> & G & B).
  exists runs, r'. split; [exact D|]. split; [apply sbuild_accept; auto|]. rewrite <- C. symmetry. apply sbuild_count; auto.
Qed.

(** ... and if it returns false, the last run failed for the reported reason and the ones before did not. *)
Theorem C43_go_false : forall E O M W A fuel ev dr dd gs stale (s : sprop E O M W) w v s' after,
  generates_only A (sp_actionGen s) ->
  independent A (sp_modelFactory s) (sp_postCheck s) -> no_hidden_failure A (sp_modelFactory s) (sp_postCheck s) ->
  (forall r e r', sp_initialGen s r <> Ok (inr e, r')) -> sp_onStartup s = None -> sp_onCleanup s = None ->
  sgo fuel ev dr dd gs stale s w = (Ok (v, s'), after) -> succeeded v = false ->
  exists runs x r' why rep, drawn ev (sbuild dr dd gs s) (seeded ev (if (sp_seed s =? UINT64_MAX)%Z then gs else sp_seed s)) (map run_args (runs ++ [x])) r' /\
    Forall (fun x => genuine A (sp_modelFactory s) (sp_postCheck s) w x /\ (run_judge x = JPass \/ run_judge x = JDiscard)) runs /\
    genuine A (sp_modelFactory s) (sp_postCheck s) w x /\ run_judge x = JFail why /\ v = VFalsified (S (length (filter run_passed runs))) why rep.
Proof.
  intros E O M W A fuel ev dr dd gs stale s w v s' after HA Hi Hh Hq H1 H2 Hg Hv.
  destruct (sbuild_parts E O M W dr dd gs s) as (P1 & P2 & P3 & P4 & P5 & P6 & P7).
  assert (Hr : runForAll fuel ev (sbuild dr dd gs s) w = Ok (v, s')) by exact (f_equal fst Hg). clear Hg.
  destruct (C32_false_on E _ W (shaped A) fuel ev _ (sbeh s w) w v s' (sbuild_pure A dr dd gs s w Hi H1 H2) (drawn_shape _ _ _ _ _ ev dr dd gs s HA)
    (sbuild_quiet dr dd gs s Hq) (sbuild_no_leak A s w Hh) Hr Hv) as (l & a & r' & why & rep & rest & D & Ac & J & _ & C & _).
  rewrite P3 in D. assert (Sh := sbuild_drawn A ev dr dd gs s HA _ _ _ D).
  apply Forall_app in Sh. destruct Sh as [S1 S2].
  destruct (sbuild_runs A s w Hi _ S1) as (runs & -> & G & B). destruct (sbuild_runs A s w Hi _ S2) as ([|x [|]] & Ex & G2 & B2); try discriminate.
  inversion Ex; subst a. inversion G2; subst. inversion B2 as [|? ? Bx]; subst. exists runs, x, r', why, rep.
  rewrite map_app. split; [exact D|]. split; [apply sbuild_accept; auto|]. split; [auto|]. split.
  - unfold run_judge. rewrite Bx. exact J.
  - rewrite sbuild_count by auto. reflexivity.
Qed.

(** The stack actions are of this kind. *)
Definition plain (a : action (list Z) nat unit) : Prop := a = pop \/ a = push 7 \/ a = clear.
Lemma plain_ran : forall l st ops st', Forall plain l -> ran l st ops st' -> ops = [].
Proof.
  induction l as [|a l IH]; intros st ops st' H R; inversion R; subst; auto. inversion H; subst.
  match goal with A : a_func a _ _ _ = _, B : ran l _ _ _ |- _ => apply IH in B; [subst|assumption]; rename A into Ha end.
  match goal with A : plain a |- _ => destruct A as [->|[->| ->]] end; cbn in Ha; try match type of Ha with context [match ?x with _ => _ end] => destruct x end; inversion Ha; auto.
Qed.
Lemma plain_independent : independent plain sizeOf (Some sameSize).
Proof. intros o l [] ops u [] _ H; split; auto. intros []; auto. Qed.
Lemma plain_no_hidden : no_hidden_failure plain sizeOf (Some sameSize).
Proof.
  intros o l w ops e w' Hp H He. inversion H; subst.
  - discriminate.
  - match goal with A : sizeOf _ _ = _ |- _ => cbn in A; inversion A; subst end. apply Forall_app in Hp. destruct Hp as [Hp Ha].
    match goal with R : ran _ _ _ _ |- _ => apply plain_ran in R; [subst|assumption] end. inversion Ha as [|? ? Hpa _]; subst.
    match goal with A : a_func _ _ _ _ = _ |- _ => rename A into Hf end. cbn.
    destruct Hpa as [->|[->| ->]]; cbn in Hf; try match type of Hf with context [match ?x with _ => _ end] => destruct x end; inversion Hf; auto.
  - match goal with A : Some sameSize = Some _ |- _ => inversion A; subst end. discriminate.
Qed.
Lemma plain_generated : generates_only plain anAction.
Proof.
  intros r t r' H. unfold anAction in H. apply ContainerProof.gbind_ok in H. destruct H as (z & r1 & _ & H). unfold gret in H. inversion H; subst. cbn [root].
  unfold plain. destruct (z =? 0)%Z; auto. destruct (z =? 1)%Z; auto.
Qed.
Lemma aStack_quiet : forall r e r', aStack r <> Ok (inr e, r').
Proof. intros r e r' H. unfold aStack in H. apply ContainerProof.gbind_ok in H. destruct H as (z & r1 & _ & H). discriminate. Qed.

Definition names {O M W} (l : list (event (O + list (action O M W)))) : list (list string) :=
  flat_map (fun e => match e with ECall [inl _; inr acts] _ => [map a_name acts] | _ => [] end) l.
Definition stale0 : xgen replay (list Z) * (list Z -> eff unit (list Z * nat)) := (gret (inr EOther), fun _ => ethrow EOther).
Example C43_go_ex : generates_only plain (sp_actionGen stackProp) /\ independent plain (sp_modelFactory stackProp) (sp_postCheck stackProp) /\
  no_hidden_failure plain (sp_modelFactory stackProp) (sp_postCheck stackProp) /\ (forall r e r', sp_initialGen stackProp r <> Ok (inr e, r')) /\
  match fst (sgo 5 (inOrder 2 [5; 2; 1; 0; 3; 1; 1]%Z) 2 0 1 stale0 stackProp tt) with
  | Ok (v, s) => succeeded v = true /\ names (lg s) = [["push"; "pop"]; ["push"]] | _ => False end.
Proof. split; [exact plain_generated|]. split; [exact plain_independent|]. split; [exact plain_no_hidden|]. split; [exact aStack_quiet|]. vm_compute. auto. Qed.
Example C43_go_false_ex :
  match fst (sgo 5 (inOrder 2 [5; 2; 1; 0; 3; 3; 0; 0; 1]%Z) 2 0 1 stale0 stackProp tt) with
  | Ok (VFalsified n why _, s) => n = 2%nat /\ why = RException EPropFailed /\ firstn 2 (names (lg s)) = [["push"; "pop"]; ["pop"; "pop"; "push"]] | _ => False end.
Proof. vm_compute. auto. Qed.

(** ** Calling go() again *)

(** go() moves the initial generator and the model factory out of the property, so a second go() uses whatever was left in them: although a first
    go() succeeds, with empty functions left behind (which throw when called) the second one does not. *)
Theorem C43_second_go_refuted : ~ (forall E O M W fuel ev dr dd gs stale (s : sprop E O M W) w v s' after,
  sgo fuel ev dr dd gs stale s w = (Ok (v, s'), after) -> succeeded v = true ->
  exists v2 s2 after2, sgo fuel ev dr dd gs stale after w = (Ok (v2, s2), after2) /\ succeeded v2 = true).
Proof.
  intros H.
  pose (go := sgo 5 (inOrder 2 [5; 2; 1; 0; 3; 1; 1]%Z) 2 0 1 stale0).
  assert (X := H replay (list Z) nat unit 5%nat (inOrder 2 [5; 2; 1; 0; 3; 1; 1]%Z) 2%nat 0%Z 1%Z stale0 stackProp tt). fold go in X.
  assert (A : match fst (go stackProp tt) with Ok (v, _) => succeeded v | _ => false end = true) by (vm_compute; reflexivity).
  assert (B : match fst (go (snd (go stackProp tt)) tt) with Ok (v, _) => succeeded v | _ => false end = false) by (vm_compute; reflexivity).
  clearbody go. destruct (go stackProp tt) as [g after]. cbn [fst snd] in A, B.
  destruct g as [[v s]| | |]; try discriminate. destruct (X v s after eq_refl A) as (v2 & s2 & after2 & E & S).
  rewrite E in B. cbn [fst] in B. congruence.
Qed.

(** If the moved-from functions are intact, a second go() does exactly what the first did. *)
Theorem C43_second_go_same : forall E O M W fuel ev dr dd gs (s : sprop E O M W) w,
  let stale := (sp_initialGen s, sp_modelFactory s) in
  fst (sgo fuel ev dr dd gs stale (snd (sgo fuel ev dr dd gs stale s w)) w) = fst (sgo fuel ev dr dd gs stale s w).
Proof. intros. destruct s. reflexivity. Qed.
Example C43_second_go_same_ex :
  match fst (sgo 5 (inOrder 2 [5; 2; 1; 0; 3; 1; 1]%Z) 2 0 1 (aStack, sizeOf) (snd (sgo 5 (inOrder 2 [5; 2; 1; 0; 3; 1; 1]%Z) 2 0 1 (aStack, sizeOf) stackProp tt)) tt) with
  | Ok (v, s) => succeeded v = true /\ names (lg s) = [["push"; "pop"]; ["push"]] | _ => False end.
Proof. vm_compute. auto. Qed.

(** * C44: configuration *)

(** The last value given to each setter is kept, whatever the order of the calls. *)
Theorem C44_last_setting : forall E O M W (l : list (sset O M W)) (s : sprop E O M W),
  let q := fold_left sconfigure l s in
  sp_seed q = last_set (fun x => match x with SSeed v => Some v | _ => None end) l (sp_seed s) /\
  sp_numRuns q = last_set (fun x => match x with SNumRuns v => Some v | _ => None end) l (sp_numRuns s) /\
  sp_maxDurationMs q = last_set (fun x => match x with SMaxDurationMs v => Some v | _ => None end) l (sp_maxDurationMs s) /\
  sp_onStartup q = last_set (fun x => match x with SOnStartup h => Some (Some h) | _ => None end) l (sp_onStartup s) /\
  sp_onCleanup q = last_set (fun x => match x with SOnCleanup h => Some (Some h) | _ => None end) l (sp_onCleanup s) /\
  sp_postCheck q = last_set (fun x => match x with SPostCheck f => Some (Some f) | _ => None end) l (sp_postCheck s) /\
  sp_initialGen q = sp_initialGen s /\ sp_modelFactory q = sp_modelFactory s /\ sp_actionGen q = sp_actionGen s.
Proof.
  intros E O M W. induction l as [|x l IH]; intros s; cbn [fold_left last_set]; [repeat split|]. specialize (IH (sconfigure s x)). cbn zeta in IH.
  destruct IH as (-> & -> & -> & -> & -> & -> & -> & -> & ->). destruct x; repeat split.
Qed.

(** The property that go() runs: its start-up hook is the configured clean-up hook if there is one, otherwise the configured start-up hook; it has no
    clean-up hook.  Seed, number of runs and time limit are the defaults if not set or set to the largest value. *)
Theorem C44_wiring : forall E O M W dr dd gs (s : sprop E O M W),
  let P := sbuild dr dd gs s in
  onStartup P = (match sp_onCleanup s with Some h => Some h | None => sp_onStartup s end) /\ onCleanup P = None /\
  seed P = (if (sp_seed s =? 2 ^ 64 - 1)%Z then gs else sp_seed s) /\
  numRuns P = (if (sp_numRuns s =? 2 ^ 32 - 1)%Z then dr else Z.to_nat (sp_numRuns s)) /\
  maxDurationMs P = (if (sp_maxDurationMs s =? 2 ^ 32 - 1)%Z then dd else sp_maxDurationMs s).
Proof. intros E O M W dr dd gs s P. destruct (sbuild_parts E O M W dr dd gs s) as (P1 & P2 & P3 & P4 & P5 & _). auto. Qed.

(** A new property with none of these set runs with the defaults. *)
Theorem C44_defaults : forall E O M W dr dd gs (ig : xgen E O) (f : O -> eff W (O * M)) ag,
  let P := sbuild dr dd gs (new_sprop ig f ag) in
  onStartup P = None /\ onCleanup P = None /\ seed P = gs /\ numRuns P = dr /\ maxDurationMs P = dd.
Proof. intros; repeat split; reflexivity. Qed.

(** No clean-up ever runs, whatever is configured; if any hook is configured every call of the property function is preceded by a hook call. *)
Theorem C44_no_cleanup : forall E O M W fuel ev dr dd gs stale (s : sprop E O M W) w v s' after,
  sgo fuel ev dr dd gs stale s w = (Ok (v, s'), after) ->
  cleanups (lg s') = 0%nat /\ (has (sp_onStartup s) || has (sp_onCleanup s) = true -> (ncalls (lg s') <= starts (lg s'))%nat) /\
  (has (sp_onStartup s) || has (sp_onCleanup s) = false -> starts (lg s') = 0%nat).
Proof.
  intros E O M W fuel ev dr dd gs stale s w v s' after Hg.
  assert (Hr : runForAll fuel ev (sbuild dr dd gs s) w = Ok (v, s')) by exact (f_equal fst Hg). clear Hg.
  destruct (sbuild_parts E O M W dr dd gs s) as (P1 & P2 & _). destruct (C41_counts _ _ _ _ _ _ _ _ _ Hr) as (A & B & C).
  rewrite P2 in C. split; [exact C|]. rewrite P1 in A, B. destruct (sp_onStartup s), (sp_onCleanup s); cbn in *; split; intros; auto; discriminate.
Qed.

(** So it is not true that the configured start-up hook runs before the first action list, nor that the clean-up hook runs after a run that returned. *)
Theorem C44_cleanup_refuted : ~ (forall E O M W fuel ev dr dd gs stale (s : sprop E O M W) w v s' after,
  sgo fuel ev dr dd gs stale s w = (Ok (v, s'), after) -> has (sp_onCleanup s) = true -> cleanups (lg s') = returns (lg s')).
Proof.
  intros H.
  pose (s := sconfigure stackProp (SOnCleanup (fun w => ([], None, w)))).
  pose (g := sgo 5 (inOrder 2 [5; 2; 1; 0; 3; 1; 1]%Z) 2 0 1 stale0 s tt).
  assert (A : match fst g with Ok (_, s') => (cleanups (lg s'), returns (lg s')) | _ => (0, 0)%nat end = (0, 2)%nat) by (vm_compute; reflexivity).
  assert (X := fun v s' after Hx => H replay (list Z) nat unit 5%nat (inOrder 2 [5; 2; 1; 0; 3; 1; 1]%Z) 2%nat 0%Z 1%Z stale0 s tt v s' after Hx eq_refl). fold g in X.
  clearbody g. destruct g as [[[v s']| | |] after]; cbn [fst] in A; try discriminate. specialize (X v s' after eq_refl). inversion A. congruence.
Qed.

(** Hooks that count their calls: 1 for a start-up, 100 for a clean-up. *)
Definition tally (n : Z) : Z -> list op * option err * Z := fun w => ([], None, (w + n)%Z).
Definition countProp : sprop replay Z unit Z :=
  fold_left sconfigure [SOnCleanup (tally 100); SNumRuns 7; SOnStartup (tally 1); SNumRuns 2; SSeed 3; SSeed (2 ^ 64 - 1)]%Z
    (new_sprop (gbind (draw 0 9) (fun z => gret (inl (elift (Node z []))))) (fun o => eret (o, tt)) (gret (Node (unnamed (fun o m => eret (o, m))) []))).
Example C44_ex : let P := sbuild 5 0 1 countProp in
  (exists h, onStartup P = Some h /\ h 0%Z = ([], None, 100%Z)) /\ onCleanup P = None /\ numRuns P = 2%nat /\ seed P = 1%Z /\ maxDurationMs P = 0%Z /\
  match fst (sgo 9 (inOrder 2 [4; 1; 2; 0]%Z) 5 0 1 (gret (inr EOther), fun o => ethrow EOther) countProp 0%Z) with
  | Ok (v, s) => succeeded v = true /\ wd s = 200%Z /\ starts (lg s) = 2%nat /\ cleanups (lg s) = 0%nat | _ => False end.
Proof. split; [exists (tally 100); split; reflexivity|]. vm_compute. repeat split. Qed.

(** * C45: class-based actions *)

(** The property function with a model: actions whose precondition is false when their turn comes are passed over, leaving object and model as they are;
    the others are run once each, in order; the first precondition or run that throws, or run that reports false, ends the run with an
    exception (a failed assertion in the last case); otherwise the function returns true. *)
Theorem C45_run : forall O M W (factory : O -> eff W (O * M)) o l w ops u w',
  on_args (classBody2 factory) [inl o; inr l] w = (ops, u, w') <-> cends factory o l w ops u w'.
Proof. exact class_ends. Qed.

(** The same without a model; only the members without a model argument are used. *)
Theorem C45_run_no_model : forall O M W o (l : list (caction O M W)) w ops u w',
  on_args classBody1 [inl o; inr l] w = (ops, u, w') <-> cends (fun o => eret (o, tt)) o (map without_model l) w ops u w'.
Proof. exact class1_ends. Qed.

(** The positions of the actions run are increasing, and each is the position of one of the actions. *)
Theorem C45_positions : forall O M W n (l : list (caction O M W)) st ops done st', cran n l st ops done st' ->
  (forall i, In i done -> n <= i < n + length l)%nat /\ (forall a i b j c, done = a ++ i :: b ++ j :: c -> (i < j)%nat).
Proof.
  induction 1 as [n st|n a l o m w ops1 w1 ops2 done st Hp H [I1 I2]|n a l o m w ops1 w1 ops2 o2 m2 w2 ops3 done st Hp Hr H [I1 I2]].
  - split; [intros i []|]. intros [|] ? ? ? ?; discriminate.
  - split; [intros i Hi; apply I1 in Hi; cbn; lia|exact I2].
  - split; [intros i [<-|Hi]; [cbn; lia|apply I1 in Hi; cbn; lia]|]. intros [|x q] i b j c E; cbn in E; inversion E; subst; [|eapply I2; eauto].
    assert (In j (b ++ j :: c)) as Hj by (apply in_or_app; right; left; auto). apply I1 in Hj. lia.
Qed.

(** Which member is called: the one with the model if it is overridden, else the one without; if that is not overridden either, the precondition holds
    and the run throws.  Members without the model leave it as it is. *)
Theorem C45_defaults : forall O M W (a : caction O M W) o m w,
  (forall f, c_pre2 a = Some f -> precondition2 a o m w = f o m w) /\
  (forall f, c_pre2 a = None -> c_pre1 a = Some f -> precondition2 a o m w = f o w) /\
  (c_pre2 a = None -> c_pre1 a = None -> precondition2 a o m w = ([], inl true, w)) /\
  (forall f, c_run2 a = Some f -> run2 a o m w = f o m w) /\
  (forall f, c_run2 a = None -> c_run1 a = Some f ->
     (forall ops o' b w', f o w = (ops, inl (o', b), w') -> run2 a o m w = (ops, inl (o', m, b), w')) /\
     (forall ops e w', f o w = (ops, inr e, w') -> run2 a o m w = (ops, inr e, w'))) /\
  (c_run2 a = None -> c_run1 a = None -> run2 a o m w = ([], inr ERuntime, w)).
Proof.
  intros O M W a o m w. unfold precondition2, precondition1, run2, run1, ebind.
  split; [intros f ->; reflexivity|]. split; [intros f -> ->; reflexivity|]. split; [intros -> ->; reflexivity|].
  split; [intros f ->; reflexivity|]. split; [|intros -> ->; reflexivity].
  intros f -> ->. split; [intros ops o' b w' ->|intros ops e w' ->; reflexivity]. unfold eret. rewrite app_nil_r. reflexivity.
Qed.

(** A counter that may not go below zero; take is allowed only when the model says so, and reports false when the counter disagrees. *)
Definition give : caction Z Z unit := {| c_pre2 := None; c_pre1 := None; c_run2 := Some (fun o m => eret (o + 1, m + 1, true)%Z); c_run1 := None |}.
Definition take : caction Z Z unit :=
  {| c_pre2 := Some (fun o m => eret (0 <? m)%Z); c_pre1 := None; c_run2 := Some (fun o m => eret (o - 1, m - 1, 0 <? o)%Z); c_run1 := None |}.
Definition lose : caction Z Z unit := {| c_pre2 := None; c_pre1 := None; c_run2 := None; c_run1 := Some (fun o => eret (0, true)%Z) |}.
Definition undefined : caction Z Z unit := {| c_pre2 := None; c_pre1 := Some (fun o => eret (0 <? o)%Z); c_run2 := None; c_run1 := None |}.
Example C45_run_ex : cends (fun o => eret (o, 0%Z)) 0%Z [take; give; take; take; give] tt [] (URet true) tt /\
  cran 0 [take; give; take; take; give] (0, 0, tt)%Z [] [1; 2; 4]%nat (1, 1, tt)%Z.
Proof.
  split; [apply C45_run; reflexivity|].
  eapply (cran_skip 0 take _ _ _ tt [] tt []); [reflexivity|]. eapply (cran_run 1 give _ _ _ tt [] tt [] _ _ tt []); [reflexivity|reflexivity|].
  eapply (cran_run 2 take _ _ _ tt [] tt [] _ _ tt []); [reflexivity|reflexivity|]. eapply (cran_skip 3 take _ _ _ tt [] tt []); [reflexivity|].
  eapply (cran_run 4 give _ _ _ tt [] tt [] _ _ tt []); [reflexivity|reflexivity|]. constructor.
Qed.
Example C45_defaults_ex :
  (precondition2 take 1%Z 0%Z tt = ([], inl false, tt) /\ precondition2 undefined 1%Z 0%Z tt = ([], inl true, tt) /\
   precondition2 give 0%Z 0%Z tt = ([], inl true, tt)) /\
  run2 give 5%Z 7%Z tt = ([], inl (6, 8, true)%Z, tt) /\ run2 lose 5%Z 7%Z tt = ([], inl (0, 7, true)%Z, tt) /\ run2 undefined 5%Z 7%Z tt = ([], inr ERuntime, tt).
Proof.
  pose proof (C45_defaults _ _ _ take 1%Z 0%Z tt) as (T & _). pose proof (C45_defaults _ _ _ undefined 1%Z 0%Z tt) as (_ & U & _).
  pose proof (C45_defaults _ _ _ give 0%Z 0%Z tt) as (_ & _ & G & _). pose proof (C45_defaults _ _ _ give 5%Z 7%Z tt) as (_ & _ & _ & R & _).
  pose proof (C45_defaults _ _ _ lose 5%Z 7%Z tt) as (_ & _ & _ & _ & L & _). pose proof (C45_defaults _ _ _ undefined 5%Z 7%Z tt) as (_ & _ & _ & _ & _ & X).
  split; [split; [rewrite (T _ eq_refl); reflexivity|split; [rewrite (U _ eq_refl eq_refl); reflexivity|exact (G eq_refl eq_refl)]]|].
  split; [rewrite (R _ eq_refl); reflexivity|]. split; [apply (L _ eq_refl eq_refl); reflexivity|exact (X eq_refl eq_refl)].
Qed.
Example C45_run_ex2 : cends (fun o => eret (o, 0%Z)) 0%Z [give; lose; take; give] tt [] (UThrow EAssert) tt.
Proof. apply C45_run; reflexivity. Qed.
Example C45_run_no_model_ex : on_args classBody1 [inl 3%Z; inr [lose; undefined; lose]] tt = ([], URet true, tt) /\
  on_args classBody1 [inl 3%Z; inr [undefined; lose]] tt = ([], UThrow ERuntime, tt).
Proof. split; reflexivity. Qed.

(** ** go() *)

(** The property of a class-based stateful property has no hooks and the default settings; it runs as any other, again and again. *)
Theorem C45_go : forall E O M W dr dd gs f ig (ag : gen E (list (caction O M W))),
  let P := classProperty dr dd gs f ig ag in
  onStartup P = None /\ onCleanup P = None /\ numRuns P = dr /\ maxDurationMs P = dd /\ seed P = gs /\
  forall o l w ops u w', func P [inl o; inr l] w = (ops, u, w') <->
    match f with Some factory => cends factory o l w ops u w' | None => cends (fun o => eret (o, tt)) o (map without_model l) w ops u w' end.
Proof. intros; repeat split; destruct f as [f|]; try apply C45_run; apply C45_run_no_model. Qed.
Definition counterProp : property replay (Z + list (caction Z Z unit)) unit :=
  classProperty 2 0 1 (Some (fun o => eret (o, o))) (gbind (draw 0 9) (fun z => gret (inl (elift (Node z [])))))
    (arbi_vector (gbind (draw 0 2) (fun z => gret (Node (if (z =? 0)%Z then give else if (z =? 1)%Z then take else lose) []))) defaultSizes).
Example C45_go_ex :
  match runForAll 5 (inOrder 2 [0; 2; 1; 0; 4; 1; 2]%Z) counterProp tt, runForAll 5 (inOrder 2 [0; 2; 1; 0; 4; 2; 2; 1]%Z) counterProp tt with
  | Ok (v, s), Ok (VFalsified n why _, _) => succeeded v = true /\ ncalls (lg s) = 2%nat /\ n = 2%nat /\ why = RException EPropFailed | _, _ => False end.
Proof. vm_compute. auto. Qed.

Print Assumptions C43_run.
Print Assumptions C43_order.
Print Assumptions C43_simple.
Print Assumptions C43_go.
Print Assumptions C43_go_false.
Print Assumptions C43_second_go_refuted.
Print Assumptions C43_second_go_same.
Print Assumptions C44_last_setting.
Print Assumptions C44_wiring.
Print Assumptions C44_defaults.
Print Assumptions C44_no_cleanup.
Print Assumptions C44_cleanup_refuted.
Print Assumptions C45_run.
Print Assumptions C45_run_no_model.
Print Assumptions C45_positions.
Print Assumptions C45_defaults.
Print Assumptions C45_go.
