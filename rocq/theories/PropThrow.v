(** C71: exceptions thrown while a failing input is being shrunk. *)
From Coq Require Import String List ZArith Lia Bool Permutation.
From Verif Require Import Base TreeModel TreeSpec TreeProof RandomModel TupleModel TupleProof ContainerProof IntegralProof EffModel EffSpec EffProof
  ContextModel ContextSpec RunnerModel RunnerSpec RunnerProof RunnerLogProof ThrowModel ThrowSpec ThrowProof LazySpec ThrowMapProof.
From Verif Require LazyProof.
Import ListNotations.
Local Open Scope list_scope.

(** * A concrete set-up used by the examples *)

(** Integers from 5 on with the halvings as shrinks, mapped by a function throwing [e] for [bad]. *)
Fixpoint halved (n : nat) (z : Z) : tree Z :=
  match n with O => Node z [] | S m => Node z (if (z =? 0)%Z then [] else [Node 0%Z []; halved m (z / 2)%Z; halved m (z - 1)%Z]) end.
Definition ints (lo : Z) : G replay (tree Z) := gbind (draw lo 99) (fun z => gret (halved 4 z)).
Definition throwing (lo : Z) (bad : Z) (e : err) : G replay (xtree replay Z + err) :=
  xtransform (ints lo) (fun z => if (z =? bad)%Z then inr e else inl z).
Definition oneArg (draws : rst replay) : env replay :=
  {| ord_call := [0%nat]; ord_regen := [0%nat]; ord_shrinks := [0%nat]; ord_each := [0%nat]; seeded := fun _ => draws; elapsed := fun _ => 0%Z |}.
Definition xprop1 (f : list Z -> list op * ures) (g : G replay (xtree replay Z + err)) (runs : nat) : xproperty replay Z unit :=
  {| base := {| func := fun a w => (fst (f a), snd (f a), w); gens := []; onStartup := None; onCleanup := None; numRuns := runs; maxDurationMs := 0; seed := 1 |};
     xgens := [g] |}.
(** Fails from [n] on. *)
Definition below (n : Z) (a : list Z) : list op * ures := ([], URet (match a with [x] => (x <? n)%Z | _ => true end)).
Definition never (a : list Z) : list op * ures := ([], URet false).

Lemma halved_throws : forall (Q : err -> Prop) bad e n z t, Q e -> xmap (E := replay) (fun z => if (z =? bad)%Z then inr e else inl z) (halved n z) = inl t -> xall Q t.
Proof.
  intros Q bad e n. induction n as [|n IH]; intros z t Hq H.
  - cbn in H. destruct (z =? bad)%Z; inversion H; subst. intros r. exact I.
  - cbn [halved xmap] in H. destruct (z =? bad)%Z; [discriminate|]. inversion H; subst. clear H. intros r. unfold gret. destruct (z =? 0)%Z; [exact I|].
    cbn [xmap]. destruct (0 =? bad)%Z; [exact Hq|]. cbn [xall_s]. split; [intros r'; exact I|]. intros r'.
    destruct (xmap (fun z => if (z =? bad)%Z then inr e else inl z) (halved n (z / 2))) as [t1|e1] eqn:E1.
    + cbn [xall_s]. split; [eauto|]. intros r2. destruct (xmap (fun z => if (z =? bad)%Z then inr e else inl z) (halved n (z - 1))) as [t2|e2] eqn:E2.
      * cbn [xall_s]. split; [eauto|]. intros r3. exact I.
      * destruct n; cbn in E2; destruct (z - 1 =? bad)%Z; inversion E2; subst; exact Hq.
    + destruct n; cbn in E1; destruct (z / 2 =? bad)%Z; inversion E1; subst; exact Hq.
Qed.
Lemma throwing_throws : forall (Q : err -> Prop) lo bad e, Q e -> shrinksThrow Q (throwing lo bad e) /\ genThrows Q (throwing lo bad e).
Proof.
  intros Q lo bad e Hq. unfold throwing, xtransform, ints, shrinksThrow, genThrows. split.
  - intros r t r' H. apply gbind_ok in H. destruct H as [t0 [r1 [H H1]]]. apply gbind_ok in H. destruct H as [z [r2 [_ H]]]. inversion H; subst. unfold gret in H1. injection H1 as H1 _. exact (halved_throws Q bad e 4 z t Hq H1).
  - intros r. unfold gbind, gret, draw. destruct (lo <=? 99)%Z; auto. destruct (unif replay lo 99 r) as [z q]. cbn [halved xmap]. destruct (z =? bad)%Z; auto.
Qed.

(** * Which runs are affected *)

(** A result of the model that ends with the first exception thrown while shrinking ([strictly]) is the result of the
    full model, with one announcement if it is a failure and none otherwise; and whenever the announcements are so, the
    results agree.  So everything proved about [runForAll] holds of such runs. *)
Theorem C71_exact : forall E V W fuel ev (X : xproperty E V W) w v s',
  runForAll fuel ev (strictly X) w = Ok (v, s') <-> xrunForAll fuel ev X w = Ok (asX v, announced v, s').
Proof. intros. unfold runForAll, xrunForAll. change (announced v) with ([] ++ announced v). apply loop_exact. Qed.

Example C71_exact_ex :
  match runForAll 5 (oneArg [7; 6; 20]%Z) (strictly (xprop1 (below 12) (throwing 5 99 EOther) 5)) tt,
        xrunForAll 5 (oneArg [7; 6; 20]%Z) (xprop1 (below 12) (throwing 5 99 EOther) 5) tt with
  | Ok (VFalsified t why rep, s), Ok (XFalsified rep', ann, s') => t = 3%nat /\ why = RFalse /\ with_args rep = [20]%Z /\ rep = rep' /\ ann = [(3%nat, RFalse)] /\ lg s = lg s'
  | _, _ => False end.
Proof. vm_compute. auto 10. Qed.

(** The same for one call of shrink: what is known of the simplest arguments found holds, whether it is the first
    attempt at shrinking or the second one. *)
Theorem C71_shrink : forall E V W ev (X : xproperty E V W) s rep s',
  shrink ev (strictly X) s = Ok (rep, s') <-> xshrink ev X s = Ok (inl rep, s').
Proof.
  intros. rewrite shrink_strict. split; intros H; [apply ending_id; auto|rewrite H; reflexivity].
Qed.
Example C71_shrink_ex :
  match xshrink (oneArg []) (xprop1 (below 12) (throwing 5 3 EOther) 5) {| rnd := [20]%Z : rst replay; cx := newctx; wd := tt; lg := [] |} with
  | Ok (inl rep, _) => rep = {| with_args := [20]; simplest_args := [16] |}%Z | _ => False end.
Proof. vm_compute. auto. Qed.

(** * The general structure *)

(** What forAll returns and announces, in full: the attempts before the last run are passed, discarded, or failing ones
    announced and then lost; [true] means that the number of passed and of lost ones counted as passed is numRuns, [false]
    that a failing attempt was shrunk at the first or second try.  Every announcement bears the number of its run. *)
Theorem C71_general : forall E V W fuel ev (X : xproperty E V W) w v ann s', xrunForAll fuel ev X w = Ok (v, ann, s') ->
  let s := {| rnd := seeded ev (seed (base X)); cx := newctx; wd := w; lg := [] |} in
  match v with
  | XPassed sm => sm = printSummary (cx s') /\ exists l, course ev X s l s' /\ passes (map fst l) = numRuns (base X) /\ ends_in (fun k => k = Passed) (map fst l)
       /\ ann = announcements 0 l /\ forall j, (j < numRuns (base X))%nat -> inTime ev (base X) j
  | XTimedOut k sm => sm = printSummary (cx s') /\ exists l, course ev X s l s' /\ passes (map fst l) = k /\ (k < numRuns (base X))%nat
       /\ ends_in (fun k => k = Passed) (map fst l) /\ ann = announcements 0 l /\ (forall j, (j < k)%nat -> inTime ev (base X) j) /\ ~ inTime ev (base X) k
  | XFalsified rep => exists l s0 whys, course ev X s l s0 /\ (passes (map fst l) < numRuns (base X))%nat /\ fails ev X s0 whys rep s'
       /\ ann = announcements 0 l ++ map (fun w => (S (passes (map fst l)), w)) whys
       /\ forall j, (j <= passes (map fst l))%nat -> inTime ev (base X) j
  end.
Proof.
  intros E V W fuel ev X w v ann s' H. unfold xrunForAll in H. apply xloop_ok in H. cbn [app] in H. destruct v as [sm|k sm|rep]; cbn zeta.
  - destruct H as [H1 [l [H2 [H3 [H4 [H5 H6]]]]]]. split; auto. exists l. split; auto. split; auto. split; auto. split; auto. intros. apply H6. lia.
  - destruct H as [H1 [l [H2 [H3 [H4 [H5 [H6 [H7 H8]]]]]]]]. cbn [Nat.add] in H4. subst k. split; auto. exists l. split; auto. split; auto. split; auto. split; auto. split; auto.
    split; auto. intros. apply H7. lia.
  - destruct H as [l [s0 [whys [H1 [H2 [H3 [H4 H5]]]]]]]. exists l, s0, whys. split; auto. split; auto. split; auto. split; auto. intros. apply H5. lia.
Qed.

(** Four runs: one passes, one is lost by Success while shrinking 20, one is lost likewise, the last fails and is shrunk. *)
Example C71_general_ex :
  match xrunForAll 5 (oneArg [7; 20; 21; 64; 1]%Z) (xprop1 (below 12) (throwing 1 10 ESuccess) 4) tt with
  | Ok (XFalsified rep, ann, s) => ann = [(2, RFalse); (3, RFalse); (4, RFalse)]%nat /\ rep = {| with_args := [64]; simplest_args := [14] |}%Z
  | _ => False end.
Proof. vm_compute. auto. Qed.

(** * When shrinking never throws Success or Discard *)

(** If no exception thrown while shrinking is one of these two signals, [true] is what it should be: nothing was announced
    and numRuns inputs passed, as without shrinking. *)
Theorem C71_true : forall E V W fuel ev (X : xproperty E V W) w v ann s',
  ord_regen ev = ord_call ev -> Forall (shrinksThrow noSignal) (xgens X) ->
  xrunForAll fuel ev X w = Ok (v, ann, s') -> xsucceeded v = true ->
  ann = [] /\ exists v', asX v' = v /\ runForAll fuel ev (strictly X) w = Ok (v', s').
Proof.
  intros E V W fuel ev X w v ann s' Ho Hs H Hv. assert (Ha : ann = []).
  { pose proof (C71_general _ _ _ _ _ _ _ _ _ _ H) as G. destruct v as [sm|k sm|rep]; [| |discriminate].
    - destruct G as [_ [l [Hc [_ [_ [-> _]]]]]]. apply (course_mild _ _ _ _ _ _ _ _ Ho Hs Hc).
    - destruct G as [_ [l [Hc [_ [_ [_ [-> _]]]]]]]. apply (course_mild _ _ _ _ _ _ _ _ Ho Hs Hc). }
  split; auto. subst ann. destruct v as [sm|k sm|rep]; [exists (VPassed sm)|exists (VTimedOut k sm)|discriminate]; split; auto; apply C71_exact; auto.
Qed.
Example C71_true_ex : ord_regen (oneArg []) = ord_call (oneArg []) /\ Forall (shrinksThrow noSignal) (xgens (xprop1 (below 30) (throwing 5 3 ERuntime) 3)) /\
  match xrunForAll 5 (oneArg [7; 20; 25]%Z) (xprop1 (below 30) (throwing 5 3 ERuntime) 3) tt with
  | Ok (v, ann, s) => xsucceeded v = true /\ args_of (lg s) = [[7]; [20]; [25]]%Z | _ => False end.
Proof.
  split; auto. split; [|vm_compute; auto]. constructor; [|constructor]. apply throwing_throws. split; discriminate.
Qed.

(** And on [false] there is a single failing attempt, preceded by passed and discarded ones, announced first; either that is
    all, and the result is that of the simpler model, or one more announcement follows, of the exception. *)
Theorem C71_false : forall E V W fuel ev (X : xproperty E V W) w rep ann s',
  ord_regen ev = ord_call ev -> Forall (shrinksThrow noSignal) (xgens X) ->
  xrunForAll fuel ev X w = Ok (XFalsified rep, ann, s') ->
  exists ks s0 s1 why, history ev (plain X) {| rnd := seeded ev (seed (base X)); cx := newctx; wd := w; lg := [] |} ks s0 /\
    falsifies ev (plain X) s0 why s1 /\ (passes ks < numRuns (base X))%nat /\
    (ann = [(S (passes ks), why)] /\ runForAll fuel ev (strictly X) w = Ok (VFalsified (S (passes ks)) why rep, s') \/
     exists e, noSignal e /\ (forall x, why <> RException x) /\ ann = [(S (passes ks), why); (S (passes ks), RException e)]).
Proof.
  intros E V W fuel ev X w rep ann s' Ho Hs H. pose proof (C71_general _ _ _ _ _ _ _ _ _ _ H) as G. cbn zeta in G.
  destruct G as [l [s0 [whys [Hc [Hn [Hf [Ha _]]]]]]]. destruct (course_mild _ _ _ _ _ _ _ _ Ho Hs Hc) as [Hh Hann]. rewrite Hann in Ha. cbn [app] in Ha.
  destruct Hf as [s0 why s1 rep s' Hf Hx|s0 why s1 e s2 rep s' Hf Hw Hx He Hn' Hx'].
  - exists (map fst l), s0, s1, why. split; auto. split; auto. split; auto. left. split; auto. apply C71_exact. rewrite H, Ha. reflexivity.
  - exists (map fst l), s0, s1, why. split; auto. split; auto. split; auto. right. exists e. auto.
Qed.
Example C71_false_ex : Forall (shrinksThrow noSignal) (xgens (xprop1 (below 12) (throwing 1 3 ERuntime) 5)) /\
  match xrunForAll 5 (oneArg [7; 20; 25]%Z) (xprop1 (below 12) (throwing 1 3 ERuntime) 5) tt,
        xrunForAll 5 (oneArg [5; 14; 1]%Z) (xprop1 (below 6) (throwing 1 3 ERuntime) 5) tt with
  | Ok (XFalsified rep, ann, s), Ok (XFalsified rep', ann', s') =>
      ann = [(2%nat, RFalse)] /\ rep = {| with_args := [20]; simplest_args := [16] |}%Z /\
      ann' = [(2%nat, RFalse); (2%nat, RException ERuntime)] /\ rep' = {| with_args := [1]; simplest_args := [1] |}%Z
  | _, _ => False end.
Proof. split; [constructor; [|constructor]; apply throwing_throws; split; discriminate|]. vm_compute. auto. Qed.

(** * A mapped generator whose function throws *)

(** One argument, made by map with a function that may throw, and a property that only returns or throws: the function is
    called on the value, then on the shrinks in the order of the search, one beyond the last tested on each level; the
    first call that throws decides the exception shrink throws, and without one the report has the images of the value and
    of the one the search ends at.  Either way the generator has run once, from savedRand. *)
Theorem C71_map : forall E A V W (ev : env E) (X : xproperty E V W) beh (g : G E (tree A)) (f : A -> V + err) (fails : V -> bool) s u r1,
  pure_property (base X) beh -> (forall a, snd (beh a) <> UThrow ENonStd) -> (forall b, fails b = true <-> bad beh [b]) ->
  xgens X = [xtransform g f] -> ord_regen ev = [0]%nat -> ord_shrinks ev = [0]%nat -> ord_each ev = [0]%nat ->
  g (rnd s) = Ok (u, r1) ->
  exists L v s', descent shrinks (fun a => match f a with inl b => fails b | inr _ => false end) u L v /\ rnd s' = r1 /\
    match firstError f (root u :: flat_map (fun p => firstn (S (length (snd p))) (map root (shrinks (fst p)))) L) with
    | Some e => xshrink ev X s = Ok (inr e, s')
    | None => exists b0 b, f (root u) = inl b0 /\ f v = inl b /\ xshrink ev X s = Ok (inl {| with_args := [b0]; simplest_args := [b] |}, s')
    end.
Proof.
  intros E A V W ev X beh g f fails s u r1 Hp Ht Hb Hx O1 O2 O3 Hg.
  destruct (LazyProof.levels_exist A shrinks (fun a => match f a with inl b => fails b | inr _ => false end) (fun t c => child_tsize A t c) u) as [L [v HD]].
  destruct (mapped_shrink X beh f fails Hp Ht Hb ev g s u r1 Hx O1 O2 O3 Hg L v HD) as [s' H]. exists L, v, s'. tauto.
Qed.
(* 20 has shrinks 0, 10, 19; from 12 on the property fails.  An exception for 16, after the search from 20 to 19 (with
   shrinks 0, 9, 18) to 18 (0, 9, 17) to 17 (0, 8, 16) to 16: the second call counts.  One for 3 is never met. *)
Example C71_map_ex :
  (forall bad e, pure_property (base (xprop1 (below 12) (throwing 5 bad e) 5)) (below 12)) /\
  (forall a, snd (below 12 a) <> UThrow ENonStd) /\ (forall b, negb (b <? 12)%Z = true <-> bad (below 12) [b]) /\
  (forall bad e, xgens (xprop1 (below 12) (throwing 5 bad e) 5) = [xtransform (ints 5) (fun z => if (z =? bad)%Z then inr e else inl z)]) /\
  ints 5 [20; 7]%Z = Ok (halved 4 20, [7]%Z) /\
  (let run b := match xshrink (oneArg []) (xprop1 (below 12) (throwing 5 b ERuntime) 5) {| rnd := [20; 7]%Z : rst replay; cx := newctx; wd := tt; lg := [] |} with
                | Ok (inl rep, s) => Some (Some (with_args rep, simplest_args rep), rnd s)
                | Ok (inr e, s) => Some (None, rnd s)
                | _ => None end in
   run 3%Z = Some (Some ([20], [16]), [7])%Z /\ run 16%Z = Some (None, [7])%Z /\ run 20%Z = Some (None, [7])%Z).
Proof.
  split; [intros; repeat split|]. split; [intros; discriminate|]. split.
  - intros b. unfold bad, below. cbn. destruct (b <? 12)%Z; cbn; split; auto; try discriminate.
    + intros [H|H]; congruence.
    + intros _. left. congruence.
  - split; [reflexivity|]. split; [reflexivity|]. vm_compute. auto.
Qed.

(** * What forAll throws *)

(** An exception that leaves forAll is not derived from std::exception, or one that a generator or the computation of shrinks
    threw: in a handler, shrinking is not guarded.  The property function itself never makes forAll throw another one. *)
Theorem C71_throws : forall E V W fuel ev (X : xproperty E V W) w e (Q : err -> Prop),
  Forall (shrinksThrow Q) (xgens X) -> Forall (genThrows Q) (xgens X) ->
  xrunForAll fuel ev X w = Throw e -> e = ENonStd \/ Q e.
Proof. intros E V W fuel ev X w e Q H1 H2 H. eapply xloop_throws; eauto. Qed.
Example C71_throws_ex : Forall (shrinksThrow (eq ERuntime)) (xgens (xprop1 (below 12) (throwing 1 0 ERuntime) 5)) /\
  Forall (genThrows (eq ERuntime)) (xgens (xprop1 (below 12) (throwing 1 0 ERuntime) 5)) /\
  xrunForAll 5 (oneArg [7; 20; 25]%Z) (xprop1 (below 12) (throwing 1 0 ERuntime) 5) tt = Throw ERuntime.
Proof. split; [|split]; [constructor; [|constructor]; apply throwing_throws; reflexivity..|reflexivity]. Qed.

(** * What does not hold in general *)

Lemma from5_generates : forall e r, exists t r', throwing 5 0 e r = Ok (inl t, r') /\ forall r2, xshrinks t r2 = Ok (inr e, r2).
Proof.
  intros e r. pose proof (unif_range replay 5 99 r ltac:(lia)) as Hz. destruct (unif replay 5 99 r) as [z q] eqn:Ez. cbn in Hz.
  unfold throwing, xtransform, ints, gbind, gret, draw. change (5 <=? 99)%Z with true. cbv iota. rewrite Ez.
  cbn [halved xmap]. destruct (Z.eqb_spec z 0); [lia|]. do 2 eexists. split; [reflexivity|]. intros r2. destruct (Z.eqb_spec z 0); [lia|]. reflexivity.
Qed.
Lemma from5_attempt : forall e n d (s : rs replay Z unit), exists s', attempt (oneArg d) (plain (xprop1 never (throwing 5 0 e) n)) s = Ok (AReturned false, s') /\ cx s' = cx s.
Proof.
  intros e n d s. destruct (from5_generates e (rnd s)) as [t [r' [H _]]]. eexists. unfold attempt. cbn [plain onStartup base xprop1 runHook gens xgens map].
  unfold evalTuple, evalIn. cbn [ord_call oneArg nth_error map]. unfold valued. unfold gbind at 1 2 3. rewrite H. cbn. split; reflexivity.
Qed.

(** "forAll returns true only if numRuns inputs passed" is false: here every input fails, and no generator throws; but
    computing the shrinks throws Success. *)
Theorem C71_true_refuted : exists ev (X : xproperty replay Z unit) v s,
  (forall s, exists s', attempt ev (plain X) s = Ok (AReturned false, s')) /\ numRuns (base X) = 3%nat /\
  xrunForAll 1 ev X tt = Ok (v, [(1, RFalse); (2, RFalse); (3, RFalse)]%nat, s) /\ xsucceeded v = true.
Proof.
  exists (oneArg [7; 20; 25]%Z), (xprop1 never (throwing 5 0 ESuccess) 3). do 2 eexists.
  split; [intros s; destruct (from5_attempt ESuccess 3 [7; 20; 25]%Z s) as [s' [H _]]; eauto|]. split; [reflexivity|]. split; [vm_compute; reflexivity|reflexivity].
Qed.

(** "The arguments reported as falsifying are those of the failing input" is false: with std::runtime_error from the shrinks of
    5, the input announced is the next one drawn, for which the property holds. *)
Theorem C71_report_refuted : exists ev (X : xproperty replay Z unit) rep s,
  ord_regen ev = ord_call ev /\
  xrunForAll 1 ev X tt = Ok (XFalsified rep, [(1, RFalse); (1, RException ERuntime)]%nat, s) /\
  firstn 1 (args_of (lg s)) = [[5]]%Z /\ with_args rep = [1]%Z /\ simplest_args rep = [1]%Z /\ func (base X) [1]%Z tt = ([], URet true, tt).
Proof.
  exists (oneArg [5; 1]%Z), (xprop1 (below 5) (throwing 1 2 ERuntime) 3). do 2 eexists.
  split; [reflexivity|]. split; [vm_compute; reflexivity|]. repeat split.
Qed.

(** "forAll returns or throws" is false even if every attempt at running the property does: with Discard from the
    computation of shrinks the failing run is repeated for ever. *)
Theorem C71_forever_refuted : exists ev (X : xproperty replay Z unit),
  (forall s, exists s', attempt ev (plain X) s = Ok (AReturned false, s')) /\
  forall fuel, xrunForAll fuel ev X tt = OutOfFuel.
Proof.
  exists (oneArg []), (xprop1 never (throwing 5 0 EDiscard) 1). pose proof (from5_generates EDiscard) as Ht. pose proof (from5_attempt EDiscard 1 []) as Ha.
  split; [intros s; destruct (Ha s) as [s' [H _]]; eauto|].
  assert (Hs : forall s : rs replay Z unit, exists s' : rs replay Z unit, xshrink (oneArg []) (xprop1 never (throwing 5 0 EDiscard) 1) s = Ok (inr EDiscard, s') /\ cx s' = cx s).
  { intros s. destruct (Ht (rnd s)) as [t [r' [H Hx]]]. eexists. unfold xshrink. cbn [xgens xprop1 ord_regen ord_shrinks oneArg].
    assert (H1 : evalTuple [0%nat] [throwing 5 0 EDiscard] (rnd s) = Ok (inl [t], r')) by (unfold evalTuple, evalIn, gbind; cbn [nth_error map]; rewrite H; reflexivity).
    assert (H2 : evalTuple [0%nat] (map xshrinks [t]) r' = Ok (inr EDiscard, r')) by (unfold evalTuple, evalIn, gbind; cbn [nth_error map]; rewrite Hx; reflexivity).
    rewrite H1. cbn [bind]. rewrite H2. cbn [bind]. split; reflexivity. }
  assert (Hr : forall fuel ann (s : rs replay Z unit), failures (cx s) = [] -> xretryRun fuel (oneArg []) (xprop1 never (throwing 5 0 EDiscard) 1) ann s = OutOfFuel).
  { induction fuel as [|fuel IH]; intros ann s Hf; [reflexivity|]. rewrite xretry_unfold. destruct (Ha s) as [s1 [H1 C1]]. rewrite H1. cbn [bind].
    rewrite C1, Hf. unfold fell. destruct (Hs (with_rnd (rnd s) s1)) as [s2 [H2 C2]]. rewrite H2. cbn [bind]. apply IH. cbn [cx with_rnd]. rewrite C2. cbn [cx with_rnd]. rewrite C1. exact Hf. }
  intros fuel. unfold xrunForAll. cbn [numRuns base xprop1 xrunLoop maxDurationMs Z.eqb negb andb]. rewrite Hr by reflexivity. reflexivity.
Qed.

Print Assumptions C71_exact.
Print Assumptions C71_shrink.
Print Assumptions C71_general.
Print Assumptions C71_true.
Print Assumptions C71_false.
Print Assumptions C71_map.
Print Assumptions C71_throws.
Print Assumptions C71_true_refuted.
Print Assumptions C71_report_refuted.
Print Assumptions C71_forever_refuted.
