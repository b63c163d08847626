(** What forAll, example and matrix print (C76). *)
From Coq Require Import String List ZArith Lia Bool.
From Verif Require Import Base TreeModel RandomModel TupleModel IntegralProof EffModel EffSpec ContextModel ContextSpec RunnerModel RunnerSpec RunnerProof RunnerLogProof
  PrintModel PrintProof ShowProof FloatPrintModel TranscriptModel TranscriptSpec TranscriptProof PropRun PropMatrix.
Import ListNotations.
Local Open Scope list_scope.

(** ** Examples used below *)
Definition words : wording Z :=
  {| showArg := dec; what := fun e => match e with ERuntime => lit "oops" | _ => lit "x < 10" end; place := fun _ => (lit "t.cpp", 7%Z) |}.
(** Fails from 10 on, with one or two expectations. *)
Definition f2 (a : list Z) : list op * ures :=
  match a with
  | [x] => ([OExpect (x <? 10)%Z {| f_file := "t.cpp"; f_line := 3; f_cond := "x < 10"; f_str := "" |} "";
             OExpect (x <? 20)%Z {| f_file := "t.cpp"; f_line := 4; f_cond := "x < 20"; f_str := "" |} "big"], URet true)
  | _ => ([], URet true)
  end%string.
(** The sum must stay below 10; above 100 it throws. *)
Definition f3 (a : list Z) : list op * ures :=
  match a with
  | [x; y] => ([], if (100 <? x + y)%Z then UThrow ERuntime else URet (x + y <? 10)%Z)
  | _ => ([], URet true)
  end.

(** Printing changes nothing: without the texts, forAll and example are those of the runner model, so everything proved about those holds
    here. *)
Theorem C76_agrees : forall E V W (wo : wording V) fuel ev (P : property E V W) w,
  silent (prunForAll wo fuel ev P w) = runForAll fuel ev P w.
Proof. intros. apply silent_runForAll. Qed.
Theorem C76_agrees_example : forall E V W (wo : wording V) (P : property E V W) args s, silent (pexample wo P args s) = example P args s.
Proof. intros. apply silent_example. Qed.

(** The whole output of a run that holds: the seed, the number of runs asked for, the summary of the tags; nothing on cerr. *)
Theorem C76_holds : forall E V W (wo : wording V) fuel ev (P : property E V W) w sm out s',
  prunForAll wo fuel ev P w = Ok (VPassed sm, out, s') ->
  on Cerr out = [] /\
  on Cout out = lines ([lit "random seed: " ++ dec (seed P); lit "OK, passed " ++ dec (Z.of_nat (numRuns P)) ++ lit " tests"] ++ summaryLines (cx s')).
Proof.
  intros E V W wo fuel ev P w sm out s' H. unfold prunForAll in H. apply bind_ok in H. destruct H as [[[v o] s] [H1 H2]].
  assert (X : v = VPassed sm /\ out = (Cout, lit "random seed: " ++ dec (seed P) ++ nl) :: o /\ s = s') by (repeat split; congruence).
  destruct X as [-> [-> ->]]. apply runLoop_prints in H1. destruct H1 as [G1 G2]. rewrite on_cerr_cout, on_cout. split; auto. rewrite G2.
  unfold lines. cbn [app flat_map]. rewrite <- !app_assoc. auto.
Qed.
Theorem C76_times_out : forall E V W (wo : wording V) fuel ev (P : property E V W) w k sm out s',
  prunForAll wo fuel ev P w = Ok (VTimedOut k sm, out, s') ->
  on Cerr out = [] /\
  on Cout out = lines ([lit "random seed: " ++ dec (seed P);
    lit "Timed out after " ++ dec (elapsed ev k) ++ lit "ms , passed " ++ dec (Z.of_nat k) ++ lit " tests"] ++ summaryLines (cx s')) /\
  (maxDurationMs P < elapsed ev k)%Z.
Proof.
  intros E V W wo fuel ev P w k sm out s' H.
  assert (Hr : runForAll fuel ev P w = Ok (VTimedOut k sm, s')) by (rewrite <- (C76_agrees _ _ _ wo), H; auto).
  unfold prunForAll in H. apply bind_ok in H. destruct H as [[[v o] s] [H1 H2]].
  assert (X : v = VTimedOut k sm /\ out = (Cout, lit "random seed: " ++ dec (seed P) ++ nl) :: o /\ s = s') by (repeat split; congruence).
  destruct X as [-> [-> ->]]. apply runLoop_prints in H1. destruct H1 as [G1 G2]. rewrite on_cerr_cout, on_cout. split; auto. split.
  - rewrite G2. unfold lines. cbn [app flat_map]. rewrite <- !app_assoc. auto.
  - unfold runForAll in Hr. apply runLoop_ok in Hr. destruct Hr as [_ [ks [_ [_ [_ [_ [_ Hn]]]]]]]. unfold in_time in Hn. lia.
Qed.

(** The whole output of a run that is falsified.  On cerr: the number of the failing run, which is one more than the runs that passed, and why.
    On cout: the seed, the arguments, the steps, the simplest arguments; the steps lead from the one to the other, replacing one argument at a
    time, at the position announced; without a start-up hook, every tuple announced was given to the function, in that order, after the
    failing run. *)
Theorem C76_falsified : forall E V W (wo : wording V) fuel ev (P : property E V W) w t why rep out s',
  prunForAll wo fuel ev P w = Ok (VFalsified t why rep, out, s') ->
  on Cerr out = message wo t why /\
  exists ks s0 s1 steps, history ev P {| rnd := seeded ev (seed P); cx := newctx; wd := w; lg := [] |} ks s0 /\ falsifies ev P s0 why s1 /\
    t = S (passes ks) /\ leads (with_args rep) steps (simplest_args rep) /\
    on Cout out = lines [lit "random seed: " ++ dec (seed P); lit "  with args: " ++ tupleText wo (with_args rep)] ++
      flat_map (told wo) steps ++ lines [lit "  simplest args found by shrinking: " ++ tupleText wo (simplest_args rep)] /\
    (exists seg, lg s' = lg s1 ++ seg /\ (onStartup P = None -> within (map tuple steps) (args_of seg))).
Proof.
  intros E V W wo fuel ev P w t why rep out s' H. unfold prunForAll in H. apply bind_ok in H. destruct H as [[[v o] s] [H1 H2]].
  assert (X : v = VFalsified t why rep /\ out = (Cout, lit "random seed: " ++ dec (seed P) ++ nl) :: o /\ s = s') by (repeat split; congruence).
  destruct X as [-> [-> ->]]. apply runLoop_prints in H1. destruct H1 as [G1 [ks [s0 [s1 [steps [mid [G2 [G3 [G4 [[A1 A2 A3 A4 A5] G5]]]]]]]]]].
  rewrite on_cerr_cout, on_cout. split; auto. exists ks, s0, s1, steps. split; auto. split; auto. split; auto. split; auto. split; auto.
  rewrite G5. unfold lines. cbn [app flat_map]. rewrite <- !app_assoc. auto.
Qed.
Example C76_falsified_ex :
  match prunForAll words 5 (inOrder 2 [3; 4; 17; 8]%Z) (prop1 f3 2 5) tt with
  | Ok (VFalsified t why rep, out, s) =>
      on Cerr out = lines [lit "Falsifiable, after 2 tests"] /\
      on Cout out = lines (map lit
        ["random seed: 1"; "  with args: { 17, 8 }"; "  shrinking found simpler failing arg 0: { 8, 8 }"; "  shrinking found simpler failing arg 0: { 4, 8 }";
         "  shrinking found simpler failing arg 0: { 2, 8 }"; "  simplest args found by shrinking: { 2, 8 }"]%string)
  | _ => False
  end.
Proof. vm_compute. auto. Qed.
Example C76_expectations_ex :
  match prunForAll words 5 (inOrder 1 [3; 41]%Z) (prop1 f2 1 5) tt with
  | Ok (VFalsified t why rep, out, s) =>
      on Cerr out = lines [lit "Falsifiable, after 2 tests: x < 10 (t.cpp:3),"] ++ lit "x < 20 (t.cpp:4) with big" /\
      on Cout out = lines (map lit
        ["random seed: 1"; "  with args: { 41 }"; "  shrinking found simpler failing arg 0: { 20 }";
         "    by failed expectation: x < 10 (t.cpp:3),"; "    x < 20 (t.cpp:4) with big";
         "  shrinking found simpler failing arg 0: { 10 }"; "    by failed expectation: x < 10 (t.cpp:3)";
         "  simplest args found by shrinking: { 10 }"]%string)
  | _ => False
  end.
Proof. vm_compute. auto. Qed.
Example C76_holds_ex :
  match prunForAll words 5 (inOrder 1 [3; 4; 2; 7; 9; 8]%Z) (prop1 f1 1 3) tt with
  | Ok (VPassed sm, out, s) =>
      on Cerr out = [] /\ on Cout out = lines (map lit ["random seed: 1"; "OK, passed 3 tests"; "  even: "; "    yes: 2/2 (100%)"]%string)
  | _ => False
  end.
Proof. vm_compute. auto. Qed.

Definition slow : env replay := {| ord_call := [0%nat]; ord_regen := [0%nat]; ord_shrinks := [0%nat]; ord_each := [0%nat]; seeded := fun _ => ([3; 4; 5; 6]%Z : rst replay);
  elapsed := fun i => (40 * Z.of_nat i)%Z |}.
Example C76_times_out_ex :
  match prunForAll words 5 slow {| func := fun a w => ([], URet true, w); gens := [anInt]; onStartup := None; onCleanup := None; numRuns := 9; maxDurationMs := 100; seed := 12 |} tt with
  | Ok (VTimedOut k sm, out, s) => k = 3%nat /\ on Cerr out = [] /\
      on Cout out = lines (map lit ["random seed: 12"; "Timed out after 120ms , passed 3 tests"]%string)
  | _ => False
  end.
Proof. vm_compute. auto. Qed.

(** With a start-up hook the tuples announced need not have been given to the function: here the hook throws once the function has failed, and
    an argument for which the function holds is announced as the simplest failing one without having been tried. *)
Definition brittle : property replay Z bool :=
  {| func := fun a w => match a with [x] => ([], URet (x <? 10)%Z, negb (x <? 10)%Z) | _ => ([], URet true, w) end; gens := [anInt];
     onStartup := Some (fun w : bool => ([], if w then Some ERuntime else None, w)); onCleanup := None; numRuns := 5; maxDurationMs := 0; seed := 1 |}.
Example C76_untried_ex :
  match prunForAll words 5 (inOrder 1 [3; 41]%Z) brittle false with
  | Ok (VFalsified t why rep, out, s) => args_of (lg s) = [[3]; [41]]%Z /\ fst (func brittle [0%Z] false) = ([], URet true) /\
      on Cout out = lines (map lit ["random seed: 1"; "  with args: { 41 }"; "  shrinking found simpler failing arg 0: { 0 }"; "  simplest args found by shrinking: { 0 }"]%string)
  | _ => False
  end.
Proof. vm_compute. auto. Qed.

(** The value returned can be told from the output: cerr is empty exactly when forAll returns true. *)
Theorem C76_verdict : forall E V W (wo : wording V) fuel ev (P : property E V W) w v out s',
  prunForAll wo fuel ev P w = Ok (v, out, s') -> (on Cerr out = [] <-> succeeded v = true).
Proof.
  intros E V W wo fuel ev P w v out s' H. destruct v as [sm|k sm|t why rep]; simpl.
  - apply C76_holds in H. tauto.
  - apply C76_times_out in H. tauto.
  - apply C76_falsified in H. destruct H as [-> _]. split; discriminate.
Qed.

(** For a function depending on its arguments only: every tuple announced fails, and the expectations listed with it are those which fail
    for it, in the order in which they were stated; none are listed exactly when none fail. *)
Theorem C76_steps_fail : forall E V W (wo : wording V) fuel ev (P : property E V W) beh w t why rep out s', pure_property P beh ->
  prunForAll wo fuel ev P w = Ok (VFalsified t why rep, out, s') ->
  exists steps, leads (with_args rep) steps (simplest_args rep) /\
    on Cout out = lines [lit "random seed: " ++ dec (seed P); lit "  with args: " ++ tupleText wo (with_args rep)] ++
      flat_map (told wo) steps ++ lines [lit "  simplest args found by shrinking: " ++ tupleText wo (simplest_args rep)] /\
    Forall (fun x => bad beh (tuple x) /\ unmet x = failed_expectations (fst (beh (tuple x)))) steps.
Proof.
  intros E V W wo fuel ev P beh w t why rep out s' HP H. unfold prunForAll in H. apply bind_ok in H. destruct H as [[[v o] s] [H1 H2]].
  assert (X : v = VFalsified t why rep /\ out = (Cout, lit "random seed: " ++ dec (seed P) ++ nl) :: o /\ s = s') by (repeat split; congruence).
  destruct X as [-> [-> ->]]. apply runLoop_prints in H1. destruct H1 as [G1 [ks [s0 [s1 [steps [mid [G2 [G3 [G4 [[A1 A2 A3 A4 A5] G5]]]]]]]]]].
  exists steps. split; auto. split; auto. rewrite on_cout, G5. unfold lines. cbn [app flat_map]. rewrite <- !app_assoc. auto.
Qed.

(** The seed can be read from the output of any run, so that the run can be repeated. *)
Theorem C76_seed : forall E V W E' V' W' (wo : wording V) (wo' : wording V') fuel fuel' ev ev' (P : property E V W) (P' : property E' V' W') w w' v v' out out' s s',
  prunForAll wo fuel ev P w = Ok (v, out, s) -> prunForAll wo' fuel' ev' P' w' = Ok (v', out', s') -> on Cout out = on Cout out' -> seed P = seed P'.
Proof.
  intros E V W E' V' W' wo wo' fuel fuel' ev ev' P P' w w' v v' out out' s s' H H' Ho.
  unfold prunForAll in H, H'. apply bind_ok in H, H'. destruct H as [[[v1 o1] s1] [_ H]]. destruct H' as [[[v2 o2] s2] [_ H']].
  assert (X : out = (Cout, lit "random seed: " ++ dec (seed P) ++ nl) :: o1) by congruence.
  assert (X' : out' = (Cout, lit "random seed: " ++ dec (seed P') ++ nl) :: o2) by congruence. subst out out'.
  rewrite !on_cout, <- !app_assoc in Ho. apply app_inv_head in Ho. apply first_line in Ho; try apply oneLine_dec. apply dec_inj. tauto.
Qed.

(** The number of the failing run can be read from the message. *)
Theorem C76_number : forall V V' (wo : wording V) (wo' : wording V') n n' why why', message wo n why = message wo' n' why' -> n = n'.
Proof.
  intros V V' wo wo' n n' why why' H. unfold message in H. apply app_inv_head in H. change (lit " tests") with (32%Z :: lit "tests") in H.
  rewrite <- !app_comm_cons in H. apply dec_blank in H. lia.
Qed.

(** If tuples are shown on one line and different tuples differently, the failing arguments and the simplest ones can be read from the output. *)
Theorem C76_readback : forall E V W E' W' (wo : wording V) fuel fuel' ev ev' (P : property E V W) (P' : property E' V W') w w' t t' why why' rep rep' out out' s s',
  (forall a, oneLine (tupleText wo a)) -> (forall a b, tupleText wo a = tupleText wo b -> a = b) ->
  prunForAll wo fuel ev P w = Ok (VFalsified t why rep, out, s) -> prunForAll wo fuel' ev' P' w' = Ok (VFalsified t' why' rep', out', s') ->
  on Cout out = on Cout out' -> rep = rep'.
Proof.
  intros E V W E' W' wo fuel fuel' ev ev' P P' w w' t t' why why' rep rep' out out' s s' H1 H2 G G' Ho.
  apply C76_falsified in G, G'. destruct G as [_ [_ [_ [_ [st [_ [_ [_ [_ [G _]]]]]]]]]]. destruct G' as [_ [_ [_ [_ [st' [_ [_ [_ [_ [G' _]]]]]]]]]].
  rewrite G, G' in Ho. clear G G'. unfold lines in Ho. cbn [flat_map] in Ho. rewrite !app_nil_r in Ho.
  assert (L : forall q, existsb (Z.eqb 10) (lit q) = false -> oneLine (lit q)) by apply oneLine_lit.
  assert (Ha : with_args rep = with_args rep').
  { rewrite <- !app_assoc in Ho. apply app_inv_head in Ho. apply first_line in Ho; try apply oneLine_dec. destruct Ho as [_ Ho].
    apply app_inv_head in Ho. apply first_line in Ho; auto. apply H2. tauto. }
  assert (Hb : simplest_args rep = simplest_args rep').
  { destruct (steps_end _ wo ((lit "random seed: " ++ dec (seed P)) ++ nl ++ lit "  with args: " ++ tupleText wo (with_args rep)) st) as [x Hx].
    destruct (steps_end _ wo ((lit "random seed: " ++ dec (seed P')) ++ nl ++ lit "  with args: " ++ tupleText wo (with_args rep')) st') as [x' Hx'].
    assert (Ho2 : x ++ nl ++ (lit "  simplest args found by shrinking: " ++ tupleText wo (simplest_args rep)) ++ nl =
      x' ++ nl ++ (lit "  simplest args found by shrinking: " ++ tupleText wo (simplest_args rep')) ++ nl).
    { rewrite (app_assoc x), (app_assoc x'), <- Hx, <- Hx'. rewrite <- !app_assoc in *. exact Ho. }
    apply last_line in Ho2; [|apply oneLine_app; split; auto; apply L; reflexivity|apply oneLine_app; split; auto; apply L; reflexivity].
    apply H2. destruct Ho2 as [_ Ho2]. apply app_inv_head in Ho2. auto. }
  destruct rep, rep'. simpl in *. congruence.
Qed.
Example C76_readback_ex : (forall a, oneLine (tupleText words a)) /\ (forall a b, tupleText words a = tupleText words b -> a = b).
Proof.
  split.
  - intros a H. rewrite <- showArgs_tuple in H. unfold showArgs, show_tuple in H. rewrite !in_app_iff in H. destruct H as [H|[H|H]]; try (simpl in H; lia).
    destruct a as [|x l]; [destruct H|]. cbn [map commas] in H. apply in_app_iff in H. destruct H as [H|H]; [apply oneLine_dec in H; auto|].
    apply in_flat_map in H. destruct H as [y [H1 H2]]. apply in_map_iff in H1. destruct H1 as [z [<- _]]. apply in_app_iff in H2.
    destruct H2 as [H2|H2]; [simpl in H2; lia|apply oneLine_dec in H2; auto].
  - intros a b E. destruct (seq_right _ _ 123 125 dec_right ltac:(lia) ltac:(lia)) as [_ R].
    assert (F : forall l, Forall2 (fun n x => x = dec n) l (map dec l)) by (induction l; constructor; auto).
    refine (proj1 (R a b (tupleText words a) (tupleText words b) [] [] _ _ (or_introl eq_refl) (or_introl eq_refl) _)).
    + rewrite <- showArgs_tuple. exists (map dec a). split; auto.
    + rewrite <- showArgs_tuple. exists (map dec b). split; auto.
    + rewrite E. auto.
Qed.

(** The text of the failed expectations is empty exactly when none failed (the test at Property.hpp:225). *)
Theorem C76_avail : forall indent fs, failuresText indent fs = [] <-> fs = [].
Proof.
  intros indent [|f fs]; simpl; [tauto|]. split; [|discriminate]. intros H. exfalso. apply app_eq_nil in H. destruct H as [H _].
  unfold failureText in H. apply app_eq_nil in H. destruct H as [_ H]. discriminate.
Qed.

(** example prints on cerr only, nothing when it returns true, and for a function depending on its arguments only, exactly the message for the
    way in which the call ended. *)
Theorem C76_example : forall E V W (wo : wording V) (P : property E V W) args s b out s', pexample wo P args s = Ok (b, out, s') ->
  on Cout out = [] /\ (b = true -> out = []) /\ (forall beh, pure_property P beh -> on Cerr out = verdictText wo beh args).
Proof.
  intros E V W wo P args s b out s' H. destruct (example_where _ _ _ _ _ _ _ _ _ _ H) as [H1 H2]. split; auto. split; auto.
  intros beh Hb. pose proof (example_pure _ _ _ wo P beh args s Hb) as G. rewrite H in G. tauto.
Qed.
Definition fresh0 : rs replay Z unit := @Build_rs replay Z unit ([] : list Z) newctx tt [].
Example C76_example_ex :
  match pexample words (prop1 f3 2 1) [60; 70]%Z fresh0 with
  | Ok (b, out, _) => b = false /\ on Cerr out = lines (map lit ["example failed by exception: oops"; "  with args: { 60, 70 }"]%string)
  | _ => False
  end.
Proof. vm_compute. auto. Qed.

(** A failing example need not be reported: when the function returns false, or fails expectations and returns, nothing is printed. *)
Theorem C76_example_reports_refuted :
  ~ (forall E V W (wo : wording V) (P : property E V W) beh args s b out s', pure_property P beh -> bad beh args ->
       pexample wo P args s = Ok (b, out, s') -> on Cerr out <> []).
Proof.
  intros H. refine (H replay Z unit words (prop1 f3 2 1) f3 [6; 7]%Z fresh0 false [] _ (prop1_pure _ _ _) _ eq_refl eq_refl). left. discriminate.
Qed.
Theorem C76_example_silent : forall E V W (wo : wording V) (P : property E V W) beh args s r, pure_property P beh -> snd (beh args) = URet r ->
  exists s', pexample wo P args s = Ok (r, [], s').
Proof.
  intros E V W wo P beh args s r [Hf [Hs Hc]] H. unfold pexample. rewrite Hs, Hc. cbn [runHook]. unfold callFunc. rewrite Hf, H. eauto.
Qed.

(** matrix prints, on cerr only, what example prints for each combination, one after the other. *)
Theorem C76_matrix : forall E V W (wo : wording V) fuel (P : property E V W) lists s out s',
  pmatrixLoop wo fuel P lists (map (fun _ => 0%Z) lists) s = Ok (out, s') ->
  matrix fuel P lists s = Ok (true, s') /\ on Cout out = [] /\
  (forall beh, pure_property P beh -> exists l, lg s' = lg s ++ calls beh l /\ on Cerr out = flat_map (verdictText wo beh) l).
Proof.
  intros E V W wo fuel P lists s out s' H. apply matrix_prints in H. destruct H as [H1 H2]. split; auto. unfold matrix. rewrite H1. auto.
Qed.
Example C76_matrix_ex :
  match pmatrixLoop words 5 (prop1 f3 2 1) [[1; 60]; [5; 70]]%Z [0; 0]%Z fresh0 with
  | Ok (out, s) => args_of (lg s) = [[1; 5]; [1; 70]; [60; 5]; [60; 70]]%Z /\
      on Cerr out = lines (map lit ["example failed by exception: oops"; "  with args: { 60, 70 }"]%string)
  | _ => False
  end.
Proof. vm_compute. auto. Qed.

Print Assumptions C76_agrees.
Print Assumptions C76_agrees_example.
Print Assumptions C76_holds.
Print Assumptions C76_times_out.
Print Assumptions C76_falsified.
Print Assumptions C76_verdict.
Print Assumptions C76_steps_fail.
Print Assumptions C76_seed.
Print Assumptions C76_number.
Print Assumptions C76_readback.
Print Assumptions C76_avail.
Print Assumptions C76_example.
Print Assumptions C76_example_reports_refuted.
Print Assumptions C76_example_silent.
Print Assumptions C76_matrix.
