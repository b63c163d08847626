(** Proofs about what forAll prints. *)
From Coq Require Import String List ZArith Lia Bool.
From Verif Require Import Base TreeModel RandomModel TupleModel TupleProof ContainerProof EffModel EffSpec EffProof ContextModel ContextSpec ContextProof
  RunnerModel RunnerSpec RunnerProof RunnerPureProof RunnerShrinkProof RunnerLogProof PrintModel PrintProof FloatPrintModel TranscriptModel TranscriptSpec.
Import ListNotations.
Local Open Scope list_scope.

(* texts of a stream *)
Lemma on_app : forall st a b, on st (a ++ b) = on st a ++ on st b.
Proof. intros. unfold on. rewrite filter_app, flat_map_app. auto. Qed.
Lemma on_cout : forall t out, on Cout ((Cout, t) :: out) = t ++ on Cout out.
Proof. reflexivity. Qed.
Lemma on_cout_cerr : forall t out, on Cout ((Cerr, t) :: out) = on Cout out.
Proof. reflexivity. Qed.
Lemma on_cerr : forall t out, on Cerr ((Cerr, t) :: out) = t ++ on Cerr out.
Proof. reflexivity. Qed.
Lemma on_cerr_cout : forall t out, on Cerr ((Cout, t) :: out) = on Cerr out.
Proof. reflexivity. Qed.

(* printing changes nothing *)
Lemma silent_shrinkN : forall E V W (wo : wording V) (P : property E V W) N,
  (forall t cur s, silent (pshrinkTree wo P N cur t s) = shrinkTree P N cur t s) /\
  (forall st cur c s, silent (pshrinkStream wo P N cur c st s) = shrinkStream P N cur c st s).
Proof.
  intros E V W wo P N. apply etree_ind3.
  - intros a shr IH cur s. simpl. destruct (shr (rnd s)) as [[st r']| | |] eqn:Es; auto. exact (IH _ _ _ Es cur newctx (with_rnd r' s)).
  - intros cur c s. reflexivity.
  - intros h tl IHh IHtl cur c s. simpl. destruct (tl (rnd s)) as [[st' r']| | |] eqn:Es; auto.
    destruct (test P N cur (eroot h) c (with_rnd r' s)) as [[[b c'] s2]| | |]; auto. simpl. destruct (negb b || hasFailures c').
    + rewrite <- IHh. destruct (pshrinkTree wo P N (set_nth N h cur) h s2) as [[[fin out] s3]| | |]; auto.
    + exact (IHtl _ _ _ Es cur c' s2).
Qed.
Lemma silent_shrinkEach : forall E V W (wo : wording V) (P : property E V W) ord streams cur s,
  silent (pshrinkEach wo P ord streams cur s) = shrinkEach P ord streams cur s.
Proof.
  intros E V W wo P. induction ord as [|N ord IH]; intros streams cur s; simpl; auto. destruct (nth_error streams N) as [st|]; auto.
  rewrite <- (proj2 (silent_shrinkN E V W wo P N)). destruct (pshrinkStream wo P N cur newctx st s) as [[[cur' out] s']| | |]; auto. simpl.
  rewrite <- IH. destruct (pshrinkEach wo P ord streams cur' s') as [[[fin out'] s2]| | |]; auto.
Qed.
Lemma silent_shrink : forall E V W (wo : wording V) ev (P : property E V W) s, silent (pshrink wo ev P s) = shrink ev P s.
Proof.
  intros. unfold pshrink, shrink. destruct (evalTuple (ord_regen ev) (gens P) (rnd s)) as [[[ts|e] r1]| | |]; auto. simpl.
  destruct (evalTuple (ord_shrinks ev) _ r1) as [[[streams|e] r2]| | |]; auto. simpl. rewrite <- (silent_shrinkEach _ _ _ wo).
  destruct (pshrinkEach wo P (ord_each ev) streams ts (with_rnd r2 s)) as [[[ts' out] s']| | |]; auto.
Qed.
Lemma silent_runLoop : forall E V W (wo : wording V) fuel ev (P : property E V W) n i s, silent (prunLoop wo fuel ev P n i s) = runLoop fuel ev P n i s.
Proof.
  intros E V W wo fuel ev P. induction n as [|n IH]; intros i s; auto. cbn [prunLoop runLoop].
  destruct (negb (maxDurationMs P =? 0)%Z && (maxDurationMs P <? elapsed ev i)%Z); auto.
  destruct (retryRun fuel ev P s) as [[s'|why saved s']| | |]; cbn [bind]; auto. rewrite <- (silent_shrink _ _ _ wo).
  destruct (pshrink wo ev P (with_rnd saved s')) as [[[rep out] s2]| | |]; auto.
Qed.
Lemma silent_runForAll : forall E V W (wo : wording V) fuel ev (P : property E V W) w, silent (prunForAll wo fuel ev P w) = runForAll fuel ev P w.
Proof.
  intros. unfold prunForAll, runForAll. rewrite <- (silent_runLoop _ _ _ wo).
  destruct (prunLoop wo fuel ev P (numRuns P) 0 _) as [[[v out] s]| | |]; auto.
Qed.
Lemma silent_example : forall E V W (wo : wording V) (P : property E V W) args s, silent (pexample wo P args s) = example P args s.
Proof.
  intros. unfold pexample, example. destruct (runHook (onStartup P) EStartup (with_cx newctx s)) as [[e|] s1]; [destruct e; auto|].
  destruct (callFunc P args s1) as [[b|e] s2]; [|destruct e; auto]. destruct (runHook (onCleanup P) ECleanup s2) as [[e|] s3]; auto. destruct e; auto.
Qed.
Lemma silent_ok : forall A S (r : res (A * printed * S)) a s, silent r = Ok (a, s) <-> exists out, r = Ok (a, out, s).
Proof.
  intros A S r a s. split.
  - destruct r as [[[a' out] s']| | |]; simpl; intros H; inversion H; subst. eauto.
  - intros [out ->]. auto.
Qed.

(* subsequences *)
Lemma within_app : forall A (l1 m1 l2 m2 : list A), TranscriptSpec.within l1 m1 -> TranscriptSpec.within l2 m2 -> TranscriptSpec.within (l1 ++ l2) (m1 ++ m2).
Proof.
  intros A l1 m1 l2 m2 H1 H2. induction H1 as [m|a l m H IH|a l m H IH]; simpl; try (constructor; auto; fail).
  induction m as [|x m IHm]; simpl; auto. constructor. auto.
Qed.
Lemma leads_app : forall V (l1 l2 : list (shrinkStep V)) a b c, leads a l1 b -> leads b l2 c -> leads a (l1 ++ l2) c.
Proof. intros V. induction l1 as [|x l1 IH]; intros l2 a b c H1 H2; simpl in *; [subst; auto|]. destruct H1 as [H [Hv Hr]]. split; auto. split; auto. eapply IH; eauto. Qed.

(* one test: what is called and what fails *)
Lemma test_called : forall E V W (P : property E V W) N cur v c s b c' s', test P N cur v c s = Ok (b, c', s') ->
  exists seg, lg s' = lg s ++ seg /\ (onStartup P = None -> args_of seg = [set_nth N v (map eroot cur)]).
Proof.
  intros E V W P N cur v c s b c' s' H. unfold test in H. destruct (runHook (onStartup P) EStartup (with_cx c s)) as [[e|] s1] eqn:E1;
    destruct (runHook_log _ _ _ _ _ _ _ _ E1) as [L1 [_ N1]]; simpl in L1.
  - exists (if has (onStartup P) then [EStartup] else []). split.
    + destruct e; inversion H; subst; auto.
    + intros Hn. rewrite Hn in N1. destruct (N1 eq_refl). discriminate.
  - destruct (callFunc P (set_nth N v (map eroot cur)) s1) as [u s2] eqn:E2. destruct (callFunc_log _ _ _ _ _ _ _ _ E2) as [L2 _]. destruct u as [r|e].
    + destruct (runHook (onCleanup P) ECleanup s2) as [o s3] eqn:E3. destruct (runHook_log _ _ _ _ _ _ _ _ E3) as [L3 _].
      exists ((if has (onStartup P) then [EStartup] else []) ++ [ECall (set_nth N v (map eroot cur)) (URet r)] ++ (if has (onCleanup P) then [ECleanup] else [])).
      split.
      * rewrite !app_assoc, <- L1, <- L2, <- L3. destruct o as [e|]; [destruct e; inversion H; subst; auto|]. inversion H; subst; auto.
      * intros ->. simpl. destruct (has (onCleanup P)); auto.
    + exists ((if has (onStartup P) then [EStartup] else []) ++ [ECall (set_nth N v (map eroot cur)) (UThrow e)]). split.
      * rewrite !app_assoc, <- L1, <- L2. destruct e; inversion H; subst; auto.
      * intros ->. auto.
Qed.
Lemma test_failures : forall E V W (P : property E V W) beh N cur v c s b c' s', pure_property P beh -> failures c = [] ->
  test P N cur v c s = Ok (b, c', s') -> failures c' = failed_expectations (fst (beh (set_nth N v (map eroot cur)))).
Proof.
  intros E V W P beh N cur v c s b c' s' [Hf [Hs Hc]] H0 H. unfold test in H. rewrite Hs, Hc in H. cbn [runHook] in H.
  unfold callFunc in H. rewrite Hf in H. set (a := set_nth N v (map eroot cur)) in *.
  assert (Hfl : failures (apply_ops (fst (beh a)) c) = failed_expectations (fst (beh a))) by (rewrite failures_ops, H0; auto).
  destruct (snd (beh a)) as [r|e]; [inversion H; subst; auto|]. destruct e; inversion H; subst; auto.
Qed.

(* tuples and failures *)
Lemma joined_cons : forall sep t l, joined sep (t :: l) = t ++ flat_map (fun x => sep ++ x) l.
Proof.
  intros sep t l. revert t. induction l as [|u l IH]; intros t; [simpl; rewrite app_nil_r; auto|].
  change (joined sep (t :: u :: l)) with (t ++ sep ++ joined sep (u :: l)). rewrite IH. simpl. rewrite <- app_assoc. auto.
Qed.
Lemma showArgs_tuple : forall V (wo : wording V) l, showArgs wo l = tupleText wo l.
Proof. intros V wo l. unfold showArgs, tupleText, show_tuple. destruct l as [|a l]; auto. simpl map. rewrite joined_cons. auto. Qed.
Lemma failureText_described : forall f, failureText f = described f.
Proof. intros f. unfold failureText, described. destruct (f_str f); auto. Qed.
Lemma failures_listing4 : forall fs, failuresText 4 fs = listing "    " fs.
Proof.
  intros [|f fs]; auto. unfold failuresText, listing. simpl map. rewrite joined_cons, failureText_described. f_equal.
  induction fs as [|g fs IH]; auto. cbn [flat_map map]. rewrite IH, failureText_described, <- !app_assoc. reflexivity.
Qed.
Lemma failures_listing0 : forall fs, failuresText 0 fs = listing "" fs.
Proof.
  intros [|f fs]; auto. unfold failuresText, listing. simpl map. rewrite joined_cons, failureText_described. f_equal.
  induction fs as [|g fs IH]; auto. cbn [flat_map map]. rewrite IH, failureText_described, <- !app_assoc. reflexivity.
Qed.

(* the lines of one step *)
Lemma foundLines_told : forall V (wo : wording V) N vals c,
  on Cout (foundLines wo N vals c) = told wo {| at_ := N; tuple := vals; unmet := failures c |} /\ on Cerr (foundLines wo N vals c) = [].
Proof.
  intros. unfold foundLines, told, hasFailures. rewrite showArgs_tuple, ?failures_listing4. simpl unmet. simpl tuple. simpl at_. destruct (failures c) as [|f fs].
  - split; auto. rewrite on_cout. simpl (on Cout []). rewrite <- !app_assoc. rewrite !app_nil_r. auto.
  - split; auto. rewrite !on_cout. change (on Cout []) with (@nil Z). rewrite <- !app_assoc. rewrite !app_nil_r. auto.
Qed.

(* what the steps of shrinking satisfy *)
Record steps_ok {E V W} (wo : wording V) (P : property E V W) (a b : list V) (s s' : rs E V W) (out : printed) (steps : list (shrinkStep V)) : Prop := {
  so_cout : on Cout out = flat_map (told wo) steps;
  so_cerr : on Cerr out = [];
  so_leads : leads a steps b;
  so_called : exists seg, lg s' = lg s ++ seg /\ (onStartup P = None -> TranscriptSpec.within (map tuple steps) (args_of seg));
  so_pure : forall beh, pure_property P beh -> Forall (fun x => bad beh (tuple x) /\ unmet x = failed_expectations (fst (beh (tuple x)))) steps }.

Lemma shrinkN_steps : forall E V W (wo : wording V) (P : property E V W) N,
  (forall t cur s fin out s', pshrinkTree wo P N cur t s = Ok (fin, out, s') -> (N < length cur)%nat ->
     length fin = length cur /\ exists steps, steps_ok wo P (map eroot cur) (map eroot fin) s s' out steps) /\
  (forall st cur c s fin out s', pshrinkStream wo P N cur c st s = Ok (fin, out, s') -> (N < length cur)%nat -> failures c = [] ->
     length fin = length cur /\ exists steps, steps_ok wo P (map eroot cur) (map eroot fin) s s' out steps).
Proof.
  intros E V W wo P N. apply etree_ind3.
  - intros a shr IH cur s fin out s' H HN. simpl in H. destruct (shr (rnd s)) as [[st r']| | |] eqn:Es; try discriminate.
    destruct (IH _ _ _ Es _ _ _ _ _ _ H HN eq_refl) as [Hl [steps [A1 A2 A3 A4 A5]]]. split; auto. exists steps. constructor; auto.
  - intros cur c s fin out s' H HN Hc. simpl in H. inversion H; subst. split; auto. exists []. constructor; simpl; auto.
    exists []. rewrite app_nil_r. split; auto. intros _. constructor.
  - intros h tl IHh IHtl cur c s fin out s' H HN Hc. cbn [pshrinkStream] in H. destruct (tl (rnd s)) as [[st' r']| | |] eqn:Es; try discriminate.
    apply bind_ok in H. destruct H as [[[b c'] s2] [Ht H]]. destruct (test_called _ _ _ _ _ _ _ _ _ _ _ _ Ht) as [seg [Lg Hcall]]. simpl in Lg.
    destruct (negb b || hasFailures c') eqn:Eb.
    + apply bind_ok in H. destruct H as [[[fin' out'] s3] [H1 H2]]. assert (X : fin' = fin /\ out = foundLines wo N (map eroot (set_nth N h cur)) c' ++ out' /\ s3 = s') by (repeat split; congruence).
      destruct X as [-> [-> ->]]. clear H2.
      assert (HN' : (N < length (set_nth N h cur))%nat) by (rewrite set_nth_len; auto).
      destruct (IHh _ _ _ _ _ H1 HN') as [Hl [steps [A1 A2 A3 [seg2 [Lg2 A4]] A5]]]. rewrite set_nth_len in Hl. split; auto.
      exists ({| at_ := N; tuple := map eroot (set_nth N h cur); unmet := failures c' |} :: steps).
      destruct (foundLines_told _ wo N (map eroot (set_nth N h cur)) c') as [F1 F2].
      constructor.
      * rewrite on_app, F1, A1. auto.
      * rewrite on_app, F2, A2. auto.
      * simpl. rewrite map_length. split; auto. split; auto. exists (eroot h). apply set_nth_map.
      * exists (seg ++ seg2). split; [rewrite Lg2, Lg, app_assoc; auto|]. intros Hn. rewrite args_of_app, (Hcall Hn). simpl.
        rewrite set_nth_map. apply within_take. auto.
      * intros beh Hb. constructor; auto. simpl. destruct (test_pure _ _ _ _ _ _ _ _ _ _ _ _ _ Hb Hc Ht) as [_ Hx]. rewrite Eb in Hx.
        rewrite set_nth_map. split; auto. eapply test_failures; eauto.
    + assert (Hc' : failures c' = []).
      { apply orb_false_iff in Eb. destruct Eb as [_ Eb]. unfold hasFailures in Eb. destruct (failures c'); auto. discriminate. }
      destruct (IHtl _ _ _ Es _ _ _ _ _ _ H HN Hc') as [Hl [steps [A1 A2 A3 [seg2 [Lg2 A4]] A5]]]. split; auto. exists steps. constructor; auto.
      exists (seg ++ seg2). split; [rewrite Lg2, Lg, app_assoc; auto|]. intros Hn. rewrite args_of_app, (Hcall Hn). simpl. apply within_skip. auto.
Qed.

Lemma shrinkEach_steps : forall E V W (wo : wording V) (P : property E V W) ord streams cur s fin out s',
  pshrinkEach wo P ord streams cur s = Ok (fin, out, s') -> length streams = length cur ->
  length fin = length cur /\ exists steps, steps_ok wo P (map eroot cur) (map eroot fin) s s' out steps.
Proof.
  intros E V W wo P. induction ord as [|N ord IH]; intros streams cur s fin out s' H Hl; simpl in H.
  - inversion H; subst. split; auto. exists []. constructor; simpl; auto. exists []. rewrite app_nil_r. split; auto. intros _. constructor.
  - destruct (nth_error streams N) as [st|] eqn:En; try discriminate. apply bind_ok in H. destruct H as [[[cur' out1] s1] [H1 H]].
    apply bind_ok in H. destruct H as [[[fin' out2] s2] [H2 H]]. inversion H; subst fin' out s2. clear H.
    assert (HN : (N < length cur)%nat) by (rewrite <- Hl; eapply nth_error_lt; eauto).
    destruct (proj2 (shrinkN_steps E V W wo P N) _ _ _ _ _ _ _ H1 HN eq_refl) as [L1 [st1 [A1 A2 A3 [g1 [A4 A4']] A5]]].
    destruct (IH _ _ _ _ _ _ H2 ltac:(congruence)) as [L2 [st2 [B1 B2 B3 [g2 [B4 B4']] B5]]]. split; [congruence|].
    exists (st1 ++ st2). constructor.
    + rewrite on_app, A1, B1, flat_map_app. auto.
    + rewrite on_app, A2, B2. auto.
    + eapply leads_app; eauto.
    + exists (g1 ++ g2). split; [rewrite B4, A4, app_assoc; auto|]. intros Hn. rewrite map_app, args_of_app. apply within_app; auto.
    + intros beh Hb. apply Forall_app. auto.
Qed.

Lemma shrink_steps : forall E V W (wo : wording V) ev (P : property E V W) s rep out s', pshrink wo ev P s = Ok (rep, out, s') ->
  exists steps mid, steps_ok wo P (with_args rep) (simplest_args rep) s s' mid steps /\ on Cerr out = [] /\
    on Cout out = lit "  with args: " ++ tupleText wo (with_args rep) ++ nl ++ flat_map (told wo) steps ++
      lit "  simplest args found by shrinking: " ++ tupleText wo (simplest_args rep) ++ nl.
Proof.
  intros E V W wo ev P s rep out s' H. unfold pshrink in H. apply bind_ok in H. destruct H as [[x r1] [Hx H]]. destruct x as [ts|e]; try discriminate.
  apply bind_ok in H. destruct H as [[y r2] [Hy H]]. destruct y as [streams|e]; try discriminate.
  apply bind_ok in H. destruct H as [[[ts' o] s1] [H1 H]]. 
  set (f1 := (Cout, lit "  with args: " ++ showArgs wo (map eroot ts) ++ nl)) in H. set (f2 := [(Cout, lit "  simplest args found by shrinking: " ++ showArgs wo (map eroot ts') ++ nl)]) in H.
  assert (X : rep = {| with_args := map eroot ts; simplest_args := map eroot ts' |} /\ out = [f1] ++ o ++ f2 /\ s1 = s') by (repeat split; congruence).
  destruct X as [-> [-> ->]]. clear H. unfold f1, f2 in *. clear f1 f2. rewrite <- app_comm_cons, app_nil_l.
  assert (Hl : length streams = length ts) by (rewrite (evalTuple_length _ _ _ _ _ _ _ Hy), map_length; auto).
  destruct (shrinkEach_steps _ _ _ _ _ _ _ _ _ _ _ _ H1 Hl) as [_ [steps [A1 A2 A3 A4 A5]]]. exists steps, o. split; [constructor; auto|].
  split.
  - rewrite on_cerr_cout, on_app, A2. auto.
  - rewrite on_cout, on_app, A1, on_cout. change (on Cout []) with (@nil Z). cbn [with_args simplest_args]. rewrite !showArgs_tuple, app_nil_r. rewrite <- !app_assoc. auto.
Qed.

Lemma falsifiable_message : forall V (wo : wording V) n why, on Cout (falsifiable wo n why) = [] /\ on Cerr (falsifiable wo n why) = message wo n why.
Proof.
  intros V wo n why. unfold falsifiable, message. destruct why as [fs| |e]; [rewrite failures_listing0| |].
  - split; auto. rewrite !on_cerr. change (on Cerr []) with (@nil Z). rewrite app_nil_r, <- !app_assoc. auto.
  - split; auto. rewrite !on_cerr. change (on Cerr []) with (@nil Z). rewrite app_nil_r, <- !app_assoc. auto.
  - destruct e; (split; [reflexivity|]); rewrite !on_cerr; change (on Cerr []) with (@nil Z); rewrite app_nil_r, <- !app_assoc; auto.
Qed.
Lemma summaryText_on : forall c, on Cout (summaryText c) = lines (summaryLines c) /\ on Cerr (summaryText c) = [].
Proof.
  intros c. unfold summaryText, lines. induction (summaryLines c) as [|t l [IH1 IH2]]; auto. simpl map. rewrite on_cout, on_cerr_cout, IH1, IH2. auto.
Qed.

(* what the runs print, given the verdict *)
Lemma runLoop_prints : forall E V W (wo : wording V) fuel ev (P : property E V W) n i s v out s', prunLoop wo fuel ev P n i s = Ok (v, out, s') ->
  match v with
  | VPassed _ => on Cerr out = [] /\ on Cout out = lit "OK, passed " ++ dec (Z.of_nat (numRuns P)) ++ lit " tests" ++ nl ++ lines (summaryLines (cx s'))
  | VTimedOut k _ => on Cerr out = [] /\
      on Cout out = lit "Timed out after " ++ dec (elapsed ev k) ++ lit "ms , passed " ++ dec (Z.of_nat k) ++ lit " tests" ++ nl ++ lines (summaryLines (cx s'))
  | VFalsified t why rep => on Cerr out = message wo t why /\ exists ks s0 s1 steps mid,
      history ev P s ks s0 /\ falsifies ev P s0 why s1 /\ t = S (i + passes ks)%nat /\
      steps_ok wo P (with_args rep) (simplest_args rep) (with_rnd (rnd s0) s1) s' mid steps /\
      on Cout out = lit "  with args: " ++ tupleText wo (with_args rep) ++ nl ++ flat_map (told wo) steps ++
      lit "  simplest args found by shrinking: " ++ tupleText wo (simplest_args rep) ++ nl
  end.
Proof.
  intros E V W wo fuel ev P. induction n as [|n IH]; intros i s v out s' H.
  - cbn [prunLoop] in H. assert (X : v = VPassed (printSummary (cx s)) /\ out = (Cout, lit "OK, passed " ++ dec (Z.of_nat (numRuns P)) ++ lit " tests" ++ nl) :: summaryText (cx s) /\ s = s') by (repeat split; congruence).
    destruct X as [-> [-> ->]]. clear H. rewrite on_cout, on_cerr_cout. destruct (summaryText_on (cx s')) as [-> ->]. split; auto. rewrite <- !app_assoc. auto.
  - cbn [prunLoop] in H. destruct (negb (maxDurationMs P =? 0)%Z && (maxDurationMs P <? elapsed ev i)%Z).
    + assert (X : v = VTimedOut i (printSummary (cx s)) /\ out = (Cout, lit "Timed out after " ++ dec (elapsed ev i) ++ lit "ms , passed " ++ dec (Z.of_nat i) ++ lit " tests" ++ nl) :: summaryText (cx s) /\ s = s') by (repeat split; congruence).
      destruct X as [-> [-> ->]]. clear H. rewrite on_cout, on_cerr_cout. destruct (summaryText_on (cx s')) as [-> ->]. split; auto. rewrite <- !app_assoc. auto.
    + apply bind_ok in H. destruct H as [st [Hr H]]. destruct st as [sa|why saved sa].
      * apply retry_passed in Hr. destruct Hr as [m Hh]. specialize (IH _ _ _ _ _ H). destruct v as [sm|k sm|t why rep]; auto.
        destruct IH as [Hm [ks' [s0 [s1 [steps [mid [G1 [G2 [G3 [G4 G5]]]]]]]]]]. split; auto. exists ((repeat Discarded m ++ [Passed]) ++ ks'), s0, s1, steps, mid.
        split; [eapply history_app; eauto|]. split; auto.
        split; [rewrite !passes_app, passes_repeat; change (passes [Passed]) with 1%nat; lia|]. auto.
      * apply bind_ok in H. destruct H as [[[rep out'] s2] [Hp H]]. 
        assert (X : v = VFalsified (S i) why rep /\ out = falsifiable wo (S i) why ++ out' /\ s2 = s') by (repeat split; congruence). destruct X as [-> [-> ->]]. clear H.
        apply retry_failed in Hr. destruct Hr as [m [s0 [Hh [Hf ->]]]].
        destruct (shrink_steps _ _ _ _ _ _ _ _ _ _ Hp) as [steps [mid [G1 [G2 G3]]]]. destruct (falsifiable_message _ wo (S i) why) as [M1 M2].
        rewrite !on_app, M1, M2, G2, G3. rewrite app_nil_r. split; auto. exists (repeat Discarded m), s0, sa, steps, mid. split; auto. split; auto.
        rewrite passes_repeat. split; [lia|]. auto.
Qed.

(* reading lines *)
Lemma first_line : forall a b x y : text, oneLine a -> oneLine b -> a ++ nl ++ x = b ++ nl ++ y -> a = b /\ x = y.
Proof.
  induction a as [|c a IH]; intros [|d b] x y Ha Hb H; simpl in H.
  - inversion H. auto.
  - inversion H; subst. exfalso. apply Hb. left. auto.
  - inversion H; subst. exfalso. apply Ha. left. auto.
  - inversion H; subst. destruct (IH b x y) as [-> ->]; auto; intros Hi; [apply Ha|apply Hb]; right; auto.
Qed.
Lemma oneLine_rev : forall a, oneLine a -> oneLine (rev a).
Proof. unfold oneLine. intros a H Hi. apply H. apply in_rev. auto. Qed.
Lemma last_line : forall a b x y : text, oneLine a -> oneLine b -> x ++ nl ++ a ++ nl = y ++ nl ++ b ++ nl -> x = y /\ a = b.
Proof.
  intros a b x y Ha Hb H. assert (G : forall (z c : text), rev (z ++ nl ++ c ++ nl) = nl ++ rev c ++ nl ++ rev z).
  { intros. rewrite !rev_app_distr. simpl. rewrite <- !app_assoc. auto. }
  apply (f_equal (@rev Z)) in H. rewrite !G in H. apply app_inv_head in H. apply first_line in H; try (apply oneLine_rev; auto).
  destruct H as [H1 H2]. apply (f_equal (@rev Z)) in H1. apply (f_equal (@rev Z)) in H2. rewrite !rev_involutive in *. auto.
Qed.
Lemma oneLine_app : forall a b, oneLine (a ++ b) <-> oneLine a /\ oneLine b.
Proof. unfold oneLine. intros. rewrite in_app_iff. tauto. Qed.
Lemma oneLine_dec : forall n, oneLine (dec n).
Proof. intros n H. apply dec_chars in H. lia. Qed.
Lemma oneLine_lit : forall s, existsb (Z.eqb 10) (lit s) = false -> oneLine (lit s).
Proof. intros s H Hi. assert (existsb (Z.eqb 10) (lit s) = true) by (apply existsb_exists; exists 10%Z; split; auto). congruence. Qed.
Lemma steps_end : forall V (wo : wording V) a (steps : list (shrinkStep V)), exists x, a ++ nl ++ flat_map (told wo) steps = x ++ nl.
Proof.
  intros V wo a steps. revert a. induction steps as [|s steps IH]; intros a.
  - exists a. simpl. auto.
  - change (flat_map (told wo) (s :: steps)) with (told wo s ++ flat_map (told wo) steps). assert (Ht : exists t, told wo s = t ++ nl).
    { unfold told. destruct (unmet s) as [|f fs]; eexists; [rewrite app_nil_r; rewrite !app_assoc; reflexivity|rewrite !app_assoc; reflexivity]. }
    destruct Ht as [t ->]. rewrite <- app_assoc. destruct (IH (a ++ nl ++ t)) as [x Hx]. exists x. rewrite <- Hx. rewrite <- !app_assoc. auto.
Qed.

(* numbers followed by a blank *)
Lemma dec_blank : forall a b x y, dec a ++ 32%Z :: x = dec b ++ 32%Z :: y -> a = b /\ x = y.
Proof.
  intros a b x y H. assert (G : forall (p q : text), ~ In 32%Z p -> ~ In 32%Z q -> p ++ 32%Z :: x = q ++ 32%Z :: y -> p = q /\ x = y).
  { induction p as [|c p IH]; intros [|d q] Hp Hq E; simpl in E; inversion E; subst; auto.
    - exfalso. apply Hq. left. auto.
    - exfalso. apply Hp. left. auto.
    - destruct (IH q) as [-> ->]; auto; intros Hi; [apply Hp|apply Hq]; right; auto. }
  apply G in H; try (intros Hi; apply dec_chars in Hi; lia). destruct H as [H ->]. split; auto. apply dec_inj. auto.
Qed.

(* example *)
Lemma example_pure : forall E V W (wo : wording V) (P : property E V W) beh args s, pure_property P beh ->
  match pexample wo P args s with
  | Ok (b, out, s') => snd (beh args) <> UThrow ENonStd /\ on Cout out = [] /\ on Cerr out = verdictText wo beh args /\
      lg s' = lg s ++ [ECall args (snd (beh args))] /\
      b = match snd (beh args) with URet r => r | UThrow ESuccess => true | UThrow _ => false end
  | Throw e => e = ENonStd /\ snd (beh args) = UThrow ENonStd
  | _ => False
  end.
Proof.
  intros E V W wo P beh args s [Hf [Hs Hc]]. unfold pexample. rewrite Hs, Hc. cbn [runHook]. unfold callFunc. rewrite Hf. unfold verdictText. rewrite showArgs_tuple.
  destruct (snd (beh args)) as [r|e] eqn:Eb; [split; [discriminate|]; auto|].
  destruct e; auto; (split; [discriminate|]; split; [reflexivity|]; split; [|split; reflexivity]);
    rewrite ?on_cerr; unfold lines; cbn [flat_map]; rewrite <- ?app_assoc; auto.
Qed.
Lemma example_where : forall E V W (wo : wording V) (P : property E V W) args s b out s', pexample wo P args s = Ok (b, out, s') ->
  on Cout out = [] /\ (b = true -> out = []).
Proof.
  intros E V W wo P args s b out s' H. unfold pexample in H. destruct (runHook (onStartup P) EStartup (with_cx newctx s)) as [[e|] s1].
  - destruct e; inversion H; subst; split; auto; discriminate.
  - destruct (callFunc P args s1) as [[r|e] s2]; [|destruct e; inversion H; subst; split; auto; discriminate].
    destruct (runHook (onCleanup P) ECleanup s2) as [[e|] s3]; [destruct e; inversion H; subst; split; auto; discriminate|]. inversion H; subst. auto.
Qed.
Lemma matrix_prints : forall E V W (wo : wording V) fuel (P : property E V W) lists indices s out s', pmatrixLoop wo fuel P lists indices s = Ok (out, s') ->
  matrixLoop fuel P lists indices s = Ok s' /\ on Cout out = [] /\
  (forall beh, pure_property P beh -> exists l, lg s' = lg s ++ calls beh l /\ on Cerr out = flat_map (verdictText wo beh) l).
Proof.
  intros E V W wo. induction fuel as [|fuel IH]; intros P lists indices s out s' H; simpl in H; [discriminate|].
  apply bind_ok in H. destruct H as [args [Ha H]]. apply bind_ok in H. destruct H as [[[b o1] s1] [He H]].
  simpl. rewrite Ha. simpl. pose proof (silent_example _ _ _ wo P args s) as Hs. rewrite He in Hs. simpl in Hs. rewrite <- Hs. simpl.
  destruct (example_where _ _ _ _ _ _ _ _ _ _ He) as [Ho _].
  assert (Hp : forall beh, pure_property P beh -> lg s1 = lg s ++ calls beh [args] /\ on Cerr o1 = verdictText wo beh args).
  { intros beh Hb. pose proof (example_pure _ _ _ wo P beh args s Hb) as G. rewrite He in G. tauto. }
  destruct (progress lists indices) as [more indices']. destruct more.
  - apply bind_ok in H. destruct H as [[o2 s2] [H1 H2]]. assert (X : out = o1 ++ o2 /\ s2 = s') by (split; congruence). destruct X as [-> ->].
    destruct (IH _ _ _ _ _ _ H1) as [G1 [G2 G3]]. split; auto. rewrite on_app, Ho, G2. split; auto. intros beh Hb. destruct (Hp _ Hb) as [P1 P2].
    destruct (G3 _ Hb) as [l [L1 L2]]. exists (args :: l). rewrite on_app, P2, L2. split; auto. rewrite L1, P1, <- app_assoc. auto.
  - inversion H; subst. split; auto. split; auto. intros beh Hb. destruct (Hp _ Hb) as [P1 P2]. exists [args]. rewrite P1, P2. split; auto. simpl. rewrite app_nil_r. auto.
Qed.
