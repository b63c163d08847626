(** Proofs about hooks and inputs. *)
From Coq Require Import String List ZArith Lia Bool Permutation.
From Verif Require Import Base TreeModel TreeSpec TreeProof RandomModel TupleModel TupleProof ContainerProof EffModel EffSpec EffProof
  ContextModel ContextSpec ContextProof RunnerModel RunnerSpec RunnerProof RunnerPureProof RunnerShrinkProof.
Import ListNotations.
Local Open Scope list_scope.

Lemma runHook_log : forall E V W h (e : event V) (s : rs E V W) r s', runHook h e s = (r, s') ->
  lg s' = lg s ++ (if has h then [e] else []) /\ rnd s' = rnd s /\ (has h = false -> r = None /\ s' = s).
Proof.
  intros E V W h e s r s' H. unfold runHook in H. destruct h as [h|]; simpl.
  - destruct (h (wd s)) as [[ops r'] w]. inversion H; subst. simpl. split; auto. split; auto. discriminate.
  - inversion H; subst. rewrite app_nil_r. auto.
Qed.

Lemma callFunc_log : forall E V W (P : property E V W) a s u s', callFunc P a s = (u, s') -> lg s' = lg s ++ [ECall a u] /\ rnd s' = rnd s.
Proof. intros E V W P a s u s' H. unfold callFunc in H. destruct (func P a (wd s)) as [[ops u'] w]. inversion H; subst. auto. Qed.

Definition pre {E V W} (P : property E V W) : list (event V) := if has (onStartup P) then [EStartup] else [].
Definition post {E V W} (P : property E V W) : list (event V) := if has (onCleanup P) then [ECleanup] else [].

(* exactly what an attempt calls *)
Definition attempt_calls {E V W} (ev : env E) (P : property E V W) (s : rs E V W) (o : aout) (seg : list (event V)) : Prop :=
  (exists e, o = AThrew e /\ seg = [EStartup] /\ has (onStartup P) = true) \/
  (exists e r1, o = AThrew e /\ seg = pre P /\ evalTuple (ord_call ev) (gens P) (rnd s) = Ok (inr e, r1)) \/
  (exists ts r1, evalTuple (ord_call ev) (gens P) (rnd s) = Ok (inl ts, r1) /\
    ((exists e, seg = pre P ++ [ECall (map eroot ts) (UThrow e)] /\ o = out (UThrow e)) \/
     (exists b, seg = pre P ++ [ECall (map eroot ts) (URet b)] ++ post P /\ (o = AReturned b \/ exists e, o = AThrew e /\ has (onCleanup P) = true)))).

Lemma attempt_log : forall E V W ev (P : property E V W) s o s1, attempt ev P s = Ok (o, s1) ->
  exists seg, lg s1 = lg s ++ seg /\ attempt_calls ev P s o seg /\
   (forall r1, (exists x, evalTuple (ord_call ev) (gens P) (rnd s) = Ok (x, r1)) -> has (onStartup P) = false -> rnd s1 = r1).
Proof.
  intros E V W ev P s o s1 H. unfold attempt in H. destruct (runHook (onStartup P) EStartup s) as [r sa] eqn:E1.
  apply runHook_log in E1. destruct E1 as [L1 [R1 N1]]. destruct r as [e|].
  { inversion H; subst. destruct (has (onStartup P)) eqn:Eh; [|destruct N1; auto; discriminate]. exists [EStartup]. split; auto. split; [|discriminate].
    left. exists e. auto. }
  apply bind_ok in H. destruct H as [[x r1] [Hx H]]. rewrite R1 in Hx. destruct x as [ts|e].
  - destruct (callFunc P (map eroot ts) (with_rnd r1 sa)) as [u sb] eqn:E2. apply callFunc_log in E2. destruct E2 as [L2 R2]. simpl in L2, R2.
    assert (Hr : forall r2, (exists x, evalTuple (ord_call ev) (gens P) (rnd s) = Ok (x, r2)) -> r1 = r2) by (intros r2 [x Hx2]; congruence).
    destruct u as [b|e].
    + destruct (runHook (onCleanup P) ECleanup sb) as [r sc] eqn:E3. apply runHook_log in E3. destruct E3 as [L3 [R3 N3]].
      exists (pre P ++ [ECall (map eroot ts) (URet b)] ++ post P).
      assert (Hs : s1 = sc /\ (o = AReturned b \/ exists e, o = AThrew e /\ has (onCleanup P) = true)).
      { destruct r as [e|]; inversion H; subst; split; auto. right. exists e. split; auto. destruct (has (onCleanup P)); auto. destruct N3; auto. discriminate. }
      destruct Hs as [-> Ho]. split; [rewrite L3, L2, L1, <- !app_assoc; auto|]. split.
      * right. right. exists ts, r1. split; auto. right. exists b. auto.
      * intros r2 Hr2 _. rewrite <- (Hr r2); auto. congruence.
    + exists (pre P ++ [ECall (map eroot ts) (UThrow e)]).
      assert (Hs : s1 = sb /\ o = out (UThrow e)) by (destruct e; inversion H; auto). destruct Hs as [-> ->].
      split; [rewrite L2, L1, <- app_assoc; auto|]. split.
      * right. right. exists ts, r1. split; auto. left. eauto.
      * intros r2 Hr2 _. rewrite <- (Hr r2); auto.
  - inversion H; subst. exists (pre P). split; auto. split.
    + right. left. exists e, r1. auto.
    + intros r2 [x Hx2] _. simpl. congruence.
Qed.

Lemma attempt_bracketed : forall E V W ev (P : property E V W) s o s1, attempt ev P s = Ok (o, s1) ->
  exists seg, lg s1 = lg s ++ seg /\ bracketed (has (onStartup P)) (has (onCleanup P)) seg.
Proof.
  intros E V W ev P s o s1 H. destruct (attempt_log _ _ _ _ _ _ _ _ H) as [seg [L [C _]]]. exists seg. split; auto.
  destruct C as [[e [_ [-> Hs]]]|[[e [r1 [_ [-> _]]]]|[ts [r1 [_ [[e [-> _]]|[b [-> _]]]]]]]].
  - apply br_start_threw; auto.
  - apply br_no_input.
  - apply br_threw.
  - apply br_returned.
Qed.

Lemma test_bracketed : forall E V W (P : property E V W) N cur v c s b c' s', test P N cur v c s = Ok (b, c', s') ->
  exists seg, lg s' = lg s ++ seg /\ bracketed (has (onStartup P)) (has (onCleanup P)) seg.
Proof.
  intros E V W P N cur v c s b c' s' H. unfold test in H. destruct (runHook (onStartup P) EStartup (with_cx c s)) as [r s1] eqn:E1.
  apply runHook_log in E1. destruct E1 as [L1 [_ N1]]. change (lg (with_cx c s)) with (lg s) in L1. destruct r as [e|].
  { exists [EStartup]. assert (Hh : has (onStartup P) = true) by (destruct (has (onStartup P)); auto; destruct N1; auto; discriminate).
    rewrite Hh in *. assert (Hs : s' = with_cx (cx s) s1) by (destruct e; inversion H; auto). subst s'. split; auto. apply br_start_threw; auto. }
  destruct (callFunc P (set_nth N v (map eroot cur)) s1) as [u s2] eqn:E2. apply callFunc_log in E2. destruct E2 as [L2 _].
  destruct u as [b0|e].
  - destruct (runHook (onCleanup P) ECleanup s2) as [r s3] eqn:E3. apply runHook_log in E3. destruct E3 as [L3 _].
    eexists. split; [|apply (br_returned _ _ (set_nth N v (map eroot cur)) b0)].
    assert (Hs : s' = with_cx (cx s) s3) by (destruct r as [[]|]; inversion H; auto). subst s'. cbn [lg with_cx]. rewrite L3, L2, L1, <- !app_assoc. auto.
  - eexists. split; [|apply (br_threw _ _ (set_nth N v (map eroot cur)) e)].
    assert (Hs : s' = with_cx (cx s) s2) by (destruct e; inversion H; auto). subst s'. cbn [lg with_cx]. rewrite L2, L1, <- app_assoc. auto.
Qed.

Definition extends {E V W} (P : property E V W) (s s' : rs E V W) : Prop :=
  exists segs, lg s' = lg s ++ concat segs /\ Forall (bracketed (has (onStartup P)) (has (onCleanup P))) segs.

Lemma extends_refl : forall E V W (P : property E V W) s s', lg s' = lg s -> extends P s s'.
Proof. intros. exists []. simpl. rewrite app_nil_r. auto. Qed.
Lemma extends_one : forall E V W (P : property E V W) (s s1 : rs E V W) seg s', lg s1 = lg s ++ seg -> bracketed (has (onStartup P)) (has (onCleanup P)) seg ->
  extends P s1 s' -> extends P s s'.
Proof. intros E V W P s s1 seg s' H1 H2 [segs [H3 H4]]. exists (seg :: segs). split; [|constructor; auto]. rewrite H3, H1, <- app_assoc. auto. Qed.
Lemma extends_trans : forall E V W (P : property E V W) (s s1 s' : rs E V W), extends P s s1 -> extends P s1 s' -> extends P s s'.
Proof.
  intros E V W P s s1 s' [a [A1 A2]] [b [B1 B2]]. exists (a ++ b). split; [rewrite B1, A1, concat_app, app_assoc; auto|]. apply Forall_app. auto.
Qed.

Lemma history_log : forall E V W ev (P : property E V W) s ks s', history ev P s ks s' -> extends P s s'.
Proof.
  induction 1 as [s|s s1 ks s' Ha Hb Hc IH|s s1 ks s' Ha Hc IH|s s1 ks s' Ha Hc IH]; [apply extends_refl; auto| | |];
    destruct (attempt_bracketed _ _ _ _ _ _ _ _ Ha) as [seg [L B]]; eapply extends_one; eauto.
Qed.

Lemma falsifies_attempt : forall E V W ev (P : property E V W) s why s', falsifies ev P s why s' ->
  exists o s1, attempt ev P s = Ok (o, s1) /\ lg s' = lg s1 /\ rnd s' = rnd s1.
Proof. intros E V W ev P s why s' H. inversion H; subst; eauto 6. Qed.

Lemma shrinkN_log : forall E V W (P : property E V W) N,
  (forall t cur s fin s', shrinkTree P N cur t s = Ok (fin, s') -> extends P s s') /\
  (forall st cur c s fin s', shrinkStream P N cur c st s = Ok (fin, s') -> extends P s s').
Proof.
  intros E V W P N. apply etree_ind3.
  - intros a shr IH cur s fin s' H. simpl in H. destruct (shr (rnd s)) as [[st r']| | |] eqn:Es; try discriminate.
    eapply IH in H; eauto.
  - intros cur c s fin s' H. simpl in H. inversion H; subst. apply extends_refl; auto.
  - intros h tl IHh IHtl cur c s fin s' H. simpl in H. destruct (tl (rnd s)) as [[st' r']| | |] eqn:Es; try discriminate.
    apply bind_ok in H. destruct H as [[[b c'] s2] [Ht H]]. apply test_bracketed in Ht. destruct Ht as [seg [L B]].
    eapply extends_one; [exact L|exact B|]. destruct (negb b || hasFailures c'); [eapply IHh; eauto|eapply IHtl; eauto].
Qed.

Lemma shrinkEach_log : forall E V W (P : property E V W) ord streams cur s fin s', shrinkEach P ord streams cur s = Ok (fin, s') -> extends P s s'.
Proof.
  intros E V W P. induction ord as [|N o IH]; intros streams cur s fin s' H; simpl in H; [inversion H; subst; apply extends_refl; auto|].
  destruct (nth_error streams N) as [st|]; [|discriminate]. apply bind_ok in H. destruct H as [[cur' s1] [H1 H2]].
  eapply extends_trans; [eapply (proj2 (shrinkN_log E V W P N)); eauto|eauto].
Qed.

Lemma shrink_log : forall E V W ev (P : property E V W) s rep s', shrink ev P s = Ok (rep, s') -> extends P s s'.
Proof.
  intros E V W ev P s rep s' H. apply shrink_inv in H. destruct H as [ts [r1 [streams [r2 [ts' [_ [_ [H _]]]]]]]]. apply shrinkEach_log in H. auto.
Qed.

Lemma runForAll_log : forall E V W fuel ev (P : property E V W) w v s', runForAll fuel ev P w = Ok (v, s') ->
  exists segs, lg s' = concat segs /\ Forall (bracketed (has (onStartup P)) (has (onCleanup P))) segs.
Proof.
  intros E V W fuel ev P w v s' H. unfold runForAll in H. apply runLoop_ok in H.
  destruct v as [sm|k sm|t why rep].
  - destruct H as [_ [ks [H _]]]. apply history_log in H. exact H.
  - destruct H as [_ [ks [H _]]]. apply history_log in H. exact H.
  - destruct H as [ks [s0 [s1 [H [Hf [_ [_ [_ Hs]]]]]]]]. apply history_log in H. apply shrink_log in Hs.
    destruct (falsifies_attempt _ _ _ _ _ _ _ _ Hf) as [o [s2 [Ha [L _]]]]. destruct (attempt_bracketed _ _ _ _ _ _ _ _ Ha) as [seg [L2 B]].
    assert (Hx : extends P s0 (with_rnd (rnd s0) s1)) by (eapply extends_one; [rewrite <- L2, <- L; reflexivity|exact B|apply extends_refl; auto]).
    pose proof (extends_trans _ _ _ _ _ _ _ H (extends_trans _ _ _ _ _ _ _ Hx Hs)) as Hfin. exact Hfin.
Qed.

(* the inputs come from the seed *)
Lemma args_of_app : forall V (a b : list (event V)), args_of (a ++ b) = args_of a ++ args_of b.
Proof. intros. unfold args_of. apply flat_map_app. Qed.

Lemma attempt_input : forall E V W ev (P : property E V W) s o s1, attempt ev P s = Ok (o, s1) -> quiet (gens P) -> onStartup P = None ->
  exists ts r1, evalTuple (ord_call ev) (gens P) (rnd s) = Ok (inl ts, r1) /\ rnd s1 = r1 /\ args_of (lg s1) = args_of (lg s) ++ [map eroot ts].
Proof.
  intros E V W ev P s o s1 H Hq Hs. destruct (attempt_log _ _ _ _ _ _ _ _ H) as [seg [L [C R]]]. rewrite Hs in R. simpl in R.
  destruct C as [[e [_ [_ Hh]]]|[[e [r1 [_ [_ Hx]]]]|[ts [r1 [Hx C]]]]].
  - rewrite Hs in Hh. discriminate.
  - exfalso. eapply evalTuple_quiet; eauto.
  - exists ts, r1. split; auto. split; [apply R; eauto|]. rewrite L, args_of_app. f_equal.
    assert (Hpost : args_of (post P) = []) by (unfold post; destruct (has (onCleanup P)); auto).
    destruct C as [[e [-> _]]|[b [-> _]]]; unfold pre; rewrite Hs; simpl; auto. rewrite Hpost. auto.
Qed.

Lemma history_inputs : forall E V W ev (P : property E V W) s ks s', history ev P s ks s' -> quiet (gens P) -> onStartup P = None ->
  exists l, drawn ev P (rnd s) l (rnd s') /\ args_of (lg s') = args_of (lg s) ++ l /\ length l = length ks.
Proof.
  intros E V W ev P s ks s' H Hq Hs.
  induction H as [s|s s1 ks s' Ha Hb Hc IH|s s1 ks s' Ha Hc IH|s s1 ks s' Ha Hc IH].
  { exists []. split; [constructor|]. rewrite app_nil_r. auto. }
  all: destruct (attempt_input _ _ _ _ _ _ _ _ Ha Hq Hs) as [ts [r1 [Ev [Er Ea]]]]; destruct IH as [l [Hd [Hl Hn]]];
    exists (map eroot ts :: l); (split; [eapply drawn_cons; eauto; congruence|]); (split; [rewrite Hl, Ea, <- app_assoc; auto|]); simpl; auto.
Qed.

Lemma drawn_det : forall E V W1 W2 ev (P1 : property E V W1) (P2 : property E V W2) r l1 r1, gens P1 = gens P2 -> drawn ev P1 r l1 r1 ->
  forall l2 r2, drawn ev P2 r l2 r2 -> (exists k, l2 = l1 ++ k) \/ (exists k, l1 = l2 ++ k).
Proof.
  intros E V W1 W2 ev P1 P2 r l1 r1 Hg H. induction H as [q|q ts ra l rb Ev Hd IH]; intros l2 r2 H2.
  - left. exists l2. auto.
  - inversion H2 as [|? ts2 ra2 l2' ? Ev2 Hd2]; subst.
    + right. eexists. reflexivity.
    + rewrite <- Hg in Ev2. rewrite Ev in Ev2. inversion Ev2; subst. destruct (IH _ _ Hd2) as [[k ->]|[k ->]]; [left|right]; exists k; auto.
Qed.

Lemma drawn_app : forall E V W ev (P : property E V W) r l r1, drawn ev P r l r1 -> forall l' r2, drawn ev P r1 l' r2 -> drawn ev P r (l ++ l') r2.
Proof. induction 1; intros l' r' H'; simpl; auto. eapply drawn_cons; eauto. Qed.
Lemma drawn_split : forall E V W ev (P : property E V W) l l' r r2, drawn ev P r (l ++ l') r2 -> exists r1, drawn ev P r l r1 /\ drawn ev P r1 l' r2.
Proof.
  induction l as [|a l IH]; intros l' r r2 H; simpl in H; [exists r; split; auto; constructor|]. inversion H; subst.
  destruct (IH _ _ _ ltac:(eassumption)) as [rq [A B]]. exists rq. split; auto. eapply drawn_cons; eauto.
Qed.

(* signals keep expectations pending *)
Lemma history_signals : forall E V W ev (P : property E V W) beh, pure_property P beh ->
  forall l r r', drawn ev P r l r' -> Forall (signals beh) l -> forall s, rnd s = r ->
  exists s' ks, history ev P s ks s' /\ passes ks = length (filter (is_success beh) l) /\ rnd s' = r' /\ runs_to beh l s s' /\ length ks = length l.
Proof.
  intros E V W ev P beh HP l r r' H. induction H as [r|r ts ra l rb Ev Hd IH]; intros Hf s Hs.
  - exists s, []. split; [constructor|]. split; auto. split; auto. split; auto. unfold runs_to, calls, apply_ops. simpl. rewrite app_nil_r. auto.
  - inversion Hf as [|? ? Ha Hl]; subst. pose proof (pure_attempt _ _ _ _ _ _ _ _ _ HP Ev) as Hat. set (a := map eroot ts) in *.
    destruct (IH Hl (after beh a ra s) eq_refl) as [s' [ks [H1 [H2 [H3 [H4 H5]]]]]]. unfold signals in Ha. simpl. unfold is_success at 1.
    destruct Ha as [Ha|Ha]; rewrite Ha in *; simpl in *; [exists s', (Passed :: ks)|exists s', (Discarded :: ks)].
    + split; [eapply h_success; eauto|]. split; [unfold passes in *; simpl; congruence|]. split; auto. split; [eapply runs_to_cons; eauto|simpl; auto].
    + split; [eapply h_discard; eauto|]. split; [unfold passes in *; simpl; congruence|]. split; auto. split; [eapply runs_to_cons; eauto|simpl; auto].
Qed.

Lemma failed_flat : forall V (beh : list V -> list op * ures) l, failed_expectations (flat_map (fun a => fst (beh a)) l) = flat_map (fun a => failed_expectations (fst (beh a))) l.
Proof. intros. induction l as [|a l IH]; auto. simpl. unfold failed_expectations at 1. rewrite flat_map_app. fold (failed_expectations (fst (beh a))). f_equal. exact IH. Qed.
