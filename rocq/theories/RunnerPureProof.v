(** Proofs about running properties that depend on their arguments only, and about shrinking. *)
From Coq Require Import String List ZArith Lia Bool Permutation.
From Verif Require Import Base TreeModel TreeSpec TreeProof RandomModel TupleModel TupleProof ContainerProof EffModel EffSpec EffProof
  ContextModel ContextSpec ContextProof RunnerModel RunnerSpec RunnerProof.
Import ListNotations.
Local Open Scope list_scope.

(* evaluation of argument lists *)
Lemma evalIn_quiet : forall E X (fs : list (G E (X + err))), Forall (fun g => forall r e r', g r <> Ok (inr e, r')) fs ->
  forall ord acc r e r', evalIn ord fs acc r <> Ok (inr e, r').
Proof.
  intros E X fs Hq. induction ord as [|i o IH]; intros acc r e r' H; simpl in H; [discriminate|].
  destruct (nth_error fs i) as [f|] eqn:En; [|discriminate]. apply gbind_ok in H. destruct H as [x [r1 [H1 H2]]].
  destruct x as [a|e']; [eapply IH; eauto|]. rewrite Forall_forall in Hq. eapply Hq; eauto. eapply nth_error_In; eauto.
Qed.

Lemma evalTuple_quiet : forall E X (fs : list (G E (X + err))) ord, Forall (fun g => forall r e r', g r <> Ok (inr e, r')) fs ->
  forall r e r', evalTuple ord fs r <> Ok (inr e, r').
Proof.
  intros E X fs ord Hq r e r' H. apply gbind_ok in H. destruct H as [x [r1 [H1 H2]]]. destruct x as [acc|e'].
  - destruct (collect acc); discriminate.
  - eapply evalIn_quiet; eauto.
Qed.

Definition out (u : ures) : aout := match u with URet b => AReturned b | UThrow EAssert => AThrew EPropFailed | UThrow e => AThrew e end.
Definition after {E V W} (beh : list V -> list op * ures) (a : list V) (r1 : rst E) (s : rs E V W) : rs E V W :=
  {| rnd := r1; cx := apply_ops (fst (beh a)) (cx s); wd := wd s; lg := lg s ++ [ECall a (snd (beh a))] |}.

Lemma pure_attempt : forall E V W ev (P : property E V W) beh s ts r1, pure_property P beh ->
  evalTuple (ord_call ev) (gens P) (rnd s) = Ok (inl ts, r1) ->
  attempt ev P s = Ok (out (snd (beh (map eroot ts))), after beh (map eroot ts) r1 s).
Proof.
  intros E V W ev P beh s ts r1 [Hf [Hs Hc]] H. unfold attempt. rewrite Hs. cbn [runHook]. rewrite H. cbn [bind].
  unfold callFunc. rewrite Hf. unfold after. destruct (snd (beh (map eroot ts))) as [b|e] eqn:E1.
  - rewrite Hc. cbn. auto.
  - destruct e; auto.
Qed.

Lemma pure_attempt_inv : forall E V W ev (P : property E V W) beh s o s1, pure_property P beh -> quiet (gens P) ->
  attempt ev P s = Ok (o, s1) -> exists ts r1, evalTuple (ord_call ev) (gens P) (rnd s) = Ok (inl ts, r1) /\
  o = out (snd (beh (map eroot ts))) /\ s1 = after beh (map eroot ts) r1 s.
Proof.
  intros E V W ev P beh s o s1 HP Hq H. destruct (evalTuple (ord_call ev) (gens P) (rnd s)) as [[[ts|e] r1]| | |] eqn:Ev.
  - rewrite (pure_attempt _ _ _ _ _ _ _ _ _ HP Ev) in H. inversion H; subst. eauto.
  - exfalso. eapply evalTuple_quiet; eauto.
  - unfold attempt in H. destruct HP as [_ [Hs _]]. rewrite Hs in H. cbn [runHook] in H. rewrite Ev in H. discriminate.
  - unfold attempt in H. destruct HP as [_ [Hs _]]. rewrite Hs in H. cbn [runHook] in H. rewrite Ev in H. discriminate.
  - unfold attempt in H. destruct HP as [_ [Hs _]]. rewrite Hs in H. cbn [runHook] in H. rewrite Ev in H. discriminate.
Qed.

Definition kind_of (j : judgement) : option kind := match j with JPass => Some Passed | JDiscard => Some Discarded | _ => None end.

Lemma apply_ops_app : forall a b c, apply_ops (a ++ b) c = apply_ops b (apply_ops a c).
Proof. intros. unfold apply_ops. apply fold_left_app. Qed.

Definition runs_to {E V W} (beh : list V -> list op * ures) (l : list (list V)) (s s' : rs E V W) : Prop :=
  cx s' = apply_ops (flat_map (fun a => fst (beh a)) l) (cx s) /\ wd s' = wd s /\ lg s' = lg s ++ calls beh l.

Lemma accept_step : forall V (beh : list V -> list op * ures) a o k, no_leak beh -> o = out (snd (beh a)) ->
  (o = AReturned true /\ failed_expectations (fst (beh a)) = [] /\ k = Passed) \/ (o = AThrew ESuccess /\ k = Passed) \/ (o = AThrew EDiscard /\ k = Discarded) ->
  failed_expectations (fst (beh a)) = [] /\ kind_of (judge (beh a)) = Some k.
Proof.
  intros V beh a o k Hl Ho H. destruct H as [[-> [Hf ->]]|H].
  - split; auto. unfold judge. destruct (snd (beh a)) as [b|e]; simpl in Ho; [|destruct e; discriminate]. inversion Ho; subst. rewrite Hf. auto.
  - assert (Hx : (snd (beh a) = UThrow ESuccess /\ k = Passed) \/ (snd (beh a) = UThrow EDiscard /\ k = Discarded)).
    { destruct H as [[-> ->]|[-> ->]]; destruct (snd (beh a)) as [b|e]; simpl in Ho; try discriminate; destruct e; try discriminate; auto. }
    split.
    + destruct (failed_expectations (fst (beh a))) eqn:Ef; auto. exfalso. destruct (Hl a); [congruence|]. intuition.
    + unfold judge. destruct Hx as [[-> ->]|[-> ->]]; auto.
Qed.

Lemma runs_to_cons : forall E V W (beh : list V -> list op * ures) a l r1 (s s' : rs E V W), runs_to beh l (after beh a r1 s) s' -> runs_to beh (a :: l) s s'.
Proof.
  intros E V W beh a l r1 s s' [R1 [R2 R3]]. unfold runs_to. rewrite R1, R2, R3. unfold after. cbn [cx wd lg flat_map]. rewrite apply_ops_app. split; auto. split; auto.
  unfold calls. simpl. rewrite <- app_assoc. auto.
Qed.

Lemma history_pure : forall E V W ev (P : property E V W) beh s ks s', pure_property P beh -> quiet (gens P) -> no_leak beh ->
  history ev P s ks s' -> failures (cx s) = [] ->
  failures (cx s') = [] /\ exists l, drawn ev P (rnd s) l (rnd s') /\ map (fun a => kind_of (judge (beh a))) l = map Some ks /\ runs_to beh l s s'.
Proof.
  intros E V W ev P beh s ks s' HP Hq Hl H.
  assert (Step : forall s s1 o k ks s', attempt ev P s = Ok (o, s1) -> failures (cx s) = [] ->
    (o = AReturned true /\ failures (cx s1) = [] /\ k = Passed) \/ (o = AThrew ESuccess /\ k = Passed) \/ (o = AThrew EDiscard /\ k = Discarded) ->
    (failures (cx s1) = [] -> failures (cx s') = [] /\ exists l, drawn ev P (rnd s1) l (rnd s') /\ map (fun a => kind_of (judge (beh a))) l = map Some ks /\ runs_to beh l s1 s') ->
    failures (cx s') = [] /\ exists l, drawn ev P (rnd s) l (rnd s') /\ map (fun a => kind_of (judge (beh a))) l = map Some (k :: ks) /\ runs_to beh l s s').
  { clear s ks s' H. intros s s1 o k ks s' Ha H0 Hk IH.
    destruct (pure_attempt_inv _ _ _ _ _ _ _ _ _ HP Hq Ha) as [ts [r1 [Ev [Ho Hs1]]]].
    set (a := map eroot ts) in *.
    assert (Hfl : failures (cx s1) = failed_expectations (fst (beh a))) by (rewrite Hs1; unfold after; cbn [cx]; rewrite failures_ops, H0; auto).
    rewrite Hfl in Hk. destruct (accept_step _ beh a o k Hl Ho Hk) as [Hf Hkk]. rewrite <- Hfl in Hf.
    destruct (IH Hf) as [Hf' [l [Hd [Hm R]]]]. split; auto. exists (a :: l). subst s1.
    split; [eapply drawn_cons; eauto|]. split; [simpl; rewrite Hkk, Hm; auto|]. eapply runs_to_cons; eauto. }
  induction H as [s|s s1 ks s' Ha Hb Hc IH|s s1 ks s' Ha Hc IH|s s1 ks s' Ha Hc IH]; intros H0.
  { split; auto. exists []. split; [constructor|]. split; auto. unfold runs_to, calls, apply_ops. simpl. rewrite app_nil_r. auto. }
  all: eapply Step; eauto; intuition.
Qed.

Lemma judge_kind : forall V (beh : list V -> list op * ures) a k, kind_of (judge (beh a)) = Some k ->
  (k = Passed /\ judge (beh a) = JPass) \/ (k = Discarded /\ judge (beh a) = JDiscard).
Proof. intros V beh a k H. destruct (judge (beh a)); simpl in H; try discriminate; inversion H; auto. Qed.

Lemma history_pure_back : forall E V W ev (P : property E V W) beh, pure_property P beh -> no_leak beh ->
  forall l ks r r', drawn ev P r l r' -> map (fun a => kind_of (judge (beh a))) l = map Some ks ->
  forall s, rnd s = r -> failures (cx s) = [] -> exists s', history ev P s ks s' /\ rnd s' = r' /\ failures (cx s') = [] /\ runs_to beh l s s'.
Proof.
  intros E V W ev P beh HP Hl. induction l as [|a l IH]; intros ks r r' Hd Hm s Hr H0.
  - destruct ks; [|discriminate]. inversion Hd; subst. exists s. split; [constructor|]. split; auto. split; auto.
    unfold runs_to, calls, apply_ops. simpl. rewrite app_nil_r. auto.
  - destruct ks as [|k ks]; [discriminate|]. simpl in Hm. inversion Hm as [[Hk Hm']]. inversion Hd as [|? ts r1 ? ? Ev Hd']; subst.
    set (a := map eroot ts) in *.
    pose proof (pure_attempt _ _ _ _ _ _ _ _ _ HP Ev) as Ha. fold a in Ha.
    assert (Hfl : failures (cx (after beh a r1 s)) = failed_expectations (fst (beh a))) by (unfold after; cbn [cx]; rewrite failures_ops, H0; auto).
    assert (Hn : failed_expectations (fst (beh a)) = []).
    { destruct (failed_expectations (fst (beh a))) as [|f fs] eqn:Ef; auto. exfalso. destruct (Hl a) as [N1 N2]; [congruence|].
      unfold judge in Hk. destruct (snd (beh a)) as [b|e]; [rewrite Ef in Hk; discriminate|]. destruct e; simpl in Hk; try discriminate; congruence. }
    destruct (IH ks r1 r' Hd' Hm' (after beh a r1 s)) as [s' [H1 [H2 [H3 R]]]]; [reflexivity|congruence|].
    exists s'. split; [|split; auto; split; auto].
    + unfold judge in Hk. rewrite Hn in Hk. destruct (snd (beh a)) as [[|]|e] eqn:Eb; simpl in Hk; try discriminate.
      * inversion Hk; subst. eapply h_true; eauto. congruence.
      * destruct e; simpl in Hk; try discriminate; inversion Hk; subst; [eapply h_discard|eapply h_success]; eauto.
    + eapply runs_to_cons; eauto.
Qed.

Lemma falsifies_pure : forall E V W ev (P : property E V W) beh s why s', pure_property P beh -> quiet (gens P) ->
  falsifies ev P s why s' -> failures (cx s) = [] ->
  exists ts r1, evalTuple (ord_call ev) (gens P) (rnd s) = Ok (inl ts, r1) /\ judge (beh (map eroot ts)) = JFail why /\
   lg s' = lg s ++ calls beh [map eroot ts] /\ failures (cx s') = (match why with RException _ => failed_expectations (fst (beh (map eroot ts))) | _ => [] end) /\ wd s' = wd s.
Proof.
  intros E V W ev P beh s why s' HP Hq H H0.
  inversion H as [? b s1 Ha Hb|? s1 Ha Hb|? e s1 Ha Hb Hc Hd]; subst;
    destruct (pure_attempt_inv _ _ _ _ _ _ _ _ _ HP Hq Ha) as [ts [r1 [Ev [Ho Hs1]]]]; exists ts, r1; split; auto;
    set (a := map eroot ts) in *;
    match type of Hs1 with ?x = _ => assert (Hfl : failures (cx x) = failed_expectations (fst (beh a))) by (rewrite Hs1; unfold after; cbn [cx]; rewrite failures_ops, H0; auto) end.
  - split; [|rewrite Hs1; auto]. rewrite Hfl in *. unfold judge. destruct (snd (beh a)) as [b'|e]; simpl in Ho; [|destruct e; discriminate].
    destruct (failed_expectations (fst (beh a))); [congruence|]. auto.
  - split; [|split; [rewrite Hs1; auto|split; [auto|rewrite Hs1; auto]]]. rewrite Hfl in *. unfold judge. destruct (snd (beh a)) as [b'|e]; simpl in Ho; [|destruct e; discriminate].
    inversion Ho; subst. rewrite Hb. auto.
  - split; [|split; [rewrite Hs1; auto|split; [auto|rewrite Hs1; auto]]]. unfold judge. destruct (snd (beh a)) as [b'|e']; simpl in Ho; [discriminate|].
    destruct e'; simpl in Ho; inversion Ho; subst; congruence.
Qed.

Lemma falsifies_pure_back : forall E V W ev (P : property E V W) beh s why ts r1, pure_property P beh ->
  evalTuple (ord_call ev) (gens P) (rnd s) = Ok (inl ts, r1) -> judge (beh (map eroot ts)) = JFail why -> failures (cx s) = [] ->
  exists s', falsifies ev P s why s' /\ lg s' = lg s ++ calls beh [map eroot ts].
Proof.
  intros E V W ev P beh s why ts r1 HP Ev Hj H0. pose proof (pure_attempt _ _ _ _ _ _ _ _ _ HP Ev) as Ha.
  set (a := map eroot ts) in *.
  assert (Hfl : failures (cx (after beh a r1 s)) = failed_expectations (fst (beh a))) by (unfold after; cbn [cx]; rewrite failures_ops, H0; auto).
  unfold judge in Hj. destruct (snd (beh a)) as [b|e] eqn:Eb.
  - destruct (failed_expectations (fst (beh a))) as [|f fs] eqn:Ef.
    + destruct b; inversion Hj; subst. eexists. split; [eapply f_false; eauto|]. unfold calls. simpl. rewrite Eb. auto.
    + inversion Hj; subst. eexists. split; [rewrite <- Hfl; eapply f_expectation; eauto; rewrite Hfl; discriminate|]. unfold calls. simpl. rewrite Eb. auto.
  - destruct e; inversion Hj; subst; (eexists; split; [eapply f_exception; eauto; discriminate|]; unfold calls; simpl; rewrite Eb; auto).
Qed.
