(** Proofs about running properties whose function depends on its arguments only, as far as the inputs that can be drawn are concerned. *)
From Coq Require Import String List ZArith Lia Bool Permutation.
From Verif Require Import Base TreeModel TreeSpec TreeProof RandomModel TupleModel TupleProof ContainerProof EffModel EffSpec EffProof
  ContextModel ContextSpec ContextProof RunnerModel RunnerSpec RunnerProof RunnerPureProof.
Import ListNotations.
Local Open Scope list_scope.

Lemma pure_attempt_on : forall E V W Q ev (P : property E V W) beh s ts r1, pure_on Q P beh -> Q (map eroot ts) ->
  evalTuple (ord_call ev) (gens P) (rnd s) = Ok (inl ts, r1) ->
  attempt ev P s = Ok (out (snd (beh (map eroot ts))), after beh (map eroot ts) r1 s).
Proof.
  intros E V W Q ev P beh s ts r1 [Hf [Hs Hc]] Hin H. unfold attempt. rewrite Hs. cbn [runHook]. rewrite H. cbn [bind].
  unfold callFunc. rewrite Hf by auto. unfold after. destruct (snd (beh (map eroot ts))) as [b|e] eqn:E1.
  - rewrite Hc. cbn. auto.
  - destruct e; auto.
Qed.

Lemma pure_attempt_inv_on : forall E V W Q ev (P : property E V W) beh s o s1, pure_on Q P beh -> inputs_in Q ev P -> quiet (gens P) ->
  attempt ev P s = Ok (o, s1) -> exists ts r1, evalTuple (ord_call ev) (gens P) (rnd s) = Ok (inl ts, r1) /\
  o = out (snd (beh (map eroot ts))) /\ s1 = after beh (map eroot ts) r1 s /\ Q (map eroot ts).
Proof.
  intros E V W Q ev P beh s o s1 HP Hin Hq H. destruct (evalTuple (ord_call ev) (gens P) (rnd s)) as [[[ts|e] r1]| | |] eqn:Ev.
  - rewrite (pure_attempt_on _ _ _ _ _ _ _ _ _ _ HP (Hin _ _ _ Ev) Ev) in H. inversion H; subst. exists ts, r1. repeat split; auto. eapply Hin; eauto.
  - exfalso. eapply evalTuple_quiet; eauto.
  - unfold attempt in H. destruct HP as [_ [Hs _]]. rewrite Hs in H. cbn [runHook] in H. rewrite Ev in H. discriminate.
  - unfold attempt in H. destruct HP as [_ [Hs _]]. rewrite Hs in H. cbn [runHook] in H. rewrite Ev in H. discriminate.
  - unfold attempt in H. destruct HP as [_ [Hs _]]. rewrite Hs in H. cbn [runHook] in H. rewrite Ev in H. discriminate.
Qed.

Lemma accept_step_on : forall V (Q : list V -> Prop) (beh : list V -> list op * ures) a o k, no_leak_on Q beh -> Q a -> o = out (snd (beh a)) ->
  (o = AReturned true /\ failed_expectations (fst (beh a)) = [] /\ k = Passed) \/ (o = AThrew ESuccess /\ k = Passed) \/ (o = AThrew EDiscard /\ k = Discarded) ->
  failed_expectations (fst (beh a)) = [] /\ kind_of (judge (beh a)) = Some k.
Proof.
  intros V Q beh a o k Hl Hqa Ho H. destruct H as [[-> [Hf ->]]|H].
  - split; auto. unfold judge. destruct (snd (beh a)) as [b|e]; simpl in Ho; [|destruct e; discriminate]. inversion Ho; subst. rewrite Hf. auto.
  - assert (Hx : (snd (beh a) = UThrow ESuccess /\ k = Passed) \/ (snd (beh a) = UThrow EDiscard /\ k = Discarded)).
    { destruct H as [[-> ->]|[-> ->]]; destruct (snd (beh a)) as [b|e]; simpl in Ho; try discriminate; destruct e; try discriminate; auto. }
    split.
    + destruct (failed_expectations (fst (beh a))) eqn:Ef; auto. exfalso. destruct (Hl a); [auto|congruence|]. intuition.
    + unfold judge. destruct Hx as [[-> ->]|[-> ->]]; auto.
Qed.

Lemma history_pure_on : forall E V W Q ev (P : property E V W) beh s ks s', pure_on Q P beh -> inputs_in Q ev P -> quiet (gens P) -> no_leak_on Q beh ->
  history ev P s ks s' -> failures (cx s) = [] ->
  failures (cx s') = [] /\ exists l, drawn ev P (rnd s) l (rnd s') /\ map (fun a => kind_of (judge (beh a))) l = map Some ks /\ runs_to beh l s s'.
Proof.
  intros E V W Q ev P beh s ks s' HP Hin Hq Hl H.
  assert (Step : forall s s1 o k ks s', attempt ev P s = Ok (o, s1) -> failures (cx s) = [] ->
    (o = AReturned true /\ failures (cx s1) = [] /\ k = Passed) \/ (o = AThrew ESuccess /\ k = Passed) \/ (o = AThrew EDiscard /\ k = Discarded) ->
    (failures (cx s1) = [] -> failures (cx s') = [] /\ exists l, drawn ev P (rnd s1) l (rnd s') /\ map (fun a => kind_of (judge (beh a))) l = map Some ks /\ runs_to beh l s1 s') ->
    failures (cx s') = [] /\ exists l, drawn ev P (rnd s) l (rnd s') /\ map (fun a => kind_of (judge (beh a))) l = map Some (k :: ks) /\ runs_to beh l s s').
  { clear s ks s' H. intros s s1 o k ks s' Ha H0 Hk IH.
    destruct (pure_attempt_inv_on _ _ _ _ _ _ _ _ _ _ HP Hin Hq Ha) as [ts [r1 [Ev [Ho [Hs1 Hqa]]]]].
    set (a := map eroot ts) in *.
    assert (Hfl : failures (cx s1) = failed_expectations (fst (beh a))) by (rewrite Hs1; unfold after; cbn [cx]; rewrite failures_ops, H0; auto).
    rewrite Hfl in Hk. destruct (accept_step_on _ Q beh a o k Hl Hqa Ho Hk) as [Hf Hkk]. rewrite <- Hfl in Hf.
    destruct (IH Hf) as [Hf' [l [Hd [Hm R]]]]. split; auto. exists (a :: l). subst s1.
    split; [eapply drawn_cons; eauto|]. split; [simpl; rewrite Hkk, Hm; auto|]. eapply runs_to_cons; eauto. }
  induction H as [s|s s1 ks s' Ha Hb Hc IH|s s1 ks s' Ha Hc IH|s s1 ks s' Ha Hc IH]; intros H0.
  { split; auto. exists []. split; [constructor|]. split; auto. unfold runs_to, calls, apply_ops. simpl. rewrite app_nil_r. auto. }
  all: eapply Step; eauto; intuition.
Qed.

Lemma falsifies_pure_on : forall E V W Q ev (P : property E V W) beh s why s', pure_on Q P beh -> inputs_in Q ev P -> quiet (gens P) ->
  falsifies ev P s why s' -> failures (cx s) = [] ->
  exists ts r1, evalTuple (ord_call ev) (gens P) (rnd s) = Ok (inl ts, r1) /\ judge (beh (map eroot ts)) = JFail why /\
   lg s' = lg s ++ calls beh [map eroot ts] /\ failures (cx s') = (match why with RException _ => failed_expectations (fst (beh (map eroot ts))) | _ => [] end) /\ wd s' = wd s.
Proof.
  intros E V W Q ev P beh s why s' HP Hin Hq H H0.
  inversion H as [? b s1 Ha Hb|? s1 Ha Hb|? e s1 Ha Hb Hc Hd]; subst;
    destruct (pure_attempt_inv_on _ _ _ _ _ _ _ _ _ _ HP Hin Hq Ha) as [ts [r1 [Ev [Ho [Hs1 _]]]]]; exists ts, r1; split; auto;
    set (a := map eroot ts) in *;
    match type of Hs1 with ?x = _ => assert (Hfl : failures (cx x) = failed_expectations (fst (beh a))) by (rewrite Hs1; unfold after; cbn [cx]; rewrite failures_ops, H0; auto) end.
  - split; [|rewrite Hs1; auto]. rewrite Hfl in *. unfold judge. destruct (snd (beh a)) as [b'|e]; simpl in Ho; [|destruct e; discriminate].
    destruct (failed_expectations (fst (beh a))); [congruence|]. auto.
  - split; [|split; [rewrite Hs1; auto|split; [auto|rewrite Hs1; auto]]]. rewrite Hfl in *. unfold judge. destruct (snd (beh a)) as [b'|e]; simpl in Ho; [|destruct e; discriminate].
    inversion Ho; subst. rewrite Hb. auto.
  - split; [|split; [rewrite Hs1; auto|split; [auto|rewrite Hs1; auto]]]. unfold judge. destruct (snd (beh a)) as [b'|e']; simpl in Ho; [discriminate|].
    destruct e'; simpl in Ho; inversion Ho; subst; congruence.
Qed.
