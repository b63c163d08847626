(** Proofs about running properties. *)
From Coq Require Import String List ZArith Lia Bool Permutation.
From Verif Require Import Base TreeModel TreeSpec TreeProof RandomModel TupleModel TupleProof ContainerProof EffModel EffSpec EffProof
  ContextModel ContextSpec ContextProof RunnerModel RunnerSpec.
Import ListNotations.
Local Open Scope list_scope.

Lemma bind_ok : forall A B (x : res A) (f : A -> res B) b, bind x f = Ok b -> exists a, x = Ok a /\ f a = Ok b.
Proof. intros A B [a| | |] f b H; simpl in H; try discriminate. eauto. Qed.

Lemma flush_none : forall E V W (s : rs E V W), failures (cx s) = [] -> with_cx (snd (ctx_flush (cx s))) s = s.
Proof. intros E V W [r [t f l] w g] H. simpl in H. subst. auto. Qed.

(* one counted run *)
Lemma history_app : forall E V W ev (P : property E V W) s ks s' , history ev P s ks s' ->
  forall ks' s'', history ev P s' ks' s'' -> history ev P s (ks ++ ks') s''.
Proof. induction 1; intros ks' s'' H'; simpl; auto; [eapply h_true|eapply h_success|eapply h_discard]; eauto. Qed.

Lemma retry_passed : forall E V W ev (P : property E V W) fuel s s', retryRun fuel ev P s = Ok (SPassed s') ->
  exists n, history ev P s (repeat Discarded n ++ [Passed]) s'.
Proof.
  induction fuel as [|fuel IH]; intros s s' H; simpl in H; [discriminate|].
  apply bind_ok in H. destruct H as [[o s1] [Ha H]]. destruct o as [b|e].
  - destruct (failures (cx s1)) as [|f fs] eqn:Ef; [|discriminate]. destruct b; [|discriminate]. inversion H; subst. clear H.
    exists 0%nat. simpl. eapply h_true; eauto. rewrite <- Ef. pose proof (flush_none E V W s1 Ef) as Hf. simpl in Hf. rewrite Ef. rewrite Hf. constructor.
  - destruct e; try discriminate.
    + destruct (IH _ _ H) as [n Hn]. exists (S n). simpl. eapply h_discard; eauto.
    + inversion H; subst. exists 0%nat. simpl. eapply h_success; eauto. constructor.
Qed.

Lemma retry_failed : forall E V W ev (P : property E V W) fuel s why saved s', retryRun fuel ev P s = Ok (SFailed why saved s') ->
  exists n s0, history ev P s (repeat Discarded n) s0 /\ falsifies ev P s0 why s' /\ saved = rnd s0.
Proof.
  induction fuel as [|fuel IH]; intros s why saved s' H; simpl in H; [discriminate|].
  apply bind_ok in H. destruct H as [[o s1] [Ha H]]. destruct o as [b|e].
  - destruct (failures (cx s1)) as [|f fs] eqn:Ef.
    + destruct b; [discriminate|]. inversion H; subst. clear H. exists 0%nat, s. split; [constructor|]. split; auto.
      pose proof (flush_none E V W s1 Ef) as Hf. simpl in Hf. rewrite Hf. eapply f_false; eauto.
    + inversion H; subst. clear H. exists 0%nat, s. split; [constructor|]. split; auto.
      rewrite <- Ef. eapply (f_expectation ev P s b s1); eauto. congruence.
  - destruct e; try discriminate.
    4: { destruct (IH _ _ _ _ H) as [n [s0 [H1 [H2 H3]]]]. exists (S n), s0. simpl. split; auto. eapply h_discard; eauto. }
    all: inversion H; subst; exists 0%nat, s; split; [constructor|]; split; auto; eapply f_exception; eauto; discriminate.
Qed.

Ltac att := match goal with Ha : attempt _ _ _ = _ |- _ => rewrite Ha end; simpl.

Lemma retry_passed_back : forall E V W ev (P : property E V W) n s s', history ev P s (repeat Discarded n ++ [Passed]) s' ->
  forall fuel, (n < fuel)%nat -> retryRun fuel ev P s = Ok (SPassed s').
Proof.
  induction n as [|n IH]; intros s s' H fuel Hf; (destruct fuel as [|fuel]; [lia|]); simpl in H; inversion H as [|? s1 ? ? Ha Hb Hc|? s1 ? ? Ha Hc|? s1 ? ? Ha Hc]; subst; simpl; att.
  - rewrite Hb. inversion Hc; subst. pose proof (flush_none E V W s' Hb) as Hx. simpl in Hx. rewrite Hx. auto.
  - inversion Hc; subst. auto.
  - apply IH; auto. lia.
Qed.

Lemma retry_failed_back : forall E V W ev (P : property E V W) n s s0 why s', history ev P s (repeat Discarded n) s0 ->
  falsifies ev P s0 why s' ->
  forall fuel, (n < fuel)%nat -> retryRun fuel ev P s = Ok (SFailed why (rnd s0) s').
Proof.
  induction n as [|n IH]; intros s s0 why s' H Hfa fuel Hf; (destruct fuel as [|fuel]; [lia|]); simpl in H; inversion H as [|? s1 ? ? Ha Hb Hc|? s1 ? ? Ha Hc|? s1 ? ? Ha Hc]; subst; simpl.
  - inversion Hfa as [? b s1 Ha Hb|? s1 Ha Hb|? e s1 Ha Hb Hc Hd]; subst; att.
    + destruct (failures (cx s1)) eqn:Ef; [congruence|]. auto.
    + rewrite Hb. pose proof (flush_none E V W s' Hb) as Hx. simpl in Hx. rewrite Hx. auto.
    + destruct e; try congruence.
  - att. eapply IH; eauto. lia.
Qed.

(* splitting a history at its passed runs *)
Lemma repeat_app_split : forall ks, passes ks = 0%nat -> ks = repeat Discarded (length ks).
Proof. unfold passes. induction ks as [|[|] ks IH]; simpl; intros H; auto; [discriminate|]. f_equal. auto. Qed.

Lemma passes_app : forall a b, passes (a ++ b) = (passes a + passes b)%nat.
Proof. intros. unfold passes. rewrite filter_app, app_length. auto. Qed.

Lemma passes_repeat : forall n, passes (repeat Discarded n) = 0%nat.
Proof. unfold passes. induction n; simpl; auto. Qed.

Lemma split_pass : forall ks n, passes ks = S n -> exists k rest, ks = repeat Discarded k ++ Passed :: rest /\ passes rest = n.
Proof.
  induction ks as [|[|] ks IH]; intros n H; unfold passes in H; simpl in H; try discriminate.
  - exists 0%nat, ks. simpl. split; auto.
  - destruct (IH n H) as [k [rest [-> Hr]]]. exists (S k), rest. split; auto.
Qed.

Lemma history_split : forall E V W ev (P : property E V W) a b s s'', history ev P s (a ++ b) s'' ->
  exists s', history ev P s a s' /\ history ev P s' b s''.
Proof.
  induction a as [|k a IH]; intros b s s'' H; simpl in H; [exists s; split; auto; constructor|].
  inversion H; subst; (destruct (IH _ _ _ ltac:(eassumption)) as [s' [H1' H2']]; exists s'; split; auto);
    [eapply h_true|eapply h_success|eapply h_discard]; eauto.
Qed.

Definition unlimited {E V W} (P : property E V W) : Prop := maxDurationMs P = 0%Z.

(* may a counted run with index i start? *)
Definition in_time {E V W} (ev : env E) (P : property E V W) (i : nat) : Prop :=
  maxDurationMs P = 0%Z \/ (elapsed ev i <= maxDurationMs P)%Z.

Lemma in_time_false : forall E V W ev (P : property E V W) i,
  (negb (maxDurationMs P =? 0)%Z && (maxDurationMs P <? elapsed ev i)%Z) = false <-> in_time ev P i.
Proof.
  intros. unfold in_time. rewrite andb_false_iff, negb_false_iff, Z.eqb_eq, Z.ltb_ge. tauto.
Qed.

Lemma runLoop_ok : forall E V W ev (P : property E V W) fuel n i s v s', runLoop fuel ev P n i s = Ok (v, s') ->
  match v with
  | VPassed sm => sm = printSummary (cx s') /\ exists ks, history ev P s ks s' /\ passes ks = n /\ ends_in (fun k => k = Passed) ks
                  /\ forall j, (i <= j < i + n)%nat -> in_time ev P j
  | VTimedOut k sm => sm = printSummary (cx s') /\ exists ks, history ev P s ks s' /\ ends_in (fun k => k = Passed) ks /\ (passes ks < n)%nat /\ k = (i + passes ks)%nat
                  /\ (forall j, (i <= j < k)%nat -> in_time ev P j) /\ ~ in_time ev P k
  | VFalsified t why rep => exists ks s0 s1, history ev P s ks s0 /\ falsifies ev P s0 why s1 /\ (passes ks < n)%nat /\ t = S (i + passes ks)%nat
                  /\ (forall j, (i <= j < t)%nat -> in_time ev P j) /\ shrink ev P (with_rnd (rnd s0) s1) = Ok (rep, s')
  end.
Proof.
  intros E V W ev P fuel. induction n as [|n IH]; intros i s v s' H; simpl in H.
  - inversion H; subst. split; auto. exists []. split; [constructor|]. split; auto. split; [left; auto|]. intros. lia.
  - destruct (negb (maxDurationMs P =? 0)%Z && (maxDurationMs P <? elapsed ev i)%Z) eqn:Et.
    { inversion H; subst. split; auto. exists []. split; [constructor|]. split; [left; auto|]. unfold passes. simpl. split; [lia|]. split; [lia|].
      split; [intros; lia|]. rewrite <- in_time_false, Et. discriminate. }
    apply in_time_false in Et. apply bind_ok in H. destruct H as [st [Hr H]]. destruct st as [s2|why saved s2].
    + apply retry_passed in Hr. destruct Hr as [k Hk]. specialize (IH _ _ _ _ H).
      assert (Hp : forall ks, passes ((repeat Discarded k ++ [Passed]) ++ ks) = S (passes ks))
        by (intros; rewrite !passes_app, passes_repeat; auto).
      assert (He : forall ks, ends_in (fun k => k = Passed) ks -> ends_in (fun k => k = Passed) ((repeat Discarded k ++ [Passed]) ++ ks)).
      { intros ks [->|[l [a [-> Ha]]]]; right; [exists (repeat Discarded k), Passed; rewrite app_nil_r; auto|].
        exists ((repeat Discarded k ++ [Passed]) ++ l), a. rewrite <- !app_assoc. auto. }
      destruct v as [sm|kk sm|t why rep].
      * destruct IH as [Hs [ks [H1 [H2 [H3 H4]]]]]. split; auto. exists ((repeat Discarded k ++ [Passed]) ++ ks).
        split; [eapply history_app; eauto|]. rewrite Hp. split; auto. split; auto. intros j Hj. destruct (Nat.eq_dec j i); subst; auto. apply H4. lia.
      * destruct IH as [Hs [ks [H1 [H2 [H3 [H4 [H5 H6]]]]]]]. split; auto. exists ((repeat Discarded k ++ [Passed]) ++ ks).
        split; [eapply history_app; eauto|]. rewrite Hp. split; auto. split; [lia|]. split; [lia|]. split; auto.
        intros j Hj. destruct (Nat.eq_dec j i); subst; auto. apply H5. lia.
      * destruct IH as [ks [s0 [s1 [H1 [H2 [H3 [H4 [H5 H6]]]]]]]]. exists ((repeat Discarded k ++ [Passed]) ++ ks), s0, s1.
        split; [eapply history_app; eauto|]. rewrite Hp. split; auto. split; [lia|]. split; [lia|]. split; auto.
        intros j Hj. destruct (Nat.eq_dec j i); subst; auto. apply H5. lia.
    + apply retry_failed in Hr. destruct Hr as [k [s0 [H1 [H2 ->]]]]. apply bind_ok in H. destruct H as [[rep s3] [Hs H]]. inversion H; subst. clear H.
      exists (repeat Discarded k), s0, s2. rewrite passes_repeat. split; auto. split; auto. split; [lia|]. split; [lia|]. split; auto.
      intros j Hj. replace j with i by lia. auto.
Qed.

Lemma ends_in_cons : forall (k : kind) ks, ks <> [] -> ends_in (fun k => k = Passed) (k :: ks) -> ends_in (fun k => k = Passed) ks.
Proof.
  intros k ks Hn [H|[l [a [H Ha]]]]; [discriminate|]. right. destruct l as [|x l]; simpl in H; inversion H; subst; [congruence|]. eauto.
Qed.
Lemma ends_in_app : forall (l ks : list kind), ends_in (fun k => k = Passed) (l ++ ks) -> ends_in (fun k => k = Passed) ks.
Proof.
  induction l as [|x l IH]; intros ks H; auto. simpl in H. destruct ks as [|y ks]; [left; auto|].
  apply IH. eapply ends_in_cons; eauto. destruct l; discriminate.
Qed.

Lemma runLoop_passed : forall E V W ev (P : property E V W) n i ks s s', history ev P s ks s' -> passes ks = n ->
  ends_in (fun k => k = Passed) ks -> (forall j, (i <= j < i + n)%nat -> in_time ev P j) ->
  forall fuel, (length ks < fuel)%nat -> runLoop fuel ev P n i s = Ok (VPassed (printSummary (cx s')), s').
Proof.
  induction n as [|n IH]; intros i ks s s' H Hp He Ht fuel Hf.
  - destruct He as [->|[l [a [-> ->]]]]; [inversion H; subst; auto|]. rewrite passes_app in Hp. unfold passes in Hp at 2. simpl in Hp. lia.
  - destruct (split_pass _ _ Hp) as [k [rest [-> Hr]]]. change (Passed :: rest) with ([Passed] ++ rest) in *. rewrite app_assoc in *.
    apply history_split in H. destruct H as [s1 [H1 H2]]. simpl.
    assert (Ei : (negb (maxDurationMs P =? 0)%Z && (maxDurationMs P <? elapsed ev i)%Z) = false) by (apply in_time_false; apply Ht; lia).
    rewrite Ei. rewrite app_length in Hf. rewrite app_length in Hf. rewrite repeat_length in Hf. simpl in Hf.
    rewrite (retry_passed_back _ _ _ _ _ _ _ _ H1) by lia. simpl. eapply IH; eauto.
    + apply ends_in_app in He. auto.
    + intros j Hj. apply Ht. lia.
    + lia.
Qed.

Lemma runLoop_falsified : forall E V W ev (P : property E V W) n i ks s s0 why s1 rep s2, history ev P s ks s0 ->
  falsifies ev P s0 why s1 -> (passes ks < n)%nat -> (forall j, (i <= j <= i + passes ks)%nat -> in_time ev P j) ->
  shrink ev P (with_rnd (rnd s0) s1) = Ok (rep, s2) ->
  forall fuel, (length ks < fuel)%nat -> runLoop fuel ev P n i s = Ok (VFalsified (S (i + passes ks)) why rep, s2).
Proof.
  induction n as [|n IH]; intros i ks s s0 why s1 rep s2 H Hfa Hp Ht Hs fuel Hf; [lia|]. simpl.
  assert (Ei : (negb (maxDurationMs P =? 0)%Z && (maxDurationMs P <? elapsed ev i)%Z) = false) by (apply in_time_false; apply Ht; lia).
  rewrite Ei. destruct (passes ks) as [|p] eqn:Ep.
  - rewrite (repeat_app_split _ Ep) in H. rewrite (retry_failed_back _ _ _ _ _ _ _ _ _ _ H Hfa) by lia. simpl. rewrite Hs. simpl. rewrite Nat.add_0_r. auto.
  - destruct (split_pass _ _ Ep) as [k [rest [-> Hr]]]. change (Passed :: rest) with ([Passed] ++ rest) in *. rewrite app_assoc in *.
    apply history_split in H. destruct H as [s' [H1 H2]].
    rewrite app_length in Hf. rewrite app_length in Hf. rewrite repeat_length in Hf. simpl in Hf.
    rewrite (retry_passed_back _ _ _ _ _ _ _ _ H1) by lia. simpl.
    replace (i + S p)%nat with (S i + passes rest)%nat by lia. eapply IH; eauto; [lia| |lia].
    intros j Hj. apply Ht. lia.
Qed.

(* something that is not a std::exception: no clause catches it *)
Lemma retry_nonstd_back : forall E V W ev (P : property E V W) n s s0 s1, history ev P s (repeat Discarded n) s0 ->
  attempt ev P s0 = Ok (AThrew ENonStd, s1) -> forall fuel, (n < fuel)%nat -> retryRun fuel ev P s = Throw ENonStd.
Proof.
  induction n as [|n IH]; intros s s0 s1 H Hx fuel Hf; (destruct fuel as [|fuel]; [lia|]); simpl in H; inversion H as [|? s2 ? ? Ha Hb Hc|? s2 ? ? Ha Hc|? s2 ? ? Ha Hc]; subst; simpl; att; auto.
  eapply IH; eauto. lia.
Qed.

Lemma runLoop_nonstd : forall E V W ev (P : property E V W) n i ks s s0 s1, history ev P s ks s0 ->
  attempt ev P s0 = Ok (AThrew ENonStd, s1) -> (passes ks < n)%nat -> (forall j, (i <= j <= i + passes ks)%nat -> in_time ev P j) ->
  forall fuel, (length ks < fuel)%nat -> runLoop fuel ev P n i s = Throw ENonStd.
Proof.
  induction n as [|n IH]; intros i ks s s0 s1 H Hx Hp Ht fuel Hf; [lia|]. simpl.
  assert (Ei : (negb (maxDurationMs P =? 0)%Z && (maxDurationMs P <? elapsed ev i)%Z) = false) by (apply in_time_false; apply Ht; lia).
  rewrite Ei. destruct (passes ks) as [|p] eqn:Ep.
  - rewrite (repeat_app_split _ Ep) in H. rewrite (retry_nonstd_back _ _ _ _ _ _ _ _ _ H Hx) by lia. auto.
  - destruct (split_pass _ _ Ep) as [k [rest [-> Hr]]]. change (Passed :: rest) with ([Passed] ++ rest) in *. rewrite app_assoc in *.
    apply history_split in H. destruct H as [s' [H1 H2]].
    rewrite app_length in Hf. rewrite app_length in Hf. rewrite repeat_length in Hf. simpl in Hf.
    rewrite (retry_passed_back _ _ _ _ _ _ _ _ H1) by lia. simpl.
    eapply IH; eauto; [lia| |lia].
    intros j Hj. apply Ht. lia.
Qed.
