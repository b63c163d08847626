(** The models of a concurrent run, and that it can always finish. *)
From Coq Require Import List ZArith Bool Lia Arith.
From Verif Require Import Base TupleModel BitmapProof ConcModel ConcSpec ConcProof ConcInv ConcCo ConcMore.
Import ListNotations.
Local Open Scope list_scope.

Section Models.
Context {O M : Type}.
Variables (a : api) (front : list (act O M)) (rears : list (list (act O M))) (check : option (code O M unit)) (obj0 : O) (model0 : M).
Notation n := (length rears).
Notation inv := (inv a front rears check).

(** Rear threads move only between the front and the printing. *)
Lemma rear_phase : forall F T X (c : cfg O M) i t, inv F T X c -> nth_error (c_threads c) i = Some t -> t_pc t <> PNone -> t_pc t <> PEnd ->
  match c_co c with KStart _ | KWait _ | KSync | KJoin _ => True | _ => False end.
Proof.
  intros F T X c i t I Ht Nn Ne. assert (Hco := i_co _ _ _ _ _ _ _ _ I). unfold co_ok in Hco. destruct (c_co c); auto.
  1-5: destruct Hco as [(_ & _ & _ & Hp & _) _]; apply Nn; eauto.
  - apply Ne. destruct Hco as (_ & _ & Hp). eauto.
  - destruct Hco as ([(_ & _ & Hp & _)|(_ & _ & _ & _ & Hp)] & _); [apply Ne|apply Nn]; eauto.
  - destruct Hco as (? & ? & ? & ? & [(_ & _ & Hp & _)|(_ & _ & _ & _ & Hp)] & _); [apply Ne|apply Nn]; eauto.
  - destruct Hco as (_ & ? & [(_ & _ & Hp & _)|(_ & _ & _ & _ & Hp)] & _); [apply Ne|apply Nn]; eauto.
Qed.

(** What the front will leave, seen from a state of the front. *)
Definition after_body (k : nat) (p : code O M bool) (o : O) (m : M) : option (O * M) :=
  match alone p o m with (o', m', inl true) => sequentially a (skipn (S k) front) o' m' | _ => None end.
Definition fut (c : cfg O M) : option (O * M) :=
  match c_co c with
  | KFront k => sequentially a (skipn k front) (c_obj c) (c_model c)
  | KFrontPre k p =>
      match alone p (c_obj c) (c_model c) with
      | (o, m, inl true) => match nth_error front k with Some x => after_body k (body x) o m | None => None end
      | (o, m, inl false) => sequentially a (skipn (S k) front) o m
      | _ => None
      end
  | KFrontBody k p => after_body k p (c_obj c) (c_model c)
  | KFrontPush k => sequentially a (skipn (S k) front) (c_obj c) (c_model c)
  | _ => Some (c_obj c, c_model c)
  end.

Definition in_front (k : coord O M) : bool := match k with KFront _ | KFrontPre _ _ | KFrontBody _ _ | KFrontPush _ | KPrepare => true | _ => false end.
Definition checked (k : coord O M) : bool := match k with KChecking _ | KDone => true | _ => false end.

Record minv (tr : list (ev O M)) (c : cfg O M) : Prop := {
  m_front : in_front (c_co c) = true -> sequentially a front obj0 model0 = fut c;
  m_after : in_front (c_co c) = false -> exists oF mF, sequentially a front obj0 model0 = Some (oF, mF) /\
    (a = Func -> checked (c_co c) = false -> c_model c = mF) /\
    (a = Func -> n <= 1 -> checked (c_co c) = false -> c_obj c = oF) /\
    (a = Func -> forall i t, nth_error (c_threads c) i = Some t -> t_pc t <> PNone -> (forall k, ~ In (TStep k) (of (Some i) tr)) -> t_model t = mF);
  m_check : a = Func -> forall o m, In (VCheck o m) tr -> exists oF, sequentially a front obj0 model0 = Some (oF, m) /\ (n <= 1 -> o = oF)
}.

Lemma skipn_nth : forall X (l : list X) k x, nth_error l k = Some x -> skipn k l = x :: skipn (S k) l.
Proof. induction l; intros [|k] x H; cbn in *; try discriminate; [inversion H; auto|]. apply IHl; auto. Qed.
Lemma skipn_none : forall X (l : list X) k, nth_error l k = None -> skipn k l = [].
Proof. induction l; intros [|k] H; cbn in *; try discriminate; auto. Qed.

Lemma start_minv : minv [] (start obj0 model0 rears).
Proof. constructor; cbn; auto; [discriminate|intros _ o m []]. Qed.

Definition no_check (evs : list (ev O M)) : Prop := forall o m, ~ In (VCheck o m) evs.
Lemma minv_front : forall tr (c c' : cfg O M) evs, minv tr c -> in_front (c_co c) = true -> in_front (c_co c') = true -> fut c' = fut c -> no_check evs -> minv (tr ++ evs) c'.
Proof.
  intros tr c c' evs [H1 H2 H3] E1 E2 E3 E4. constructor.
  - intros _. rewrite E3. auto.
  - congruence.
  - intros Ea o m H. apply in_app_or in H. destruct H as [H|H]; [eauto|]. destruct (E4 _ _ H).
Qed.
Lemma minv_later : forall tr (c c' : cfg O M) evs, minv tr c -> in_front (c_co c) = false -> in_front (c_co c') = false ->
  (checked (c_co c') = false -> checked (c_co c) = false /\ c_model c' = c_model c /\ c_obj c' = c_obj c) -> c_threads c' = c_threads c -> no_check evs -> minv (tr ++ evs) c'.
Proof.
  intros tr c c' evs [H1 H2 H3] E1 E2 E3 E4 E5. constructor.
  - congruence.
  - intros _. destruct (H2 E1) as (oF & mF & Hs & P1 & P2 & P3). exists oF, mF. split; auto. split; [|split].
    + intros Ea Ec. destruct (E3 Ec) as (? & -> & _). auto.
    + intros Ea Hn Ec. destruct (E3 Ec) as (? & _ & ->). auto.
    + intros Ea i t Ht Hp Hno. rewrite E4 in Ht. apply (P3 Ea i); auto. intros k Hk. apply (Hno k). rewrite of_app. apply in_or_app; auto.
  - intros Ea o m H. apply in_app_or in H. destruct H as [H|H]; [eauto|]. destruct (E5 _ _ H).
Qed.

Lemma no_check_nil : no_check [].
Proof. intros o m []. Qed.
Lemma no_check_v : forall w e, no_check [V w e].
Proof. intros w e o m [H|[]]; discriminate. Qed.
Lemma no_check_p : forall l, no_check [VPrint l].
Proof. intros w e o [H|[]]; discriminate. Qed.

Lemma coord_minv : forall F T X tr (c c' : cfg O M) evs, inv F T X c -> minv tr c -> c_status c = Running -> stepCoord a front check c = Some (evs, c') -> minv (tr ++ evs) c'.
Proof.
  intros F T X tr c c' evs I H Hrun Hs. unfold stepCoord in Hs. destruct (c_co c) as [k|k p|k p|k| |j|j| |j| | |p|] eqn:K.
  - destruct (nth_error front k) as [x|] eqn:Ex.
    + assert (E := skipn_nth _ _ _ _ Ex). destruct a eqn:Ea; inversion Hs; subst evs c'; clear Hs; (eapply minv_front; [eauto|rewrite K; auto|auto| |]); try apply no_check_v; try apply no_check_nil;
        unfold fut; rewrite K, E; cbn [with_co c_co c_obj c_model sequentially]; rewrite ?Ex; unfold after_body; rewrite ?Ea; auto.
    + inversion Hs; subst evs c'. eapply minv_front; [eauto|rewrite K; auto|auto| |apply no_check_nil]. unfold fut. rewrite K, (skipn_none _ _ _ Ex). auto.
  - destruct p as [[|]|e|u nx].
    + destruct (nth_error front k) as [x|] eqn:Ex; [|discriminate]. inversion Hs; subst evs c'. eapply minv_front; [eauto|rewrite K; auto|auto| |apply no_check_v].
      unfold fut. rewrite K. cbn [alone]. rewrite Ex. auto.
    + inversion Hs; subst evs c'. eapply minv_front; [eauto|rewrite K; auto|auto| |apply no_check_v]. unfold fut. rewrite K. auto.
    + inversion Hs; subst evs c'. eapply minv_front; [eauto|rewrite K; auto|cbn; rewrite K; auto| |apply no_check_nil]. unfold fut. cbn [with_status c_co]. rewrite K. auto.
    + destruct (u (c_obj c) (c_model c)) as [o m] eqn:Eu. inversion Hs; subst evs c'. eapply minv_front; [eauto|rewrite K; auto|auto| |apply no_check_v].
      unfold fut. rewrite K. cbn. rewrite Eu. auto.
  - destruct p as [[|]|e|u nx].
    + inversion Hs; subst evs c'. eapply minv_front; [eauto|rewrite K; auto|destruct a; auto| |apply no_check_v]. unfold fut. rewrite K. cbn. destruct a; auto.
    + inversion Hs; subst evs c'. eapply minv_front; [eauto|rewrite K; auto|cbn; rewrite K; auto| |apply no_check_nil]. unfold fut. cbn [with_status c_co]. rewrite K. auto.
    + inversion Hs; subst evs c'. eapply minv_front; [eauto|rewrite K; auto|cbn; rewrite K; auto| |apply no_check_nil]. unfold fut. cbn [with_status c_co]. rewrite K. auto.
    + destruct (u (c_obj c) (c_model c)) as [o m] eqn:Eu. inversion Hs; subst evs c'. eapply minv_front; [eauto|rewrite K; auto|auto| |apply no_check_v].
      unfold fut, after_body. rewrite K. cbn. rewrite Eu. auto.
  - inversion Hs; subst evs c'. eapply minv_front; [eauto|rewrite K; auto|auto| |apply no_check_nil]. unfold fut. rewrite K. auto.
  - (* KPrepare *) inversion Hs; subst evs c'; clear Hs. rewrite app_nil_r. destruct H as [H1 H2 H3]. rewrite K in H1. specialize (H1 eq_refl). unfold fut in H1. rewrite K in H1.
    assert (Hco := i_co _ _ _ _ _ _ _ _ I). unfold co_ok in Hco. rewrite K in Hco. destruct Hco as ((_ & _ & _ & Hp & _) & _).
    assert (G : forall c' : cfg O M, c_obj c' = c_obj c -> c_model c' = c_model c -> c_threads c' = c_threads c -> in_front (c_co c') = false -> minv tr c').
    { intros c' E1 E2 E3 E4. constructor.
      - congruence.
      - intros _. exists (c_obj c), (c_model c). split; auto. split; auto. split; auto. intros Ea i t Ht N. rewrite E3 in Ht. destruct (N (Hp _ _ Ht)).
      - auto. }
    destruct a; [destruct (Nat.leb (length (c_threads c)) 1)|]; apply G; auto.
  - (* KStart *) destruct (nth_error (c_threads c) j) as [t|] eqn:Ht; inversion Hs; subst evs c'; clear Hs.
    + rewrite app_nil_r. destruct H as [H1 H2 H3]. constructor; [discriminate| |auto]. intros _. rewrite K in H2. destruct (H2 eq_refl) as (oF & mF & P0 & P1 & P2 & P3).
      exists oF, mF. split; auto. split; auto. split; auto. intros Ea i u Hu Hp Hno. cbn in Hu. apply setnth_inv in Hu. destruct Hu as [[-> ->]|[N Hu]]; [cbn; auto|eauto].
    + eapply minv_later; [eauto|rewrite K; auto|auto| |auto|apply no_check_nil]. rewrite K. auto.
  - (* KWait *) destruct (nth_error (c_threads c) j) as [t|] eqn:Ht; inversion Hs; subst evs c'; clear Hs.
    + destruct (t_ready t); [|rewrite app_nil_r; auto]. eapply minv_later; [eauto|rewrite K; auto|auto| |auto|apply no_check_nil]. rewrite K. auto.
    + eapply minv_later; [eauto|rewrite K; auto|auto| |auto|apply no_check_nil]. rewrite K. auto.
  - inversion Hs; subst evs c'. eapply minv_later; [eauto|rewrite K; auto|auto| |auto|apply no_check_nil]. rewrite K. auto.
  - destruct (nth_error (c_threads c) j) as [t|] eqn:Ht.
    + destruct (t_pc t); try discriminate. inversion Hs; subst evs c'. eapply minv_later; [eauto|rewrite K; auto|auto| |auto|apply no_check_nil]. rewrite K. auto.
    + inversion Hs; subst evs c'. eapply minv_later; [eauto|rewrite K; auto|auto| |auto|apply no_check_nil]. rewrite K. auto.
  - destruct (printing a (length front) c); inversion Hs; subst evs c'; (eapply minv_later; [eauto|rewrite K; auto|cbn; rewrite ?K; auto| |auto|]);
      try apply no_check_nil; try apply no_check_p; rewrite K; auto.
  - (* KCheck *) destruct check as [p|]; inversion Hs; subst evs c'; clear Hs.
    + destruct H as [H1 H2 H3]. rewrite K in H2. destruct (H2 eq_refl) as (oF & mF & P0 & P1 & P2 & P3). constructor; [discriminate| |].
      * intros _. exists oF, mF. split; auto. split; [discriminate|]. split; [discriminate|]. intros Ea i t Ht Hp Hno. apply (P3 Ea i); auto.
        intros k Hk. apply (Hno k). rewrite of_app. apply in_or_app; auto.
      * intros Ea o m Hin. apply in_app_or in Hin. destruct Hin as [Hin|[Hin|[]]]; [eauto|]. inversion Hin; subst. exists oF. split; [|auto].
        rewrite P0. f_equal. f_equal. symmetry. auto.
    + eapply minv_later; [eauto|rewrite K; auto|auto|discriminate|auto|apply no_check_nil].
  - destruct p as [[]|e|u nx].
    + inversion Hs; subst evs c'. eapply minv_later; [eauto|rewrite K; auto|auto|discriminate|auto|apply no_check_nil].
    + inversion Hs; subst evs c'. eapply minv_later; [eauto|rewrite K; auto|cbn; rewrite K; auto|cbn; rewrite K; discriminate|auto|apply no_check_nil].
    + destruct (u (c_obj c) (c_model c)) as [o m]. inversion Hs; subst evs c'. eapply minv_later; [eauto|rewrite K; auto|auto|discriminate|auto|apply no_check_nil].
  - discriminate.
Qed.

(** A step of a function-based rear thread leaves the model and the other threads alone. *)
Lemma step_private : forall (c c' : cfg O M) i evs, (forall t, nth_error (c_threads c) i = Some t -> forall k p, t_pc t <> PPre k p) ->
  stepThread Func i c = Some (evs, c') ->
  c_model c' = c_model c /\ c_co c' = c_co c /\
  (exists t t', nth_error (c_threads c) i = Some t /\ c_threads c' = set_nth i t' (c_threads c) /\ t_pc t <> PNone /\ t_pc t <> PEnd /\ (t_model t' = t_model t \/ exists k, In (V (Some i) (TStep k)) evs)).
Proof.
  intros c c' i evs Hpre H. unfold stepThread in H. destruct (nth_error (c_threads c) i) as [t|] eqn:Ht; [|discriminate]. specialize (Hpre t eq_refl).
  assert (G : forall t', t_pc t <> PNone /\ t_pc t <> PEnd -> c_threads c' = set_nth i t' (c_threads c) -> c_model c' = c_model c -> c_co c' = c_co c ->
     (t_model t' = t_model t \/ exists k, In (V (Some i) (TStep k)) evs) ->
     c_model c' = c_model c /\ c_co c' = c_co c /\
     (exists t0 t', Some t = Some t0 /\ c_threads c' = set_nth i t' (c_threads c) /\ t_pc t0 <> PNone /\ t_pc t0 <> PEnd /\ (t_model t' = t_model t0 \/ exists k, In (V (Some i) (TStep k)) evs))).
  { intros t' [E0 E0'] E1 E2 E3 E5. split; auto. split; auto. exists t, t'. auto. }
  assert (Gs : t_pc t <> PNone /\ t_pc t <> PEnd -> c_threads c' = c_threads c -> c_model c' = c_model c -> c_co c' = c_co c ->
     c_model c' = c_model c /\ c_co c' = c_co c /\
     (exists t0 t', Some t = Some t0 /\ c_threads c' = set_nth i t' (c_threads c) /\ t_pc t0 <> PNone /\ t_pc t0 <> PEnd /\ (t_model t' = t_model t0 \/ exists k, In (V (Some i) (TStep k)) evs))).
  { intros [E0 E0'] E1 E2 E3. split; auto. split; auto. exists t, t. rewrite E1, set_same by auto. repeat (split; auto). }
  assert (N : t_pc t <> PNone /\ t_pc t <> PEnd) by (destruct (t_pc t); split; discriminate).
  destruct (t_pc t) as [| | |k|k q|k last|k last slot|k q|] eqn:Epc; try discriminate; try (destruct N; tauto).
  - inversion H; subst evs c'. eapply G; [auto|reflexivity|auto|auto|auto].
  - inversion H; subst evs c'. destruct (c_sync c); [|apply Gs; auto]. eapply G; [auto|reflexivity|auto|auto|auto].
  - destruct (nth_error (t_acts t) k); inversion H; subst evs c'; (eapply G; [auto|reflexivity|auto|auto|auto]).
  - destruct (Hpre k q). auto.
  - inversion H; subst evs c'; (eapply G; [auto|reflexivity|auto|auto|auto]).
  - destruct (Nat.ltb slot (length (c_log c))); [|inversion H; subst evs c'; apply Gs; auto].
    destruct last; [inversion H; subst evs c'; (eapply G; [auto|reflexivity|auto|auto|auto])|]. destruct (nth_error (t_acts t) k); inversion H; subst evs c'; (eapply G; [auto|reflexivity|auto|auto|auto]).
  - destruct q as [[|]|e|u nx]; inversion H; subst evs c'.
    + eapply G; [auto|reflexivity|auto|auto|auto].
    + apply Gs; auto.
    + apply Gs; auto.
    + eapply G; [auto|reflexivity|auto|auto|]. right. exists k. cbn; auto.
Qed.

Lemma func_no_pre : forall F T X (c : cfg O M) i t k p, inv F T X c -> a = Func -> nth_error (c_threads c) i = Some t -> t_pc t <> PPre k p.
Proof.
  intros F T X c i t k p I Ea Ht E. destruct (i_thr _ _ _ _ _ _ _ _ I _ _ Ht) as (k0 & d & es & _ & _ & Hp). rewrite E, Ea in Hp. inversion Hp.
Qed.

Lemma step_nocheck : forall (c c' : cfg O M) i evs, stepThread a i c = Some (evs, c') -> forall e, In e evs -> exists x, e = V (Some i) x.
Proof.
  intros c c' i evs H e He. unfold stepThread in H.
  repeat match type of H with context [match ?x with _ => _ end] => destruct x; try discriminate end; inversion H; subst evs; cbn in He; repeat (destruct He as [<-|He]; eauto); destruct He.
Qed.

Lemma rear_minv : forall F T X (c c' : cfg O M) i evs, inv F T X c -> minv (F ++ T ++ X) c -> c_status c = Running -> stepThread a i c = Some (evs, c') -> minv ((F ++ T ++ X) ++ evs) c'.
Proof.
  intros F T X c c' i evs I [H1 H2 H3] Hrun Hs.
  destruct (stepThread_ok a T c i evs c' (i_thr _ _ _ _ _ _ _ _ I) Hs) as (t & Ht & Nn & Ne & Hcase). assert (Hph := rear_phase _ _ _ _ _ _ I Ht Nn Ne).
  assert (Kc : c_co c' = c_co c).
  { destruct Hcase as [(t' & es & _ & Hts)|(_ & s & -> & _)]; auto. apply Hts. }
  assert (Kf : in_front (c_co c) = false) by (destruct (c_co c); cbn; tauto).
  constructor.
  - rewrite Kc. congruence.
  - intros _. destruct (H2 Kf) as (oF & mF & P0 & P1 & P2 & P3). exists oF, mF. split; auto. split; [|split].
    + intros Ea Hc. rewrite Kc in Hc. destruct (step_private c c' i evs) as (-> & _); auto; [intros u Hu k p; eapply func_no_pre; eauto|rewrite <- Ea; auto].
    + intros Ea Hn Hc. exfalso. assert (Hco := i_co _ _ _ _ _ _ _ _ I). unfold co_ok, launched in Hco. destruct (c_co c); try tauto; destruct Hco as [(_ & _ & Hl) _]; specialize (Hl Ea); lia.
    + intros Ea j u Hu Hp Hno. destruct (step_private c c' i evs) as (_ & _ & t0 & t' & Ht0 & Et & _ & _ & Hm); [intros v Hv k p; eapply func_no_pre; eauto|rewrite <- Ea; auto|].
      rewrite Et in Hu. apply setnth_inv in Hu. destruct Hu as [[-> ->]|[N Hu]].
      * assert (t0 = t) by congruence. subst t0. destruct Hm as [->|(k & Hk)].
        -- apply (P3 Ea i); auto. intros k Hk. apply (Hno k). rewrite of_app. apply in_or_app; auto.
        -- exfalso. apply (Hno k). rewrite of_app. apply in_or_app. right. apply in_of. auto.
      * apply (P3 Ea j); auto. intros k Hk. apply (Hno k). rewrite of_app. apply in_or_app; auto.
  - intros Ea o m Hin. apply in_app_or in Hin. destruct Hin as [Hin|Hin]; [eauto|]. destruct (step_nocheck _ _ _ _ Hs _ Hin) as (x & E). discriminate.
Qed.

Lemma run_minv : forall schedule F T X (c : cfg O M) tr c', inv F T X c -> minv (F ++ T ++ X) c -> run a front check schedule c = (tr, c') -> minv ((F ++ T ++ X) ++ tr) c'.
Proof.
  induction schedule as [|w s IH]; intros F T X c tr c' I Hm H; cbn in H.
  - inversion H; subst. rewrite app_nil_r. auto.
  - destruct (move a front check w c) as [[evs c1]|] eqn:Em; [|eauto].
    destruct (run a front check s c1) as [tr1 c2] eqn:Er. inversion H; subst. destruct (move_inv _ _ _ _ _ _ _ _ _ _ _ I Em) as (F1 & T1 & X1 & I1 & E1).
    rewrite app_assoc, E1. apply (IH F1 T1 X1 c1 tr1 c' I1); [|auto]. rewrite <- E1. unfold move in Em. destruct (c_status c) eqn:Hr; try discriminate.
    destruct w as [|i]; [apply (coord_minv F T X _ c c1 evs)|apply (rear_minv F T X c c1 i evs)]; auto.
Qed.
Lemma outcome_minv : forall tr c, outcome a front rears check obj0 model0 tr c -> minv tr c.
Proof.
  intros tr c (s & H). apply (run_minv s [] [] [] _ tr c (start_inv a front rears check obj0 model0) start_minv H).
Qed.
End Models.

(** * A run can always be finished *)

Section Finish.
Context {O M : Type}.
Variables (a : api) (front : list (act O M)) (rears : list (list (act O M))) (check : option (code O M unit)).
Notation n := (length rears).
Notation inv := (inv a front rears check).

Definition over (c : cfg O M) : Prop := c_status c <> Running \/ c_co c = KDone.
Definition can (c : cfg O M) : Prop := exists s tr c', run a front check s c = (tr, c') /\ over c'.
Lemma can_now : forall c, over c -> can c.
Proof. intros c H. exists [], [], c. auto. Qed.
Lemma can_step : forall who c evs c', move a front check who c = Some (evs, c') -> can c' -> can c.
Proof.
  intros who c evs c' H (s & tr & c2 & Hr & Ho). exists (who :: s), (evs ++ tr), c2. cbn. rewrite H, Hr. auto.
Qed.
Lemma can_threw : forall c : cfg O M, c_status c <> Running -> can c.
Proof. intros; apply can_now; left; auto. Qed.

Lemma move_rear : forall i (c : cfg O M), c_status c = Running -> move a front check (Rear i) c = stepThread a i c.
Proof. intros i c H. unfold move. rewrite H. auto. Qed.
Lemma move_coord : forall (c : cfg O M), c_status c = Running -> move a front check Coord c = stepCoord a front check c.
Proof. intros c H. unfold move. rewrite H. auto. Qed.

(** Everything but thread [i] and the data is as before. *)
Definition same_but (i : nat) (c c' : cfg O M) : Prop :=
  c_status c' = Running /\ c_co c' = c_co c /\ c_sync c' = c_sync c /\ length (c_threads c') = length (c_threads c) /\
  forall j, j <> i -> nth_error (c_threads c') j = nth_error (c_threads c) j.
Lemma same_trans : forall i c1 c2 c3, same_but i c1 c2 -> same_but i c2 c3 -> same_but i c1 c3.
Proof.
  intros i c1 c2 c3 (A1 & A2 & A3 & A4 & A5) (B1 & B2 & B3 & B4 & B5). unfold same_but. rewrite B2, B3, B4. repeat (split; auto). intros j N. rewrite B5, A5; auto.
Qed.
Lemma same_set : forall i t (c : cfg O M), c_status c = Running -> same_but i c (set_thread i t c).
Proof. intros i t c H. repeat (split; auto); cbn. - apply setnth_len. - intros j N. apply setnth_other; auto. Qed.

(** Thread [i] can be run to its end from [c]: a run goes on from there. *)
Definition reach (c c' : cfg O M) : Prop := exists s tr, run a front check s c = (tr, c').
Lemma reach_step : forall who c evs c1 c2, move a front check who c = Some (evs, c1) -> reach c1 c2 -> reach c c2.
Proof. intros who c evs c1 c2 H (s & tr & E). exists (who :: s), (evs ++ tr). cbn. rewrite H, E. auto. Qed.
Definition to_end (i : nat) (c : cfg O M) : Prop :=
  (forall c' t', reach c c' -> same_but i c c' -> nth_error (c_threads c') i = Some t' -> t_pc t' = PEnd -> can c') -> can c.
Lemma to_end_step : forall i (c c' : cfg O M) evs, move a front check (Rear i) c = Some (evs, c') -> same_but i c c' -> to_end i c' -> to_end i c.
Proof.
  intros i c c' evs H Hs He K. eapply can_step; eauto. apply He. intros c2 t2 Hr H2. apply K; [eapply reach_step; eauto|eapply same_trans; eauto].
Qed.
Lemma to_end_fail : forall i (c c' : cfg O M) evs, move a front check (Rear i) c = Some (evs, c') -> c_status c' <> Running -> to_end i c.
Proof. intros i c c' evs H Hs K. eapply can_step; eauto. apply can_threw; auto. Qed.

Definition at_pc (i : nat) (acts : list (act O M)) (p : pc O M) (c : cfg O M) : Prop :=
  c_status c = Running /\ exists t, nth_error (c_threads c) i = Some t /\ t_pc t = p /\ t_acts t = acts.

Ltac thread_at H := destruct H as (Hrun & t & Ht & Hp & Hacts).
Ltac go_thread := rewrite move_rear by auto; unfold stepThread;
  match goal with Ht : nth_error (c_threads _) _ = Some ?t, Hp : t_pc ?t = _ |- _ => rewrite Ht, Hp end.

Lemma at_set : forall i (c : cfg O M) t t' acts, c_status c = Running -> nth_error (c_threads c) i = Some t -> t_acts t' = acts -> at_pc i acts (t_pc t') (set_thread i t' c).
Proof. intros. split; auto. exists t'. split; [eapply setnth_at; eauto|auto]. Qed.

Lemma act_end : forall i acts k x, nth_error acts k = Some x -> (forall c, at_pc i acts (PNext (S k)) c -> to_end i c) ->
  forall p, match p with PPre j _ | PTake j _ | PWrite j _ _ | PBody j _ => j = k | _ => False end -> forall c, at_pc i acts p c -> to_end i c.
Proof.
  intros i acts k x Ex IHk.
  assert (W1 : forall c s, at_pc i acts (PWrite k true s) c -> to_end i c).
  { intros c s H. thread_at H. destruct (Nat.ltb s (length (c_log c))) eqn:El.
    - eapply to_end_step; [go_thread; rewrite El; reflexivity|apply (same_set _ _ (with_log _ _ c)); auto|]. apply IHk. eapply (at_set _ (with_log _ _ c) _ (with_pc (PNext (S k)) t)); eauto.
    - eapply to_end_fail; [go_thread; rewrite El; reflexivity|]. discriminate. }
  assert (T1 : forall c, at_pc i acts (PTake k true) c -> to_end i c).
  { intros c H. thread_at H. eapply to_end_step; [go_thread; reflexivity|apply (same_set _ _ (with_log _ _ c)); auto|].
    eapply W1. eapply (at_set _ (with_log _ _ c) _ (with_pc (PWrite k true (c_counter c)) t)); eauto. }
  assert (B : forall p c, at_pc i acts (PBody k p) c -> to_end i c).
  { induction p as [b|e|u nx IHp]; intros c H; thread_at H.
    - destruct b.
      + eapply to_end_step; [go_thread; reflexivity|apply same_set; auto|]. apply T1. eapply (at_set _ c _ (with_pc (PTake k true) t)); eauto.
      + eapply to_end_fail; [go_thread; reflexivity|discriminate].
    - eapply to_end_fail; [go_thread; reflexivity|discriminate].
    - eapply to_end_step; [go_thread; reflexivity| |].
      + unfold stepped. destruct a; apply (same_set _ _ (with_obj_model _ _ c)); auto.
      + eapply IHp. unfold stepped. destruct a; (split; [auto|]); eexists; (split; [eapply setnth_at; eauto|]); split; try reflexivity; auto. }
  assert (W0 : forall c s, at_pc i acts (PWrite k false s) c -> to_end i c).
  { intros c s H. thread_at H. destruct (Nat.ltb s (length (c_log c))) eqn:El.
    - eapply to_end_step; [go_thread; rewrite El, Hacts, Ex; reflexivity|apply (same_set _ _ (with_log _ _ c)); auto|]. eapply B. eapply (at_set _ (with_log _ _ c) _ (with_pc (PBody k (body x)) t)); eauto.
    - eapply to_end_fail; [go_thread; rewrite El; reflexivity|]. discriminate. }
  assert (T0 : forall c, at_pc i acts (PTake k false) c -> to_end i c).
  { intros c H. thread_at H. eapply to_end_step; [go_thread; reflexivity|apply (same_set _ _ (with_log _ _ c)); auto|].
    eapply W0. eapply (at_set _ (with_log _ _ c) _ (with_pc (PWrite k false (c_counter c)) t)); eauto. }
  assert (P : forall p c, at_pc i acts (PPre k p) c -> to_end i c).
  { induction p as [b|e|u nx IHp]; intros c H; thread_at H.
    - destruct b.
      + eapply to_end_step; [go_thread; rewrite Hacts, Ex; reflexivity|apply same_set; auto|]. eapply B. eapply (at_set _ c _ (with_pc (PBody k (body x)) t)); eauto.
      + eapply to_end_step; [go_thread; reflexivity|apply same_set; auto|]. apply IHk. eapply (at_set _ c _ (with_pc (PNext (S k)) t)); eauto.
    - eapply to_end_fail; [go_thread; reflexivity|discriminate].
    - eapply to_end_step; [go_thread; reflexivity| |].
      + unfold stepped. destruct a; apply (same_set _ _ (with_obj_model _ _ c)); auto.
      + eapply IHp. unfold stepped. destruct a; (split; [auto|]); eexists; (split; [eapply setnth_at; eauto|]); split; try reflexivity; auto. }
  intros p Hp c H. destruct p; try tauto; subst; eauto. - destruct last; eauto. - destruct last; eauto.
Qed.

Lemma next_end : forall i acts m k, m + k = length acts -> forall c, at_pc i acts (PNext k) c -> to_end i c.
Proof.
  induction m as [|m IH]; intros k E c H; thread_at H.
  - assert (Ex : nth_error acts k = None) by (apply nth_error_None; lia).
    eapply to_end_step with (c' := set_thread i (with_pc PEnd t) c).
    + go_thread. rewrite Hacts, Ex. reflexivity.
    + apply same_set; auto.
    + intros K. eapply K; [exists [], []; reflexivity|repeat (split; auto)|eapply setnth_at; eauto|auto].
  - destruct (nth_error acts k) as [x|] eqn:Ex; [|apply nth_error_None in Ex; lia].
    eapply to_end_step; [go_thread; rewrite Hacts, Ex; reflexivity|apply same_set; auto|].
    eapply (act_end i acts k x Ex (IH (S k) ltac:(lia))); [|eapply at_set; eauto]. destruct a; reflexivity.
Qed.

(** A thread that was started can be run to its end once sync_ready is set. *)
Lemma any_end : forall F T X (c : cfg O M) i t, inv F T X c -> c_status c = Running -> c_sync c = true -> nth_error (c_threads c) i = Some t -> t_pc t <> PNone -> t_pc t <> PBegin -> to_end i c.
Proof.
  intros F T X c i t I Hrun Hs Ht N1 N2. destruct (i_thr _ _ _ _ _ _ _ _ I _ _ Ht) as (k & d & es & _ & _ & Hp).
  assert (A : at_pc i (t_acts t) (t_pc t) c) by (split; auto; exists t; auto).
  assert (G : forall j, j < length (t_acts t) -> match t_pc t with PPre z _ | PTake z _ | PWrite z _ _ | PBody z _ => z = j | _ => False end -> to_end i c).
  { intros j Hj Hpc. destruct (nth_error (t_acts t) j) as [x|] eqn:Ex; [|apply nth_error_None in Ex; lia].
    eapply (act_end i (t_acts t) j x Ex); [|exact Hpc|exact A]. apply (next_end i _ (length (t_acts t) - S j)). lia. }
  remember (t_pc t) as p eqn:Ep. destruct p; try congruence.
  - (* PSpin *) eapply to_end_step; [rewrite move_rear by auto; unfold stepThread; rewrite Ht, <- Ep, Hs; reflexivity|apply same_set; auto|].
    apply (next_end i (t_acts t) (length (t_acts t)) 0); [lia|]. eapply (at_set _ c _ (with_pc (PNext 0) t)); eauto.
  - inversion Hp; subst. apply (next_end i (t_acts t) (length (t_acts t) - k) k); [lia|auto].
  - inversion Hp; subst. eapply G; eauto.
  - inversion Hp; subst; eapply G; eauto.
  - inversion Hp; subst; eapply G; eauto.
  - inversion Hp; subst; eapply G; eauto.
  - intros K. eapply K; [exists [], []; reflexivity| |exact Ht|auto]. repeat (split; auto).
Qed.

(** ** invoke *)

Lemma can_move : forall F T X who (c : cfg O M), inv F T X c -> forall evs c', move a front check who c = Some (evs, c') -> exists F' T' X', inv F' T' X' c'.
Proof. intros F T X who c I evs c' H. destruct (move_inv _ _ _ _ _ _ _ _ _ _ _ I H) as (F' & T' & X' & I' & _). eauto. Qed.

Ltac go_co := rewrite move_coord by auto; unfold stepCoord; match goal with K : c_co _ = _ |- _ => rewrite K end.

Lemma checking_can : forall p (c : cfg O M), c_status c = Running -> c_co c = KChecking p -> can c.
Proof.
  induction p as [r|e|u nx IH]; intros c Hrun K.
  - eapply can_step; [go_co; reflexivity|]. apply can_now. right. auto.
  - eapply can_step; [go_co; reflexivity|]. apply can_threw. discriminate.
  - destruct (u (c_obj c) (c_model c)) as [o m] eqn:E. eapply can_step; [go_co; rewrite E; reflexivity|]. apply (IH (c_obj c) (c_model c)); auto.
Qed.
Lemma check_can : forall (c : cfg O M), c_status c = Running -> c_co c = KCheck -> can c.
Proof.
  intros c Hrun K. destruct check as [p|] eqn:Ec.
  - eapply can_step; [go_co; rewrite Ec; reflexivity|]. apply (checking_can p); auto.
  - eapply can_step; [go_co; rewrite Ec; reflexivity|]. apply can_now. right. auto.
Qed.
Lemma print_can : forall (c : cfg O M), c_status c = Running -> c_co c = KPrint -> can c.
Proof.
  intros c Hrun K. destruct (printing a (length front) c) eqn:E.
  1: eapply can_step; [go_co; rewrite E; reflexivity|]; apply check_can; auto.
  all: eapply can_step; [go_co; rewrite E; reflexivity|]; apply can_threw; discriminate.
Qed.

Lemma join_can : forall m j F T X (c : cfg O M), inv F T X c -> m + j = length (c_threads c) -> c_status c = Running -> c_co c = KJoin j -> can c.
Proof.
  induction m as [|m IH]; intros j F T X c I E Hrun K.
  - eapply can_step; [go_co; rewrite (proj2 (nth_error_None (c_threads c) j)) by lia; reflexivity|]. apply print_can; auto.
  - destruct (nth_error (c_threads c) j) as [t|] eqn:Ht; [|apply nth_error_None in Ht; lia].
    assert (Hco := i_co _ _ _ _ _ _ _ _ I). unfold co_ok in Hco. rewrite K in Hco. destruct Hco as (_ & _ & Hsync & Hp). destruct (Hp _ _ Ht) as (N1 & N2 & _).
    apply (any_end F T X c j t I Hrun Hsync Ht N1 N2). intros c1 t1 (s & tr & Hr) (Hr1 & K1 & _ & L1 & _) Ht1 Ep.
    destruct (run_inv _ _ _ _ _ _ _ _ _ _ _ I Hr) as (F1 & T1 & X1 & I1 & _). rewrite K in K1.
    assert (Em : move a front check Coord c1 = Some ([], with_co (KJoin (S j)) c1)) by (go_co; rewrite Ht1, Ep; auto).
    destruct (can_move _ _ _ _ _ I1 _ _ Em) as (F2 & T2 & X2 & I2). eapply can_step; [exact Em|]. apply (IH (S j) F2 T2 X2); auto. cbn. lia.
Qed.
Lemma sync_can : forall F T X (c : cfg O M), inv F T X c -> c_status c = Running -> c_co c = KSync -> can c.
Proof.
  intros F T X c I Hrun K. assert (Em : move a front check Coord c = Some ([], with_co (KJoin 0) (with_sync c))) by (go_co; auto).
  destruct (can_move _ _ _ _ _ I _ _ Em) as (F2 & T2 & X2 & I2). eapply can_step; [exact Em|]. apply (join_can (length (c_threads c)) 0 F2 T2 X2); auto.
Qed.
Lemma wait_can : forall m j F T X (c : cfg O M), inv F T X c -> m + j = length (c_threads c) -> c_status c = Running -> c_co c = KWait j -> can c.
Proof.
  induction m as [|m IH]; intros j F T X c I E Hrun K.
  - assert (Em : move a front check Coord c = Some ([], with_co KSync c)) by (go_co; rewrite (proj2 (nth_error_None (c_threads c) j)) by lia; auto).
    destruct (can_move _ _ _ _ _ I _ _ Em) as (F2 & T2 & X2 & I2). eapply can_step; [exact Em|]. apply (sync_can F2 T2 X2); auto.
  - assert (G : forall F T X (c : cfg O M) t, inv F T X c -> S m + j = length (c_threads c) -> c_status c = Running -> c_co c = KWait j -> nth_error (c_threads c) j = Some t -> t_ready t = true -> can c).
    { clear - IH. intros F T X c t I E Hrun K Ht Hr. assert (Em : move a front check Coord c = Some ([], with_co (KWait (S j)) c)) by (go_co; rewrite Ht, Hr; auto).
      destruct (can_move _ _ _ _ _ I _ _ Em) as (F2 & T2 & X2 & I2). eapply can_step; [exact Em|]. apply (IH (S j) F2 T2 X2); auto. cbn. lia. }
    destruct (nth_error (c_threads c) j) as [t|] eqn:Ht; [|apply nth_error_None in Ht; lia].
    assert (Hco := i_co _ _ _ _ _ _ _ _ I). unfold co_ok in Hco. rewrite K in Hco. destruct Hco as (_ & _ & _ & _ & Hp). destruct (Hp _ _ Ht) as [(P & _)|(_ & P)]; [|eapply G; eauto].
    assert (Em : move a front check (Rear j) c = Some ([], set_thread j {| t_pc := PSpin; t_ready := true; t_acts := t_acts t; t_model := t_model t |} c)).
    { rewrite move_rear by auto. unfold stepThread. rewrite Ht, P. auto. }
    destruct (can_move _ _ _ _ _ I _ _ Em) as (F2 & T2 & X2 & I2). eapply can_step; [exact Em|]. eapply (G F2 T2 X2); auto; [cbn; rewrite setnth_len; auto|eapply setnth_at; eauto|auto].
Qed.
Lemma start_can : forall m j F T X (c : cfg O M), inv F T X c -> m + j = length (c_threads c) -> c_status c = Running -> c_co c = KStart j -> can c.
Proof.
  induction m as [|m IH]; intros j F T X c I E Hrun K.
  - assert (Em : move a front check Coord c = Some ([], with_co (KWait 0) c)) by (go_co; rewrite (proj2 (nth_error_None (c_threads c) j)) by lia; auto).
    destruct (can_move _ _ _ _ _ I _ _ Em) as (F2 & T2 & X2 & I2). eapply can_step; [exact Em|]. apply (wait_can (length (c_threads c)) 0 F2 T2 X2); auto.
  - destruct (nth_error (c_threads c) j) as [t|] eqn:Ht; [|apply nth_error_None in Ht; lia].
    assert (Em : move a front check Coord c = Some ([], with_co (KStart (S j)) (set_thread j {| t_pc := PBegin; t_ready := false; t_acts := t_acts t; t_model := c_model c |} c))) by (go_co; rewrite Ht; auto).
    destruct (can_move _ _ _ _ _ I _ _ Em) as (F2 & T2 & X2 & I2). eapply can_step; [exact Em|]. apply (IH (S j) F2 T2 X2); auto. cbn. rewrite setnth_len. lia.
Qed.
Lemma prepare_can : forall F T X (c : cfg O M), inv F T X c -> c_status c = Running -> c_co c = KPrepare -> can c.
Proof.
  intros F T X c I Hrun K.
  assert (Em : exists c', move a front check Coord c = Some ([], c') /\ c_status c' = Running /\ (c_co c' = KCheck \/ c_co c' = KStart 0)).
  { eexists. split; [go_co; reflexivity|]. destruct a; [destruct (Nat.leb (length (c_threads c)) 1)|]; auto. }
  destruct Em as (c' & Em & Hr & Hc). destruct (can_move _ _ _ _ _ I _ _ Em) as (F2 & T2 & X2 & I2). eapply can_step; [exact Em|].
  destruct Hc as [Hc|Hc]; [apply check_can; auto|]. apply (start_can (length (c_threads c')) 0 F2 T2 X2); auto.
Qed.

(** The front: what is needed at the head of the loop is enough everywhere. *)
Lemma front_act_can : forall k x, nth_error front k = Some x -> (forall F T X c, inv F T X c -> c_status c = Running -> c_co c = KFront (S k) -> can c) ->
  (forall p F T X (c : cfg O M), inv F T X c -> c_status c = Running -> c_co c = KFrontPre k p -> can c) /\
  (forall p F T X (c : cfg O M), inv F T X c -> c_status c = Running -> c_co c = KFrontBody k p -> can c) /\
  (forall F T X (c : cfg O M), inv F T X c -> c_status c = Running -> c_co c = KFrontPush k -> can c).
Proof.
  intros k x Ex K.
  assert (P : forall F T X (c : cfg O M), inv F T X c -> c_status c = Running -> c_co c = KFrontPush k -> can c).
  { intros F T X c I Hrun Kc. assert (Em : move a front check Coord c = Some ([], with_co (KFront (S k)) (with_log (S (c_counter c)) (c_log c ++ [(-1)%Z]) c))) by (go_co; auto).
    destruct (can_move _ _ _ _ _ I _ _ Em) as (F2 & T2 & X2 & I2). eapply can_step; [exact Em|]. apply (K F2 T2 X2); auto. }
  assert (B : forall p F T X (c : cfg O M), inv F T X c -> c_status c = Running -> c_co c = KFrontBody k p -> can c).
  { induction p as [b|e|u nx IH]; intros F T X c I Hrun Kc.
    - destruct b; [|eapply can_step; [go_co; reflexivity|apply can_threw; discriminate]].
      assert (Em : exists c', move a front check Coord c = Some ([V None (TEnd k)], c') /\ c_status c' = Running /\ (c_co c' = KFrontPush k \/ c_co c' = KFront (S k))).
      { eexists. split; [go_co; reflexivity|]. destruct a; auto. }
      destruct Em as (c' & Em & Hr & Hc). destruct (can_move _ _ _ _ _ I _ _ Em) as (F2 & T2 & X2 & I2). eapply can_step; [exact Em|].
      destruct Hc as [Hc|Hc]; [apply (P F2 T2 X2)|apply (K F2 T2 X2)]; auto.
    - eapply can_step; [go_co; reflexivity|apply can_threw; discriminate].
    - destruct (u (c_obj c) (c_model c)) as [o m] eqn:E.
      assert (Em : move a front check Coord c = Some ([V None (TStep k)], with_co (KFrontBody k (nx (c_obj c) (c_model c))) (with_obj_model o m c))) by (go_co; rewrite E; auto).
      destruct (can_move _ _ _ _ _ I _ _ Em) as (F2 & T2 & X2 & I2). eapply can_step; [exact Em|]. apply (IH (c_obj c) (c_model c) F2 T2 X2); auto. }
  split; [|auto]. induction p as [b|e|u nx IH]; intros F T X c I Hrun Kc.
  - destruct b.
    + assert (Em : move a front check Coord c = Some ([V None (TStart k)], with_co (KFrontBody k (body x)) c)) by (go_co; rewrite Ex; auto).
      destruct (can_move _ _ _ _ _ I _ _ Em) as (F2 & T2 & X2 & I2). eapply can_step; [exact Em|]. apply (B (body x) F2 T2 X2); auto.
    + assert (Em : move a front check Coord c = Some ([V None (TSkip k)], with_co (KFront (S k)) c)) by (go_co; auto).
      destruct (can_move _ _ _ _ _ I _ _ Em) as (F2 & T2 & X2 & I2). eapply can_step; [exact Em|]. apply (K F2 T2 X2); auto.
  - eapply can_step; [go_co; reflexivity|apply can_threw; discriminate].
  - destruct (u (c_obj c) (c_model c)) as [o m] eqn:E.
    assert (Em : move a front check Coord c = Some ([V None (TPre k)], with_co (KFrontPre k (nx (c_obj c) (c_model c))) (with_obj_model o m c))) by (go_co; rewrite E; auto).
    destruct (can_move _ _ _ _ _ I _ _ Em) as (F2 & T2 & X2 & I2). eapply can_step; [exact Em|]. apply (IH (c_obj c) (c_model c) F2 T2 X2); auto.
Qed.
Lemma front_can : forall m k, m + k = length front -> forall F T X (c : cfg O M), inv F T X c -> c_status c = Running -> c_co c = KFront k -> can c.
Proof.
  induction m as [|m IH]; intros k E F T X c I Hrun K.
  - assert (Em : move a front check Coord c = Some ([], with_co KPrepare c)) by (go_co; rewrite (proj2 (nth_error_None front k)) by lia; auto).
    destruct (can_move _ _ _ _ _ I _ _ Em) as (F2 & T2 & X2 & I2). eapply can_step; [exact Em|]. apply (prepare_can F2 T2 X2); auto.
  - destruct (nth_error front k) as [x|] eqn:Ex; [|apply nth_error_None in Ex; lia].
    destruct (front_act_can k x Ex (IH (S k) ltac:(lia))) as (Pp & Pb & _).
    assert (Em : exists evs c', move a front check Coord c = Some (evs, c') /\ c_status c' = Running /\ (c_co c' = KFrontBody k (body x) \/ c_co c' = KFrontPre k (pre x))).
    { rewrite move_coord by auto. unfold stepCoord. rewrite K, Ex. destruct a; (eexists; eexists; split; [reflexivity|auto]). }
    destruct Em as (evs & c' & Em & Hr & Hc). destruct (can_move _ _ _ _ _ I _ _ Em) as (F2 & T2 & X2 & I2). eapply can_step; [exact Em|].
    destruct Hc as [Hc|Hc]; [apply (Pb (body x) F2 T2 X2 c')|apply (Pp (pre x) F2 T2 X2 c')]; auto.
Qed.

Lemma always_can : forall F T X (c : cfg O M), inv F T X c -> can c.
Proof.
  intros F T X c I. destruct (c_status c) eqn:Hrun; try (apply can_threw; congruence).
  assert (Hco := i_co _ _ _ _ _ _ _ _ I). unfold co_ok in Hco.
  assert (G : forall k, k < length front -> exists x, nth_error front k = Some x) by (intros k Hk; destruct (nth_error front k) eqn:E; eauto; apply nth_error_None in E; lia).
  assert (Gf : forall k, k <= length front -> forall F T X c, inv F T X c -> c_status c = Running -> c_co c = KFront k -> can c) by (intros k Hk; apply (front_can (length front - k)); lia).
  destruct (c_co c) as [k|k p|k p|k| |j|j| |j| | |p|] eqn:K.
  - destruct Hco as (_ & Hk & _). apply (Gf k Hk F T X); auto.
  - destruct Hco as (_ & _ & Hk & _). destruct (G k Hk) as (x & Ex). apply (proj1 (front_act_can k x Ex (Gf (S k) Hk)) p F T X); auto.
  - destruct Hco as (_ & Hk & _). destruct (G k Hk) as (x & Ex). apply (proj1 (proj2 (front_act_can k x Ex (Gf (S k) Hk))) p F T X); auto.
  - destruct Hco as (_ & _ & Hk & _). destruct (G k Hk) as (x & Ex). apply (proj2 (proj2 (front_act_can k x Ex (Gf (S k) Hk))) F T X); auto.
  - apply (prepare_can F T X); auto.
  - destruct Hco as (_ & _ & _ & _ & Hp). destruct (Nat.le_gt_cases j (length (c_threads c))) as [Hj|Hj]; [apply (start_can (length (c_threads c) - j) j F T X); auto; lia|].
    assert (Em : move a front check Coord c = Some ([], with_co (KWait 0) c)) by (go_co; rewrite (proj2 (nth_error_None (c_threads c) j)) by lia; auto).
    destruct (can_move _ _ _ _ _ I _ _ Em) as (F2 & T2 & X2 & I2). eapply can_step; [exact Em|]. apply (wait_can (length (c_threads c)) 0 F2 T2 X2); auto.
  - destruct (Nat.le_gt_cases j (length (c_threads c))) as [Hj|Hj]; [apply (wait_can (length (c_threads c) - j) j F T X); auto; lia|].
    assert (Em : move a front check Coord c = Some ([], with_co KSync c)) by (go_co; rewrite (proj2 (nth_error_None (c_threads c) j)) by lia; auto).
    destruct (can_move _ _ _ _ _ I _ _ Em) as (F2 & T2 & X2 & I2). eapply can_step; [exact Em|]. apply (sync_can F2 T2 X2); auto.
  - apply (sync_can F T X); auto.
  - destruct (Nat.le_gt_cases j (length (c_threads c))) as [Hj|Hj]; [apply (join_can (length (c_threads c) - j) j F T X); auto; lia|].
    eapply can_step; [go_co; rewrite (proj2 (nth_error_None (c_threads c) j)) by lia; reflexivity|]. apply print_can; auto.
  - apply print_can; auto.
  - apply check_can; auto.
  - apply (checking_can p); auto.
  - apply can_now. right. auto.
Qed.
End Finish.
