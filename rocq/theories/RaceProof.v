(** Proofs about data races, 1: what is known about the history of a state. *)
From Coq Require Import List ZArith Bool Lia Arith.
From Verif Require Import Base TupleModel ConcModel ConcSpec ConcProof ConcInv ConcCo RaceModel RaceSpec.
Import ListNotations.
Local Open Scope list_scope.

Definition early_co {O M} (k : coord O M) : bool :=
  match k with KFront _ | KFrontPre _ _ | KFrontBody _ _ | KFrontPush _ | KPrepare | KStart _ | KWait _ | KSync => true | _ => false end.
Definition before_start {O M} (k : coord O M) : bool :=
  match k with KFront _ | KFrontPre _ _ | KFrontBody _ _ | KFrontPush _ | KPrepare => true | _ => false end.
Definition done_co {O M} (k : coord O M) : bool := match k with KPrint | KCheck | KChecking _ | KDone => true | _ => false end.
Definition past {O M} (p : pc O M) : bool := match p with PNone | PBegin | PSpin => false | _ => true end.

Lemma setn_at : forall X (l : list X) n x y, nth_error l n = Some y -> nth_error (set_nth n x l) n = Some x.
Proof. induction l; intros [|n] x y; cbn; try discriminate; eauto. Qed.
Lemma setn_other : forall X (l : list X) n m x, n <> m -> nth_error (set_nth n x l) m = nth_error l m.
Proof. induction l; intros [|n] [|m] x N; cbn; auto; try lia. Qed.
Lemma setn_len : forall X (l : list X) n x, length (set_nth n x l) = length l.
Proof. induction l; intros [|n] x; cbn; auto. Qed.

Lemma api_dec : forall a : api, {a = Func} + {a = Class}.
Proof. destruct a; auto. Qed.

Section Hist.
Context {O M : Type} (a : api) (front : list (act O M)) (rears : list (list (act O M))) (check : option (code O M unit)) (obj : O) (model : M).
Notation C := (cfg O M).
Notation H := (list (actor * cfg O M)).

(** Histories, built at the end. *)
Inductive reach : H -> C -> Prop :=
| r_start : reach [] (start obj model rears)
| r_move : forall h c who evs c', reach h c -> move a front check who c = Some (evs, c') -> reach (h ++ [(who, c)]) c'.

Lemma history_reach : forall schedule h c, reach h c -> exists c', reach (h ++ history a front check schedule c) c'.
Proof.
  induction schedule as [|w r IH]; intros h c R; cbn.
  - rewrite app_nil_r. eauto.
  - destruct (move a front check w c) as [[evs c']|] eqn:E.
    + destruct (IH (h ++ [(w, c)]) c') as (c2 & R2); [econstructor; eauto|]. rewrite <- app_assoc in R2. cbn in R2. eauto.
    + apply IH; auto.
Qed.
Lemma from_start : forall schedule, exists c, reach (history a front check schedule (start obj model rears)) c.
Proof. intros s. apply (history_reach s [] _ r_start). Qed.

(** A step in the history was made in the state that the steps before it led to. *)
Lemma reach_prefix : forall h c p w c0, reach h c -> at_ h p w c0 -> reach (firstn p h) c0.
Proof.
  intros h c p w c0 R. revert p w c0. induction R as [|h c who evs c' R IH E]; intros p w c0 A; unfold at_ in *.
  - destruct p; discriminate.
  - assert (p < length (h ++ [(who, c)])) by (apply nth_error_Some; congruence). rewrite app_length in *. cbn in *.
    destruct (Nat.eq_dec p (length h)) as [->|N].
    + rewrite nth_error_app2, Nat.sub_diag in A by lia. cbn in A. inversion A; subst. rewrite firstn_app, Nat.sub_diag, firstn_all, app_nil_r. auto.
    + rewrite nth_error_app1 in A by lia. rewrite firstn_app. replace (p - length h) with 0 by lia. rewrite app_nil_r. eauto.
Qed.

Lemma run_snoc : forall s c tr c1 who evs c2, run a front check s c = (tr, c1) -> move a front check who c1 = Some (evs, c2) ->
  exists tr2, run a front check (s ++ [who]) c = (tr2, c2).
Proof.
  induction s as [|w r IH]; intros c tr c1 who evs c2 E Mv; cbn in *.
  - inversion E; subst. rewrite Mv. eauto.
  - destruct (move a front check w c) as [[e d]|]; [|eauto]. destruct (run a front check r d) as [t d'] eqn:Er. inversion E; subst.
    destruct (IH _ _ _ _ _ _ Er Mv) as (t2 & ->). eauto.
Qed.
Lemma reach_outcome : forall h c, reach h c -> exists tr, outcome a front rears check obj model tr c.
Proof.
  induction 1 as [|h c who evs c' R IH E].
  - exists [], []. reflexivity.
  - destruct IH as (tr & s & Er). destruct (run_snoc _ _ _ _ _ _ _ Er E) as (tr2 & E2). exists tr2, (s ++ [who]). auto.
Qed.

(** ** What is known of states *)
Lemma pc_some : forall (c : C) i, pc_of i c <> PNone -> exists t, nth_error (c_threads c) i = Some t /\ t_pc t = pc_of i c.
Proof. intros c i Hp. unfold pc_of in *. destruct (nth_error (c_threads c) i); eauto. tauto. Qed.

Lemma early_state : forall h c, reach h c -> early_co (c_co c) = true -> c_sync c = false /\ forall i, past (pc_of i c) = false.
Proof.
  intros h c R E. destruct (reach_outcome _ _ R) as (tr & Ho). destruct (outcome_inv _ _ _ _ _ _ _ _ Ho) as (F & T & X & I & _).
  assert (K := i_co _ _ _ _ _ _ _ _ I). unfold co_ok, early, ready_ok in K.
  assert (G : c_sync c = false /\ forall i t, nth_error (c_threads c) i = Some t -> past (t_pc t) = false).
  { destruct (c_co c); try discriminate.
    1-5: destruct K as [(_ & _ & Es & Hp & _) _]; split; auto; intros j t Ht; rewrite (Hp _ _ Ht); auto.
    - destruct K as (_ & _ & _ & Es & Hp). split; auto. intros j t Ht. destruct (Hp _ _ Ht) as [[_ [[-> _]|[-> _]]]|[_ ->]]; auto.
    - destruct K as (_ & _ & _ & Es & Hp). split; auto. intros j t Ht. destruct (Hp _ _ Ht) as [[-> _]|[-> _]]; auto.
    - destruct K as (_ & _ & _ & Es & Hp). split; auto. intros j t Ht. destruct (Hp _ _ Ht) as [[-> _]|[-> _]]; auto. }
  destruct G as [G1 G2]. split; auto. intros i. unfold pc_of. destruct (nth_error (c_threads c) i) eqn:Et; auto. eapply G2; eauto.
Qed.
Lemma start_state : forall h c, reach h c -> before_start (c_co c) = true -> forall i, pc_of i c = PNone.
Proof.
  intros h c R E i. destruct (reach_outcome _ _ R) as (tr & Ho). destruct (outcome_inv _ _ _ _ _ _ _ _ Ho) as (F & T & X & I & _).
  assert (K := i_co _ _ _ _ _ _ _ _ I). unfold co_ok, early in K. unfold pc_of. destruct (nth_error (c_threads c) i) eqn:Et; auto.
  destruct (c_co c); try discriminate; destruct K as [(_ & _ & Es & Hp & _) _]; eauto.
Qed.
Lemma done_state : forall h c, reach h c -> done_co (c_co c) = true -> forall i, pc_of i c = PNone \/ pc_of i c = PEnd.
Proof.
  intros h c R E i. destruct (reach_outcome _ _ R) as (tr & Ho). destruct (outcome_inv _ _ _ _ _ _ _ _ Ho) as (F & T & X & I & _).
  assert (K := i_co _ _ _ _ _ _ _ _ I). unfold co_ok in K. unfold pc_of. destruct (nth_error (c_threads c) i) as [t|] eqn:Et; auto.
  assert (Hf : forall X0, finished a front rears T X0 c -> t_pc t = PNone \/ t_pc t = PEnd).
  { intros X0 [(_ & _ & Hp & _)|(_ & _ & _ & _ & Hp)]; eauto. }
  destruct (c_co c); try discriminate.
  - destruct K as (_ & _ & Hp). eauto.
  - destruct K as [K _]. eauto.
  - destruct K as (X0 & o & m & _ & K & _). eauto.
  - destruct K as (_ & X0 & K & _). eauto.
Qed.
Lemma start_j : forall h c j, reach h c -> c_co c = KStart j -> pc_of j c = PNone.
Proof.
  intros h c j R E. destruct (reach_outcome _ _ R) as (tr & Ho). destruct (outcome_inv _ _ _ _ _ _ _ _ Ho) as (F & T & X & I & _).
  assert (K := i_co _ _ _ _ _ _ _ _ I). unfold co_ok in K. rewrite E in K. unfold pc_of. destruct (nth_error (c_threads c) j) as [t|] eqn:Et; auto.
  destruct K as (_ & _ & _ & _ & Hp). destruct (Hp _ _ Et) as [[? _]|[_ ?]]; auto. lia.
Qed.

(** ** Steps *)
Inductive goes (c : C) (i : nat) : pc O M -> pc O M -> Prop :=
| g_begin : goes c i PBegin PSpin
| g_spin : goes c i PSpin PSpin
| g_go : c_sync c = true -> goes c i PSpin (PNext 0)
| g_end : forall k, In (SEnd i) (releases (Rear i) c) -> goes c i (PNext k) PEnd
| g_take : forall k, a = Func -> goes c i (PNext k) (PTake k false)
| g_pre : forall k p, a = Class -> goes c i (PNext k) (PPre k p)
| g_pre2 : forall k p p', goes c i (PPre k p) (PPre k p')
| g_run : forall k p p', goes c i (PPre k p) (PBody k p')
| g_skip : forall k p, goes c i (PPre k p) (PNext (S k))
| g_taken : forall k l, goes c i (PTake k l) (PWrite k l (c_counter c))
| g_written : forall k s, goes c i (PWrite k true s) (PNext (S k))
| g_written0 : forall k s p, goes c i (PWrite k false s) (PBody k p)
| g_body : forall k p p', goes c i (PBody k p) (PBody k p')
| g_last : forall k p, goes c i (PBody k p) (PTake k true).

Lemma pc_set : forall (c : C) i t t0 j, nth_error (c_threads c) i = Some t0 -> pc_of j (set_thread i t c) = if Nat.eqb i j then t_pc t else pc_of j c.
Proof.
  intros c i t t0 j Ht. unfold pc_of, set_thread. cbn [c_threads]. destruct (Nat.eqb_spec i j) as [<-|N].
  - erewrite setn_at by eauto. auto.
  - rewrite setn_other by auto. auto.
Qed.

Definition next_counter (c : C) (p : pc O M) : nat := match p with PTake _ _ => S (c_counter c) | _ => c_counter c end.
Lemma rear_step : forall (c : C) i evs c', stepThread a i c = Some (evs, c') ->
  pc_of i c <> PNone /\ pc_of i c <> PEnd /\ c_co c' = c_co c /\ c_sync c' = c_sync c /\ (forall j, j <> i -> pc_of j c' = pc_of j c) /\
  length (c_threads c') = length (c_threads c) /\
  ((goes c i (pc_of i c) (pc_of i c') /\ c_counter c' = next_counter c (pc_of i c)) \/
   (pc_of i c' = pc_of i c /\ c_counter c' = c_counter c /\ c_status c' <> Running)).
Proof.
  intros c i evs c' E. unfold stepThread in E.
  assert (P : forall t j, nth_error (c_threads c) i = Some t -> forall t', pc_of j (set_thread i t' c) = if Nat.eqb i j then t_pc t' else pc_of j c) by (intros; eapply pc_set; eauto).
  assert (S0 : forall t d, nth_error (c_threads c) i = Some t -> c_threads d = c_threads c -> c_co d = c_co c -> c_sync d = c_sync c -> forall t',
     c_co (set_thread i t' d) = c_co c /\ c_sync (set_thread i t' d) = c_sync c /\ (forall j, j <> i -> pc_of j (set_thread i t' d) = pc_of j c) /\
     length (c_threads (set_thread i t' d)) = length (c_threads c) /\ pc_of i (set_thread i t' d) = t_pc t').
  { intros t d Ht Ed E1 E2 t'. unfold set_thread, pc_of. cbn [c_co c_sync c_threads]. rewrite Ed. repeat split; auto.
    - intros j N. rewrite setn_other by auto. auto.
    - rewrite setn_len; auto.
    - erewrite setn_at by eauto. auto. }
  destruct (nth_error (c_threads c) i) as [t|] eqn:Ht; [|discriminate].
  assert (Ep : pc_of i c = t_pc t) by (unfold pc_of; rewrite Ht; auto). rewrite Ep.
  assert (St : forall s, s <> Running -> t_pc t <> PNone -> t_pc t <> PEnd -> c' = with_status s c -> t_pc t <> PNone /\ t_pc t <> PEnd /\ c_co c' = c_co c /\ c_sync c' = c_sync c /\ (forall j, j <> i -> pc_of j c' = pc_of j c) /\
     length (c_threads c') = length (c_threads c) /\
     ((goes c i (t_pc t) (pc_of i c') /\ c_counter c' = next_counter c (t_pc t)) \/ (pc_of i c' = t_pc t /\ c_counter c' = c_counter c /\ c_status c' <> Running))).
  { intros s Ns N1 N2 ->. repeat split; auto. }
  assert (Sg : forall d t', c_threads d = c_threads c -> c_co d = c_co c -> c_sync d = c_sync c -> c_counter d = next_counter c (t_pc t) -> t_pc t <> PNone -> t_pc t <> PEnd -> goes c i (t_pc t) (t_pc t') -> c' = set_thread i t' d ->
     t_pc t <> PNone /\ t_pc t <> PEnd /\ c_co c' = c_co c /\ c_sync c' = c_sync c /\ (forall j, j <> i -> pc_of j c' = pc_of j c) /\
     length (c_threads c') = length (c_threads c) /\
     ((goes c i (t_pc t) (pc_of i c') /\ c_counter c' = next_counter c (t_pc t)) \/ (pc_of i c' = t_pc t /\ c_counter c' = c_counter c /\ c_status c' <> Running))).
  { intros d t' E1 E2 E3 E4 N1 N2 G ->. destruct (S0 t d eq_refl E1 E2 E3 t') as (A1 & A2 & A3 & A4 & A5). rewrite A5. repeat split; auto. }
  assert (Hst : forall om p, exists d t', stepped a i t om p c = set_thread i t' d /\ c_threads d = c_threads c /\ c_co d = c_co c /\ c_sync d = c_sync c /\ c_counter d = c_counter c /\ t_pc t' = p).
  { intros om p. unfold stepped. destruct a; eexists; eexists; repeat split; reflexivity. }
  destruct (t_pc t) eqn:Hp; try discriminate.
  - inversion E; subst. eapply (Sg c); try reflexivity; try discriminate. constructor.
  - destruct (Bool.bool_dec (c_sync c) true) as [Hs|Hs]; [rewrite Hs in E|apply not_true_is_false in Hs; rewrite Hs in E]; inversion E; subst.
    + eapply (Sg c); try reflexivity; try discriminate. constructor; auto.
    + repeat split; auto; try discriminate. left. split; auto. rewrite Ep. constructor.
  - destruct (nth_error (t_acts t) k) as [x|] eqn:Ek; inversion E; subst; eapply (Sg c); try reflexivity; try discriminate.
    + cbn [with_pc t_pc]. destruct (api_dec a) as [Ea|Ea]; rewrite Ea; [apply g_take|apply g_pre]; auto.
    + cbn. apply g_end. cbn. rewrite Ht, Hp, Ek. cbn; auto.
  - destruct c0 as [[|]|e|u nx].
    + destruct (nth_error (t_acts t) k) as [x|] eqn:Ek; [|discriminate]. inversion E; subst. eapply (Sg c); try reflexivity; try discriminate. constructor.
    + inversion E; subst. eapply (Sg c); try reflexivity; try discriminate. constructor.
    + inversion E; subst. eapply St; try reflexivity; discriminate.
    + destruct (Hst (u (c_obj c) (seen_model a c t)) (PPre k (nx (c_obj c) (seen_model a c t)))) as (d & t' & Es & D1 & D2 & D3 & D4 & D5).
      inversion E; subst. eapply (Sg d t'); auto; try discriminate. rewrite D5. constructor.
  - inversion E; subst. eapply (Sg (with_log (S (c_counter c)) (c_log c) c)); try reflexivity; try discriminate. constructor.
  - destruct (Nat.ltb slot (length (c_log c))); [|inversion E; subst; eapply St; try reflexivity; discriminate].
    destruct last.
    + inversion E; subst. eapply (Sg (with_log (c_counter c) _ c)); try reflexivity; try discriminate. constructor.
    + destruct (nth_error (t_acts t) k) as [x|] eqn:Ek; [|discriminate]. inversion E; subst. eapply (Sg (with_log (c_counter c) _ c)); try reflexivity; try discriminate. constructor.
  - destruct c0 as [[|]|e|u nx].
    + inversion E; subst. eapply (Sg c); try reflexivity; try discriminate. constructor.
    + inversion E; subst. eapply St; try reflexivity; discriminate.
    + inversion E; subst. eapply St; try reflexivity; discriminate.
    + destruct (Hst (u (c_obj c) (seen_model a c t)) (PBody k (nx (c_obj c) (seen_model a c t)))) as (d & t' & Es & D1 & D2 & D3 & D4 & D5).
      inversion E; subst. eapply (Sg d t'); auto; try discriminate. rewrite D5. constructor.
Qed.
End Hist.
