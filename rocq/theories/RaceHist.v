(** Proofs about data races, 2: what the history of a state says. *)
From Coq Require Import List ZArith Bool Lia Arith.
From Verif Require Import Base TupleModel ConcModel ConcSpec ConcInv ConcCo RaceModel RaceSpec RaceProof.
Import ListNotations.
Local Open Scope list_scope.

Section At.
Context {O M : Type}.
Notation H := (list (actor * cfg O M)).
Lemma at_snoc : forall (h : H) w c p w' c', at_ (h ++ [(w, c)]) p w' c' <-> at_ h p w' c' \/ (p = length h /\ w' = w /\ c' = c).
Proof.
  intros h w c p w' c'. unfold at_. destruct (lt_eq_lt_dec p (length h)) as [[L|L]|L].
  - rewrite nth_error_app1 by auto. split; auto. intros [E|(E & _)]; auto. lia.
  - subst. rewrite nth_error_app2, Nat.sub_diag by lia. cbn. split; [intros E; inversion E; subst; auto|]. intros [E|(_ & -> & ->)]; auto.
    assert (nth_error h (length h) = None) by (apply nth_error_None; auto). congruence.
  - rewrite nth_error_app2 by lia. split.
    + intros E. destruct (p - length h) as [|n] eqn:Ep; [lia|]. destruct n; discriminate.
    + intros [E|(E & _)]; [|lia]. assert (nth_error h p = None) by (apply nth_error_None; lia). congruence.
Qed.
Lemma at_lt : forall (h : H) p w c, at_ h p w c -> p < length h.
Proof. intros h p w c A. apply nth_error_Some. unfold at_ in A. congruence. Qed.
Lemma at_old : forall (h : H) x p w c, at_ h p w c -> at_ (h ++ [x]) p w c.
Proof. intros h [w' c'] p w c A. apply at_snoc. auto. Qed.
Lemma at_firstn : forall (h : H) q p w c, at_ (firstn q h) p w c <-> at_ h p w c /\ p < q.
Proof.
  unfold at_. induction h as [|x h IH]; intros q p w c.
  - rewrite firstn_nil. destruct p; cbn; split; try discriminate; intros [E _]; discriminate.
  - destruct q as [|q]; [cbn; destruct p; cbn; split; [discriminate|intros [_ ?]; lia|discriminate|intros [_ ?]; lia]|].
    destruct p as [|p]; cbn.
    + split; [intros E; split; auto; lia|tauto].
    + rewrite IH. split; intros [? ?]; split; auto; lia.
Qed.
Lemma at_same : forall (h : H) p w c w' c', at_ h p w c -> at_ h p w' c' -> w = w' /\ c = c'.
Proof. unfold at_. intros. split; congruence. Qed.
End At.

Section Hist.
Context {O M : Type} (a : api) (front : list (act O M)) (rears : list (list (act O M))) (check : option (code O M unit)) (obj : O) (model : M).
Notation C := (cfg O M).
Notation H := (list (actor * cfg O M)).
Notation reach := (reach a front rears check obj model).

Lemma coord_step : forall (c : C) evs c', stepCoord a front check c = Some (evs, c') ->
  (forall j, pc_of j c' = pc_of j c \/ (c_co c = KStart j /\ pc_of j c' = PBegin)) /\
  (c_sync c' = c_sync c \/ (c_co c = KSync /\ c_sync c' = true)) /\
  (c_co c = KSync -> c_co c' = KJoin 0) /\
  (c_counter c' = c_counter c \/ before_start (c_co c) = true) /\
  (early_co (c_co c) = false -> early_co (c_co c') = false) /\
  (done_co (c_co c) = true -> done_co (c_co c') = true) /\
  (forall j, c_co c' = KJoin j -> (c_co c = KSync /\ j = 0) \/ exists j', j = S j' /\ c_co c = KJoin j' /\ pc_of j' c = PEnd) /\
  (done_co (c_co c') = true -> done_co (c_co c) = true \/ (exists j, c_co c = KJoin j /\ length (c_threads c) <= j) \/ before_start (c_co c) = true).
Proof.
  intros c evs c' E. unfold stepCoord in E.
  destruct (c_co c) eqn:Hc.
  - destruct (nth_error front k); [destruct a|]; inversion E; subst; cbn; repeat split; auto; try discriminate.
  - destruct c0 as [[|]|e|u nx].
    + destruct (nth_error front k); inversion E; subst; cbn; repeat split; auto; try discriminate.
    + inversion E; subst; cbn; repeat split; auto; try discriminate.
    + inversion E; subst; cbn; rewrite ?Hc; repeat split; auto; try discriminate.
    + destruct (u (c_obj c) (c_model c)). inversion E; subst; cbn; repeat split; auto; try discriminate.
  - destruct c0 as [[|]|e|u nx].
    + destruct a; inversion E; subst; cbn; repeat split; auto; try discriminate.
    + inversion E; subst; cbn; rewrite ?Hc; repeat split; auto; try discriminate.
    + inversion E; subst; cbn; rewrite ?Hc; repeat split; auto; try discriminate.
    + destruct (u (c_obj c) (c_model c)). inversion E; subst; cbn; repeat split; auto; try discriminate.
  - inversion E; subst; cbn; repeat split; auto; try discriminate.
  - destruct a; [destruct (Nat.leb (length (c_threads c)) 1)|]; inversion E; subst; cbn; repeat split; auto; try discriminate.
  - destruct (nth_error (c_threads c) i) as [t|] eqn:Ht; inversion E; subst.
    + cbn. repeat split; auto; try discriminate. intros j. unfold pc_of. cbn. destruct (Nat.eq_dec i j) as [->|N].
      * right. split; auto. erewrite setn_at by eauto. auto.
      * left. rewrite setn_other by auto. auto.
    + cbn; repeat split; auto; try discriminate.
  - destruct (nth_error (c_threads c) i) as [t|] eqn:Ht; [destruct (t_ready t)|]; inversion E; subst; cbn; rewrite ?Hc; repeat split; auto; try discriminate.
  - inversion E; subst; cbn; repeat split; auto; try discriminate. intros j Ej. inversion Ej; auto.
  - destruct (nth_error (c_threads c) i) as [t|] eqn:Ht.
    + destruct (t_pc t) eqn:Hp; try discriminate. inversion E; subst. cbn; repeat split; auto; try discriminate. intros j Ej. inversion Ej; subst. right. exists i. repeat split; auto.
      unfold pc_of. rewrite Ht. auto.
    + inversion E; subst; cbn; repeat split; auto; try discriminate. intros _. right. left. exists i. split; auto. apply nth_error_None; auto.
  - destruct (printing a (length front) c); inversion E; subst; cbn; rewrite ?Hc; repeat split; auto; try discriminate.
  - destruct check; inversion E; subst; cbn; repeat split; auto; try discriminate.
  - destruct c0 as [r|e|u nx].
    + inversion E; subst; cbn; repeat split; auto; try discriminate.
    + inversion E; subst; cbn; rewrite ?Hc; repeat split; auto; try discriminate.
    + destruct (u (c_obj c) (c_model c)). inversion E; subst; cbn; repeat split; auto; try discriminate.
  - discriminate.
Qed.

Lemma join_state : forall h c j i, reach h c -> c_co c = KJoin j -> i < j -> pc_of i c = PNone \/ pc_of i c = PEnd.
Proof.
  intros h c j i R E L. destruct (reach_outcome a front rears check obj model _ _ R) as (tr & Ho). destruct (outcome_inv _ _ _ _ _ _ _ _ Ho) as (F & T & X & I & _).
  assert (K := i_co _ _ _ _ _ _ _ _ I). unfold co_ok in K. rewrite E in K. unfold pc_of. destruct (nth_error (c_threads c) i) as [t|] eqn:Et; auto.
  destruct K as (_ & _ & _ & Hp). right. apply (Hp _ _ Et); auto.
Qed.

(** The last step of thread i; and that it was joined. *)
Definition last_step (h : H) (i e : nat) : Prop := exists c0, at_ h e (Rear i) c0 /\ In (SEnd i) (releases (Rear i) c0) /\ forall p c1, at_ h p (Rear i) c1 -> p <= e.
Definition joined (h : H) (i : nat) : Prop := exists e e' c1, last_step h i e /\ e < e' /\ at_ h e' Coord c1 /\ In (SEnd i) (acquires Coord c1) /\ c_co c1 = KJoin i.
(** The store of sync_ready; all that invoke did up to starting the threads came before. *)
Definition sync_step (h : H) (s : nat) : Prop := exists c0, at_ h s Coord c0 /\ c_co c0 = KSync /\ forall p c1, at_ h p Coord c1 -> early_co (c_co c1) = true -> p <= s.
Definition spin_step (h : H) (i s : nat) : Prop :=
  exists c1, at_ h s (Rear i) c1 /\ pc_of i c1 = PSpin /\ c_sync c1 = true /\ forall p c2, at_ h p (Rear i) c2 -> past (pc_of i c2) = true -> s < p.

Record hist (h : H) (c : C) : Prop := {
  hi_none : forall p i c0, at_ h p (Rear i) c0 -> pc_of i c <> PNone;
  hi_sync : c_sync c = true -> early_co (c_co c) = false /\ exists s, sync_step h s;
  hi_past : forall i, past (pc_of i c) = true -> c_sync c = true /\ exists s s', sync_step h s /\ s < s' /\ spin_step h i s';
  hi_nopast : forall i, past (pc_of i c) = false -> forall p c0, at_ h p (Rear i) c0 -> past (pc_of i c0) = false;
  hi_end : forall i, pc_of i c = PEnd -> exists e, last_step h i e;
  hi_join : forall i j, c_co c = KJoin j -> i < j -> joined h i;
  hi_done : done_co (c_co c) = true -> forall i p c0, at_ h p (Rear i) c0 -> joined h i;
  hi_w1 : forall i k l s, pc_of i c = PWrite k l s -> s < c_counter c;
  hi_w2 : forall i j k l k' l' s, pc_of i c = PWrite k l s -> pc_of j c = PWrite k' l' s -> i = j;
  hi_w3 : forall p i c0 k l s, c_status c = Running -> at_ h p (Rear i) c0 -> pc_of i c0 = PWrite k l s -> s < c_counter c /\ forall j k' l', pc_of j c <> PWrite k' l' s
}.

(** Steps of others leave these alone. *)
Lemma last_coord : forall h i e c, last_step h i e -> last_step (h ++ [(Coord, c)]) i e.
Proof.
  intros h i e c (c0 & A & Rl & Hl). exists c0. split; [apply at_old; auto|]. split; auto. intros p c1 A1. apply at_snoc in A1.
  destruct A1 as [A1|(_ & E & _)]; [eauto|discriminate].
Qed.
Lemma last_rear : forall h i e j c, i <> j -> last_step h i e -> last_step (h ++ [(Rear j, c)]) i e.
Proof.
  intros h i e j c N (c0 & A & Rl & Hl). exists c0. split; [apply at_old; auto|]. split; auto. intros p c1 A1. apply at_snoc in A1.
  destruct A1 as [A1|(_ & E & _)]; [eauto|congruence].
Qed.
Lemma joined_keep : forall h i w c, (forall e, last_step h i e -> last_step (h ++ [(w, c)]) i e) -> joined h i -> joined (h ++ [(w, c)]) i.
Proof. intros h i w c K (e & e' & c1 & L & Lt & A & J). exists e, e', c1. split; auto. split; auto. split; auto. apply at_old; auto. Qed.
Lemma sync_keep : forall h s w c, (w = Coord -> early_co (c_co c) = false) -> sync_step h s -> sync_step (h ++ [(w, c)]) s.
Proof.
  intros h s w c K (c0 & A & E & Hs). exists c0. split; [apply at_old; auto|]. split; auto. intros p c1 A1 E1. apply at_snoc in A1.
  destruct A1 as [A1|(_ & <- & ->)]; [eauto|]. rewrite (K eq_refl) in E1. discriminate.
Qed.
Lemma spin_keep : forall h i s w c, spin_step h i s -> spin_step (h ++ [(w, c)]) i s.
Proof.
  intros h i s w c (c1 & A & E & S & Hs). exists c1. split; [apply at_old; auto|]. split; auto. split; auto. intros p c2 A2 E2. apply at_snoc in A2.
  destruct A2 as [A2|(-> & _ & _)]; [eauto|]. eapply at_lt; eauto.
Qed.

Lemma coord_hist : forall h c evs c', reach h c -> hist h c -> stepCoord a front check c = Some (evs, c') -> c_status c = Running -> hist (h ++ [(Coord, c)]) c'.
Proof.
  intros h c evs c' R I E Hr. destruct (coord_step c evs c' E) as (Hpc & Hsy & Hks & Hcn & Hea & _ & Hj & Hd).
  assert (Hk : forall j, c_co c = KStart j -> pc_of j c = PNone) by (intros; eapply start_j; eauto).
  assert (Hnc : forall p i c0, at_ (h ++ [(Coord, c)]) p (Rear i) c0 -> at_ h p (Rear i) c0).
  { intros p i c0 A. apply at_snoc in A. destruct A as [A|(_ & ? & _)]; auto. discriminate. }
  assert (Hpast : forall i, past (pc_of i c') = past (pc_of i c)).
  { intros i. destruct (Hpc i) as [->|[Ek ->]]; auto. rewrite (Hk _ Ek). auto. }
  assert (Hw : forall i k l s, pc_of i c' = PWrite k l s -> pc_of i c = PWrite k l s).
  { intros i k l s W. destruct (Hpc i) as [Ep|[Ek Eb]]; congruence. }
  assert (Hc : before_start (c_co c) = true -> forall i, pc_of i c = PNone) by (intros; eapply start_state; eauto).
  constructor.
  - intros p i c0 A. apply Hnc in A. destruct (Hpc i) as [->|[_ ->]]; [eapply hi_none; eauto|discriminate].
  - intros S. destruct Hsy as [Es|[Ek Es]].
    + rewrite Es in S. destruct (hi_sync _ _ I S) as [Ee (s & Hs)]. split; auto. exists s. apply sync_keep; auto.
    + rewrite (Hks Ek). split; auto. exists (length h), c. split; [apply at_snoc; auto|]. split; auto. intros p c1 A _. apply at_lt in A. rewrite app_length in A. cbn in A. lia.
  - intros i P. rewrite Hpast in P. destruct (hi_past _ _ I i P) as [S (s & s' & Hs & L & Hs')]. split.
    + destruct Hsy as [->|[_ ->]]; auto.
    + exists s, s'. split; [|split; auto; apply spin_keep; auto]. apply sync_keep; auto. intros _. apply (hi_sync _ _ I S).
  - intros i P p c0 A. rewrite Hpast in P. apply Hnc in A. eapply hi_nopast; eauto.
  - intros i P. destruct (Hpc i) as [Ep|[_ Ep]]; [|congruence]. rewrite Ep in P. destruct (hi_end _ _ I i P) as (e & L). exists e. apply last_coord; auto.
  - intros i j Ej L. destruct (Hj _ Ej) as [[_ ->]|(j' & -> & Ek & Ee)]; [lia|]. destruct (Nat.eq_dec i j') as [->|N].
    + destruct (hi_end _ _ I _ Ee) as (e & Hl). exists e, (length h), c. split; [apply last_coord; auto|].
      destruct Hl as (c0 & A & _). split; [eapply at_lt; eauto|]. split; [apply at_snoc; auto|]. split; auto.
      cbn. rewrite Ek. unfold pc_of in Ee. destruct (nth_error (c_threads c) j'); [cbn; auto|discriminate].
    + apply joined_keep; [intros; apply last_coord; auto|]. eapply hi_join; eauto. lia.
  - intros D i p c0 A. apply Hnc in A. apply joined_keep; [intros; apply last_coord; auto|]. destruct (Hd D) as [D'|[(j & Ek & L)|B]].
    + eapply hi_done; eauto.
    + eapply hi_join; eauto. assert (N := hi_none _ _ I _ _ _ A). destruct (pc_some _ _ N) as (t & Ht & _).
      assert (i < length (c_threads c)) by (apply nth_error_Some; congruence). lia.
    + exfalso. apply (hi_none _ _ I _ _ _ A). auto.
  - intros i k l s W. apply Hw in W. destruct Hcn as [->|B]; [eapply hi_w1; eauto|]. rewrite (Hc B) in W. discriminate.
  - intros i j k l k' l' s W1 W2. apply Hw in W1. apply Hw in W2. eapply hi_w2; eauto.
  - intros p i c0 k l s _ A W. apply Hnc in A. destruct Hcn as [->|B].
    + destruct (hi_w3 _ _ I p i c0 k l s Hr A W) as [L N]. split; auto. intros j k' l' W'. apply Hw in W'. eapply N; eauto.
    + exfalso. apply (hi_none _ _ I _ _ _ A). auto.
Qed.

Lemma goes_past : forall (c : C) i p p', goes a c i p p' -> past p = true -> past p' = true.
Proof. intros c i p p' G. destruct G; cbn; auto; discriminate. Qed.

Lemma goes_enter : forall (c : C) i p p', goes a c i p p' -> past p = false -> past p' = true -> p = PSpin /\ c_sync c = true.
Proof. intros c i p p' G. destruct G; cbn; auto; discriminate. Qed.

Lemma rear_hist : forall h c i evs c', reach h c -> hist h c -> stepThread a i c = Some (evs, c') -> c_status c = Running -> hist (h ++ [(Rear i, c)]) c'.
Proof.
  intros h c i evs c' R I E Hr. destruct (rear_step a c i evs c' E) as (Nn & Ne & Eco & Esy & Hpc & Hlen & Hg).
  assert (Hat : forall p j c0, j <> i -> at_ (h ++ [(Rear i, c)]) p (Rear j) c0 -> at_ h p (Rear j) c0).
  { intros p j c0 N A. apply at_snoc in A. destruct A as [A|(_ & E0 & _)]; auto. congruence. }
  assert (Hatc : forall p c0, at_ (h ++ [(Rear i, c)]) p Coord c0 -> at_ h p Coord c0).
  { intros p c0 A. apply at_snoc in A. destruct A as [A|(_ & E0 & _)]; auto. discriminate. }
  assert (Hsk : forall s, sync_step h s -> sync_step (h ++ [(Rear i, c)]) s) by (intros; apply sync_keep; auto; discriminate).
  assert (Hnew : pc_of i c' <> PNone).
  { destruct Hg as [[G _]|[-> _]]; auto. intros X. rewrite X in G. inversion G. }
  assert (Hcn : c_counter c <= c_counter c') by (destruct Hg as [[_ ->]|(_ & -> & _)]; auto; destruct (pc_of i c); cbn; lia).
  assert (Hjk : forall j, joined h j -> pc_of j c = PEnd \/ j <> i -> joined (h ++ [(Rear i, c)]) j).
  { intros j J [P|N]; apply joined_keep; auto; intros e L; apply last_rear; auto. intros ->. auto. }
  constructor.
  - intros p j c0 A. destruct (Nat.eq_dec j i) as [->|N]; auto. rewrite (Hpc _ N). eapply hi_none; eauto.
  - intros S. rewrite Esy in S. rewrite Eco. destruct (hi_sync _ _ I S) as [Ee (s & Hs)]. eauto.
  - intros j P. destruct (Nat.eq_dec j i) as [->|N].
    + destruct (past (pc_of i c)) eqn:P0.
      * rewrite Esy. destruct (hi_past _ _ I i P0) as [S (s & s' & Hs & L & Hs')]. split; auto. exists s, s'. split; auto. split; auto. apply spin_keep; auto.
      * destruct Hg as [[G _]|[Ep _]]; [|congruence]. assert (Gs := goes_enter _ _ _ _ G P0 P).
        destruct Gs as [Gp Gs]. rewrite Esy. split; auto. destruct (hi_sync _ _ I Gs) as [_ (s & Hs)]. exists s, (length h). split; auto.
        split; [destruct Hs as (c0 & A & _); eapply at_lt; eauto|]. exists c. split; [apply at_snoc; auto|]. split; auto. split; auto.
        intros p c2 A P2. apply at_snoc in A. destruct A as [A|(_ & _ & ->)]; [|congruence]. rewrite (hi_nopast _ _ I i P0 _ _ A) in P2. discriminate.
    + rewrite (Hpc _ N) in P. rewrite Esy. destruct (hi_past _ _ I j P) as [S (s & s' & Hs & L & Hs')]. split; auto. exists s, s'. split; auto. split; auto. apply spin_keep; auto.
  - intros j P p c0 A. destruct (Nat.eq_dec j i) as [->|N].
    + assert (P0 : past (pc_of i c) = false).
      { destruct Hg as [[G _]|[<- _]]; auto. destruct (past (pc_of i c)) eqn:P0; auto. rewrite (goes_past _ _ _ _ G P0) in P. discriminate. }
      apply at_snoc in A. destruct A as [A|(_ & _ & ->)]; auto. eapply hi_nopast; eauto.
    + rewrite (Hpc _ N) in P. eapply hi_nopast; eauto.
  - intros j P. destruct (Nat.eq_dec j i) as [->|N].
    + destruct Hg as [[G _]|[Ep _]]; [|congruence]. rewrite P in G. inversion G as [| | |k Hin X| | | | | | | | | |]; subst.
      exists (length h), c. split; [apply at_snoc; auto|]. split; auto. intros p c1 A. apply at_lt in A. rewrite app_length in A. cbn in A. lia.
    + rewrite (Hpc _ N) in P. destruct (hi_end _ _ I j P) as (e & L). exists e. apply last_rear; auto.
  - intros j k Ej L. rewrite Eco in Ej. apply Hjk; [eapply hi_join; eauto|].
    destruct (Nat.eq_dec j i) as [->|N]; auto. destruct (join_state _ _ _ _ R Ej L); tauto.
  - intros D j p c0 A. rewrite Eco in D. destruct (done_state a front rears check obj model h c R D i); tauto.
  - intros j k l s W. destruct (Nat.eq_dec j i) as [->|N].
    + destruct Hg as [[G Ec]|(Ep & Ec & _)].
      * rewrite W in G. inversion G; subst. rewrite Ec. rewrite <- H0. cbn. lia.
      * rewrite Ec. rewrite Ep in W. eapply hi_w1; eauto.
    + rewrite (Hpc _ N) in W. assert (L := hi_w1 _ _ I _ _ _ _ W). lia.
  - assert (Hw : forall j k l k' l' s, j <> i -> pc_of j c = PWrite k l s -> pc_of i c' = PWrite k' l' s -> False).
    { intros j k l k' l' s N W1 W2. assert (L := hi_w1 _ _ I _ _ _ _ W1). destruct Hg as [[G Ec]|(Ep & Ec & _)].
      - rewrite W2 in G. inversion G; subst. lia.
      - rewrite Ep in W2. apply N. eapply hi_w2; eauto. }
    intros j1 j2 k l k' l' s W1 W2. destruct (Nat.eq_dec j1 i) as [->|N1]; destruct (Nat.eq_dec j2 i) as [->|N2]; auto; try (rewrite (Hpc _ N1) in W1); try (rewrite (Hpc _ N2) in W2).
    + exfalso. eapply (Hw j2); eauto.
    + exfalso. eapply (Hw j1); eauto.
    + eapply hi_w2; eauto.
  - intros p j c0 k l s Hr' A W. apply at_snoc in A. destruct A as [A|(-> & Ej & ->)].
    + destruct (hi_w3 _ _ I p j c0 k l s Hr A W) as [L Nw]. split; [lia|]. intros j' k' l' W'. destruct (Nat.eq_dec j' i) as [->|N].
      * destruct Hg as [[G Ec]|(Ep & Ec & _)].
        -- rewrite W' in G. inversion G; subst. lia.
        -- rewrite Ep in W'. eapply Nw; eauto.
      * rewrite (Hpc _ N) in W'. eapply Nw; eauto.
    + inversion Ej; subst j. assert (L := hi_w1 _ _ I _ _ _ _ W). split; [lia|]. intros j' k' l' W'. destruct (Nat.eq_dec j' i) as [->|N].
      * destruct Hg as [[G Ec]|(Ep & Ec & Bad)]; [|auto]. rewrite W' in G. inversion G; subst. congruence.
      * rewrite (Hpc _ N) in W'. apply N. eapply hi_w2; eauto.
Qed.

Lemma reach_hist : forall h c, reach h c -> hist h c.
Proof.
  induction 1 as [|h c who evs c' R IH E].
  - assert (P : forall i, pc_of i (start obj model rears) = PNone).
    { intros i. unfold pc_of, start. cbn. destruct (nth_error _ i) as [t|] eqn:Et; auto. apply nth_error_In in Et. apply in_map_iff in Et. destruct Et as (l & <- & _). auto. }
    assert (N : forall p w c0, ~ at_ ([] : H) p w c0) by (intros p w c0 A; apply at_lt in A; cbn in A; lia).
    constructor; intros; try (rewrite P in *; discriminate); try (exfalso; eapply N; eauto; fail); cbn in *; discriminate.
  - unfold move in E. destruct (c_status c) eqn:Hs; try discriminate. destruct who.
    + eapply coord_hist; eauto.
    + eapply rear_hist; eauto.
Qed.
End Hist.
