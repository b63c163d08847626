(** Proofs about data races, 3: what is ordered and what is not. *)
From Coq Require Import List ZArith Bool Lia Arith.
From Verif Require Import Base TupleModel ConcModel ConcSpec RaceModel RaceSpec RaceProof RaceHist.
Import ListNotations.
Local Open Scope list_scope.

Section Order.
Context {O M : Type} (a : api) (front : list (act O M)) (rears : list (list (act O M))) (check : option (code O M unit)) (obj : O) (model : M).
Notation C := (cfg O M).
Notation H := (list (actor * cfg O M)).
Notation reach := (reach a front rears check obj model).
Variables (h : H) (cN : C).
Hypothesis R : reach h cN.

Lemma hist_at : forall q w c, at_ h q w c -> reach (firstn q h) c /\ hist (firstn q h) c.
Proof. intros q w c A. assert (Rq := reach_prefix _ _ _ _ _ _ _ _ _ _ _ R A). split; auto. eapply reach_hist; eauto. Qed.
Lemma at_cut : forall q p w c, at_ h p w c -> p < q -> at_ (firstn q h) p w c.
Proof. intros. apply at_firstn; auto. Qed.

Lemma moves_gen : forall h' c', reach h' c' -> forall q w c, at_ h' q w c -> exists evs c2, move a front check w c = Some (evs, c2).
Proof.
  induction 1 as [|h0 c who evs c' R0 IH E]; intros q w c0 A.
  - apply at_lt in A. cbn in A. lia.
  - apply at_snoc in A. destruct A as [A|(_ & -> & ->)]; eauto.
Qed.
Lemma moves : forall q w c, at_ h q w c -> exists evs c2, move a front check w c = Some (evs, c2).
Proof. intros. eapply moves_gen; eauto. Qed.
Lemma running : forall q w c, at_ h q w c -> c_status c = Running.
Proof. intros q w c A. destruct (moves _ _ _ A) as (evs & c2 & E). unfold move in E. destruct (c_status c); auto; discriminate. Qed.
Lemma rear_alive : forall q i c, at_ h q (Rear i) c -> pc_of i c <> PNone /\ pc_of i c <> PEnd.
Proof.
  intros q i c A. destruct (moves _ _ _ A) as (evs & c2 & E). unfold move in E. rewrite (running _ _ _ A) in E.
  destruct (rear_step a c i evs c2 E) as (N1 & N2 & _). auto.
Qed.

(** Once invoke is past something, it stays past it. *)
Lemma stays : forall h' c', reach h' c' -> forall p w c, at_ h' p w c ->
  (early_co (c_co c) = false -> early_co (c_co c') = false) /\ (done_co (c_co c) = true -> done_co (c_co c') = true).
Proof.
  induction 1 as [|h0 c who evs c' R0 IH E]; intros p w c0 A.
  - apply at_lt in A. cbn in A. lia.
  - assert (K : (early_co (c_co c) = false -> early_co (c_co c') = false) /\ (done_co (c_co c) = true -> done_co (c_co c') = true)).
    { unfold move in E. destruct (c_status c); try discriminate. destruct who.
      - destruct (coord_step a front check c evs c' E) as (_ & _ & _ & _ & K1 & K2 & _). auto.
      - destruct (rear_step a c i evs c' E) as (_ & _ & -> & _). auto. }
    apply at_snoc in A. destruct A as [A|(_ & _ & ->)]; auto. destruct (IH _ _ _ A). tauto.
Qed.

Lemma past_later : forall p q i c w c', at_ h p (Rear i) c -> past (pc_of i c) = true -> p < q -> at_ h q w c' -> past (pc_of i c') = true.
Proof.
  intros p q i c w c' A P L A'. destruct (hist_at _ _ _ A') as [_ I]. destruct (past (pc_of i c')) eqn:E; auto.
  rewrite (hi_nopast _ _ I i E p c (at_cut _ _ _ _ A L)) in P. discriminate.
Qed.
Lemma coord_later : forall p q i c c', at_ h p (Rear i) c -> past (pc_of i c) = true -> p < q -> at_ h q Coord c' -> early_co (c_co c') = false.
Proof.
  intros p q i c c' A P L A'. assert (P' := past_later _ _ _ _ _ _ A P L A'). destruct (hist_at _ _ _ A') as [_ I].
  destruct (hi_past _ _ I i P') as [S _]. apply (hi_sync _ _ I S).
Qed.
Lemma done_later : forall p q c i c', at_ h p Coord c -> done_co (c_co c) = true -> p < q -> at_ h q (Rear i) c' -> False.
Proof.
  intros p q c i c' A D L A'. destruct (hist_at _ _ _ A') as [Rq I]. destruct (stays _ _ Rq _ _ _ (at_cut _ _ _ _ A L)) as [_ K].
  destruct (rear_alive _ _ _ A') as [N1 N2]. destruct (done_state a front rears check obj model _ _ Rq (K D) i); auto.
Qed.

(** ** What is ordered *)
Lemma same_hb : forall p q w c c', p < q -> at_ h p w c -> at_ h q w c' -> happens_before h p q.
Proof. intros. apply hb_one. eapply e_same; eauto. Qed.
Lemma hb_edge : forall p r q w c, p <= r -> at_ h p w c -> (exists c', at_ h r w c') -> edge h r q -> happens_before h p q.
Proof.
  intros p r q w c L A (c' & A') E. destruct (Nat.eq_dec p r) as [->|N]; [apply hb_one; auto|]. apply (hb_more _ _ r); auto. apply (same_hb p r w c c'); auto; lia.
Qed.

Lemma setup_first : forall p q i c c', p < q -> at_ h p Coord c -> early_co (c_co c) = true -> at_ h q (Rear i) c' -> past (pc_of i c') = true -> happens_before h p q.
Proof.
  intros p q i c c' L A E A' P. destruct (hist_at _ _ _ A') as [_ I]. destruct (hi_past _ _ I i P) as [_ (s & s' & (c0 & B & Ek & Hs) & Ls & (c1 & B' & Ep & Es & _))].
  assert (Lp := Hs _ _ (at_cut _ _ _ _ A L) E). apply at_firstn in B. apply at_firstn in B'. destruct B as [B _]. destruct B' as [B' L'].
  eapply hb_more.
  - eapply hb_edge; [exact Lp|eauto|eauto|]. eapply (e_sync h s s') with (s := SSync); eauto; cbn; rewrite ?Ek, ?Ep, ?Es; cbn; auto.
  - eapply e_same; eauto.
Qed.
Lemma joined_first : forall p q i c c', p < q -> at_ h p (Rear i) c -> at_ h q Coord c' -> done_co (c_co c') = true -> happens_before h p q.
Proof.
  intros p q i c c' L A A' D. destruct (hist_at _ _ _ A') as [_ I].
  destruct (hi_done _ _ I D i p c (at_cut _ _ _ _ A L)) as (e & e' & c1 & (c0 & B & Rl & Hl) & Le & B' & Ac & _).
  assert (Lp := Hl _ _ (at_cut _ _ _ _ A L)). apply at_firstn in B. apply at_firstn in B'. destruct B as [B _]. destruct B' as [B' L'].
  eapply hb_more.
  - eapply hb_edge; [exact Lp|eauto|eauto|]. eapply (e_sync h e e') with (s := SEnd i); eauto.
  - eapply e_same; eauto.
Qed.

(** ** What is not *)
Definition takes_at (p i : nat) : Prop := exists c k l, at_ h p (Rear i) c /\ pc_of i c = PTake k l.

Lemma rear_releases : forall (c : C) i s, past (pc_of i c) = true -> In s (releases (Rear i) c) -> (s = SEnd i \/ (s = SCounter /\ exists k l, pc_of i c = PTake k l)).
Proof.
  intros c i s P Hin. cbn in Hin. unfold pc_of in *. destruct (nth_error (c_threads c) i) as [t|]; [|cbn in Hin; tauto].
  destruct (t_pc t); cbn in Hin; try tauto; try discriminate.
  - destruct (nth_error (t_acts t) k); cbn in Hin; [tauto|]. destruct Hin as [<-|[]]; auto.
  - destruct Hin as [<-|[]]. right. split; eauto.
Qed.
Lemma rear_acquires : forall (c : C) i s, In s (acquires (Rear i) c) -> s = SCreate i \/ s = SSync \/ (s = SCounter /\ exists k l, pc_of i c = PTake k l).
Proof.
  intros c i s Hin. cbn in Hin. destruct (pc_of i c); cbn in Hin; try tauto.
  - destruct Hin as [<-|[]]; auto.
  - destruct (c_sync c); cbn in Hin; [destruct Hin as [<-|[]]; auto|tauto].
  - destruct Hin as [<-|[]]. right. right. split; eauto.
Qed.
Lemma coord_releases : forall (c : C) s, early_co (c_co c) = false -> ~ In s (releases Coord c).
Proof. intros c s E Hin. cbn in Hin. destruct (c_co c); cbn in *; try discriminate; tauto. Qed.

Lemma edge_lt : forall p q, edge h p q -> p < q.
Proof. intros p q E. destruct E; auto. Qed.
Lemma edge_at : forall p q, edge h p q -> exists w c, at_ h q w c.
Proof. intros p q E. destruct E; eauto. Qed.
Lemma hb_lt : forall p q, happens_before h p q -> p < q.
Proof. induction 1 as [q E|r q _ IH E]; apply edge_lt in E; lia. Qed.

(** Where happens-before can lead from a rear thread. *)
Definition leads (p i q : nat) : Prop :=
  (exists c, at_ h q (Rear i) c) \/ (exists c, at_ h q Coord c) \/
  (exists j c p' q', j <> i /\ at_ h q (Rear j) c /\ past (pc_of j c) = true /\ p <= p' /\ p' < q' /\ q' <= q /\ takes_at p' i /\ takes_at q' j).
Lemma leads_to : forall p q i c, at_ h p (Rear i) c -> past (pc_of i c) = true -> happens_before h p q -> leads p i q.
Proof.
  intros p q i c A P Hb.
  assert (Step : forall r q, p <= r -> leads p i r -> edge h r q -> leads p i q).
  { clear q Hb. intros r q Lr Hr E. assert (Lrq := edge_lt _ _ E). destruct E as [w c1 c2 L A1 A2|w c1 w' c2 s L A1 A2 Rl Ac].
    - destruct w as [|j]; [right; left; eauto|]. destruct (Nat.eq_dec j i) as [->|N]; [left; eauto|].
      destruct Hr as [(c3 & A3)|[(c3 & A3)|(j' & c3 & p' & q' & N' & A3 & P3 & L1 & L2 & L3 & T1 & T2)]].
      + destruct (at_same _ _ _ _ _ _ A1 A3) as [E _]. congruence.
      + destruct (at_same _ _ _ _ _ _ A1 A3) as [E _]. congruence.
      + destruct (at_same _ _ _ _ _ _ A1 A3) as [E <-]. inversion E; subst j'. right. right. exists j, c2, p', q'.
        split; [auto|]. split; [auto|]. split; [apply (past_later r q j c1 (Rear j) c2); auto|]. split; [lia|]. split; [lia|]. split; [lia|]. auto.
    - destruct w' as [|j]; [right; left; eauto|]. destruct (Nat.eq_dec j i) as [->|N]; [left; eauto|].
      right. right.
      assert (Hrel : w <> Coord).
      { intros ->. eapply coord_releases; [|exact Rl]. destruct (Nat.eq_dec p r) as [<-|Np].
        - destruct (at_same _ _ _ _ _ _ A A1) as [E _]. discriminate.
        - eapply (coord_later p r); eauto. lia. }
      destruct w as [|j0]; [tauto|]. clear Hrel.
      assert (P1 : past (pc_of j0 c1) = true).
      { destruct Hr as [(c3 & A3)|[(c3 & A3)|(j' & c3 & p' & q' & N' & A3 & P3 & _)]]; destruct (at_same _ _ _ _ _ _ A1 A3) as [E Ec]; inversion E; subst; auto.
        destruct (Nat.eq_dec p r) as [<-|Np].
        - destruct (at_same _ _ _ _ _ _ A A3) as [_ <-]. auto.
        - eapply (past_later p r); eauto. lia. }
      assert (Hs : s = SCounter /\ (exists k l, pc_of j0 c1 = PTake k l) /\ exists k l, pc_of j c2 = PTake k l).
      { destruct (rear_releases _ _ _ P1 Rl) as [->|[-> Ht]]; destruct (rear_acquires _ _ _ Ac) as [E|[E|[E Ht2]]]; try discriminate. auto. }
      destruct Hs as (_ & (k1 & l1 & T1) & (k2 & l2 & T2)).
      assert (Tq : takes_at q j) by (exists c2, k2, l2; auto).
      assert (Pq : past (pc_of j c2) = true) by (rewrite T2; auto).
      destruct Hr as [(c3 & A3)|[(c3 & A3)|(j' & c3 & p' & q' & N' & A3 & P3 & L1 & L2 & L3 & U1 & U2)]].
      + destruct (at_same _ _ _ _ _ _ A1 A3) as [E _]. inversion E; subst j0. exists j, c2, r, q. split; [auto|]. split; [auto|]. split; [auto|]. split; [auto|]. split; [auto|]. split; [auto|]. split; auto. exists c1, k1, l1; auto.
      + destruct (at_same _ _ _ _ _ _ A1 A3) as [E _]. discriminate.
      + exists j, c2, p', q. split; [auto|]. split; [auto|]. split; [auto|]. split; [auto|]. split; [lia|]. split; [lia|]. auto. }
  induction Hb as [q E|r q Hb IH E].
  - eapply (Step p q); eauto. left; eauto.
  - apply (Step r q); auto. apply hb_lt in Hb. lia.
Qed.

Lemma ordered_iff : forall p q i j c c', p < q -> i <> j -> at_ h p (Rear i) c -> at_ h q (Rear j) c' -> past (pc_of i c) = true ->
  (happens_before h p q <-> exists p' q', p <= p' /\ p' < q' /\ q' <= q /\ takes_at p' i /\ takes_at q' j).
Proof.
  intros p q i j c c' L N A A' P. split.
  - intros Hb. destruct (leads_to _ _ _ _ A P Hb) as [(c3 & A3)|[(c3 & A3)|(j' & c3 & p' & q' & N' & A3 & P3 & L1 & L2 & L3 & U1 & U2)]];
      destruct (at_same _ _ _ _ _ _ A' A3) as [E _]; inversion E; subst; try tauto. exists p', q'. auto.
  - intros (p' & q' & L1 & L2 & L3 & (c1 & k1 & l1 & A1 & T1) & (c2 & k2 & l2 & A2 & T2)).
    assert (E : edge h p' q').
    { eapply (e_sync h p' q') with (s := SCounter); eauto; cbn; [|rewrite T2; cbn; auto]. unfold pc_of in T1. destruct (nth_error (c_threads c1) i); [|discriminate]. rewrite T1. cbn; auto. }
    destruct (Nat.eq_dec q' q) as [->|Nq].
    + eapply hb_edge; eauto.
    + eapply hb_more; [eapply hb_edge; eauto|]. eapply e_same; [|exact A2|exact A']. lia.
Qed.

(** ** Where races can be *)
Variable touch : actor -> C -> list (nat * bool).
Notation acc := (accesses touch a front).
Definition touched (l : loc) (x : list access) : Prop := In (Wr l) x \/ In (Rd l) x.
Lemma conflict_touched : forall l x y, conflict l x y -> touched l x /\ touched l y.
Proof. intros l x y. unfold conflict, touched. tauto. Qed.
Lemma rear_touched : forall i c l, touched l (acc (Rear i) c) -> past (pc_of i c) = true.
Proof. intros i c l [T|T]; cbn in T; destruct (pc_of i c); cbn in *; auto; tauto. Qed.
Lemma coord_touched : forall c l, touched l (acc Coord c) -> early_co (c_co c) = true \/ done_co (c_co c) = true.
Proof. intros c l T. unfold touched, accesses in T. destruct (c_co c); auto; destruct T as [[]|[]]. Qed.

Lemma rear_acc : forall i c x, In x (acc (Rear i) c) ->
  x = Rd (LActs i) \/ (exists k, in_action k (pc_of i c) /\ (x = Wr (match a with Func => LCopy i | Class => LModel end) \/ exists u, x = Wr (LUser u) \/ x = Rd (LUser u))) \/
  (exists k l s, pc_of i c = PWrite k l s /\ (x = Rd LVec \/ x = Wr (LSlot s))).
Proof.
  intros i c x Hin. cbn in Hin. destruct (pc_of i c) eqn:Ep; cbn in Hin; try tauto.
  - destruct Hin as [<-|[]]; auto.
  - destruct (is_step c0) eqn:Es; [|cbn in Hin; tauto]. right. left. exists k. split; [exists c0; auto|]. destruct Hin as [<-|Hin]; auto. apply in_map_iff in Hin.
    destruct Hin as ([u b] & <- & _). right. exists u. cbn. destruct b; auto.
  - right. right. exists k, last, slot. destruct Hin as [<-|[<-|[]]]; auto.
  - destruct (is_step c0) eqn:Es; [|cbn in Hin; tauto]. right. left. exists k. split; [exists c0; auto|]. destruct Hin as [<-|Hin]; auto. apply in_map_iff in Hin.
    destruct Hin as ([u b] & <- & _). right. exists u. cbn. destruct b; auto.
Qed.

Lemma race_where : forall l p q, race h touch a front l p q ->
  exists i j c c' k k', i <> j /\ at_ h p (Rear i) c /\ at_ h q (Rear j) c' /\ in_action k (pc_of i c) /\ in_action k' (pc_of j c') /\
  ((exists u, l = LUser u) \/ (a = Class /\ l = LModel)).
Proof.
  intros l p q (L & w & c & w' & c' & A & A' & N & Hc & Hn). destruct (conflict_touched _ _ _ Hc) as [T T'].
  destruct w as [|i]; destruct w' as [|j]; [tauto| | |].
  - exfalso. assert (P := rear_touched _ _ _ T'). destruct (coord_touched _ _ T) as [E|D].
    + apply Hn. eapply setup_first; eauto.
    + eapply done_later; eauto.
  - exfalso. assert (P := rear_touched _ _ _ T). assert (E := coord_later _ _ _ _ _ A P L A'). destruct (coord_touched _ _ T') as [E'|D]; [congruence|].
    apply Hn. eapply joined_first; eauto.
  - assert (Nij : i <> j) by congruence.
    assert (Main : forall x y, In x (acc (Rear i) c) -> In y (acc (Rear j) c') -> ((x = Wr l /\ (y = Wr l \/ y = Rd l)) \/ (x = Rd l /\ y = Wr l)) ->
      exists k k', in_action k (pc_of i c) /\ in_action k' (pc_of j c') /\ ((exists u, l = LUser u) \/ (a = Class /\ l = LModel))).
    { intros x y Hx Hy Hxy.
      destruct (rear_acc _ _ _ Hx) as [Ex|[(k & Ik & Ex)|(k & l0 & s & Ek & Ex)]]; destruct (rear_acc _ _ _ Hy) as [Ey|[(k' & Ik' & Ey)|(k' & l0' & s' & Ek' & Ey)]].
      - subst. destruct Hxy as [[E [E'|E']]|[E E']]; congruence.
      - subst. destruct Hxy as [[E [E'|E']]|[E E']]; try congruence. destruct Ey as [Ey|(u & [Ey|Ey])]; subst; try discriminate; destruct a; inversion Ey; congruence.
      - subst. destruct Hxy as [[E [E'|E']]|[E E']]; try congruence. destruct Ey as [Ey|Ey]; subst; try discriminate; inversion E; subst; inversion Ey.
      - subst. destruct Hxy as [[E [E'|E']]|[E E']]; try congruence. destruct Ex as [Ex|(u & [Ex|Ex])]; subst; destruct a; inversion Ex; congruence.
      - exists k, k'. split; auto. split; auto. destruct Ex as [->|(u & [->| ->])].
        + destruct Ey as [->|(u & [->| ->])].
          * destruct a; [|right; destruct Hxy as [[E _]|[E _]]; inversion E; auto]. exfalso. destruct Hxy as [[E [E'|E']]|[E E']]; inversion E; subst; inversion E'; congruence.
          * destruct Hxy as [[E [E'|E']]|[E E']]; inversion E'; subst; left; eauto.
          * destruct Hxy as [[E [E'|E']]|[E E']]; inversion E'; subst; left; eauto.
        + destruct Hxy as [[E _]|[E _]]; inversion E; left; eauto.
        + destruct Hxy as [[E _]|[E _]]; inversion E; left; eauto.
      - exfalso. destruct Ex as [->|(u & [->| ->])]; destruct Ey as [->| ->]; destruct Hxy as [[E [E'|E']]|[E E']]; inversion E; subst; inversion E'; destruct a; discriminate.
      - subst. exfalso. destruct Ex as [->| ->]; destruct Hxy as [[E [E'|E']]|[E E']]; inversion E; subst; inversion E'.
      - exfalso. destruct Ey as [->|(u & [->| ->])]; destruct Ex as [->| ->]; destruct Hxy as [[E [E'|E']]|[E E']]; inversion E; subst; inversion E'; destruct a; discriminate.
      - exfalso. assert (Es : s = s') by (destruct Ey as [->| ->]; destruct Ex as [->| ->]; destruct Hxy as [[E [E'|E']]|[E E']]; inversion E; subst; inversion E'; auto). subst s'.
        destruct (hist_at _ _ _ A') as [_ I]. destruct (hi_w3 _ _ I p i c k l0 s (running _ _ _ A') (at_cut _ _ _ _ A L) Ek) as [_ K]. eapply K; eauto. }
    unfold conflict in Hc.
    assert (Hx : exists k k', in_action k (pc_of i c) /\ in_action k' (pc_of j c') /\ ((exists u, l = LUser u) \/ (a = Class /\ l = LModel))).
    { destruct Hc as [[H1 [H2|H2]]|[H1 H2]]; eapply Main; eauto 6. }
    destruct Hx as (k & k' & K1 & K2 & K3). exists i, j, c, c', k, k'. auto 6.
Qed.
End Order.
