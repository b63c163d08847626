(** C79: which accesses of a concurrent run can race. *)
From Coq Require Import List ZArith Bool Lia Arith.
From Verif Require Import Base TupleModel ConcModel ConcSpec ConcProof ConcInv ConcCo PropConc RaceModel RaceSpec RaceProof RaceHist RaceMore RaceLog.
Import ListNotations.
Local Open Scope list_scope.

(** * Examples: two rear threads that record an expectation in every step *)

Definition records : actor -> cfg Z Z -> list (nat * bool) := fun _ _ => [(0%nat, true)].
Definition quiet : actor -> cfg Z Z -> list (nat * bool) := fun _ _ => [].
Definition exRears1 : list (list (act Z Z)) := [[aInc]; [aInc]].
Definition exHist : list (actor * cfg Z Z) := history Func [aInc] theCheck (turns 2 40) (start 0%Z 0%Z exRears1).
Definition exHistRun : list (ev Z Z) * cfg Z Z := run Func [aInc] theCheck (turns 2 40) (start 0%Z 0%Z exRears1).
(** Thread 0 first, then thread 1. *)
Definition exTurns2 : list actor := repeat Coord 12 ++ [Rear 0; Rear 1] ++ repeat Coord 12 ++ repeat (Rear 0) 30 ++ repeat (Rear 1) 30 ++ repeat Coord 12.
Definition exHist2 : list (actor * cfg Z Z) := history Func [aInc] theCheck exTurns2 (start 0%Z 0%Z exRears1).
Definition exHistC : list (actor * cfg Z Z) := history Class [aInc] theCheck exTurns2 (start 0%Z 0%Z exRears1).
Definition exHistCRun : list (ev Z Z) * cfg Z Z := run Class [aInc] theCheck exTurns2 (start 0%Z 0%Z exRears1).

(** Where a thread takes entries of the log, where it makes steps of user code. *)
Definition positions (f : actor * cfg Z Z -> bool) (h : list (actor * cfg Z Z)) : list nat :=
  map fst (filter (fun x => f (snd x)) (combine (seq 0 (length h)) h)).
Definition is_take (i : nat) (x : actor * cfg Z Z) : bool :=
  match fst x with Rear j => Nat.eqb i j && match pc_of i (snd x) with PTake _ _ => true | _ => false end | Coord => false end.
Definition is_user (i : nat) (x : actor * cfg Z Z) : bool :=
  match fst x with Rear j => Nat.eqb i j && match pc_of i (snd x) with PBody _ p => is_step p | _ => false end | Coord => false end.
Example exHist_positions : positions (is_take 0) exHist = [28; 36] /\ positions (is_user 0) exHist = [32] /\ positions (is_take 1) exHist = [29; 37] /\ positions (is_user 1) exHist = [33].
Proof. split; [|split; [|split]]; vm_compute; reflexivity. Qed.
Example exHist2_positions : positions (is_take 0) exHist2 = [20; 24] /\ positions (is_user 0) exHist2 = [22] /\ positions (is_take 1) exHist2 = [29; 33] /\ positions (is_user 1) exHist2 = [31].
Proof. split; [|split; [|split]]; vm_compute; reflexivity. Qed.
Example exHistC_positions : positions (is_take 0) exHistC = [23] /\ positions (is_user 0) exHistC = [21] /\ positions (is_take 1) exHistC = [31] /\ positions (is_user 1) exHistC = [29].
Proof. split; [|split; [|split]]; vm_compute; reflexivity. Qed.
Example exHist_returned : returned (snd exHistRun) /\ returned (snd exHistCRun).
Proof. repeat split; vm_compute; reflexivity. Qed.

Lemma positions_at : forall f h p, In p (positions f h) <-> exists x, nth_error h p = Some x /\ f x = true.
Proof.
  intros f h p. unfold positions. rewrite in_map_iff. split.
  - intros ([p' x] & <- & Hin). apply filter_In in Hin. destruct Hin as [Hin Hf]. cbn in *. exists x. split; auto.
    apply In_nth_error in Hin. destruct Hin as (n & Hn). assert (L : n < length h) by (assert (n < length (combine (seq 0 (length h)) h)) by (apply nth_error_Some; congruence); rewrite combine_length, seq_length in *; lia).
    destruct (nth_error h n) as [y|] eqn:E; [|apply nth_error_None in E; lia].
    assert (E2 := nth_error_nth _ _ (0, x) Hn). rewrite combine_nth in E2 by apply seq_length. rewrite seq_nth in E2 by auto. inversion E2; subst.
    cbn. rewrite E. f_equal. symmetry. apply nth_error_nth; auto.
  - intros (x & Hx & Hf). exists (p, x). split; auto. apply filter_In. split; auto.
    assert (L : p < length h) by (apply nth_error_Some; congruence).
    replace (p, x) with (nth p (combine (seq 0 (length h)) h) (0, x)).
    + apply nth_In. rewrite combine_length, seq_length. lia.
    + rewrite combine_nth by apply seq_length. rewrite seq_nth by auto. cbn. f_equal. apply nth_error_nth; auto.
Qed.
Lemma takes_positions : forall h p i, takes_at h p i -> In p (positions (is_take i) h).
Proof. intros h p i (c & k & l & A & E). apply positions_at. exists (Rear i, c). split; auto. unfold is_take. cbn. rewrite Nat.eqb_refl, E. auto. Qed.
Lemma user_positions : forall h p i, In p (positions (is_user i) h) -> exists c k x, at_ h p (Rear i) c /\ pc_of i c = PBody k x /\ is_step x = true.
Proof.
  intros h p i Hin. apply positions_at in Hin. destruct Hin as ([w c] & A & E). unfold is_user in E. cbn in E. destruct w as [|j]; [discriminate|].
  apply andb_true_iff in E. destruct E as [E1 E2]. apply Nat.eqb_eq in E1. subst j. destruct (pc_of i c) eqn:Ep; try discriminate. exists c, k, c0. auto.
Qed.

(** * Only the actions themselves race *)

Section C79.
Context {O M : Type} (a : api) (front : list (act O M)) (rears : list (list (act O M))) (check : option (code O M unit)) (obj : O) (model : M) (schedule : list actor).
Notation h := (history a front check schedule (start obj model rears)).

(** Whatever memory the user's code touches and however the threads are scheduled: if two accesses race, then both are made by actions of two different
    rear threads, and it is the user's memory -- or the model, in the class-based interface, which does not copy it.  So the log, the lists of
    actions, the flags, the copies of the model (function-based) never race, nor does anything the front or the final check does. *)
Theorem C79_only_actions : forall touch l p q, race h touch a front l p q ->
  exists i j c c' k k', i <> j /\ at_ h p (Rear i) c /\ at_ h q (Rear j) c' /\ in_action k (pc_of i c) /\ in_action k' (pc_of j c') /\
  ((exists u, l = LUser u) \/ (a = Class /\ l = LModel)).
Proof. intros touch l p q Hr. destruct (from_start a front rears check obj model schedule) as (cN & R). eapply race_where; eauto. Qed.

(** The front comes before all actions of rear threads, and those before the check. *)
Theorem C79_phases : forall p q i c c', p < q ->
  (at_ h p Coord c -> at_ h q (Rear i) c' -> (exists k, in_action k (pc_of i c')) -> happens_before h p q \/ accesses (fun _ _ => []) a front Coord c = []) /\
  (at_ h p (Rear i) c -> at_ h q Coord c' -> (exists o, c_co c' = KChecking o) -> happens_before h p q).
Proof.
  intros p q i c c' L. destruct (from_start a front rears check obj model schedule) as (cN & R). split.
  - intros A A' (k & x & _ & Hk). assert (P : past (pc_of i c') = true) by (destruct Hk as [-> | ->]; auto).
    destruct (early_co (c_co c)) eqn:E; [left; eapply setup_first; eauto|]. destruct (done_co (c_co c)) eqn:D; [exfalso; eapply done_later; eauto|].
    right. unfold accesses. destruct (c_co c); auto; discriminate.
  - intros A A' (o & Ho). eapply joined_first; eauto. rewrite Ho. auto.
Qed.

(** * What the harness orders *)

(** Steps of actions of different threads: the first happens before the second just if, in between, the first thread took an entry of the log and
    after that the second one did.  (The counter synchronises; nothing else does.) *)
Theorem C79_ordered : forall p q i j c c' k k', p < q -> i <> j -> at_ h p (Rear i) c -> at_ h q (Rear j) c' -> in_action k (pc_of i c) -> in_action k' (pc_of j c') ->
  (happens_before h p q <-> exists p' q' c1 c2 k1 l1 k2 l2, p < p' /\ p' < q' /\ q' < q /\ at_ h p' (Rear i) c1 /\ pc_of i c1 = PTake k1 l1 /\ at_ h q' (Rear j) c2 /\ pc_of j c2 = PTake k2 l2).
Proof.
  intros p q i j c c' k k' L N A A' (x & _ & Hk) (x' & _ & Hk'). destruct (from_start a front rears check obj model schedule) as (cN & R).
  assert (P : past (pc_of i c) = true) by (destruct Hk as [-> | ->]; auto). rewrite (ordered_iff _ _ _ _ _ _ _ _ R p q i j c c' L N A A' P). split.
  - intros (p' & q' & L1 & L2 & L3 & (c1 & k1 & l1 & A1 & T1) & (c2 & k2 & l2 & A2 & T2)). exists p', q', c1, c2, k1, l1, k2, l2.
    assert (p <> p') by (intros <-; destruct (at_same _ _ _ _ _ _ A A1) as [_ <-]; destruct Hk; congruence).
    assert (q <> q') by (intros <-; destruct (at_same _ _ _ _ _ _ A' A2) as [_ <-]; destruct Hk'; congruence).
    split; [lia|]. split; [lia|]. split; [lia|]. auto.
  - intros (p' & q' & c1 & c2 & k1 & l1 & k2 & l2 & L1 & L2 & L3 & A1 & T1 & A2 & T2). exists p', q'. split; [lia|]. split; [lia|]. split; [lia|].
    split; [exists c1, k1, l1|exists c2, k2, l2]; auto.
Qed.

(** Function-based, actions are logged at both ends: steps of two actions are ordered just if the end of the first action was logged before the start of the second. *)
Theorem C79_overlap : a = Func -> forall p q i j c c' k k', p < q -> i <> j -> at_ h p (Rear i) c -> at_ h q (Rear j) c' -> in_action k (pc_of i c) -> in_action k' (pc_of j c') ->
  (happens_before h p q <-> exists p' q' c1 c2, p' < q' /\ at_ h p' (Rear i) c1 /\ pc_of i c1 = PTake k true /\ at_ h q' (Rear j) c2 /\ pc_of j c2 = PTake k' false).
Proof.
  intros Ea p q i j c c' k k' L N A A' Hi Hi'. destruct (from_start a front rears check obj model schedule) as (cN & R).
  destruct (hist_at _ _ _ _ _ _ _ _ R _ _ _ A) as [Rp _]. destruct (hist_at _ _ _ _ _ _ _ _ R _ _ _ A') as [Rq _].
  assert (Ei : exists x, pc_of i c = PBody k x) by (destruct Hi as (x & _ & [E|E]); eauto; exfalso; eapply (no_pre _ _ _ _ _ _ _ _ Rp Ea); eauto).
  assert (Ej : exists x, pc_of j c' = PBody k' x) by (destruct Hi' as (x & _ & [E|E]); eauto; exfalso; eapply (no_pre _ _ _ _ _ _ _ _ Rq Ea); eauto).
  destruct Ei as (x & Ei). destruct Ej as (y & Ej). rewrite (C79_ordered p q i j c c' k k' L N A A' Hi Hi'). split.
  - intros (p' & q' & c1 & c2 & k1 & l1 & k2 & l2 & L1 & L2 & L3 & A1 & T1 & A2 & T2).
    (* the first entry that i takes after p *)
    assert (X : exists p2 c3, p2 <= p' /\ at_ h p2 (Rear i) c3 /\ pc_of i c3 = PTake k true).
    { destruct (hist_at _ _ _ _ _ _ _ _ R _ _ _ A1) as [R1 _]. destruct (after_body _ _ _ _ _ _ _ _ R1 p i c k x (at_cut _ _ _ _ _ A L1) Ei) as [(z & Ez)|[Ez|(p2 & c3 & Lp & B & Ez)]].
      - congruence.
      - exists p', c1. auto.
      - apply at_firstn in B. destruct B as [B Lb]. exists p2, c3. split; [lia|]. auto. }
    destruct X as (p2 & c3 & Lp2 & B & Eb).
    (* the last one that j took before q *)
    destruct (before_body _ _ _ _ _ _ _ _ Rq Ea j k' (or_introl (ex_intro _ y Ej))) as (q2 & c4 & D & Ed & Hlast).
    assert (Lq := Hlast q' c2 k2 l2 (at_cut _ _ _ _ _ A2 L3) T2). apply at_firstn in D. destruct D as [D _].
    exists p2, q2, c3, c4. split; [lia|]. auto.
  - intros (p' & q' & c1 & c2 & L1 & A1 & T1 & A2 & T2). exists p', q', c1, c2, k, true, k', false.
    assert (Lp : p < p').
    { destruct (lt_eq_lt_dec p p') as [[?|E]|Lt]; auto.
      - subst p'. destruct (at_same _ _ _ _ _ _ A A1) as [_ <-]. congruence.
      - assert (K := rank_mono _ _ _ _ _ _ _ _ Rp p' i c1 (at_cut _ _ _ _ _ A1 Lt)). rewrite Ei, T1 in K. cbn [rank] in K. assert (PBody k x <> PEnd) by discriminate. specialize (K H). lia. }
    assert (Lq : q' < q).
    { destruct (lt_eq_lt_dec q' q) as [[?|E]|Lt]; auto.
      - subst q'. destruct (at_same _ _ _ _ _ _ A' A2) as [_ <-]. congruence.
      - destruct (hist_at _ _ _ _ _ _ _ _ R _ _ _ A2) as [R2 _]. assert (K := rank_mono _ _ _ _ _ _ _ _ R2 q j c' (at_cut _ _ _ _ _ A' Lt)). rewrite Ej, T2 in K. cbn [rank] in K.
        assert (@PTake O M k' false <> PEnd) by discriminate. specialize (K H). lia. }
    split; [lia|]. split; [lia|]. split; [lia|]. auto.
Qed.

(** In terms of what is printed: if action k of thread i is shown to end before action k' of thread j starts, no step of theirs races, whatever they do. *)
Theorem C79_printed_order : a = Func -> forall l i j k k' touch x p q c c', In (VPrint l) (fst (run a front check schedule (start obj model rears))) ->
  before (IEnd i k) (IStart j k') l -> i <> j -> at_ h p (Rear i) c -> at_ h q (Rear j) c' -> in_action k (pc_of i c) -> in_action k' (pc_of j c') ->
  p < q /\ happens_before h p q /\ ~ race h touch a front x p q.
Proof.
  intros Ea l i j k k' touch x p q c c' Hl (t1 & t2 & t3 & El) N A A' Hi Hi'. destruct (from_start a front rears check obj model schedule) as (cN & R).
  destruct (hist_at _ _ _ _ _ _ _ _ R _ _ _ A) as [Rp _]. destruct (hist_at _ _ _ _ _ _ _ _ R _ _ _ A') as [Rq _].
  assert (Ho : outcome a front rears check obj model (fst (run a front check schedule (start obj model rears))) (snd (run a front check schedule (start obj model rears)))) by (exists schedule; apply surjective_pairing).
  assert (Et : l = map IFront (seq 0 (length front)) ++ map item_of (takes (fst (run a front check schedule (start obj model rears))))) by (subst a; eapply C49_printed; eauto).
  rewrite history_takes in Et.
  assert (X : exists u v, flat_map taken_by h = u ++ v /\ exists s1, In (j, k', false, s1) v /\ exists s0 v', v = (i, k, true, s0) :: v' /\ In (j, k', false, s1) v').
  { rewrite Et in El. clear - El. assert (G : forall n T t1, map IFront n ++ map item_of T = t1 ++ IEnd i k :: t2 ++ IStart j k' :: t3 ->
      exists u v, T = u ++ v /\ exists s1, In (j, k', false, s1) v /\ exists s0 v', v = (i, k, true, s0) :: v' /\ In (j, k', false, s1) v').
    { clear. induction n as [|n0 n IH]; intros T.
      - cbn. induction T as [|z T IHT]; intros [|w t1] E; cbn in E; try discriminate.
        + inversion E as [[Ez Er]]. destruct z as [[[i0 k0] b0] s0]. cbn in Ez. destruct b0; inversion Ez; subst.
          assert (Hin : In (IStart j k') (map item_of T)) by (rewrite Er; apply in_or_app; right; cbn; auto). apply in_map_iff in Hin. destruct Hin as ([[[j0 k1] b1] s1] & Ez1 & Hin).
          cbn in Ez1. destruct b1; inversion Ez1; subst. exists [], ((i, k, true, s0) :: T). split; auto. exists s1. split; [cbn; auto|]. exists s0, T. auto.
        + inversion E as [[Ez Er]]. destruct (IHT _ Er) as (u & v & -> & K). exists (z :: u), v. auto.
      - intros [|w t1] E; cbn in E; inversion E. eapply IH; eauto. }
    eapply G; eauto. }
  destruct X as (u & v & Ef & s1 & _ & s0 & v' & -> & Hin).
  destruct (flat_before _ _ _ _ _ _ _ _ taken_len Ef Hin) as (p' & q' & [w1 c1] & [w2 c2] & L1 & B1 & B2 & T1 & T2).
  destruct (taken_in _ _ _ _ _ _ _ _ B1 T1) as [D1 E1]. destruct (taken_in _ _ _ _ _ _ _ _ B2 T2) as [D2 E2].
  assert (Ei : exists x, pc_of i c = PBody k x) by (destruct Hi as (z & _ & [E|E]); eauto; exfalso; eapply (no_pre _ _ _ _ _ _ _ _ Rp Ea); eauto).
  assert (Ej : exists x, pc_of j c' = PBody k' x) by (destruct Hi' as (z & _ & [E|E]); eauto; exfalso; eapply (no_pre _ _ _ _ _ _ _ _ Rq Ea); eauto).
  destruct Ei as (z & Ei). destruct Ej as (y & Ej).
  assert (Lp : p < p').
  { destruct (lt_eq_lt_dec p p') as [[?|E]|Lt]; auto.
    - subst p'. destruct (at_same _ _ _ _ _ _ A D1) as [_ <-]. congruence.
    - assert (K := rank_mono _ _ _ _ _ _ _ _ Rp p' i c1 (at_cut _ _ _ _ _ D1 Lt)). rewrite Ei, E1 in K. cbn [rank] in K. assert (PBody k z <> PEnd) by discriminate. specialize (K H). lia. }
  assert (Lq : q' < q).
  { destruct (lt_eq_lt_dec q' q) as [[?|E]|Lt]; auto.
    - subst q'. destruct (at_same _ _ _ _ _ _ A' D2) as [_ <-]. congruence.
    - destruct (hist_at _ _ _ _ _ _ _ _ R _ _ _ D2) as [R2 _]. assert (K := rank_mono _ _ _ _ _ _ _ _ R2 q j c' (at_cut _ _ _ _ _ A' Lt)). rewrite Ej, E2 in K. cbn [rank] in K.
      assert (@PTake O M k' false <> PEnd) by discriminate. specialize (K H). lia. }
  assert (Hb : happens_before h p q).
  { apply (C79_ordered p q i j c c' k k'); auto; [lia|]. exists p', q', c1, c2, k, true, k', false. split; [lia|]. split; [lia|]. split; [lia|]. auto. }
  split; [lia|]. split; auto. intros (_ & w & d & w' & d' & _ & _ & _ & _ & Nh). auto.
Qed.

(** Steps of two threads made one right after the other are not ordered either way. *)
Theorem C79_adjacent : forall p i j c c' k k', i <> j -> at_ h p (Rear i) c -> at_ h (S p) (Rear j) c' -> in_action k (pc_of i c) -> in_action k' (pc_of j c') ->
  ~ happens_before h p (S p) /\ ~ happens_before h (S p) p.
Proof.
  intros p i j c c' k k' N A A' Hi Hi'. split.
  - rewrite (C79_ordered p (S p) i j c _ k k' (Nat.lt_succ_diag_r p) N A A' Hi Hi'). intros (p' & q' & _ & _ & _ & _ & _ & _ & L1 & L2 & L3 & _). lia.
  - intros Hb. apply hb_lt in Hb. lia.
Qed.
End C79.

(** So whenever two threads come to be in the middle of actions at the same time, and their next steps touch the same memory, one writing, there is a race:
    the scheduler need only let both make their step. *)
Theorem C79_can_race : forall O M a front rears check (obj : O) (model : M) schedule c i j k k' touch x, i <> j ->
  snd (run a front check schedule (start obj model rears)) = c -> c_status c = Running -> in_action k (pc_of i c) -> in_action k' (pc_of j c) ->
  (forall c', pc_of j c' = pc_of j c -> conflict x (accesses touch a front (Rear i) c) (accesses touch a front (Rear j) c')) ->
  exists p q, race (history a front check (schedule ++ [Rear i; Rear j]) (start obj model rears)) touch a front x p q.
Proof.
  intros O M a front rears check obj model schedule c i j k k' touch x N Er Hs Hi Hj Hc.
  assert (Ha : forall s t (d : cfg O M), history a front check (s ++ t) d = history a front check s d ++ history a front check t (snd (run a front check s d))).
  { induction s as [|w s IH]; intros t d; auto. cbn [app history run]. destruct (move a front check w d) as [[evs d']|]; auto.
    rewrite IH. destruct (run a front check s d'). auto. }
  assert (Mv : forall (d : cfg O M) n kk, c_status d = Running -> in_action kk (pc_of n d) -> exists evs d', move a front check (Rear n) d = Some (evs, d') /\ c_status d' = Running).
  { intros d n kk Rd (y & Sy & Hy). unfold move. rewrite Rd. unfold stepThread, pc_of in *. destruct (nth_error (c_threads d) n) as [t|]; [|destruct Hy; discriminate].
    destruct y as [| |u nx]; try discriminate. destruct Hy as [Hy|Hy]; rewrite Hy; eexists; eexists; (split; [reflexivity|]); unfold stepped; destruct a; auto. }
  destruct (Mv c i k Hs Hi) as (e1 & c1 & M1 & S1).
  assert (P1 : pc_of j c1 = pc_of j c).
  { unfold move in M1. rewrite Hs in M1. destruct (rear_step a c i e1 c1 M1) as (_ & _ & _ & _ & K & _). apply K. auto. }
  assert (Hj1 := Hj). rewrite <- P1 in Hj1. destruct (Mv c1 j k' S1 Hj1) as (e2 & c2 & M2 & _).
  set (h0 := history a front check schedule (start obj model rears)).
  assert (Eh : history a front check (schedule ++ [Rear i; Rear j]) (start obj model rears) = h0 ++ [(Rear i, c); (Rear j, c1)]).
  { rewrite Ha, Er. cbn [history]. rewrite M1, M2. auto. }
  assert (A1 : at_ (h0 ++ [(Rear i, c); (Rear j, c1)]) (length h0) (Rear i) c) by (unfold at_; rewrite nth_error_app2, Nat.sub_diag by lia; auto).
  assert (A2 : at_ (h0 ++ [(Rear i, c); (Rear j, c1)]) (S (length h0)) (Rear j) c1) by (unfold at_; rewrite nth_error_app2 by lia; replace (S (length h0) - length h0) with 1 by lia; auto).
  exists (length h0), (S (length h0)). rewrite Eh. split; [lia|]. exists (Rear i), c, (Rear j), c1. split; auto. split; auto. split; [congruence|]. split; [apply Hc; auto|].
  rewrite <- Eh in *. apply (C79_adjacent a front rears check obj model (schedule ++ [Rear i; Rear j]) (length h0) i j c c1 k k'); auto.
Qed.

(** * Examples and what follows from them *)

Lemma ex_race : forall touch a front rears check schedule h x (p q i j : nat) ti ui tj uj,
  h = history a front check schedule (start 0%Z 0%Z rears) -> p < q -> i <> j ->
  positions (is_take i) h = ti /\ positions (is_user i) h = ui /\ positions (is_take j) h = tj /\ positions (is_user j) h = uj ->
  In p ui -> In q uj -> (forall p' q', In p' ti -> In q' tj -> p < p' -> p' < q' -> q' < q -> False) ->
  (forall c c' k k' y y', pc_of i c = PBody k y -> is_step y = true -> pc_of j c' = PBody k' y' -> is_step y' = true -> conflict x (accesses touch a front (Rear i) c) (accesses touch a front (Rear j) c')) ->
  race h touch a front x p q.
Proof.
  intros touch a front rears check schedule h x p q i j ti ui tj uj Eh L N (P1 & P2 & P3 & P4) U U' Hno Hc. split; auto.
  rewrite <- P2 in U. rewrite <- P4 in U'. apply user_positions in U. apply user_positions in U'. destruct U as (c & k & y & A & Ep & Sy). destruct U' as (c' & k' & y' & A' & Ep' & Sy').
  exists (Rear i), c, (Rear j), c'. split; auto. split; auto. split; [congruence|]. split; [eapply Hc; eauto|]. intros Hb. subst h.
  apply (C79_ordered a front rears check 0%Z 0%Z schedule p q i j c c' k k') in Hb; auto; [|exists y; auto|exists y'; auto].
  destruct Hb as (p' & q' & c1 & c2 & k1 & l1 & k2 & l2 & L1 & L2 & L3 & A1 & T1 & A2 & T2).
  apply (Hno p' q'); auto; [rewrite <- P1|rewrite <- P3]; apply takes_positions; [exists c1, k1, l1|exists c2, k2, l2]; auto.
Qed.

(** Two rear actions that only record expectations, all of which hold: the run returns true, and has a data race on the context. *)
Theorem C79_expect_refuted : returned (snd exHistRun) /\ exists p q, race exHist records Func [aInc] (LUser 0) p q.
Proof.
  split; [apply exHist_returned|]. exists 32, 33.
  refine (ex_race records Func [aInc] exRears1 theCheck (turns 2 40) exHist (LUser 0) 32 33 0 1 _ _ _ _ eq_refl _ _ exHist_positions _ _ _ _).
  - lia.
  - discriminate.
  - left; reflexivity.
  - left; reflexivity.
  - intros p' q' _ _ ? ? ?. lia.
  - intros c c' k k' y y' E S E' S'. unfold accesses. rewrite E, S, E', S'. left. cbn. auto.
Qed.

(** Class-based: the model is shared.  Actions that work on nothing but the model race, even if one had ended before the other started. *)
Theorem C79_class_refuted : returned (snd exHistCRun) /\ before (V (Some 0) (TEnd 0)) (V (Some 1) (TStart 0)) (fst exHistCRun) /\
  exists p q, race exHistC quiet Class [aInc] LModel p q.
Proof.
  split; [apply exHist_returned|]. split.
  { exists (firstn 5 (fst exHistCRun)), [V (Some 0) (TTake 0 true 0); V (Some 0) (TWrite 0)], (skipn 9 (fst exHistCRun)). vm_compute. reflexivity. }
  exists 21, 29.
  refine (ex_race quiet Class [aInc] exRears1 theCheck exTurns2 exHistC LModel 21 29 0 1 _ _ _ _ eq_refl _ _ exHistC_positions _ _ _ _).
  - lia.
  - discriminate.
  - left; reflexivity.
  - left; reflexivity.
  - intros p' q' H1 H2 ? ? ?. cbn in H1, H2. lia.
  - intros c c' k k' y y' E S E' S'. unfold accesses. rewrite E, S, E', S'. left. cbn. auto.
Qed.

Lemma user_action : forall h p i, In p (positions (is_user i) h) -> exists c k, at_ h p (Rear i) c /\ in_action k (pc_of i c).
Proof. intros h p i Hin. apply user_positions in Hin. destruct Hin as (c & k & x & A & E & S). exists c, k. split; auto. exists x. auto. Qed.
Lemma ex_ordered : forall a front rears check schedule h (p q i j p' q' : nat) ti ui tj uj, h = history a front check schedule (start 0%Z 0%Z rears) -> p < q -> i <> j ->
  positions (is_take i) h = ti /\ positions (is_user i) h = ui /\ positions (is_take j) h = tj /\ positions (is_user j) h = uj ->
  In p ui -> In q uj -> In p' ti -> In q' tj -> p < p' -> p' < q' -> q' < q -> happens_before h p q.
Proof.
  intros a front rears check schedule h p q i j p' q' ti ui tj uj Eh L N (P1 & P2 & P3 & P4) U U' T T' L1 L2 L3.
  rewrite <- P2 in U. rewrite <- P4 in U'. rewrite <- P1 in T. rewrite <- P3 in T'. apply user_action in U. apply user_action in U'.
  destruct U as (c & k & A & I). destruct U' as (c' & k' & A' & I').
  assert (Q : forall p i, In p (positions (is_take i) h) -> exists c k l, at_ h p (Rear i) c /\ pc_of i c = PTake k l).
  { clear. intros p i Hin. apply positions_at in Hin. destruct Hin as ([w c] & A & E). unfold is_take in E. cbn in E. destruct w as [|j]; [discriminate|].
    apply andb_true_iff in E. destruct E as [E1 E2]. apply Nat.eqb_eq in E1. subst j. destruct (pc_of i c) eqn:Ep; try discriminate. exists c, k, last. auto. }
  apply Q in T. apply Q in T'. destruct T as (c1 & k1 & l1 & B1 & D1). destruct T' as (c2 & k2 & l2 & B2 & D2).
  subst h. apply (C79_ordered a front rears check 0%Z 0%Z schedule p q i j c c' k k'); auto. exists p', q', c1, c2, k1, l1, k2, l2. auto 8.
Qed.
(** One thread after the other: ordered, although nothing but the log connects them.  At the same time: not ordered. *)
Example C79_ordered_ex : happens_before exHist2 22 31 /\ ~ happens_before exHist 32 33.
Proof.
  split.
  - refine (ex_ordered Func [aInc] exRears1 theCheck exTurns2 exHist2 22 31 0 1 24 29 _ _ _ _ eq_refl _ _ exHist2_positions _ _ _ _ _ _ _); try lia; cbn; auto.
  - intros Hb. assert (X : race exHist records Func [aInc] (LUser 0) 32 33); [|destruct X as (_ & ? & ? & ? & ? & _ & _ & _ & _ & Nb); exact (Nb Hb)].
    refine (ex_race records Func [aInc] exRears1 theCheck (turns 2 40) exHist (LUser 0) 32 33 0 1 _ _ _ _ eq_refl _ _ exHist_positions _ _ _ _).
    + lia.
    + discriminate.
    + left; reflexivity.
    + left; reflexivity.
    + intros p' q' _ _ ? ? ?. lia.
    + intros c c' k k' y y' E S E' S'. unfold accesses. rewrite E, S, E', S'. left. cbn. auto.
Qed.
(** So the hypothesis of [C79_only_actions] is met, by [C79_expect_refuted] and [C79_class_refuted]; that of [C79_printed_order] is met here: *)
Example C79_printed_order_ex : let tr := fst (run Func [aInc] theCheck exTurns2 (start 0%Z 0%Z exRears1)) in
  In (VPrint [IFront 0; IStart 0 0; IEnd 0 0; IStart 1 0; IEnd 1 0]) tr /\ before (IEnd 0 0) (IStart 1 0) [IFront 0; IStart 0 0; IEnd 0 0; IStart 1 0; IEnd 1 0] /\
  (exists p c k, at_ exHist2 p (Rear 0) c /\ in_action k (pc_of 0 c)) /\ exists q c' k', at_ exHist2 q (Rear 1) c' /\ in_action k' (pc_of 1 c').
Proof.
  split; [vm_compute; tauto|]. split; [exists [IFront 0; IStart 0 0], [], [IEnd 1 0]; reflexivity|]. destruct exHist2_positions as (_ & P2 & _ & P4). split.
  - exists 22. apply user_action. rewrite P2. left; reflexivity.
  - exists 31. apply user_action. rewrite P4. left; reflexivity.
Qed.
(** A state as in [C79_can_race]. *)
Example C79_can_race_ex : exists p q, race (history Func [aInc] theCheck (firstn 48 (turns 2 40) ++ [Rear 0; Rear 1]) (start 0%Z 0%Z exRears1)) records Func [aInc] (LUser 0) p q.
Proof.
  assert (S : forall i, i < 2 -> exists x, is_step x = true /\ pc_of i (snd (run Func [aInc] theCheck (firstn 48 (turns 2 40)) (start 0%Z 0%Z exRears1))) = PBody 0 x).
  { intros i Hi. destruct i as [|[|i]]; [| |lia]; vm_compute; eexists; split; [|reflexivity| |reflexivity]; reflexivity. }
  assert (T : c_status (snd (run Func [aInc] theCheck (firstn 48 (turns 2 40)) (start 0%Z 0%Z exRears1))) = Running) by (vm_compute; reflexivity).
  revert S T. generalize (firstn 48 (turns 2 40)). intros s S T. destruct (S 0) as (x & Sx & Ex); [lia|]. destruct (S 1) as (y & Sy & Ey); [lia|].
  refine (C79_can_race Z Z Func [aInc] exRears1 theCheck 0%Z 0%Z s _ 0 1 0 0 records (LUser 0) _ eq_refl T _ _ _); [discriminate|exists x; auto|exists y; auto|].
  intros c' Ec. unfold accesses. rewrite Ec, Ex, Ey, Sx, Sy. left. cbn. auto.
Qed.

Print Assumptions C79_only_actions.
Print Assumptions C79_phases.
Print Assumptions C79_ordered.
Print Assumptions C79_overlap.
Print Assumptions C79_printed_order.
Print Assumptions C79_adjacent.
Print Assumptions C79_can_race.
Print Assumptions C79_expect_refuted.
Print Assumptions C79_class_refuted.
