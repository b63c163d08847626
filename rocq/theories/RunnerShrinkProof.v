(** Proofs about shrinking failing arguments. *)
From Coq Require Import String List ZArith Lia Bool Permutation.
From Verif Require Import Base TreeModel TreeSpec TreeProof RandomModel TupleModel TupleProof ContainerProof EffModel EffSpec EffProof
  ContextModel ContextSpec ContextProof RunnerModel RunnerSpec RunnerProof RunnerPureProof.
Import ListNotations.
Local Open Scope list_scope.

(* set_nth *)
Lemma set_nth_same : forall X (l : list X) n x, nth_error l n = Some x -> set_nth n x l = l.
Proof. induction l as [|a l IH]; intros [|n] x H; simpl in *; try discriminate; [congruence|]. f_equal. auto. Qed.
Lemma set_nth_twice : forall X (l : list X) n x y, set_nth n x (set_nth n y l) = set_nth n x l.
Proof. induction l as [|a l IH]; intros [|n] x y; simpl; auto. f_equal. auto. Qed.
Lemma set_nth_len : forall X (l : list X) n x, length (set_nth n x l) = length l.
Proof. induction l as [|a l IH]; intros [|n] x; simpl; auto. Qed.
Lemma set_nth_at : forall X (l : list X) n x, (n < length l)%nat -> nth_error (set_nth n x l) n = Some x.
Proof. induction l as [|a l IH]; intros [|n] x H; simpl in *; try lia; auto. apply IH. lia. Qed.
Lemma set_nth_other : forall X (l : list X) n m x, n <> m -> nth_error (set_nth n x l) m = nth_error l m.
Proof. induction l as [|a l IH]; intros [|n] [|m] x H; simpl; auto; congruence. Qed.

(* one re-test *)
Definition tested {E V W} (beh : list V -> list op * ures) (a : list V) (s : rs E V W) : rs E V W :=
  {| rnd := rnd s; cx := cx s; wd := wd s; lg := lg s ++ [ECall a (snd (beh a))] |}.

Lemma test_pure : forall E V W (P : property E V W) beh N cur v c s b c' s', pure_property P beh -> failures c = [] ->
  test P N cur v c s = Ok (b, c', s') ->
  s' = tested beh (set_nth N v (map eroot cur)) s /\
  (if negb b || hasFailures c' then bad beh (set_nth N v (map eroot cur)) else ~ bad beh (set_nth N v (map eroot cur)) /\ failures c' = []).
Proof.
  intros E V W P beh N cur v c s b c' s' [Hf [Hs Hc]] H0 H. unfold test in H. rewrite Hs, Hc in H. cbn [runHook] in H.
  unfold callFunc in H. rewrite Hf in H. set (a := set_nth N v (map eroot cur)) in *.
  assert (Hfl : failures (apply_ops (fst (beh a)) c) = failed_expectations (fst (beh a))) by (rewrite failures_ops, H0; auto).
  unfold bad. destruct (snd (beh a)) as [r|e] eqn:Eb.
  - inversion H; subst. unfold tested. rewrite Eb. cbn. split; auto. destruct b; simpl.
    + unfold hasFailures. cbn [cx with_cx]. rewrite Hfl. destruct (failed_expectations (fst (beh a))) eqn:Ef.
      * split; auto. intros [H1|H1]; congruence.
      * right. discriminate.
    + left. discriminate.
  - assert (He : b = false /\ s' = tested beh a s) by (unfold tested; rewrite Eb; destruct e; inversion H; subst; auto).
    destruct He as [-> ->]. split; auto. simpl. left. discriminate.
Qed.

Definition stable {E V W} (s s' : rs E V W) : Prop := cx s' = cx s /\ wd s' = wd s.

Lemma shrink_pure : forall E V W (P : property E V W) beh N, pure_property P beh ->
  (forall t cur s fin s', shrinkTree P N cur t s = Ok (fin, s') -> nth_error cur N = Some t ->
     exists t', fin = set_nth N t' cur /\ ereach t t' /\ (t' = t \/ bad beh (map eroot fin)) /\ minimal_at beh N (map eroot cur) t' /\ stable s s') /\
  (forall st cur c s fin s', shrinkStream P N cur c st s = Ok (fin, s') -> failures c = [] -> (N < length cur)%nat -> stable s s' /\
     ((fin = cur /\ exists l r2, walk st (rnd s) l r2 /\ Forall (fun c => ~ bad beh (set_nth N (eroot c) (map eroot cur))) l) \/
      (exists h t', selem st h /\ ereach h t' /\ fin = set_nth N t' cur /\ bad beh (map eroot fin) /\ minimal_at beh N (map eroot cur) t'))).
Proof.
  intros E V W P beh N HP. apply etree_ind3.
  - intros a shr IH cur s fin s' H Hn. simpl in H. destruct (shr (rnd s)) as [[st r']| | |] eqn:Es; try discriminate.
    destruct (IH _ _ _ Es _ _ _ _ _ H eq_refl) as [Hst Hcase]; [eapply nth_error_lt; eauto|].
    assert (Hst' : stable s s') by (destruct Hst; split; auto).
    destruct Hcase as [[-> [l [r2 [Hw Hl]]]]|[h [t' [Hh [Hr [-> [Hb Hm]]]]]]].
    + exists (ENode a shr). split; [symmetry; apply set_nth_same; auto|]. split; [constructor|]. split; auto. split; auto.
      exists (rnd s), st, r', r', l, r2. auto.
    + exists t'. split; auto. split; [|split; auto]. eapply (ereach_step _ (rnd s)); [exact Es|exact Hh|exact Hr].
  - intros cur c s fin s' H Hc Hn. simpl in H. inversion H; subst. split; [split; auto|]. left. split; auto. exists [], (rnd s'). split; constructor.
  - intros h tl IHh IHtl cur c s fin s' H Hc Hn. simpl in H. destruct (tl (rnd s)) as [[st' r']| | |] eqn:Es; try discriminate.
    apply bind_ok in H. destruct H as [[[b c'] s2] [Ht H]].
    destruct (test_pure _ _ _ _ _ _ _ _ _ _ _ _ _ HP Hc Ht) as [Hs2 Hb].
    destruct (negb b || hasFailures c').
    + assert (Hx : nth_error (set_nth N h cur) N = Some h) by (apply set_nth_at; auto).
      destruct (IHh _ _ _ _ H Hx) as [t' [-> [Hr [Hbad [Hm [Q1 Q2]]]]]].
      rewrite set_nth_twice in *. rewrite set_nth_map in Hm.
      assert (Hm' : minimal_at beh N (map eroot cur) t').
      { destruct Hm as [r [st [r1 [r0 [l [r2 [M1 [M2 M3]]]]]]]]. exists r, st, r1, r0, l, r2. split; auto. split; auto.
        eapply Forall_impl; [|exact M3]. intros x Hx'. simpl in Hx'. rewrite set_nth_twice in Hx'. auto. }
      split; [subst s2; split; auto|]. right. exists h, t'. split; [constructor|]. split; auto. split; auto. split; auto.
      destruct Hbad as [->|Hbad]; auto. rewrite set_nth_map. auto.
    + destruct Hb as [Hb Hc']. destruct (IHtl _ _ _ Es _ _ _ _ _ H Hc' Hn) as [Hst Hcase]. subst s2.
      split; [destruct Hst; split; auto|].
      destruct Hcase as [[-> [l [r2 [Hw Hl]]]]|[h' [t' [Hh [Hr [-> [Hb' Hm]]]]]]].
      * left. split; auto. exists (h :: l), r2. split; [econstructor; eauto|constructor; auto].
      * right. exists h', t'. split; [econstructor; eauto|]. auto.
Qed.

(* all arguments *)
Definition linked_to {E V} (streams : list (estream E V)) (cur : list (etree E V)) (N : nat) : Prop :=
  exists t st r r1, nth_error cur N = Some t /\ nth_error streams N = Some st /\ eshrinks t r = Ok (st, r1).

Lemma nth_combine : forall A B (l : list A) (l' : list B) n, nth_error (combine l l') n =
  match nth_error l n, nth_error l' n with Some a, Some b => Some (a, b) | _, _ => None end.
Proof.
  induction l as [|a l IH]; intros [|b l'] [|n]; simpl; auto; destruct (nth_error l n); auto.
Qed.

Lemma nth_seq : forall n len, nth_error (seq 0 len) n = if (n <? len)%nat then Some n else None.
Proof.
  assert (H : forall len a n, nth_error (seq a len) n = if (n <? len)%nat then Some (a + n)%nat else None).
  { induction len as [|len IH]; intros a n; [destruct n; auto|]. destruct n as [|n]; cbn [seq nth_error].
    - rewrite Nat.add_0_r. auto.
    - rewrite IH. change (S n <? S len)%nat with (n <? len)%nat. rewrite Nat.add_succ_comm. auto. }
  intros. apply (H len 0%nat n).
Qed.

Lemma partly_nth : forall X (d : list nat) (fin ini : list X) n, length fin = length ini ->
  nth_error (partly d fin ini) n = if existsb (Nat.eqb n) d then nth_error fin n else nth_error ini n.
Proof.
  intros X d fin ini n H. unfold partly. rewrite nth_error_map. rewrite !nth_combine. rewrite nth_seq.
  destruct (n <? length ini)%nat eqn:E.
  - apply Nat.ltb_lt in E. destruct (nth_error fin n) eqn:E1; [|apply nth_error_None in E1; lia].
    destruct (nth_error ini n) eqn:E2; [|apply nth_error_None in E2; lia]. simpl. destruct (existsb (Nat.eqb n) d); auto.
  - apply Nat.ltb_ge in E. simpl. destruct (existsb (Nat.eqb n) d); symmetry; apply nth_error_None; lia.
Qed.

Lemma existsb_in : forall n d, existsb (Nat.eqb n) d = true <-> In n d.
Proof.
  intros. rewrite existsb_exists. split; [intros [x [H1 H2]]; apply Nat.eqb_eq in H2; subst; auto|].
  intros. exists n. split; auto. apply Nat.eqb_refl.
Qed.

Lemma set_nth_ext : forall X (l l' : list X) N x, length l = length l' -> (forall j, j <> N -> nth_error l j = nth_error l' j) ->
  set_nth N x l = set_nth N x l'.
Proof.
  intros X l l' N x Hl H. apply nth_error_ext. intros j. destruct (Nat.eq_dec j N) as [->|Hj].
  - destruct (Nat.lt_ge_cases N (length l)) as [Hlt|Hge].
    + rewrite !set_nth_at; auto. lia.
    + assert (E1 : nth_error (set_nth N x l) N = None) by (apply nth_error_None; rewrite set_nth_len; lia).
      assert (E2 : nth_error (set_nth N x l') N = None) by (apply nth_error_None; rewrite set_nth_len; lia). congruence.
  - rewrite !set_nth_other by auto. auto.
Qed.

Lemma minimal_base : forall E V beh N (b b' : list V) (t : etree E V), (forall x, set_nth N x b = set_nth N x b') ->
  minimal_at beh N b t -> minimal_at beh N b' t.
Proof.
  intros E V beh N b b' t H [r [st [r1 [r0 [l [r2 [M1 [M2 M3]]]]]]]]. exists r, st, r1, r0, l, r2. split; auto. split; auto.
  eapply Forall_impl; [|exact M3]. intros x Hx. simpl in Hx. rewrite <- H. auto.
Qed.

Lemma shrinkEach_pure : forall E V W (P : property E V W) beh, pure_property P beh ->
  forall ord streams cur s fin s', shrinkEach P ord streams cur s = Ok (fin, s') -> NoDup ord -> (forall N, In N ord -> linked_to streams cur N) ->
  length fin = length cur /\ stable s s' /\ (fin = cur \/ bad beh (map eroot fin)) /\
  (forall j, ~ In j ord -> nth_error fin j = nth_error cur j) /\
  (forall N, In N ord -> exists t t', nth_error cur N = Some t /\ nth_error fin N = Some t' /\ ereach t t') /\
  (forall o1 N o2, ord = o1 ++ N :: o2 -> exists t', nth_error fin N = Some t' /\ minimal_at beh N (map eroot (partly o1 fin cur)) t').
Proof.
  intros E V W P beh HP. induction ord as [|N ord IH]; intros streams cur s fin s' H Hnd Hl; simpl in H.
  { inversion H; subst. split; auto. split; [split; auto|]. split; auto. split; auto. split; [intros N []|]. intros [|? ?] N o2 Ho; discriminate. }
  destruct (Hl N (or_introl eq_refl)) as [t [st [r [r1 [L1 [L2 L3]]]]]]. rewrite L2 in H.
  apply bind_ok in H. destruct H as [[cur' s1] [H1 H2]]. inversion Hnd; subst.
  destruct (proj2 (shrink_pure E V W P beh N HP) _ _ _ _ _ _ H1 eq_refl (nth_error_lt _ _ _ _ L1)) as [Hst Hcase].
  assert (Hcur : exists t', cur' = set_nth N t' cur /\ ereach t t' /\ (cur' = cur \/ bad beh (map eroot cur')) /\ minimal_at beh N (map eroot cur) t').
  { destruct Hcase as [[-> [l [r2 [Hw Hf]]]]|[h [t' [Hh [Hr [-> [Hb Hm]]]]]]].
    - exists t. split; [symmetry; apply set_nth_same; auto|]. split; [constructor|]. split; auto.
      exists r, st, r1, (rnd s), l, r2. auto.
    - exists t'. split; auto. split; [eapply ereach_step; [exact L3|exact Hh|exact Hr]|]. auto. }
  destruct Hcur as [t1 [Ec [Hr1 [Hbad Hmin]]]].
  assert (Hlen : length cur' = length cur) by (rewrite Ec; apply set_nth_len).
  assert (Hoth : forall j, j <> N -> nth_error cur' j = nth_error cur j) by (intros; rewrite Ec; apply set_nth_other; auto).
  assert (Hat : nth_error cur' N = Some t1) by (rewrite Ec; apply set_nth_at; eapply nth_error_lt; eauto).
  destruct (IH streams cur' s1 fin s' H2 H4) as [I1 [I2 [I3 [I4 [I5 I6]]]]].
  { intros M HM. destruct (Hl M (or_intror HM)) as [tM [stM [rM [rM1 [M1 [M2 M3]]]]]]. exists tM, stM, rM, rM1. rewrite Hoth by congruence. auto. }
  assert (HfN : nth_error fin N = Some t1) by (rewrite I4; auto).
  split; [congruence|]. split; [destruct Hst, I2; split; congruence|]. split.
  { destruct I3 as [->|I3]; auto. }
  split; [intros j Hj; rewrite I4 by (intro; apply Hj; right; auto); apply Hoth; intro; apply Hj; left; auto|]. split.
  - intros M [->|HM]; [exists t, t1; auto|]. destruct (I5 M HM) as [a [b [A1 [A2 A3]]]]. exists a, b. rewrite <- (Hoth M) by congruence. auto.
  - intros o1 M o2 Ho. destruct o1 as [|q o1]; simpl in Ho; inversion Ho; subst.
    + exists t1. split; auto. eapply minimal_base; [|exact Hmin]. intros x. f_equal. f_equal. apply nth_error_ext. intros j.
      rewrite partly_nth by congruence. auto.
    + destruct (I6 o1 M o2 eq_refl) as [t' [T1 T2]]. exists t'. split; auto. eapply minimal_base; [|exact T2]. intros x.
      f_equal. f_equal. apply nth_error_ext. intros j. rewrite !partly_nth by (rewrite ?set_nth_len in *; congruence).
      simpl. destruct (Nat.eqb_spec j q) as [->|Hj]; simpl.
      * destruct (existsb (Nat.eqb q) o1); auto. rewrite Hat. auto.
      * destruct (existsb (Nat.eqb j) o1); auto.
Qed.

(* evaluation of argument lists *)
Lemma collect_some : forall X (acc : list (option X)) l, collect acc = Some l -> acc = map Some l.
Proof.
  induction acc as [|[x|] acc IH]; intros l H; simpl in H; [inversion H; auto| |discriminate].
  destruct (collect acc) as [r|]; [|discriminate]. inversion H; subst. simpl. f_equal. auto.
Qed.
Lemma collect_total : forall X (acc : list (option X)), (forall i, (i < length acc)%nat -> exists a, nth_error acc i = Some (Some a)) -> exists l, collect acc = Some l.
Proof.
  induction acc as [|o acc IH]; intros H; simpl; eauto. destruct (H 0%nat) as [a Ha]; [simpl; lia|]. simpl in Ha. inversion Ha; subst.
  destruct IH as [l ->]; eauto. intros i Hi. apply (H (S i)). simpl. lia.
Qed.

Lemma evalIn_ok : forall E X (fs : list (G E (X + err))) (Q : nat -> X -> Prop),
  (forall i f r a r', nth_error fs i = Some f -> f r = Ok (inl a, r') -> Q i a) ->
  forall ord acc r acc' r', evalIn ord fs acc r = Ok (inl acc', r') ->
  (forall i a, nth_error acc i = Some (Some a) -> Q i a) ->
  length acc' = length acc /\ (forall i a, nth_error acc' i = Some (Some a) -> Q i a).
Proof.
  intros E X fs Q HQ. induction ord as [|i o IH]; intros acc r acc' r' H Ha; simpl in H; [inversion H; subst; auto|].
  destruct (nth_error fs i) as [f|] eqn:En; [|discriminate]. apply gbind_ok in H. destruct H as [x [r1 [H1 H2]]]. destruct x as [a|e]; [|discriminate].
  destruct (IH _ _ _ _ H2) as [L R].
  { intros j b Hj. destruct (Nat.eq_dec i j) as [->|Hij]; [|rewrite set_nth_other in Hj by auto; auto].
    pose proof (nth_error_lt _ _ _ _ Hj) as Hlt. rewrite set_nth_len in Hlt. rewrite set_nth_at in Hj by auto. inversion Hj; subst. eapply HQ; eauto. }
  rewrite set_nth_len in L. auto.
Qed.

Lemma evalTuple_ok : forall E X (fs : list (G E (X + err))) ord r l r', evalTuple ord fs r = Ok (inl l, r') ->
  length l = length fs /\ forall i a, nth_error l i = Some a -> exists f r0 r1, nth_error fs i = Some f /\ f r0 = Ok (inl a, r1).
Proof.
  intros E X fs ord r l r' H. apply gbind_ok in H. destruct H as [x [r1 [H1 H2]]]. destruct x as [acc|e]; [|discriminate].
  destruct (collect acc) as [l0|] eqn:Ec; [|discriminate]. inversion H2; subst. apply collect_some in Ec. subst acc.
  edestruct (evalIn_ok E X fs (fun i a => exists f r0 r1, nth_error fs i = Some f /\ f r0 = Ok (inl a, r1))) as [L R]; [|exact H1| |]; eauto 6.
  - intros i a Hi. rewrite nth_error_map in Hi. destruct (nth_error fs i); discriminate.
  - rewrite !map_length in L. split; auto. intros i a Hi. apply R. rewrite nth_error_map, Hi. auto.
Qed.

Lemma evalIn_total : forall E X (fs : list (G E (X + err))), (forall f, In f fs -> forall r, exists a r', f r = Ok (inl a, r')) ->
  forall ord, (forall i, In i ord -> (i < length fs)%nat) -> forall acc r, length acc = length fs -> exists acc' r', evalIn ord fs acc r = Ok (inl acc', r') /\
   length acc' = length fs /\ (forall i, (i < length fs)%nat -> In i ord \/ (exists a, nth_error acc i = Some (Some a)) -> exists a, nth_error acc' i = Some (Some a)).
Proof.
  intros E X fs Hf. induction ord as [|i o IH]; intros Ho acc r Hl; simpl.
  - exists acc, r. split; auto. split; auto. intros j Hj [[]|H]; auto.
  - destruct (nth_error fs i) as [f|] eqn:En; [|apply nth_error_None in En; specialize (Ho i (or_introl eq_refl)); lia].
    destruct (Hf f (nth_error_In _ _ En) r) as [a [r1 Ea]].
    destruct (IH (fun j Hj => Ho j (or_intror Hj)) (set_nth i (Some a) acc) r1) as [acc' [r2 [E1 [E2 E3]]]]; [rewrite set_nth_len; auto|].
    exists acc', r2. split; [rewrite (gbind_eq _ _ _ _ _ _ _ _ Ea); auto|]. split; auto.
    intros j Hj H. apply E3; auto. destruct (Nat.eq_dec i j) as [->|Hij].
    + right. exists a. apply set_nth_at. congruence.
    + destruct H as [[->|H]|[b H]]; [congruence|auto|right; exists b; rewrite set_nth_other by auto; auto].
Qed.

Lemma order_in : forall n ord, order n ord -> forall i, In i ord <-> (i < n)%nat.
Proof.
  intros n ord H i. split; intros Hi.
  - apply (Permutation_in _ H) in Hi. apply in_seq in Hi. lia.
  - apply (Permutation_in _ (Permutation_sym H)). apply in_seq. lia.
Qed.
Lemma order_nodup : forall n ord, order n ord -> NoDup ord.
Proof. intros n ord H. eapply Permutation_NoDup; [apply Permutation_sym; eassumption|]. apply seq_NoDup. Qed.

Lemma evalTuple_total : forall E X (fs : list (G E (X + err))) ord r, order (length fs) ord ->
  (forall f, In f fs -> forall r, exists a r', f r = Ok (inl a, r')) -> exists l r', evalTuple ord fs r = Ok (inl l, r').
Proof.
  intros E X fs ord r Ho Hf.
  destruct (evalIn_total E X fs Hf ord (fun i Hi => proj1 (order_in _ _ Ho i) Hi) (map (fun _ => None) fs) r) as [acc [r1 [E1 [E2 E3]]]]; [apply map_length|].
  destruct (collect_total _ acc) as [l Hl].
  { intros i Hi. apply E3; [lia|]. left. apply (order_in _ _ Ho). lia. }
  exists l, r1. unfold evalTuple. rewrite (gbind_eq _ _ _ _ _ _ _ _ E1), Hl. auto.
Qed.

Lemma evalTuple_length : forall E X (fs : list (G E (X + err))) ord r l r', evalTuple ord fs r = Ok (inl l, r') -> length l = length fs.
Proof. intros. apply evalTuple_ok in H. tauto. Qed.

(* the streams evaluated up front belong to the regenerated arguments *)
Lemma streams_linked : forall E V (ts : list (etree E V)) ord r streams r2,
  evalTuple ord (map (fun t => gbind (eshrinks t) (fun st => gret (inl st))) ts) r = Ok (inl streams, r2) ->
  length streams = length ts /\ forall N, (N < length ts)%nat -> linked_to streams ts N.
Proof.
  intros E V ts ord r streams r2 H. apply evalTuple_ok in H. destruct H as [L R]. rewrite map_length in L. split; auto.
  intros N HN. destruct (nth_error streams N) as [st|] eqn:Es; [|apply nth_error_None in Es; lia].
  destruct (R _ _ Es) as [f [r0 [r1 [H1 H2]]]]. rewrite nth_error_map in H1. destruct (nth_error ts N) as [t|] eqn:Et; [|discriminate].
  simpl in H1. inversion H1; subst. apply gbind_ok in H2. destruct H2 as [st' [r3 [H2 H3]]]. inversion H3; subst. exists t, st, r0, r1. auto.
Qed.

Lemma shrink_inv : forall E V W ev (P : property E V W) s rep s', shrink ev P s = Ok (rep, s') ->
  exists ts r1 streams r2 ts', evalTuple (ord_regen ev) (gens P) (rnd s) = Ok (inl ts, r1) /\
   evalTuple (ord_shrinks ev) (map (fun t => gbind (eshrinks t) (fun st => gret (inl st))) ts) r1 = Ok (inl streams, r2) /\
   shrinkEach P (ord_each ev) streams ts (with_rnd r2 s) = Ok (ts', s') /\
   with_args rep = map eroot ts /\ simplest_args rep = map eroot ts'.
Proof.
  intros E V W ev P s rep s' H. unfold shrink in H. apply bind_ok in H. destruct H as [[x r1] [H1 H]]. destruct x as [ts|e]; [|discriminate].
  apply bind_ok in H. destruct H as [[y r2] [H2 H]]. destruct y as [streams|e]; [|discriminate].
  apply bind_ok in H. destruct H as [[ts' s2] [H3 H]]. inversion H; subst. exists ts, r1, streams, r2, ts'. auto.
Qed.

(* termination *)
Lemma test_total : forall E V W (P : property E V W) N cur v c s, tame P -> exists b c' s', test P N cur v c s = Ok (b, c', s').
Proof.
  intros E V W P N cur v c s [T1 [T2 T3]]. unfold test, runHook.
  destruct (onStartup P) as [h|].
  - specialize (T2 h (wd s) eq_refl). cbn [wd with_cx]. destruct (h (wd s)) as [[ops r] w]. simpl in T2. destruct r as [e|].
    + destruct e; try congruence; eauto.
    + unfold callFunc. match goal with |- context [func P ?a ?b] => specialize (T1 a b); destruct (func P a b) as [[ops2 u] w2] end. simpl in T1.
      destruct u as [b|e]; [|destruct e; try congruence; eauto].
      destruct (onCleanup P) as [h2|]; [|eauto]. match goal with |- context [h2 ?b] => specialize (T3 h2 b eq_refl); destruct (h2 b) as [[ops3 r3] w3] end.
      simpl in T3. destruct r3 as [e|]; [|eauto]. destruct e; try congruence; eauto.
  - unfold callFunc. match goal with |- context [func P ?a ?b] => specialize (T1 a b); destruct (func P a b) as [[ops2 u] w2] end. simpl in T1.
      destruct u as [b|e]; [|destruct e; try congruence; eauto].
      destruct (onCleanup P) as [h2|]; [|eauto]. match goal with |- context [h2 ?b] => specialize (T3 h2 b eq_refl); destruct (h2 b) as [[ops3 r3] w3] end.
      simpl in T3. destruct r3 as [e|]; [|eauto]. destruct e; try congruence; eauto.
Qed.

Lemma shrink_total : forall E V W (P : property E V W) N, tame P ->
  (forall t, etotal t -> forall cur s, exists fin s', shrinkTree P N cur t s = Ok (fin, s')) /\
  (forall st, stotal st -> forall cur c s, exists fin s', shrinkStream P N cur c st s = Ok (fin, s')).
Proof.
  intros E V W P N HP. apply etree_ind3.
  - intros a shr IH Ht cur s. destruct (etotal_force _ _ _ Ht (rnd s)) as [st [r' [E1 E2]]]. simpl in E1. simpl. rewrite E1. eapply IH; eauto.
  - simpl. eauto.
  - intros h tl IHh IHtl Ht cur c s. destruct (stotal_tail _ _ _ _ Ht (rnd s)) as [st' [r' [E1 E2]]]. simpl. rewrite E1.
    destruct (test_total _ _ _ P N cur (eroot h) c (with_rnd r' s) HP) as [b [c' [s2 ->]]]. simpl.
    destruct (negb b || hasFailures c'); [apply IHh; apply Ht|]. eapply IHtl; eauto.
Qed.

Lemma shrinkEach_total : forall E V W (P : property E V W), tame P -> forall ord streams cur s,
  (forall N, In N ord -> exists st, nth_error streams N = Some st /\ stotal st) -> exists fin s', shrinkEach P ord streams cur s = Ok (fin, s').
Proof.
  intros E V W P HP. induction ord as [|N o IH]; intros streams cur s H; simpl; eauto.
  destruct (H N (or_introl eq_refl)) as [st [-> Hst]].
  destruct (proj2 (shrink_total E V W P N HP) st Hst cur newctx s) as [fin [s' ->]]. simpl. apply IH. intros M HM. apply H. right. auto.
Qed.

Lemma shrink_terminates : forall E V W ev (P : property E V W) s ts r1, tame P ->
  evalTuple (ord_regen ev) (gens P) (rnd s) = Ok (inl ts, r1) -> Forall etotal ts ->
  order (length (gens P)) (ord_shrinks ev) -> order (length (gens P)) (ord_each ev) ->
  exists rep s', shrink ev P s = Ok (rep, s').
Proof.
  intros E V W ev P s ts r1 HP H1 Ht Ho1 Ho2. unfold shrink. rewrite H1. cbn [bind].
  assert (Hlen : length ts = length (gens P)) by (eapply evalTuple_length; eauto).
  destruct (evalTuple_total E _ (map (fun t => gbind (eshrinks t) (fun st => gret (inl (B := err) st))) ts) (ord_shrinks ev) r1) as [streams [r2 E2]].
  { rewrite map_length, Hlen. auto. }
  { intros f Hf r. apply in_map_iff in Hf. destruct Hf as [t [<- Hin]]. rewrite Forall_forall in Ht.
    destruct (etotal_force _ _ _ (Ht t Hin) r) as [st [r' [Es _]]]. exists st, r'. rewrite (gbind_eq _ _ _ _ _ _ _ _ Es). auto. }
  rewrite E2. cbn [bind].
  destruct (shrinkEach_total E V W P HP (ord_each ev) streams ts (with_rnd r2 s)) as [fin [s' E3]].
  { intros N HN. apply (order_in _ _ Ho2) in HN. destruct (streams_linked _ _ _ _ _ _ _ E2) as [L1 L2].
    destruct (L2 N) as [t [st [r [r' [A1 [A2 A3]]]]]]; [lia|]. exists st. split; auto. rewrite Forall_forall in Ht.
    destruct (etotal_force _ _ _ (Ht t (nth_error_In _ _ A1)) r) as [st' [r'' [A4 A5]]]. congruence. }
  rewrite E3. cbn [bind]. eauto.
Qed.

(* the number of calls *)
Lemma ncalls_app : forall V (a b : list (event V)), ncalls (a ++ b) = (ncalls a + ncalls b)%nat.
Proof. intros. unfold ncalls. rewrite filter_app, app_length. auto. Qed.

Lemma runHook_calls : forall E V W h (e : event V) (s : rs E V W) r s', (e = EStartup \/ e = ECleanup) -> runHook h e s = (r, s') -> ncalls (lg s') = ncalls (lg s).
Proof.
  intros E V W h e s r s' He H. unfold runHook in H. destruct h as [h|]; [|inversion H; auto]. destruct (h (wd s)) as [[ops r'] w]. inversion H; subst.
  cbn [lg]. rewrite ncalls_app. destruct He; subst; unfold ncalls; simpl; lia.
Qed.

Lemma test_calls : forall E V W (P : property E V W) N cur v c s b c' s', test P N cur v c s = Ok (b, c', s') -> (ncalls (lg s') <= S (ncalls (lg s)))%nat.
Proof.
  intros E V W P N cur v c s b c' s' H. unfold test in H. destruct (runHook (onStartup P) EStartup (with_cx c s)) as [r s1] eqn:E1.
  apply runHook_calls in E1; auto. change (lg (with_cx c s)) with (lg s) in E1.
  destruct r as [e|]; [destruct e; inversion H; subst; cbn [lg with_cx]; lia|].
  destruct (callFunc P (set_nth N v (map eroot cur)) s1) as [u s2] eqn:E2.
  assert (H2 : ncalls (lg s2) = S (ncalls (lg s1))).
  { unfold callFunc in E2. destruct (func P _ (wd s1)) as [[ops u'] w]. inversion E2; subst. cbn [lg]. rewrite ncalls_app. unfold ncalls at 2. simpl. lia. }
  destruct u as [b0|e]; [|destruct e; inversion H; subst; cbn [lg with_cx]; lia].
  destruct (runHook (onCleanup P) ECleanup s2) as [r s3] eqn:E3. apply runHook_calls in E3; auto.
  destruct r as [e|]; [destruct e; inversion H; subst; cbn [lg with_cx]; lia|]. inversion H; subst. cbn [lg with_cx]. lia.
Qed.

Lemma shrink_calls : forall E V W (P : property E V W) N t cur s fin s', shrinkTree P N cur (elift t) s = Ok (fin, s') ->
  (ncalls (lg s') <= ncalls (lg s) + tsizes (shrinks t))%nat.
Proof.
  intros E V W P N. induction t as [a ts IH] using tree_ind'. intros cur s fin s' H. rewrite elift_eq in H. simpl in H. unfold gret in H.
  cbn [shrinks]. revert H. set (s0 := with_rnd (rnd s) s). change (lg s) with (lg s0). clearbody s0. generalize newctx. clear s. revert s0.
  induction IH as [|t ts Ht Hts IHts]; intros s0 c H; simpl in H.
  - inversion H; subst. unfold tsizes. simpl. lia.
  - apply bind_ok in H. destruct H as [[[b c'] s2] [H1 H2]]. apply test_calls in H1. change (lg (with_rnd (rnd s0) s0)) with (lg s0) in H1.
    unfold tsizes in *. simpl. destruct (negb b || hasFailures c').
    + apply Ht in H2. rewrite tsize_eq. unfold tsizes. lia.
    + apply IHts in H2. pose proof (tsize_eq _ t). lia.
Qed.

Lemma shrinkStream_calls : forall E V W (P : property E V W) N ts cur c s fin s', shrinkStream P N cur c (elist ts) s = Ok (fin, s') ->
  (ncalls (lg s') <= ncalls (lg s) + tsizes ts)%nat.
Proof.
  intros E V W P N. induction ts as [|t ts IHts]; intros cur c s0 fin s' H; simpl in H.
  - inversion H; subst. unfold tsizes. simpl. lia.
  - apply bind_ok in H. destruct H as [[[b c'] s2] [H1 H2]]. apply test_calls in H1. change (lg (with_rnd (rnd s0) s0)) with (lg s0) in H1.
    unfold tsizes in *. simpl. destruct (negb b || hasFailures c').
    + apply shrink_calls in H2. rewrite tsize_eq. unfold tsizes in *. lia.
    + apply IHts in H2. pose proof (tsize_eq _ t). lia.
Qed.

Lemma shrinkEach_calls : forall E V W (P : property E V W) (pts : list (tree V)) ord streams cur s fin s',
  shrinkEach P ord streams cur s = Ok (fin, s') -> streams = map (fun t => elist (shrinks t)) pts ->
  (ncalls (lg s') <= ncalls (lg s) + list_sum (map (fun N => match nth_error pts N with Some t => tsizes (shrinks t) | None => 0 end) ord))%nat.
Proof.
  intros E V W P pts. induction ord as [|N o IH]; intros streams cur s fin s' H Hs; simpl in H; [inversion H; subst; simpl; lia|].
  subst streams. rewrite nth_error_map in H. destruct (nth_error pts N) as [t|] eqn:En; [|discriminate]. simpl in H.
  apply bind_ok in H. destruct H as [[cur' s1] [H1 H2]]. apply shrinkStream_calls in H1. apply IH in H2; auto. simpl. rewrite En. lia.
Qed.

Lemma list_sum_perm : forall l l', Permutation l l' -> list_sum l = list_sum l'.
Proof. induction 1; simpl; lia. Qed.

Lemma sum_positions : forall X (f : X -> nat) (l : list X), list_sum (map (fun N => match nth_error l N with Some t => f t | None => 0%nat end) (seq 0 (length l))) = list_sum (map f l).
Proof.
  intros X f l. f_equal. apply nth_error_ext. intros i. rewrite !nth_error_map, nth_seq.
  destruct (i <? length l)%nat eqn:E; simpl.
  - apply Nat.ltb_lt in E. destruct (nth_error l i) eqn:E2; auto. apply nth_error_None in E2. lia.
  - apply Nat.ltb_ge in E. destruct (nth_error l i) eqn:E2; auto. apply nth_error_lt in E2. lia.
Qed.

(* trees whose shrinks do not use the engine *)
Lemma walk_elist : forall E A (ts : list (tree A)) (r : rst E) l r', walk (elist ts) r l r' -> l = map elift ts.
Proof.
  intros E A. induction ts as [|t ts IH]; intros r l r' H; simpl in H; inversion H; subst; auto.
  match goal with Hg : gret _ _ = Ok _ |- _ => inversion Hg; subst end. simpl. f_equal. eapply IH; eauto.
Qed.

Lemma minimal_lift : forall E V beh N (b : list V) (t : tree V), minimal_at (E := E) beh N b (elift t) ->
  forall c, In c (shrinks t) -> ~ bad beh (set_nth N (root c) b).
Proof.
  intros E V beh N b t [r [st [r1 [r0 [l [r2 [M1 [M2 M3]]]]]]]] c Hc. rewrite elift_eq in M1. simpl in M1. inversion M1; subst.
  apply walk_elist in M2. subst. rewrite Forall_map, Forall_forall in M3. specialize (M3 c Hc). simpl in M3. rewrite elift_root in M3. auto.
Qed.

Lemma nth_error_skipn_add : forall X (l : list X) k i, nth_error (skipn k l) i = nth_error l (k + i).
Proof. intros X. induction l as [|x l IH]; intros [|k] i; simpl; auto. destruct i; auto. Qed.

Lemma firstn_skipn_partly : forall X (fin ini : list X) N, length fin = length ini -> (N <= length ini)%nat ->
  partly (seq 0 N) fin ini = firstn N fin ++ skipn N ini.
Proof.
  intros X fin ini N Hl HN. apply nth_error_ext. intros i. rewrite partly_nth by auto.
  destruct (existsb (Nat.eqb i) (seq 0 N)) eqn:Ex.
  - apply existsb_in in Ex. apply in_seq in Ex. rewrite nth_error_app1 by (rewrite firstn_length; lia). rewrite nth_error_firstn.
    destruct (i <? N)%nat eqn:E; auto. apply Nat.ltb_ge in E. lia.
  - assert (Hi : (N <= i)%nat). { destruct (le_lt_dec N i); auto. exfalso. assert (Hx : existsb (Nat.eqb i) (seq 0 N) = true) by (apply existsb_in, in_seq; lia). congruence. }
    rewrite nth_error_app2 by (rewrite firstn_length; lia). rewrite firstn_length, Nat.min_l by lia. rewrite nth_error_skipn_add. f_equal. lia.
Qed.
