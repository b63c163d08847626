(** C27, C28, C29: dependency and chain, derive (flatMap) and aggregate, accumulate. *)
From Coq Require Import List ZArith Lia Bool.
From Verif Require Import Base TreeModel TreeSpec TreeProof RandomModel IntegralModel IntegralSpec IntegralProof PropInt
  ListModel ListSpec ListProof ListMainProof ContainerModel ContainerSpec ContainerProof EffModel EffSpec EffProof.
Import ListNotations.
Local Open Scope Z_scope.

(** * C27: dependent generation *)

(** Every pair that can ever be seen has a first component reachable from the value generated first and a second
    component reachable from a value generated for exactly that first component; it is shrunk (differs from the
    freshly generated value) only where the first component has no shrinks left. *)
Theorem C27_dependency_sound : forall E T U (g1 : egen E T) (g2 : T -> egen E U) r b r' s,
  dependency g1 g2 r = Ok (b, r') -> ereach b s ->
  exists tT r1 u r2 tU r3 v, g1 r = Ok (tT, r1) /\ ereach tT u /\ g2 (eroot u) r2 = Ok (tU, r3) /\ ereach tU v /\
    eroot s = (eroot u, eroot v) /\ (v = tU \/ exists r4 r5, eshrinks u r4 = Ok (ENil, r5)).
Proof.
  intros E T U g1 g2 r b r' s H Hs.
  destruct (dependent_sound _ _ _ _ _ _ _ _ _ _ _ H Hs) as [tT [r1 [u [r2 [tU [r3 [v [H1 [H2 [H3 [H4 H5]]]]]]]]]]].
  exists tT, r1, u, r2, tU, r3, v. repeat split; auto.
  - destruct H5 as [[-> ->]|[-> _]]; auto.
  - destruct H5 as [[_ ->]|[_ H5]]; auto.
Qed.

(** So a relation guaranteed by the second-stage generators holds of every pair, however the shrinks are evaluated. *)
Theorem C27_dependency_related : forall E T U (R : T -> U -> Prop) (g1 : egen E T) (g2 : T -> egen E U) r b r',
  (forall t r1 tU r2, g2 t r1 = Ok (tU, r2) -> eall (R t) tU) ->
  dependency g1 g2 r = Ok (b, r') -> eall (fun p => R (fst p) (snd p)) b.
Proof.
  intros E T U R g1 g2 r b r' HR H s Hs.
  destruct (C27_dependency_sound _ _ _ _ _ _ _ _ _ H Hs) as [tT [r1 [u [r2 [tU [r3 [v [H1 [H2 [H3 [H4 [-> _]]]]]]]]]]]].
  simpl. eapply HR; eauto.
Qed.

(** Nothing is lost: every value reachable from the first generated value occurs as first component, and where it
    has no shrinks left all shrinks of the second component are offered with it. *)
Theorem C27_dependency_complete : forall E T U (g1 : egen E T) (g2 : T -> egen E U) r tT r1,
  g1 r = Ok (tT, r1) -> etotal tT -> steady tT -> g2_total g2 ->
  exists b r', dependency g1 g2 r = Ok (b, r') /\ etotal b /\
    forall u, ereach tT u -> exists s tU r2 r3, ereach b s /\ g2 (eroot u) r2 = Ok (tU, r3) /\
      eroot s = (eroot u, eroot tU) /\
      (eleaf u -> forall v, ereach tU v -> exists s', ereach s s' /\ eroot s' = (eroot u, eroot v)).
Proof.
  intros E T U g1 g2 r tT r1 H1 H2 H3 H4.
  exact (dependent_complete _ _ _ _ g1 g2 (fun p => emake (fst p, eroot (snd p))) _ _ _ H1 H2 H3 H4 (fun t u => eq_refl)).
Qed.

(** chain: two values, then one more at a time. *)
Theorem C27_chain_related : forall E V (R : V -> V -> Prop) (g1 : egen E V) (g2 : V -> egen E V) r b r',
  (forall t r1 tU r2, g2 t r1 = Ok (tU, r2) -> eall (R t) tU) ->
  chain g1 g2 r = Ok (b, r') -> eall (fun l => exists t u, l = [t; u] /\ R t u) b.
Proof.
  intros E V R g1 g2 r b r' HR H s Hs.
  destruct (dependent_sound _ _ _ _ _ _ _ _ _ _ _ H Hs) as [tT [r1 [u [r2 [tU [r3 [v [H1 [H2 [H3 [H4 H5]]]]]]]]]]].
  exists (eroot u), (eroot v). split; [|eapply HR; eauto]. destruct H5 as [[-> ->]|[-> _]]; auto.
Qed.

Theorem C27_chainMore_related : forall E V (P : list V -> Prop) (R : list V -> V -> Prop)
    (g1 : egen E (list V)) (g2 : list V -> egen E V) r b r',
  (forall r0 t r1, g1 r0 = Ok (t, r1) -> eall P t) ->
  (forall l r1 tU r2, P l -> g2 l r1 = Ok (tU, r2) -> eall (R l) tU) ->
  chainMore g1 g2 r = Ok (b, r') -> eall (fun l => exists l0 v, l = l0 ++ [v] /\ P l0 /\ R l0 v) b.
Proof.
  intros E V P R g1 g2 r b r' HP HR H s Hs.
  destruct (dependent_sound _ _ _ _ _ _ _ _ _ _ _ H Hs) as [tT [r1 [u [r2 [tU [r3 [v [H1 [H2 [H3 [H4 H5]]]]]]]]]]].
  assert (Pu : P (eroot u)) by (eapply HP; eauto).
  exists (eroot u), (eroot v). split; [destruct H5 as [[-> ->]|[-> _]]; auto|]. split; auto. eapply HR; eauto.
Qed.

Theorem C27_chain_complete : forall E V (g1 : egen E V) (g2 : V -> egen E V) r tT r1,
  g1 r = Ok (tT, r1) -> etotal tT -> steady tT -> g2_total g2 ->
  exists b r', chain g1 g2 r = Ok (b, r') /\ etotal b /\
    forall u, ereach tT u -> exists s tU r2 r3, ereach b s /\ g2 (eroot u) r2 = Ok (tU, r3) /\
      eroot s = [eroot u; eroot tU] /\
      (eleaf u -> forall v, ereach tU v -> exists s', ereach s s' /\ eroot s' = [eroot u; eroot v]).
Proof.
  intros E V g1 g2 r tT r1 H1 H2 H3 H4.
  exact (dependent_complete _ _ _ _ g1 g2 (fun p => emake [fst p; eroot (snd p)]) _ _ _ H1 H2 H3 H4 (fun t u => eq_refl)).
Qed.

Theorem C27_chainMore_complete : forall E V (g1 : egen E (list V)) (g2 : list V -> egen E V) r tT r1,
  g1 r = Ok (tT, r1) -> etotal tT -> steady tT -> g2_total g2 ->
  exists b r', chainMore g1 g2 r = Ok (b, r') /\ etotal b /\
    forall u, ereach tT u -> exists s tU r2 r3, ereach b s /\ g2 (eroot u) r2 = Ok (tU, r3) /\
      eroot s = eroot u ++ [eroot tU] /\
      (eleaf u -> forall v, ereach tU v -> exists s', ereach s s' /\ eroot s' = eroot u ++ [eroot v]).
Proof.
  intros E V g1 g2 r tT r1 H1 H2 H3 H4.
  exact (dependent_complete _ _ _ _ g1 g2 (fun p => emake (fst p ++ [eroot (snd p)])) _ _ _ H1 H2 H3 H4 (fun t u => eq_refl)).
Qed.

(** The shrinks are not a function of the shrinkable: evaluating them again in another engine state gives
    other values. *)
Definition small {E} : egen E Z := liftGen (interval TI32 0 3).
Definition upto {E} (t : Z) : egen E Z := liftGen (interval TI32 0 t).
Theorem C27_shrinks_repeatable_refuted : exists b r',
  dependency (E := replay) small upto [3; 2; 0; 1] = Ok (b, r') /\ eroot b = (3, 2) /\
  candidates b [0; 0; 0; 0; 0; 0] = [(0, 0); (1, 0); (2, 0)] /\
  candidates b [0; 0; 1; 1; 1; 1] = [(0, 0); (1, 0); (2, 1)].
Proof. apply ok_witness. vm_compute. auto. Qed.

Lemma upto_related : forall E t r1 tU r2, 0 <= t <= INT64_MAX -> t <= 1000 -> upto (E := E) t r1 = Ok (tU, r2) ->
  eall (fun u => 0 <= u <= t) tU.
Proof.
  intros E t r1 tU r2 Ht Ht' H s Hs. apply liftGen_ok in H. destruct H as [w [H ->]].
  destruct (elift_reach _ _ _ _ Hs _ eq_refl) as [v [Hv ->]]. rewrite elift_root.
  assert (H0 : tmin TI32 <= 0) by (vm_compute; discriminate).
  assert (H1 : 1000 <= tmax TI32) by (vm_compute; discriminate).
  destruct (C09_reachable_values E TI32 0 t r1 r2 w (root v)) as [_ [_ Hin]]; auto; try lia; try (intros [? _]; discriminate).
  apply Hin. apply reach_values; eauto.
Qed.

Example C27_ex : exists b r', dependency (E := replay) small upto [3; 2; 0; 1] = Ok (b, r') /\
  eroot b = (3, 2) /\ etotal (elift (E := replay) (Node 3 [Node 0 []; Node 2 [Node 1 []]])).
Proof. destruct C27_shrinks_repeatable_refuted as [b [r' [H1 [H2 _]]]]. exists b, r'. repeat split; auto; try apply elift_total. Qed.

(** * C28: derive and aggregate *)

Theorem C28_derive_sound : forall E T U (g1 : egen E T) (g2 : T -> egen E U) r b r' s,
  derive g1 g2 r = Ok (b, r') -> ereach b s ->
  exists tT r1 u r2 tU r3 v, g1 r = Ok (tT, r1) /\ ereach tT u /\ g2 (eroot u) r2 = Ok (tU, r3) /\ ereach tU v /\
    eroot s = eroot v /\ (v = tU \/ exists r4 r5, eshrinks u r4 = Ok (ENil, r5)).
Proof.
  intros E T U g1 g2 r b r' s H Hs.
  destruct (dependent_sound _ _ _ _ _ _ _ _ _ _ _ H Hs) as [tT [r1 [u [r2 [tU [r3 [v [H1 [H2 [H3 [H4 H5]]]]]]]]]]].
  exists tT, r1, u, r2, tU, r3, v. repeat split; auto.
  - destruct H5 as [[-> ->]|[-> _]]; auto.
  - destruct H5 as [[_ ->]|[_ H5]]; auto.
Qed.

Theorem C28_derive_property : forall E T U (P : T -> Prop) (Q : U -> Prop) (g1 : egen E T) (g2 : T -> egen E U) r b r',
  (forall r0 t r1, g1 r0 = Ok (t, r1) -> eall P t) ->
  (forall t r1 tU r2, P t -> g2 t r1 = Ok (tU, r2) -> eall Q tU) ->
  derive g1 g2 r = Ok (b, r') -> eall Q b.
Proof.
  intros E T U P Q g1 g2 r b r' HP HQ H s Hs.
  destruct (C28_derive_sound _ _ _ _ _ _ _ _ _ H Hs) as [tT [r1 [u [r2 [tU [r3 [v [H1 [H2 [H3 [H4 [-> _]]]]]]]]]]]].
  assert (Pu : P (eroot u)) by (eapply HP; eauto). eapply HQ; eauto.
Qed.

Theorem C28_derive_complete : forall E T U (g1 : egen E T) (g2 : T -> egen E U) r tT r1,
  g1 r = Ok (tT, r1) -> etotal tT -> steady tT -> g2_total g2 ->
  exists b r', derive g1 g2 r = Ok (b, r') /\ etotal b /\
    forall u, ereach tT u -> exists s tU r2 r3, ereach b s /\ g2 (eroot u) r2 = Ok (tU, r3) /\
      eroot s = eroot tU /\
      (eleaf u -> forall v, ereach tU v -> exists s', ereach s s' /\ eroot s' = eroot v).
Proof.
  intros E T U g1 g2 r tT r1 H1 H2 H3 H4.
  exact (dependent_complete _ _ _ _ g1 g2 snd _ _ _ H1 H2 H3 H4 (fun t u => eq_refl)).
Qed.

(** The number of steps of aggregate and accumulate. *)
Lemma size_range : forall E min max (r r1 : rst E) tT u, 0 <= min <= max -> max <= UINT64_MAX ->
  liftGen (interval TU64 min max) r = Ok (tT, r1) -> ereach tT u -> min <= eroot u <= max.
Proof.
  intros E min max r r1 tT u H1 H2 H Hu. apply liftGen_ok in H. destruct H as [w [H ->]].
  destruct (elift_reach _ _ _ _ Hu _ eq_refl) as [v [Hv ->]]. rewrite elift_root.
  assert (Et : tmin TU64 = 0) by reflexivity.
  assert (Et' : tmax TU64 = UINT64_MAX) by reflexivity.
  destruct (C09_reachable_values E TU64 min max r r1 w (root v)) as [_ [_ Hin]]; auto; try lia; try (intros [? _]; discriminate).
  apply Hin. apply reach_values; eauto.
Qed.

(** Every value reachable from an aggregate is reachable from the last of k values generated one from the other
    after an initial one, with k between the two bounds. *)
Theorem C28_aggregate_sound : forall E T (g1 : egen E T) (g2 : T -> egen E T) min max r b r' s,
  0 <= min <= max -> max <= UINT64_MAX -> aggregate g1 g2 min max r = Ok (b, r') -> ereach b s ->
  exists ra t0 rb l rc v, g1 ra = Ok (t0, rb) /\ chained g2 t0 rb l rc /\ min <= Z.of_nat (length l) <= max /\
    ereach (last l t0) v /\ eroot s = eroot v.
Proof.
  intros E T g1 g2 min max r b r' s H1 H2 H Hs.
  destruct (C28_derive_sound _ _ _ _ _ _ _ _ _ H Hs) as [tT [r1 [u [r2 [tU [r3 [v [K1 [K2 [K3 [K4 [K5 _]]]]]]]]]]]].
  apply gbind_ok in K3. destruct K3 as [t0 [rb [K6 K7]]]. apply aggregateSteps_ok in K7. destruct K7 as [l [K7 [K8 K9]]].
  pose proof (size_range _ _ _ _ _ _ _ H1 H2 K1 K2).
  exists r2, t0, rb, l, r3, v. subst tU. repeat split; auto; lia.
Qed.

(** A property established by the first generator and kept by every step holds of every value. *)
Theorem C28_aggregate_invariant : forall E T (P : T -> Prop) (g1 : egen E T) (g2 : T -> egen E T) min max r b r',
  0 <= min <= max -> max <= UINT64_MAX ->
  (forall r0 t r1, g1 r0 = Ok (t, r1) -> eall P t) ->
  (forall t r1 tU r2, P t -> g2 t r1 = Ok (tU, r2) -> eall P tU) ->
  aggregate g1 g2 min max r = Ok (b, r') -> eall P b.
Proof.
  intros E T P g1 g2 min max r b r' H1 H2 HP HS H s Hs.
  destruct (C28_aggregate_sound _ _ _ _ _ _ _ _ _ _ H1 H2 H Hs) as [ra [t0 [rb [l [rc [v [K1 [K2 [_ [K3 ->]]]]]]]]]].
  assert (Ht0 : eall P t0) by (eapply HP; eauto).
  revert v K3. change (eall P (last l t0)). clear - K2 Ht0 HS.
  induction K2; auto. rewrite last_shift. apply IHK2. eapply HS; [|eassumption]. apply Ht0. constructor.
Qed.

(** Conversely aggregate generates exactly that: the size is drawn, then the first value, then the steps; the rest of
    the computation only prepares the shrinks. *)
Theorem C28_aggregate_draws : forall E T (g1 : egen E T) (g2 : T -> egen E T) min max r k rk t0 r0 l r1,
  0 <= min <= max -> max <= UINT64_MAX ->
  interval TU64 min max r = Ok (k, rk) -> g1 rk = Ok (t0, r0) -> chained g2 t0 r0 l r1 -> Z.of_nat (length l) = root k ->
  forall b r', aggregate g1 g2 min max r = Ok (b, r') -> eroot b = eroot (last l t0).
Proof.
  intros E T g1 g2 min max r k rk t0 r0 l r1 H1 H2 Hk Hg Hc Hl b r' H.
  unfold aggregate, derive, dependent in H.
  assert (Ek : liftGen (interval TU64 min max) r = Ok (elift k, rk)) by (unfold liftGen; rewrite (gbind_eq _ _ _ _ _ _ _ _ Hk); auto).
  rewrite (gbind_eq _ _ _ _ _ _ _ _ Ek) in H.
  apply gbind_ok in H. destruct H as [I [r2 [HI H]]]. apply gbind_ok in H. destruct H as [J [r3 [HJ H]]].
  apply eflatMap_root in H. destruct H as [c [r4 [Hc' ->]]]. inversion Hc'; subst c r4. clear Hc'.
  apply eandThen_root in HJ. rewrite HJ.
  apply eflatMap_root in HI. destruct HI as [c [r4 [Hc' ->]]]. apply interFunctor_ok in Hc'. destruct Hc' as [u [Hu ->]].
  rewrite elift_root in Hu. rewrite (gbind_eq _ _ _ _ _ _ _ _ Hg) in Hu.
  rewrite <- Hl, Nat2Z.id, (aggregateSteps_back _ _ _ _ _ _ _ Hc) in Hu. inversion Hu; subst. auto.
Qed.

Definition incr {E} (x : Z) : egen E Z := liftGen (interval TI32 x (x + 2)).
Example C28_ex : exists b r', aggregate (E := replay) small incr 1 2 [2; 3; 4; 6] = Ok (b, r') /\
  eroot b = 6 /\ candidates b [1; 2] = [2].
Proof. apply ok_witness. vm_compute. auto. Qed.

(** * C29: accumulate *)

Theorem C29_accumulate_sound : forall E T (g1 : egen E T) (g2 : T -> egen E T) min max r b r' s,
  0 <= min <= max -> max <= INT64_MAX -> accumulate g1 g2 min max r = Ok (b, r') -> ereach b s ->
  (min = 0 /\ eroot s = []) \/
  exists ra t0 rb l rc k, g1 ra = Ok (t0, rb) /\ chained g2 t0 rb l rc /\ Z.of_nat (length (t0 :: l)) <= max /\
    min <= Z.of_nat k /\ (k <= length (t0 :: l))%nat /\
    (eroot s = map eroot (firstn k (t0 :: l)) \/
     exists pre x r1 sx r2 h, firstn k (t0 :: l) = pre ++ [x] /\ eshrinks x r1 = Ok (sx, r2) /\ selem sx h /\
       eroot s = map eroot pre ++ [eroot h]).
Proof.
  intros E T g1 g2 min max r b r' s H1 H2 H Hs.
  destruct (C28_derive_sound _ _ _ _ _ _ _ _ _ H Hs) as [tT [r1 [u [r2 [tU [r3 [v [K1 [K2 [K3 [K4 [K5 _]]]]]]]]]]]].
  assert (Hu64 : max <= UINT64_MAX) by (unfold INT64_MAX, UINT64_MAX in *; lia).
  pose proof (size_range _ _ _ _ _ _ _ H1 Hu64 K1 K2) as Hsz. cbv beta in K3.
  destruct (Z.eqb_spec (eroot u) 0) as [Ez|Ez].
  - left. inversion K3; subst. apply emake_reach in K4. subst v. rewrite K5. split; auto. lia.
  - right. apply gbind_ok in K3. destruct K3 as [t0 [rb [K6 K3]]]. apply gbind_ok in K3. destruct K3 as [vec [rc [K7 K3]]].
    apply accumulateSteps_ok in K7. destruct K7 as [l [K7 [K8 ->]]].
    apply gbind_ok in K3. destruct K3 as [lens [rd [K9 K3]]]. apply gbind_ok in K3. destruct K3 as [t [re [K10 K3]]].
    inversion K3; subst tU re. clear K3.
    assert (Hlen : Z.of_nat (length (t0 :: l)) = eroot u) by (simpl length; lia).
    destruct (length_ok _ (t0 :: l) (Z.to_nat min)) as [lens' [L1 [L2 L3]]]; [unfold ListModel.size; lia|lia|].
    rewrite Z2Nat.id in L1 by lia. unfold gfail in K9. rewrite L1 in K9. inversion K9; subst lens' rd. clear K9.
    destruct (emap_reach _ _ _ _ _ _ K4 _ eq_refl) as [w [Hw ->]]. rewrite emap_eq in K5. cbn [eroot] in K5.
    assert (Hpre : forall x, reach lens x -> exists k, min <= Z.of_nat k /\ (k <= length (t0 :: l))%nat /\ root x = firstn k (t0 :: l)).
    { intros x Hx. apply reach_root_in in Hx. apply (Permutation.Permutation_in _ L3) in Hx. unfold prefixes_min in Hx.
      apply in_map_iff in Hx. destruct Hx as [k [E1 E2]]. apply in_seq in E2. exists k. repeat split; auto; lia. }
    destruct (eandThen_reach _ _ _ _ _ Hw _ _ _ K10) as [[x [q1 [q2 [Hx Ex]]]]|[x [q1 [q2 [q3 [q4 [st [c [Hx [_ [Ht [Hsel Hre]]]]]]]]]]]].
    + apply eandThen_root in Ex. destruct (elift_reach _ _ _ _ Hx _ eq_refl) as [y [Hy ->]]. rewrite elift_root in Ex.
      destruct (Hpre _ Hy) as [k [P1 [P2 P3]]]. exists r2, t0, rb, l, rc, k. repeat split; auto; try lia. left. congruence.
    + destruct (elift_reach _ _ _ _ Hx _ eq_refl) as [y [Hy ->]].
      destruct (shrinkLast_elem _ _ _ _ _ _ _ _ Ht Hsel Hre) as [pre [z [a1 [sx [a2 [h [Q1 [Q2 [Q3 Q4]]]]]]]]].
      rewrite elift_root in Q1. destruct (Hpre _ Hy) as [k [P1 [P2 P3]]].
      exists r2, t0, rb, l, rc, k. repeat split; auto; try lia. right. exists pre, z, a1, sx, a2, h.
      repeat split; auto; try congruence. rewrite K5, Q4, map_app. auto.
Qed.

(** The sizes of all lists that can be seen are in the requested range. *)
Theorem C29_accumulate_size : forall E T (g1 : egen E T) (g2 : T -> egen E T) min max r b r',
  0 <= min <= max -> max <= INT64_MAX -> accumulate g1 g2 min max r = Ok (b, r') ->
  eall (fun l => min <= Z.of_nat (length l) <= max) b.
Proof.
  intros E T g1 g2 min max r b r' H1 H2 H s Hs.
  destruct (C29_accumulate_sound _ _ _ _ _ _ _ _ _ _ H1 H2 H Hs)
    as [[-> ->]|[ra [t0 [rb [l [rc [k [_ [_ [K3 [K4 [K5 K6]]]]]]]]]]]]; [simpl; lia|].
  assert (Hk : length (firstn k (t0 :: l)) = k) by (apply firstn_length_le; auto).
  destruct K6 as [->|[pre [x [r1 [sx [r2 [h [Q1 [_ [_ ->]]]]]]]]]].
  - rewrite map_length, Hk. lia.
  - rewrite Q1, app_length in Hk. rewrite app_length, map_length. simpl in *. lia.
Qed.

(** Neighbours in every list that can be seen are related as the second-stage generators guarantee. *)
Theorem C29_accumulate_linked : forall E T (R : T -> T -> Prop) (g1 : egen E T) (g2 : T -> egen E T) min max r b r',
  0 <= min <= max -> max <= INT64_MAX ->
  (forall t r1 tU r2, g2 t r1 = Ok (tU, r2) -> eall (R t) tU) ->
  accumulate g1 g2 min max r = Ok (b, r') -> eall (linked R) b.
Proof.
  intros E T R g1 g2 min max r b r' H1 H2 HR H s Hs.
  destruct (C29_accumulate_sound _ _ _ _ _ _ _ _ _ _ H1 H2 H Hs)
    as [[-> ->]|[ra [t0 [rb [l [rc [k [_ [Hc [_ [_ [_ K6]]]]]]]]]]]]; [exact I|].
  assert (Hd : forall c (x : etree E T) r1 sx r2 h, eall (R c) x -> eshrinks x r1 = Ok (sx, r2) -> selem sx h -> R c (eroot h)).
  { intros c x r1 sx r2 h Hx E1 E2. apply Hx. eapply ereach_step; eauto. constructor. }
  destruct K6 as [->|[pre [x [r1 [sx [r2 [h [Q1 [Q2 [Q3 ->]]]]]]]]]].
  - clear -Hc HR. revert k. induction Hc; intros [|k]; simpl; auto.
    + destruct k; exact I.
    + destruct k; [exact I|]. simpl. specialize (IHHc (S k)). simpl in IHHc. split; auto.
      eapply HR; eauto. constructor.
  - clear -Hc HR Q1 Q2 Q3 Hd. revert k pre Q1. induction Hc; intros [|k] pre Q1.
    + destruct pre; discriminate.
    + simpl in Q1. rewrite firstn_nil in Q1. destruct pre as [|p [|p' pre]]; inversion Q1; subst; exact I.
    + destruct pre; discriminate.
    + destruct pre as [|p pre].
      * exact I.
      * change (firstn (S k) (t :: u :: l)) with (t :: firstn k (u :: l)) in Q1. simpl in Q1. inversion Q1; subst p.
        specialize (IHHc k pre H2). destruct pre as [|p' pre].
        -- simpl. destruct k; [discriminate|]. simpl in H2. inversion H2; subst.
           split; auto. eapply Hd; [|exact Q2|exact Q3]. eapply HR; eauto.
        -- cbn [map app linked] in *. split; auto. destruct k; [discriminate|]. simpl in H2. inversion H2; subst p'.
           eapply HR; eauto. constructor.
Qed.

(** What is generated is the whole chain: the size is drawn, then the first value, then the steps. *)
Theorem C29_accumulate_draws : forall E T (g1 : egen E T) (g2 : T -> egen E T) min max r k rk t0 r0 l r1,
  0 <= min <= max -> max <= INT64_MAX ->
  interval TU64 min max r = Ok (k, rk) -> g1 rk = Ok (t0, r0) -> chained g2 t0 r0 l r1 -> Z.of_nat (length (t0 :: l)) = root k ->
  forall b r', accumulate g1 g2 min max r = Ok (b, r') -> eroot b = map eroot (t0 :: l).
Proof.
  intros E T g1 g2 min max r k rk t0 r0 l r1 H1 H2 Hk Hg Hc Hl b r' H.
  unfold accumulate, derive, dependent in H.
  assert (Ek : liftGen (interval TU64 min max) r = Ok (elift k, rk)) by (unfold liftGen; rewrite (gbind_eq _ _ _ _ _ _ _ _ Hk); auto).
  assert (Hu64 : max <= UINT64_MAX) by (unfold INT64_MAX, UINT64_MAX in *; lia).
  pose proof (size_range _ _ _ _ _ _ _ H1 Hu64 Ek (ereach_refl _)) as Hsz. rewrite elift_root in Hsz.
  rewrite (gbind_eq _ _ _ _ _ _ _ _ Ek) in H.
  apply gbind_ok in H. destruct H as [I [r2 [HI H]]]. apply gbind_ok in H. destruct H as [J [r3 [HJ H]]].
  apply eflatMap_root in H. destruct H as [c [r4 [Hc' ->]]]. inversion Hc'; subst c r4. clear Hc'.
  apply eandThen_root in HJ. rewrite HJ.
  apply eflatMap_root in HI. destruct HI as [c [r4 [Hc' ->]]]. apply interFunctor_ok in Hc'. destruct Hc' as [u [Hu ->]].
  rewrite elift_root in Hu. destruct (Z.eqb_spec (root k) 0) as [E0|E0]; [simpl length in Hl; lia|].
  rewrite (gbind_eq _ _ _ _ _ _ _ _ Hg) in Hu.
  replace (Z.to_nat (root k) - 1)%nat with (length l) in Hu by (simpl length in Hl; lia).
  rewrite (gbind_eq _ _ _ _ _ _ _ _ (accumulateSteps_back _ _ _ _ _ _ _ Hc)) in Hu.
  apply gbind_ok in Hu. destruct Hu as [lens [rd [K9 K3]]]. apply gbind_ok in K3. destruct K3 as [t [re [K10 K3]]].
  inversion K3; subst u re. clear K3. cbn [eroot snd]. rewrite emap_eq. cbn [eroot].
  apply eandThen_root in K10. rewrite K10.
  destruct (length_ok _ (t0 :: l) (Z.to_nat min)) as [lens' [L1 [L2 L3]]]; [unfold ListModel.size; lia|lia|].
  rewrite Z2Nat.id in L1 by lia. unfold gfail in K9. rewrite L1 in K9. injection K9 as E9 _. rewrite <- E9. change (map eroot (eroot (elift (E := E) lens')) = map eroot (t0 :: l)). rewrite elift_root, L2. auto.
Qed.

Example C29_ex : exists b r', accumulate (E := replay) small incr 1 3 [3; 2; 4; 6] = Ok (b, r') /\
  eroot b = [2; 4; 6] /\ candidates b [3; 0; 2; 3] = [[3]; [0; 2]].
Proof. apply ok_witness. vm_compute. auto. Qed.

Print Assumptions C27_dependency_sound.
Print Assumptions C27_dependency_related.
Print Assumptions C27_dependency_complete.
Print Assumptions C27_chain_related.
Print Assumptions C27_chainMore_related.
Print Assumptions C27_chain_complete.
Print Assumptions C27_chainMore_complete.
Print Assumptions C27_shrinks_repeatable_refuted.
Print Assumptions C28_derive_sound.
Print Assumptions C28_derive_property.
Print Assumptions C28_derive_complete.
Print Assumptions C28_aggregate_sound.
Print Assumptions C28_aggregate_invariant.
Print Assumptions C28_aggregate_draws.
Print Assumptions C29_accumulate_sound.
Print Assumptions C29_accumulate_size.
Print Assumptions C29_accumulate_linked.
Print Assumptions C29_accumulate_draws.
