From Coq Require Import List ZArith Lia Bool Arith Permutation.
From Verif Require Import Base TreeModel TreeSpec TreeProof BinSearchModel BinSearchSpec BinSearchProof
  IntegralProof ListModel ListSpec ListProof.
Import ListNotations.
Local Open Scope nat_scope.

(* each membership step gives a shorter sub-list *)
Definition shorter_sub {X} (s : tree (list X)) : Prop :=
  Forall (fun c => length (root c) < length (root s) /\ In (root c) (sublists (root s))) (shrinks s).

Lemma firstn_le_sub : forall X (l : list X) a b, a <= b -> In (firstn a l) (sublists (firstn b l)).
Proof. intros. replace a with (min a b) by lia. rewrite <- firstn_firstn. apply firstn_sublist. Qed.

Lemma pm_steps : forall X fuel (F R : list X) m,
  (size (F ++ R) <= INT64_MAX)%Z -> m <= length (F ++ R) -> length F < fuel ->
  all_nodes shorter_sub (pm fuel (F ++ R) m (length R)).
Proof.
  intros X. induction fuel as [|f IH]; intros F R m Hs Hm Hf; [lia|].
  unfold size, INT64_MAX in Hs. rewrite app_length in Hs, Hm.
  rewrite pm_S. set (mf := m - length R). set (d := length F - mf).
  assert (Hext : forall k, k <= length F ->
    pm_ext f m (length R) (firstn k F ++ R) = [] \/
    exists j x, k = S j /\ nth_error F j = Some x /\ m < k + length R /\
      pm_ext f m (length R) (firstn k F ++ R) = shrinks (pm f (firstn j F ++ (x :: R)) m (length (x :: R))) /\
      firstn k F ++ R = firstn j F ++ (x :: R) /\
      all_nodes shorter_sub (pm f (firstn j F ++ (x :: R)) m (length (x :: R)))).
  { intros k Hk. unfold pm_ext. rewrite app_length, firstn_length. replace (min k (length F)) with k by lia.
    destruct (Nat.leb_spec (k + length R) m); [left; auto|].
    destruct (Nat.leb_spec (k + length R) (length R)); [left; auto|]. right. cbn [orb].
    destruct k as [|j]; [lia|]. destruct (nth_error F j) as [x|] eqn:Ex; [|apply nth_error_None in Ex; lia].
    exists j, x. rewrite (firstn_S_nth _ _ _ _ Ex), <- app_assoc. cbn [app].
    split; auto. split; auto. split; [lia|]. split; auto. split; auto.
    apply IH; unfold size, INT64_MAX; rewrite ?app_length, ?firstn_length; simpl; lia. }
  intros s' Hr. apply reach_concat_inv in Hr. destruct Hr as [[s [Hr ->]]|[s [c [Hr [Hc Hr2]]]]];
  apply reach_map_inv in Hr; destruct Hr as [s0 [Hr ->]].
  - assert (Hz : (0 <= root s0 <= Z.of_nat d)%Z).
    { apply reach_root_in in Hr. apply bs_abs_in in Hr; [lia|unfold UINT64_MAX, d; lia]. }
    pose proof (bs_abs_steps (Z.of_nat d) ltac:(lia) s0 Hr) as [_ [Hst _]].
    unfold shorter_sub. rewrite shrinks_concat, root_concat, root_map.
    apply Forall_app. split.
    + rewrite shrinks_map, !map_map. apply Forall_map. eapply Forall_impl; [|exact Hst]. cbv beta. intros c Hc.
      rewrite root_concat, root_map.
      rewrite !firstn_prefix by (unfold d, mf in *; lia).
      split.
      * rewrite !app_length, !firstn_length. unfold d in *; lia.
      * apply sublists_app; [apply firstn_le_sub; lia|apply sublists_self].
    + rewrite firstn_prefix by (unfold d, mf in *; lia).
      destruct (Hext (Z.to_nat (root s0) + mf)) as [E|[j [x [E1 [Ex [Hlt [E2 [E3 Hall]]]]]]]];
        [unfold d, mf in *; lia|rewrite E; constructor|].
      rewrite E2, E3. specialize (Hall _ (reach_refl _)). unfold shorter_sub in Hall.
      rewrite pm_root in Hall; auto; rewrite app_length, firstn_length; simpl; unfold d, mf in *; lia.
  - rewrite root_map in Hc.
    assert (Hz : (0 <= root s0 <= Z.of_nat d)%Z).
    { apply reach_root_in in Hr. apply bs_abs_in in Hr; [lia|unfold UINT64_MAX, d; lia]. }
    rewrite firstn_prefix in Hc by (unfold d, mf in *; lia).
    destruct (Hext (Z.to_nat (root s0) + mf)) as [E|[j [x [E1 [Ex [Hlt [E2 [E3 Hall]]]]]]]];
      [unfold d, mf in *; lia|rewrite E in Hc; destruct Hc|].
    apply Hall. rewrite E2 in Hc. eapply reach_step; eauto.
Qed.

(* naturality *)
Lemma concat_natural : forall A B (h : A -> B) thn thn' t,
  (forall s, reach t s -> map (map_tree h) (thn s) = thn' (map_tree h s)) ->
  map_tree h (concat_tree thn t) = concat_tree thn' (map_tree h t).
Proof.
  intros A B h thn thn'. induction t as [a ts IH] using tree_ind'. intros H. simpl. unfold with_. simpl. f_equal.
  rewrite map_app, !map_map. f_equal.
  - apply map_ext_in. intros c Hc. rewrite Forall_forall in IH. apply IH; auto. intros s Hs. apply H.
    eapply reach_step; eauto.
  - apply (H (Node a ts)). apply reach_refl.
Qed.

Lemma pm_natural : forall X Y (g : X -> Y) fuel cont m rear,
  pm fuel (map g cont) m rear = map_tree (map g) (pm fuel cont m rear).
Proof.
  intros X Y g. induction fuel as [|f IH]; intros cont m rear; auto.
  cbn [pm]. rewrite map_length. symmetry.
  rewrite (concat_natural _ _ _ _ (fun s => if (length (root s) <=? m) || (length (root s) <=? rear) then []
                            else shrinks (pm f (root s) m (S rear)))).
  - rewrite map_tree_comp. f_equal. apply map_tree_ext. intros z _. rewrite map_app, firstn_map, skipn_map. auto.
  - intros s _. rewrite root_map, map_length.
    destruct ((length (root s) <=? m) || (length (root s) <=? rear)); auto.
    rewrite IH, shrinks_map. auto.
Qed.

(* which membership nodes have no shrinks: positions version *)
Lemma bs_zero_leaf : forall d s, (0 <= d)%Z -> reach (bs_abs d) s -> root s = 0%Z -> shrinks s = [].
Proof.
  intros d s Hd Hr Hz. destruct (bs_abs_steps d Hd s Hr) as [_ [H _]].
  destruct (shrinks s) as [|c l]; auto. inversion H; subst. lia.
Qed.

Lemma NoDup_app_disjoint : forall A (l l' : list A) x, NoDup (l ++ l') -> In x l -> In x l' -> False.
Proof.
  induction l; simpl; intros l' x H H1 H2; [auto|]. inversion H; subst. destruct H1 as [->|H1].
  - apply H4. apply in_app_iff. auto.
  - eauto.
Qed.

Lemma NoDup_app_r : forall A (l l' : list A), NoDup (l ++ l') -> NoDup l'.
Proof. induction l; simpl; intros l' H; auto. inversion H; auto. Qed.

Lemma NoDup_child_unique : forall A (t c : tree A) l1 l2, NoDup (values t) -> shrinks t = l1 ++ c :: l2 ->
  forall d, In d (l1 ++ l2) -> forall x, In x (values c) -> In x (values d) -> False.
Proof.
  intros A [a ts] c l1 l2 Hn Hs d Hd x H1 H2. simpl in *. subst ts. inversion Hn; subst.
  rewrite flat_map_app' in H4. simpl in H4. apply in_app_iff in Hd. destruct Hd as [Hd|Hd].
  - eapply NoDup_app_disjoint; [exact H4| |apply in_app_iff; left; exact H1].
    apply in_flat_map. eauto.
  - apply NoDup_app_r in H4. eapply NoDup_app_disjoint; [exact H4|exact H1|]. apply in_flat_map. eauto.
Qed.

Lemma bs_one_leaf : forall d s, (2 <= d <= UINT64_MAX)%Z -> reach (bs_abs d) s -> root s = 1%Z -> shrinks s = [].
Proof.
  intros d s Hd Hr Hz. destruct (bs_abs_steps d ltac:(lia) s Hr) as [_ [H _]].
  destruct (shrinks s) as [|c l] eqn:Es; auto. inversion H; subst.
  assert (Hc : root c = 0%Z) by lia.
  assert (Hn : NoDup (values (bs_abs d))).
  { eapply Permutation_NoDup; [apply Permutation_sym; apply bs_abs_values; lia|].
    constructor; [rewrite zrange_In; lia|apply zrange_NoDup]. }
  assert (Hf : exists r, shrinks (bs_abs d) = Node 0%Z [] :: r).
  { unfold bs_abs. destruct (Z.eqb_spec d 0); [lia|]. simpl. eauto. }
  destruct Hf as [r Hf].
  inversion Hr as [t0|t0 c0 s0 Hc0 Hr0]; subst.
  - rewrite bs_abs_root in Hz. lia.
  - exfalso. rewrite Hf in Hc0. destruct Hc0 as [<-|Hc0].
    + inversion Hr0; subst; [simpl in Hz; lia|]. simpl in H0. destruct H0.
    + eapply (NoDup_child_unique _ (bs_abs d) (Node 0%Z []) [] r Hn Hf c0 Hc0 0%Z).
      * simpl; auto.
      * apply reach_values. exists c. split; [|auto]. eapply reach_trans; [exact Hr0|]. apply reach_one. rewrite Es. simpl; auto.
Qed.

Lemma firstn_seq' : forall k a n, firstn k (seq a n) = seq a (min k n).
Proof.
  induction k; intros a [|n]; simpl; auto. f_equal. apply IHk.
Qed.

Lemma nth_error_seq' : forall n a i, i < n -> nth_error (seq a n) i = Some (a + i).
Proof. induction n; intros a [|i] H; simpl; try lia; auto. rewrite IHn by lia. f_equal. lia. Qed.

Definition keeps_first_two (l : list nat) : Prop := In 0 l /\ In 1 l.

Lemma bs_full_not_leaf : forall d s, (0 < d)%Z -> reach (bs_abs d) s -> root s = d -> shrinks s <> [].
Proof.
  intros d s Hd Hr Es E.
  pose proof (bs_abs_steps d ltac:(lia)) as Hst.
  assert (Hmono : forall u v, reach (bs_abs d) u -> reach u v -> (root v <= root u)%Z).
  { intros u v Hu Huv. induction Huv as [t|t c v Hc Hcv IHv]; [lia|].
    assert (root v <= root c)%Z by (apply IHv; eapply reach_trans; [exact Hu|apply reach_one; auto]).
    destruct (Hst _ Hu) as [_ [Hf0 _]]. rewrite Forall_forall in Hf0. apply Hf0 in Hc. lia. }
  inversion Hr as [t0 Ht0 Ht1|t0 c0 s1 Hc0 Hr0 Ht0 Ht1]; clear Ht0.
  - rewrite <- Ht1 in E. unfold bs_abs in E. destruct (Z.eqb_spec d 0); [lia|]. discriminate.
  - assert (Hc1 : (root c0 < d)%Z).
    { destruct (Hst _ (reach_refl _)) as [_ [Hf0 _]]. rewrite Forall_forall in Hf0. apply Hf0 in Hc0.
      rewrite bs_abs_root in Hc0. lia. }
    assert (root s <= root c0)%Z by (apply Hmono; auto; apply reach_one; auto). lia.
Qed.

Lemma pm_nil_shrinks : forall X f (R : list X) m, 1 <= f -> m <= length R -> shrinks (pm f R m (length R)) = [].
Proof.
  intros X [|f] R m Hf Hm; [lia|]. change R with ([] ++ R) at 1. rewrite pm_S.
  cbn [length]. replace (0 - (m - length R)) with 0 by lia.
  change (bs_abs (Z.of_nat 0)) with (Node 0%Z []). rewrite shrinks_concat, shrinks_map, root_map. cbn [shrinks map app root].
  replace (m - length R) with 0 by lia. cbn [Z.to_nat Nat.add firstn app]. unfold pm_ext. rewrite Nat.leb_refl, orb_true_r. auto.
Qed.

Lemma pm_leaf : forall fuel k (R : list nat) m,
  (size (seq 0 k ++ R) <= INT64_MAX)%Z -> m <= k + length R -> k < fuel -> 1 <= k -> Forall (fun x => k <= x) R ->
  forall s, reach (pm fuel (seq 0 k ++ R) m (length R)) s ->
    (shrinks s = [] <->
     (length (root s) = m \/ (root s <> seq 0 k ++ R /\ ~ keeps_first_two (root s)))).
Proof.
  induction fuel as [|f IH]; intros k R m Hs Hm Hf Hk HR s' Hr; [lia|].
  unfold size, INT64_MAX in Hs. rewrite app_length, seq_length in Hs.
  rewrite pm_S in Hr. rewrite seq_length in Hr. set (mf := m - length R) in *. set (d := k - mf) in *.
  assert (HR0 : forall j x, In x R -> j < k -> x <> j).
  { intros j x Hx Hj. rewrite Forall_forall in HR. apply HR in Hx. lia. }
  assert (Hext : forall j, j <= k ->
     (j + length R <= m \/ j = 0) /\ pm_ext f m (length R) (seq 0 j ++ R) = [] \/
     (m < j + length R /\ 1 <= j) /\
      pm_ext f m (length R) (seq 0 j ++ R) = shrinks (pm f (seq 0 (j - 1) ++ ((j - 1) :: R)) m (length ((j - 1) :: R))) /\
      seq 0 j ++ R = seq 0 (j - 1) ++ ((j - 1) :: R)).
  { intros j Hj. unfold pm_ext. rewrite app_length, seq_length.
    destruct (Nat.leb_spec (j + length R) m); [left; auto|].
    destruct (Nat.leb_spec (j + length R) (length R)); [left; split; auto; right; lia|]. right. cbn [orb].
    destruct j as [|j]; [lia|]. replace (S j - 1) with j by lia.
    split; [lia|]. rewrite seq_S, <- app_assoc. cbn [app]. rewrite Nat.add_0_l. auto. }
  assert (Hpre : forall z, (0 <= z <= Z.of_nat d)%Z ->
     firstn (Z.to_nat z + mf) (seq 0 k ++ R) ++ R = seq 0 (Z.to_nat z + mf) ++ R).
  { intros z Hz. rewrite firstn_prefix by (rewrite seq_length; unfold d, mf in *; lia). rewrite firstn_seq'.
    f_equal. f_equal. unfold d, mf in *; lia. }
  (* children of the extension *)
  assert (Hchild : forall j, 2 <= j <= k -> m < j + length R ->
     forall c s, In c (shrinks (pm f (seq 0 (j - 1) ++ ((j - 1) :: R)) m (length ((j - 1) :: R)))) -> reach c s ->
     (shrinks s = [] <-> (length (root s) = m \/ (root s <> seq 0 k ++ R /\ ~ keeps_first_two (root s))))).
  { intros j Hj Hjm c s Hc Hrs.
    assert (Hall : all_nodes shorter_sub (pm f (seq 0 (j - 1) ++ ((j - 1) :: R)) m (length ((j - 1) :: R)))).
    { apply pm_steps; unfold size, INT64_MAX; rewrite ?app_length, ?seq_length; simpl; lia. }
    rewrite (IH (j - 1) ((j - 1) :: R) m).
    - assert (Hlt : length (root s) < j + length R).
      { assert (Hin : In (root s) (sublists (root c))).
        { revert Hrs. assert (Hc' : all_nodes shorter_sub c) by (intros x Hx; apply Hall; eapply reach_step; eauto).
          clear -Hc'. induction 1 as [t|t c s Hc Hrs IHr]; [apply sublists_self|].
          eapply sublists_trans; [apply IHr|].
          - intros x Hx. apply Hc'. eapply reach_step; eauto.
          - specialize (Hc' _ (reach_refl _)). unfold shorter_sub in Hc'. rewrite Forall_forall in Hc'.
            apply Hc'; auto. }
        apply sublists_len in Hin. specialize (Hall _ (reach_refl _)). unfold shorter_sub in Hall.
        rewrite Forall_forall in Hall. apply Hall in Hc. destruct Hc as [Hc _].
        rewrite pm_root in Hc by (rewrite app_length, seq_length; simpl; lia).
        rewrite app_length, seq_length in Hc. simpl in Hc. lia. }
      split; intros [H|[H1 H2]]; auto; right; split; auto; intros E; rewrite E in Hlt;
        rewrite app_length, seq_length in Hlt; simpl in Hlt; lia.
    - unfold size, INT64_MAX. rewrite app_length, seq_length. simpl. lia.
    - simpl. lia.
    - lia.
    - lia.
    - constructor; auto. eapply Forall_impl; [|exact HR]. simpl. intros; lia.
    - eapply reach_step; eauto. }
  apply reach_concat_inv in Hr. destruct Hr as [[s [Hr ->]]|[s [c [Hr [Hc Hr2]]]]];
  apply reach_map_inv in Hr; destruct Hr as [s0 [Hr ->]];
  (assert (Hz : (0 <= root s0 <= Z.of_nat d)%Z)
    by (apply reach_root_in in Hr; apply bs_abs_in in Hr; [lia|unfold UINT64_MAX, d; lia])).
  - rewrite shrinks_concat, root_concat, root_map, shrinks_map.
    rewrite Hpre by auto. set (j := Z.to_nat (root s0) + mf) in *.
    assert (Hj : mf <= j <= k) by (unfold j, d, mf in *; lia).
    assert (Hlen : length (seq 0 j ++ R) = j + length R) by (rewrite app_length, seq_length; auto).
    rewrite Hlen.
    assert (Hsplit : forall l1 l2 : list (tree (list nat)), l1 ++ l2 = [] <-> l1 = [] /\ l2 = []).
    { intros l1 l2. split; [apply app_eq_nil|intros [-> ->]; auto]. }
    rewrite Hsplit. rewrite map_map.
    assert (Hmapnil : forall (f0 : tree Z -> tree (list nat)) l, map f0 l = [] <-> l = []).
    { intros f0 [|a l]; simpl; split; auto; discriminate. }
    rewrite Hmapnil.
    destruct (Nat.eq_dec j k) as [Ej|Ej].
    + (* the root *)
      assert (Es0 : root s0 = Z.of_nat d) by (unfold j, d, mf in *; lia).
      rewrite Ej in *. destruct (Hext k ltac:(lia)) as [[H1 H2]|[[H1 H1'] [H2 H3]]].
      * assert (Hd : d = 0) by (unfold d, mf in *; lia).
        split; [intros _; left; unfold d, mf in *; lia|intros _]. split; auto.
        apply (bs_zero_leaf (Z.of_nat d)); [lia|auto|rewrite Es0, Hd; auto].
      * split.
        -- intros [E _]. exfalso. assert (Hd : (0 < Z.of_nat d)%Z) by (unfold d, mf in *; lia).
           apply (bs_full_not_leaf _ _ Hd Hr Es0); auto.
        -- intros [E|[E _]]; [lia|]. exfalso. apply E. auto.
    + assert (Hkeep : keeps_first_two (seq 0 j ++ R) <-> 2 <= j).
      { unfold keeps_first_two. rewrite !in_app_iff, !in_seq. split.
        - intros [H0 H1]. destruct (le_lt_dec 2 j); auto. exfalso. destruct H0 as [H0|H0], H1 as [H1|H1]; try lia.
          + eapply (HR0 1 1); eauto. lia.
          + eapply (HR0 0 0); eauto; lia.
        - intros; split; left; lia. }
      rewrite Hkeep.
      assert (Hne : seq 0 j ++ R <> seq 0 k ++ R).
      { intros E. apply (f_equal (@length nat)) in E. rewrite !app_length, !seq_length in E. lia. }
      destruct (Hext j ltac:(lia)) as [[H1 H2]|[[H1 H1'] [H2 H3]]].
      * rewrite H2. split.
        -- intros _. destruct H1 as [H1|H1]; [left; unfold mf in *; lia|right; split; auto; lia].
        -- intros _. split; auto. apply (bs_zero_leaf (Z.of_nat d)); [lia|auto|].
           destruct H1 as [H1|H1]; unfold j, mf in *; lia.
      * rewrite H2. destruct (Nat.eq_dec j 1) as [E1|E1].
        -- split; [intros _; right; split; auto; lia|intros _]. split.
           ++ destruct (Nat.eq_dec mf 0) as [Emf|Emf].
              ** apply (bs_one_leaf (Z.of_nat d)); [unfold UINT64_MAX, d, mf in *; lia|auto|unfold j in *; lia].
              ** apply (bs_zero_leaf (Z.of_nat d)); [lia|auto|unfold j in *; lia].
           ++ rewrite E1. change (seq 0 (1 - 1)) with (@nil nat). cbn [app].
              apply pm_nil_shrinks; simpl; lia.
        -- split; [|intros [E|[_ E]]; lia].
           intros [_ E]. exfalso.
           assert (Hrl : reach (pm f (seq 0 (j - 1) ++ (j - 1) :: R) m (length ((j - 1) :: R)))
                               (pm f (seq 0 (j - 1) ++ (j - 1) :: R) m (length ((j - 1) :: R)))) by apply reach_refl.
           apply (IH (j - 1) ((j - 1) :: R) m) in Hrl.
           ++ rewrite pm_root in Hrl by (rewrite app_length, seq_length; simpl; lia).
              apply Hrl in E. rewrite app_length, seq_length in E. simpl in E. destruct E as [E|[E _]]; [lia|congruence].
           ++ unfold size, INT64_MAX. rewrite app_length, seq_length. simpl. lia.
           ++ simpl. lia.
           ++ lia.
           ++ lia.
           ++ constructor; auto. eapply Forall_impl; [|exact HR]. simpl. intros; lia.
  - rewrite root_map, Hpre in Hc by auto. set (j := Z.to_nat (root s0) + mf) in *.
    assert (Hj : mf <= j <= k) by (unfold j, d, mf in *; lia).
    destruct (Hext j ltac:(lia)) as [[H1 H2]|[[H1 H1'] [H2 H3]]]; rewrite H2 in Hc; [destruct Hc|].
    destruct (Nat.eq_dec j 1) as [E1|E1].
    + exfalso. rewrite E1 in Hc. change (seq 0 (1 - 1)) with (@nil nat) in Hc. cbn [app] in Hc.
      rewrite pm_nil_shrinks in Hc by (simpl; lia). destruct Hc.
    + apply (Hchild j) with (c := c); auto. lia.
Qed.
