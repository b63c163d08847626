From Coq Require Import List ZArith Lia Bool Arith Permutation.
From Verif Require Import Base TreeModel TreeSpec TreeProof BinSearchModel BinSearchSpec BinSearchProof
  IntegralProof ListModel ListSpec ListProof ListShapeProof ListMainProof TupleProof StringModel StringSpec.
Import ListNotations.
Local Open Scope nat_scope.

Lemma mapTreeM_ok : forall A B (f : A -> res B) (g : A -> B) t,
  (forall a, In a (values t) -> f a = Ok (g a)) -> mapTreeM f t = Ok (map_tree g t).
Proof.
  intros A B f g t H. unfold mapTreeM. apply flatMapM_ok. intros a Ha. rewrite H by auto. reflexivity.
Qed.

Lemma substr_ok : forall X (s : list X) p c, p <= length s ->
  substr s (Z.of_nat p) (Z.of_nat c) = Ok (firstn c (skipn p s)).
Proof.
  intros X s p c H. unfold substr, size. destruct (Z.ltb_spec (Z.of_nat (length s)) (Z.of_nat p)); [lia|].
  f_equal. rewrite <- Nat2Z.inj_min, !Nat2Z.id. destruct (le_lt_dec c (length s)).
  - rewrite Nat.min_l by auto. auto.
  - rewrite Nat.min_r by lia. rewrite !firstn_all2; auto; rewrite skipn_length; lia.
Qed.

(* the front candidates of a prefix *)
Definition fronts {X} (m : nat) (p : list X) : list (tree (list X)) :=
  if length p =? m then []
  else map (map_tree (fun z => skipn (m + Z.to_nat z) p)) (shrinks (bs_abs (Z.of_nat (length p - m)))).

Lemma front_ok : forall X m (s : tree (list X)), m <= length (root s) -> (size (root s) <= UINT64_MAX)%Z ->
  shrinkStringFront (Z.of_nat m) s = Ok (fronts m (root s)).
Proof.
  intros X m s Hm Hs. unfold shrinkStringFront, fronts, size in *.
  destruct (Nat.eqb_spec (length (root s)) m) as [E|E].
  - rewrite E, Z.eqb_refl. auto.
  - destruct (Z.eqb_spec (Z.of_nat (length (root s))) (Z.of_nat m)); [lia|].
    rewrite wrapU_small by (unfold UINT64_MAX in Hs; lia).
    rewrite binarySearchU_ok by (unfold in_uint64; lia). cbn [bind].
    replace (Z.of_nat (length (root s)) - Z.of_nat m)%Z with (Z.of_nat (length (root s) - m)) by lia.
    rewrite (mapTreeM_ok _ _ _ (fun z => skipn (m + Z.to_nat z) (root s))).
    + cbn [bind]. rewrite shrinks_map. auto.
    + intros a Ha. apply bs_abs_in in Ha; [|unfold UINT64_MAX in *; lia].
      rewrite !wrapU_small by (unfold UINT64_MAX in Hs; lia).
      replace (Z.of_nat m + a)%Z with (Z.of_nat (m + Z.to_nat a)) by lia.
      replace (Z.of_nat (length (root s)) - Z.of_nat (m + Z.to_nat a))%Z with
        (Z.of_nat (length (root s) - (m + Z.to_nat a))) by lia.
      rewrite substr_ok by lia. rewrite skipn_all_firstn. auto.
Qed.

Definition strT {X} (m : nat) (s : list X) : tree (list X) :=
  concat_tree (fun t => fronts m (root t))
    (map_tree (fun z => firstn (Z.to_nat z + m) s) (bs_abs (Z.of_nat (length s - m)))).

Lemma shrinkString_ok : forall X (s : list X) m, m <= length s -> (size s <= UINT64_MAX)%Z ->
  shrinkString s (Z.of_nat m) = Ok (strT m s).
Proof.
  intros X s m Hm Hs. unfold shrinkString, size in *.
  rewrite wrapU_small by (unfold UINT64_MAX in Hs; lia).
  rewrite binarySearchU_ok by (unfold in_uint64; lia). cbn [bind].
  replace (Z.of_nat (length s) - Z.of_nat m)%Z with (Z.of_nat (length s - m)) by lia.
  rewrite (mapTreeM_ok _ _ _ (fun z => firstn (Z.to_nat z + m) s)).
  - cbn [bind]. unfold strT. apply concatM_ok. intros u Hu. apply reach_map_inv in Hu. destruct Hu as [u0 [Hu ->]].
    rewrite root_map. apply reach_root_in in Hu. apply bs_abs_in in Hu; [|unfold UINT64_MAX in *; lia].
    rewrite (front_ok X m (map_tree _ u0)); rewrite root_map; auto; unfold size; rewrite firstn_length; lia.
  - intros a Ha. apply bs_abs_in in Ha; [|unfold UINT64_MAX in *; lia].
    rewrite !wrapU_small by (unfold UINT64_MAX in Hs; lia).
    replace (a + Z.of_nat m)%Z with (Z.of_nat (Z.to_nat a + m)) by lia.
    change 0%Z with (Z.of_nat 0). rewrite substr_ok by lia. auto.
Qed.

Lemma strT_root : forall X (s : list X) m, m <= length s -> root (strT m s) = s.
Proof.
  intros. unfold strT. rewrite root_concat, root_map, bs_abs_root. apply firstn_all2. lia.
Qed.

Lemma bs_shrinks_values : forall d, (Z.of_nat d <= UINT64_MAX)%Z ->
  Permutation (flat_map values (shrinks (bs_abs (Z.of_nat d)))) (map Z.of_nat (seq 0 d)).
Proof.
  intros d H. pose proof (bs_values_seq d H) as Hp. rewrite values_root_shrinks, bs_abs_root, seq_S, map_app in Hp.
  cbn [map] in Hp. rewrite <- Permutation_cons_append in Hp. apply Permutation_cons_inv in Hp. auto.
Qed.

Lemma fronts_values : forall X m (p : list X), (size p <= UINT64_MAX)%Z -> m <= length p ->
  Permutation (flat_map values (fronts m p)) (map (fun i => skipn i p) (seq m (length p - m))).
Proof.
  intros X m p Hs Hm. unfold fronts, size in *. destruct (Nat.eqb_spec (length p) m) as [E|E].
  - subst m. rewrite Nat.sub_diag. simpl. auto.
  - rewrite flat_map_map_l. rewrite (flat_map_ext _ (fun c => map (fun z => skipn (m + Z.to_nat z) p) (values c)))
      by (intros; apply values_map).
    rewrite <- map_flat_map. rewrite bs_shrinks_values by lia. apply perm_of_eq. rewrite map_map.
    pose proof (map_seq_plus (length p - m) 0 m) as Esq. cbn [Nat.add] in Esq. rewrite <- Esq, map_map.
    apply map_ext. intros i. f_equal. lia.
Qed.

Lemma skipn_firstn_comm' : forall X (s : list X) i k, skipn i (firstn k s) = firstn (k - i) (skipn i s).
Proof. intros. apply skipn_firstn_comm. Qed.

Lemma values_concat' : forall X (g : list X -> list (tree (list X))) (t : tree (list X)),
  Permutation (values (concat_tree (fun s => g (root s)) t)) (flat_map (fun v => v :: flat_map values (g v)) (values t)).
Proof.
  intros X g t. induction t as [a ts IH] using tree_ind'. rewrite concat_tree_eq. cbn [values flat_map root app].
  constructor. rewrite flat_map_app', flat_map_map_l, Permutation_app_comm. apply Permutation_app_head.
  rewrite flat_map_flat_map. apply Permutation_flat_map_Forall. auto.
Qed.

Lemma strT_values : forall X (s : list X) m, m <= length s -> (size s <= UINT64_MAX)%Z ->
  Permutation (values (strT m s)) (string_shrinks m s).
Proof.
  intros X s m Hm Hs. unfold strT, size in *. rewrite values_concat', values_map.
  rewrite flat_map_map_l. rewrite (flat_map_perm _ _ _ _ _ (bs_values_seq (length s - m) ltac:(lia))).
  unfold string_shrinks. replace (S (length s) - m) with (S (length s - m)) by lia.
  pose proof (map_seq_plus (S (length s - m)) 0 m) as Esq. cbn [Nat.add] in Esq. rewrite <- Esq.
  rewrite !flat_map_map_l. apply Permutation_flat_map_Forall. apply Forall_forall. intros i Hi. apply in_seq in Hi.
  rewrite Nat2Z.id. constructor. rewrite fronts_values; unfold size; rewrite ?firstn_length; try lia.
  rewrite Nat.min_l by lia. apply perm_of_eq. apply map_ext. intros j. unfold between_positions. apply skipn_firstn_comm'.
Qed.

Lemma string_shrinks_infix : forall X m (s v : list X), In v (string_shrinks m s) -> infix v s.
Proof.
  intros X m s v H. unfold string_shrinks in H. apply in_flat_map in H. destruct H as [k [_ [<-|H]]].
  - exists [], (skipn k s). simpl. symmetry. apply firstn_skipn.
  - apply in_map_iff in H. destruct H as [i [<- _]]. unfold between_positions.
    exists (firstn i s), (skipn (k - i) (skipn i s)). rewrite firstn_skipn, firstn_skipn. auto.
Qed.

Lemma depth_concat : forall A (g : tree A -> list (tree A)) n t,
  (forall s, reach t s -> Forall (fun c => S (tdepth c) <= n) (g s)) ->
  tdepth (concat_tree g t) <= tdepth t + n.
Proof.
  intros A g n. induction t as [a ts IH] using tree_ind'. intros H. rewrite concat_tree_eq. cbn [tdepth].
  apply list_max_le. apply Forall_map. apply Forall_app. split.
  - apply Forall_map. apply Forall_forall. intros c Hc. rewrite Forall_forall in IH.
    assert (tdepth (concat_tree g c) <= tdepth c + n).
    { apply IH; auto. intros s Hs. apply H. eapply reach_step; eauto. }
    assert (S (tdepth c) <= list_max (map (fun s => S (tdepth s)) ts)); [|lia].
    apply (proj1 (Forall_forall _ _) (proj1 (list_max_le _ _) (le_n _))). apply in_map_iff. eauto.
  - eapply Forall_impl; [|apply (H (Node a ts)); apply reach_refl]. cbv beta. intros; lia.
Qed.

Lemma tdepth_child : forall A (t c : tree A), In c (shrinks t) -> S (tdepth c) <= tdepth t.
Proof.
  intros A [a ts] c H. cbn [tdepth shrinks] in *.
  apply (proj1 (Forall_forall _ _) (proj1 (list_max_le _ _) (le_n _))). apply in_map_iff. eauto.
Qed.

(* a minimum above the size *)
Lemma concatM_throws : forall A (thn : tree A -> res (list (tree A))) e (t : tree A), (forall u, reach t u -> thn u = Throw e) -> concatM thn t = Throw e.
Proof.
  intros A thn e t. induction t as [a ts IH] using tree_ind'. intros H. cbn [concatM]. destruct ts as [|c ts].
  - cbn [mapM bind]. rewrite (H _ (reach_refl _)). reflexivity.
  - cbn [mapM]. apply Forall_inv in IH. rewrite IH; [reflexivity|]. intros u Hu. apply H. eapply reach_step; [left; reflexivity|auto].
Qed.

Lemma front_throws : forall X m (u : tree (list X)), (size (root u) < m < 2 ^ 64)%Z -> shrinkStringFront m u = Throw EOutOfRange.
Proof.
  intros X m u H. assert (Hz : (0 <= size (root u))%Z) by (unfold size; lia). unfold shrinkStringFront.
  destruct (Z.eqb_spec (size (root u)) m); [lia|].
  assert (Hv : wrapU 64 (size (root u) - m) = (2 ^ 64 + (size (root u) - m))%Z).
  { unfold wrapU. rewrite <- (Z.mod_add _ 1 (2 ^ 64)) by lia. rewrite Z.mod_small by lia. lia. }
  rewrite Hv. set (v := (2 ^ 64 + (size (root u) - m))%Z). rewrite binarySearchU_ok by (unfold in_uint64, UINT64_MAX, v; lia). cbn [bind].
  unfold mapTreeM, bs_abs. destruct (Z.eqb_spec v 0); [unfold v in *; lia|].
  cbn [flatMapM mapM bind]. unfold substr at 1.
  assert (Hw : wrapU 64 (m + v) = size (root u)) by (unfold wrapU, v; rewrite <- (Z.mod_add _ (-1) (2 ^ 64)) by lia; rewrite Z.mod_small; lia).
  rewrite Hw, Z.ltb_irrefl. cbn [bind]. unfold substr at 1.
  assert (Hm : wrapU 64 (m + 0) = m) by (unfold wrapU; rewrite Z.mod_small; lia).
  rewrite Hm. destruct (Z.ltb_spec (size (root u)) m); [reflexivity|lia].
Qed.

Lemma string_throws : forall X (s : list X) m, (size s < m < 2 ^ 64)%Z -> shrinkString s m = Throw EOutOfRange.
Proof.
  intros X s m H. assert (Hz : (0 <= size s)%Z) by (unfold size; lia). unfold shrinkString.
  assert (Hv : wrapU 64 (size s - m) = (2 ^ 64 + (size s - m))%Z).
  { unfold wrapU. rewrite <- (Z.mod_add _ 1 (2 ^ 64)) by lia. rewrite Z.mod_small by lia. lia. }
  rewrite Hv, binarySearchU_ok by (unfold in_uint64, UINT64_MAX; lia). cbn [bind].
  rewrite (mapTreeM_ok _ _ _ (fun sz => firstn (Z.to_nat (Z.min (wrapU 64 (sz + m)) (size s))) s)).
  2: { intros. unfold substr. destruct (Z.ltb_spec (size s) 0); [lia|]. reflexivity. }
  cbn [bind]. apply concatM_throws. intros u Hu. apply front_throws. apply reach_map_inv in Hu. destruct Hu as [w [_ ->]]. rewrite root_map.
  unfold size in *. rewrite firstn_length. lia.
Qed.
