From Coq Require Import List ZArith Lia Bool Arith Permutation.
From Verif Require Import Base TreeModel TreeSpec TreeProof BinSearchModel BinSearchSpec BinSearchProof
  IntegralProof ListModel ListSpec.
Import ListNotations.
Local Open Scope nat_scope.

Lemma perm_of_eq : forall A (l l' : list A), l = l' -> Permutation l l'.
Proof. intros; subst; auto. Qed.

(* monadic tree operations that never fail *)
Lemma mapM_ext_ok : forall A B (f : A -> res B) (g : A -> B) l,
  Forall (fun x => f x = Ok (g x)) l -> mapM f l = Ok (map g l).
Proof.
  induction 1; auto. change (mapM f (x :: l)) with (do y <- f x; do ys <- mapM f l; Ok (y :: ys)).
  rewrite H, IHForall. reflexivity.
Qed.

Lemma flatMapM_ok : forall A B (f : A -> res (tree B)) (g : A -> B) t,
  (forall a, In a (values t) -> f a = Ok (make_shrinkable (g a))) -> flatMapM f t = Ok (map_tree g t).
Proof.
  intros A B f g. induction t as [a ts IH] using tree_ind'. intros H.
  cbn [flatMapM]. rewrite H by (simpl; auto). cbn [bind].
  rewrite (mapM_ext_ok _ _ _ (map_tree g)).
  - reflexivity.
  - apply Forall_forall. intros c Hc. rewrite Forall_forall in IH. apply IH; auto.
    intros x Hx. apply H. simpl. right. apply in_flat_map. eauto.
Qed.

Lemma concatM_ok : forall A (thn : tree A -> res (list (tree A))) g t,
  (forall s, reach t s -> thn s = Ok (g s)) -> concatM thn t = Ok (concat_tree g t).
Proof.
  intros A thn g. induction t as [a ts IH] using tree_ind'. intros H.
  cbn [concatM]. rewrite (mapM_ext_ok _ _ _ (concat_tree g)).
  - cbn [bind]. rewrite H by apply reach_refl. reflexivity.
  - apply Forall_forall. intros c Hc. rewrite Forall_forall in IH. apply IH; auto.
    intros s Hs. apply H. eapply reach_step; eauto.
Qed.

Lemma andThenM_ok : forall A (thn : tree A -> res (list (tree A))) g t,
  (forall s, reach t s -> shrinks s = [] -> thn s = Ok (g s)) -> andThenM thn t = Ok (andThen g t).
Proof.
  intros A thn g. induction t as [a ts IH] using tree_ind'. intros H.
  destruct ts as [|c0 ts].
  - cbn [andThenM]. rewrite H by (auto; apply reach_refl). reflexivity.
  - change (andThenM thn (Node a (c0 :: ts))) with (do ts' <- mapM (andThenM thn) (c0 :: ts); Ok (Node a ts')).
    rewrite (mapM_ext_ok _ _ _ (andThen g)); [reflexivity|].
    apply Forall_forall. intros c Hc. rewrite Forall_forall in IH. apply IH; auto.
    intros s Hs. apply H. eapply reach_step; eauto.
Qed.

Lemma reach_concat_inv : forall A thn (t s' : tree A), reach (concat_tree thn t) s' ->
  (exists s, reach t s /\ s' = concat_tree thn s) \/ (exists s c, reach t s /\ In c (thn s) /\ reach c s').
Proof.
  intros A thn t s' H. apply reach_node_at in H. destruct H as [p H].
  destruct (node_at_concat_inv _ _ _ _ _ H) as [[s [H1 H2]]|[q [s [i [r [c [_ [H2 [H3 H4]]]]]]]]].
  - left. exists s. split; auto. apply reach_node_at. eauto.
  - right. exists s, c. split; [apply reach_node_at; eauto|]. split; [eapply nth_error_In; eauto|].
    apply reach_node_at; eauto.
Qed.

Lemma reach_andThen_inv : forall A thn (t s' : tree A), reach (andThen thn t) s' ->
  (exists s, reach t s /\ s' = andThen thn s) \/
  (exists s c, reach t s /\ shrinks s = [] /\ In c (thn s) /\ reach c s').
Proof.
  intros A thn t s' H. apply reach_node_at in H. destruct H as [p H].
  destruct (node_at_andThen_inv _ _ _ _ _ H) as [[s [H1 H2]]|[q [s [i [r [c [_ [H2 [H3 [H4 H5]]]]]]]]]].
  - left. exists s. split; auto. apply reach_node_at. eauto.
  - right. exists s, c. split; [apply reach_node_at; eauto|]. split; auto. split; [eapply nth_error_In; eauto|].
    apply reach_node_at; eauto.
Qed.

(* the range of sizes *)
Lemma bs_abs_root : forall v, root (bs_abs v) = v.
Proof. intros v. unfold bs_abs. destruct (Z.eqb_spec v 0); subst; reflexivity. Qed.

Lemma bs_abs_in : forall v x, (0 <= v <= UINT64_MAX)%Z -> In x (values (bs_abs v)) <-> (0 <= x <= v)%Z.
Proof.
  intros v x H. rewrite (Permutation_in' eq_refl (bs_abs_values v H)). simpl. rewrite zrange_In. lia.
Qed.

Lemma sizeRange_ok : forall d m, (0 <= d)%Z -> (0 <= m)%Z -> (d + m <= INT64_MAX)%Z ->
  sizeRange d m = Ok (map_tree (fun z => z + m)%Z (bs_abs d)).
Proof.
  intros d m H1 H2 H3. unfold INT64_MAX in *. unfold sizeRange. rewrite wrapS_small; [|lia|simpl; lia].
  rewrite binarySearch_pos by (unfold INT64_MAX; lia). cbn [bind]. f_equal. apply map_tree_ext.
  intros a Ha. apply bs_abs_in in Ha; [|unfold UINT64_MAX; lia].
  rewrite (wrapU_small 64 a) by lia. apply wrapU_small. lia.
Qed.

Lemma slice_ok : forall X (l : list X) a b, a <= b <= length l ->
  slice l (Z.of_nat a) (Z.of_nat b) = Ok (firstn (b - a) (skipn a l)).
Proof.
  intros X l a b H. unfold slice, size.
  destruct (Z.leb_spec 0 (Z.of_nat a)); [|lia]. destruct (Z.leb_spec (Z.of_nat a) (Z.of_nat b)); [|lia].
  destruct (Z.leb_spec (Z.of_nat b) (Z.of_nat (length l))); [|lia]. cbn [andb].
  repeat f_equal; lia.
Qed.

Lemma skipn_all_firstn : forall X (l : list X) k, firstn (length l - k) (skipn k l) = skipn k l.
Proof. intros. apply firstn_all2. rewrite skipn_length. lia. Qed.

(* membership shrinking without abnormal outcomes *)
Fixpoint pm {X} (fuel : nat) (cont : list X) (m rear : nat) : tree (list X) :=
  match fuel with
  | O => Node cont []
  | S f =>
      let mf := m - rear in
      let xf := length cont - rear in
      concat_tree (fun s => if (length (root s) <=? m) || (length (root s) <=? rear) then []
                            else shrinks (pm f (root s) m (S rear)))
        (map_tree (fun z => firstn (Z.to_nat z + mf) cont ++ skipn xf cont) (bs_abs (Z.of_nat (xf - mf))))
  end.

Lemma reach_root_in : forall A (t s : tree A), reach t s -> In (root s) (values t).
Proof. intros. apply reach_values. eauto. Qed.

Lemma frontAndThenMid_ok : forall X mid fuel (cont : list X) m rear,
  (size cont <= INT64_MAX)%Z -> m <= length cont -> rear <= length cont -> length cont - rear < fuel ->
  frontAndThenMid mid fuel cont (Z.of_nat m) (Z.of_nat rear) = Ok (pm fuel cont m rear).
Proof.
  intros X mid. induction fuel as [|f IH]; intros cont m rear Hs Hm Hr Hf; [lia|].
  unfold size in *. cbn [frontAndThenMid pm].
  assert (Emf : (if (Z.of_nat rear <=? Z.of_nat m)%Z then Z.of_nat m - Z.of_nat rear else 0)%Z = Z.of_nat (m - rear)).
  { destruct (Z.leb_spec (Z.of_nat rear) (Z.of_nat m)); lia. }
  rewrite Emf. unfold size. rewrite (wrapU_small 64 (Z.of_nat (length cont) - Z.of_nat rear)) by (unfold INT64_MAX in *; lia).
  replace (Z.of_nat (length cont) - Z.of_nat rear)%Z with (Z.of_nat (length cont - rear)) by lia.
  rewrite (wrapU_small 64) by (unfold INT64_MAX in *; lia).
  replace (Z.of_nat (length cont - rear) - Z.of_nat (m - rear))%Z with
          (Z.of_nat (length cont - rear - (m - rear))) by lia.
  rewrite sizeRange_ok by (unfold INT64_MAX in *; lia). cbn [bind].
  set (mf := m - rear). set (xf := length cont - rear).
  assert (Hx : mf <= xf) by (unfold mf, xf; lia).
  rewrite (flatMapM_ok _ _ _ (fun z => firstn (Z.to_nat z) cont ++ skipn xf cont)).
  2:{ intros z Hz. rewrite values_map in Hz. apply in_map_iff in Hz. destruct Hz as [y [<- Hy]].
      apply bs_abs_in in Hy; [|unfold UINT64_MAX, INT64_MAX in *; lia].
      replace (y + Z.of_nat mf)%Z with (Z.of_nat (Z.to_nat y + mf)) by lia.
      rewrite (slice_ok X cont 0) by lia. cbn [bind]. rewrite Nat.sub_0_r. cbn [skipn].
      change (Z.of_nat (length cont - rear)) with (Z.of_nat xf).
      rewrite (slice_ok X cont xf) by lia. cbn [bind].
      rewrite skipn_all_firstn. rewrite Nat2Z.id. reflexivity. }
  cbn [bind]. rewrite map_tree_comp.
  rewrite (map_tree_ext _ _ _ (fun z => firstn (Z.to_nat z + mf) cont ++ skipn xf cont)).
  2:{ intros z Hz. apply bs_abs_in in Hz; [|unfold UINT64_MAX, INT64_MAX in *; lia].
      repeat f_equal. lia. }
  apply concatM_ok. intros s Hreach. cbv zeta.
  apply reach_root_in in Hreach. rewrite values_map in Hreach. apply in_map_iff in Hreach.
  destruct Hreach as [z [Hz1 Hz2]]. apply bs_abs_in in Hz2; [|unfold UINT64_MAX, INT64_MAX in *; lia].
  assert (Hl : length (root s) = Z.to_nat z + mf + rear).
  { rewrite <- Hz1. rewrite app_length, firstn_length, skipn_length. lia. }
  set (n := length (root s)) in *.
  destruct (Nat.leb_spec n m); [|destruct (Nat.leb_spec n rear)]; cbn [orb].
  - destruct (Z.leb_spec (Z.of_nat n) (Z.of_nat m)); [|lia]. cbn [orb].
    destruct (Z.ltb_spec (Z.of_nat m) (Z.of_nat n)); [lia|]. reflexivity.
  - destruct (Z.leb_spec (Z.of_nat n) (Z.of_nat m)); [lia|]. destruct (Z.leb_spec (Z.of_nat n) (Z.of_nat rear)); [|lia].
    cbn [orb]. destruct (Z.ltb_spec (Z.of_nat rear + 1) (Z.of_nat n)); [lia|]. rewrite andb_false_r. reflexivity.
  - destruct (Z.leb_spec (Z.of_nat n) (Z.of_nat m)); [lia|]. destruct (Z.leb_spec (Z.of_nat n) (Z.of_nat rear)); [lia|].
    cbn [orb]. replace (Z.of_nat rear + 1)%Z with (Z.of_nat (S rear)) by lia.
    rewrite IH by (unfold n, xf in *; lia). reflexivity.
Qed.

(* sublists *)
Lemma sublists_len : forall X (l s : list X), In s (sublists l) -> length s <= length l.
Proof.
  induction l; simpl; intros s H.
  - destruct H as [<-|[]]; auto.
  - apply in_app_iff in H. destruct H as [H|H].
    + apply in_map_iff in H. destruct H as [t [<- Ht]]. simpl. apply IHl in Ht. lia.
    + apply IHl in H. lia.
Qed.

Lemma sublists_self : forall X (l : list X), In l (sublists l).
Proof. induction l; simpl; auto. apply in_app_iff. left. apply in_map; auto. Qed.

Lemma sublists_nil : forall X (l : list X), In [] (sublists l).
Proof. induction l; simpl; auto. apply in_app_iff. auto. Qed.

Lemma sublists_app : forall X (l1 l2 s1 s2 : list X), In s1 (sublists l1) -> In s2 (sublists l2) ->
  In (s1 ++ s2) (sublists (l1 ++ l2)).
Proof.
  induction l1; simpl; intros l2 s1 s2 H1 H2.
  - destruct H1 as [<-|[]]; auto.
  - apply in_app_iff in H1. apply in_app_iff. destruct H1 as [H1|H1].
    + apply in_map_iff in H1. destruct H1 as [t [<- Ht]]. left. simpl. apply in_map. auto.
    + right; auto.
Qed.

Lemma firstn_sublist : forall X (l : list X) k, In (firstn k l) (sublists l).
Proof.
  intros. rewrite <- (firstn_skipn k l) at 2. rewrite <- (app_nil_r (firstn k l)) at 1.
  apply sublists_app; [apply sublists_self|apply sublists_nil].
Qed.

Lemma sublists_trans : forall X (c b a : list X), In a (sublists b) -> In b (sublists c) -> In a (sublists c).
Proof.
  induction c as [|x c IH]; simpl; intros b a H1 H2.
  - destruct H2 as [<-|[]]. auto.
  - apply in_app_iff. apply in_app_iff in H2. destruct H2 as [H2|H2].
    + apply in_map_iff in H2. destruct H2 as [b' [<- Hb]]. simpl in H1. apply in_app_iff in H1.
      destruct H1 as [H1|H1].
      * apply in_map_iff in H1. destruct H1 as [a' [<- Ha]]. left. apply in_map. eauto.
      * right. eauto.
    + right. eauto.
Qed.

Lemma sublists_full : forall X (l s : list X), In s (sublists l) -> length s = length l -> s = l.
Proof.
  induction l as [|x l IH]; simpl; intros s H Hl.
  - destruct H as [<-|[]]; auto.
  - apply in_app_iff in H. destruct H as [H|H].
    + apply in_map_iff in H. destruct H as [t [<- Ht]]. simpl in Hl. f_equal. auto.
    + apply sublists_len in H. lia.
Qed.

Lemma sublists_snoc : forall X (l : list X) x,
  Permutation (sublists (l ++ [x])) (sublists l ++ map (fun s => s ++ [x]) (sublists l)).
Proof.
  induction l as [|y l IH]; intros x; simpl.
  - apply perm_swap.
  - rewrite (IH x). rewrite !map_app. rewrite !map_map.
    rewrite <- !app_assoc. apply Permutation_app_head.
    rewrite !app_assoc. apply Permutation_app_tail. apply Permutation_app_comm.
Qed.

(* sub-lists of l whose last kept element is the k-th *)
Definition ending {X} (l : list X) (k : nat) : list (list X) :=
  match k with
  | O => [[]]
  | S j => match nth_error l j with
           | Some x => map (fun s => s ++ [x]) (sublists (firstn j l))
           | None => []
           end
  end.

Lemma ending_app : forall X (l : list X) x k, k <= length l -> ending (l ++ [x]) k = ending l k.
Proof.
  intros X l x [|j] H; auto. simpl. rewrite nth_error_app1 by lia.
  replace (firstn j (l ++ [x])) with (firstn j l); auto.
  rewrite firstn_app. replace (j - length l) with 0 by lia. simpl. rewrite app_nil_r. auto.
Qed.

Lemma sublists_ending : forall X (l : list X),
  Permutation (sublists l) (flat_map (ending l) (seq 0 (S (length l)))).
Proof.
  intros X l. induction l as [|x l IH] using rev_ind; [simpl; auto|].
  rewrite sublists_snoc. rewrite app_length. change (length [x]) with 1. rewrite Nat.add_1_r.
  rewrite (seq_S (S (length l))). rewrite flat_map_app', Nat.add_0_l.
  apply Permutation_app.
  - rewrite IH. apply perm_of_eq. rewrite !flat_map_concat_map. f_equal. apply map_ext_in. intros k Hk.
    apply in_seq in Hk. symmetry. apply ending_app. lia.
  - simpl. rewrite app_nil_r. rewrite nth_error_app2 by lia. rewrite Nat.sub_diag. simpl.
    rewrite firstn_app, Nat.sub_diag. simpl. rewrite app_nil_r, firstn_all. auto.
Qed.

Lemma filter_none : forall A (f : A -> bool) l, (forall x, In x l -> f x = false) -> filter f l = [].
Proof. induction l; simpl; intros; auto. rewrite H by auto. auto. Qed.

Lemma filter_full : forall X (l : list X) n, length l = n -> filter (fun s => n <=? length s) (sublists l) = [l].
Proof.
  induction l as [|x l IH]; intros n <-; [reflexivity|].
  simpl sublists. rewrite filter_app', filter_map_comm. simpl.
  rewrite (IH (length l)) by auto. rewrite filter_none; auto.
  intros s Hs. apply sublists_len in Hs. destruct (length s); auto. apply Nat.leb_gt. lia.
Qed.

Lemma flat_map_nil : forall A B (f : A -> list B) l, (forall x, In x l -> f x = []) -> flat_map f l = [].
Proof. induction l; simpl; intros; auto. rewrite H by auto. auto. Qed.

Lemma seq_split : forall a n, a <= n -> seq 0 n = seq 0 a ++ seq a (n - a).
Proof. intros a n H. replace n with (a + (n - a)) at 1 by lia. rewrite seq_app. auto. Qed.

Lemma Permutation_filter : forall A (f : A -> bool) l l', Permutation l l' -> Permutation (filter f l) (filter f l').
Proof.
  induction 1; simpl; auto.
  - destruct (f x); auto.
  - destruct (f x), (f y); auto. apply perm_swap.
  - etransitivity; eauto.
Qed.

Lemma zseq_seq : forall n lo, zseq (Z.of_nat lo) n = map Z.of_nat (seq lo n).
Proof.
  induction n; intros lo; simpl; auto. f_equal. replace (Z.of_nat lo + 1)%Z with (Z.of_nat (S lo)) by lia. auto.
Qed.

Lemma bs_values_seq : forall d, (Z.of_nat d <= UINT64_MAX)%Z ->
  Permutation (values (bs_abs (Z.of_nat d))) (map Z.of_nat (seq 0 (S d))).
Proof.
  intros d H. rewrite bs_abs_values by lia. rewrite seq_S. rewrite map_app. simpl (map _ [_]).
  rewrite <- Permutation_cons_append. constructor. unfold zrange.
  replace (Z.to_nat (Z.of_nat d - 1 - 0 + 1)) with d by lia. change 0%Z with (Z.of_nat 0). rewrite (zseq_seq d 0). auto.
Qed.

Lemma pm_root : forall X fuel (cont : list X) m rear, m <= length cont -> rear <= length cont ->
  root (pm fuel cont m rear) = cont.
Proof.
  intros X [|f] cont m rear Hm Hr; auto. cbn [pm]. rewrite root_concat, root_map, bs_abs_root.
  rewrite Nat2Z.id. replace (length cont - rear - (m - rear) + (m - rear)) with (length cont - rear) by lia.
  apply firstn_skipn.
Qed.

Lemma values_root_shrinks : forall A (t : tree A), values t = root t :: flat_map values (shrinks t).
Proof. destruct t; auto. Qed.

(* the prefixes tree *)
Lemma pm_prefix_split : forall X (F R : list X),
  length (F ++ R) - length R = length F /\ skipn (length F) (F ++ R) = R.
Proof.
  intros. split; [rewrite app_length; lia|]. rewrite skipn_app, skipn_all, Nat.sub_diag. auto.
Qed.

Lemma firstn_prefix : forall X (F R : list X) k, k <= length F -> firstn k (F ++ R) = firstn k F.
Proof. intros. rewrite firstn_app. replace (k - length F) with 0 by lia. simpl. apply app_nil_r. Qed.

Lemma firstn_S_nth : forall X (l : list X) k x, nth_error l k = Some x -> firstn (S k) l = firstn k l ++ [x].
Proof.
  induction l as [|y l IH]; intros [|k] x H; simpl in *; try discriminate; try congruence.
  f_equal. apply IH. auto.
Qed.

Definition pm_ext {X} (f : nat) (m rear : nat) (p : list X) : list (tree (list X)) :=
  if (length p <=? m) || (length p <=? rear) then [] else shrinks (pm f p m (S rear)).

Lemma pm_S : forall X f (F R : list X) m,
  pm (S f) (F ++ R) m (length R) =
  concat_tree (fun s => pm_ext f m (length R) (root s))
    (map_tree (fun z => firstn (Z.to_nat z + (m - length R)) (F ++ R) ++ R)
              (bs_abs (Z.of_nat (length F - (m - length R))))).
Proof.
  intros. cbn [pm]. destruct (pm_prefix_split X F R) as [E1 E2]. rewrite E1, E2. reflexivity.
Qed.

Lemma map_seq_plus : forall n a b, map (fun i => i + b) (seq a n) = seq (a + b) n.
Proof. induction n; intros a b; simpl; auto. f_equal. apply (IHn (S a)). Qed.

Lemma perm_cons_flat : forall A (g : A -> list A) l,
  Permutation (l ++ flat_map g l) (flat_map (fun p => p :: g p) l).
Proof.
  induction l; simpl; auto. constructor. rewrite <- IHl. rewrite !app_assoc.
  apply Permutation_app_tail. apply Permutation_app_comm.
Qed.

Lemma pm_values : forall X fuel (F R : list X) m,
  (size (F ++ R) <= INT64_MAX)%Z -> m <= length (F ++ R) -> length F < fuel ->
  Permutation (values (pm fuel (F ++ R) m (length R)))
              (map (fun s => s ++ R) (filter (fun s => m <=? length s + length R) (sublists F))).
Proof.
  intros X. induction fuel as [|f IH]; intros F R m Hs Hm Hf; [lia|].
  rewrite pm_S. unfold size, INT64_MAX in Hs. rewrite app_length in Hs, Hm.
  set (mf := m - length R). set (d := length F - mf).
  rewrite values_concat.
  rewrite <- (nodes_values _ (map_tree _ _)).
  set (T := map_tree _ _).
  assert (Hv : Permutation (map root (nodes T)) (map (fun k => firstn k F ++ R) (seq mf (S d)))).
  { unfold T. rewrite nodes_values, values_map. rewrite bs_values_seq by (unfold UINT64_MAX; lia).
    rewrite map_map. replace (seq mf (S d)) with (map (fun i => i + mf) (seq 0 (S d))).
    2:{ rewrite map_seq_plus. auto. }
    rewrite map_map. apply perm_of_eq. apply map_ext_in. intros k Hk. apply in_seq in Hk.
    rewrite Nat2Z.id. f_equal. apply firstn_prefix. lia. }
  transitivity (flat_map (fun p => p :: flat_map values (pm_ext f m (length R) p)) (map root (nodes T))).
  { rewrite <- perm_cons_flat. rewrite flat_map_map_l. auto. }
  rewrite (Permutation_flat_map _ Hv). clear Hv. rewrite flat_map_map_l.
  transitivity (flat_map (fun k => map (fun s => s ++ R) (filter (fun s => m <=? length s + length R) (ending F k)))
                  (seq mf (S d))).
  - apply Permutation_flat_map_Forall. apply Forall_forall. intros k Hk. apply in_seq in Hk.
    assert (Hlen : length (firstn k F ++ R) = k + length R) by (rewrite app_length, firstn_length; lia).
    unfold pm_ext. rewrite Hlen.
    destruct k as [|k].
    + simpl. destruct (Nat.leb_spec (length R) m); simpl.
      * destruct (Nat.leb_spec m (length R)); [auto|unfold mf in Hk; lia].
      * rewrite Nat.leb_refl. destruct (Nat.leb_spec m (length R)); [auto|lia].
    + destruct (nth_error F k) as [x|] eqn:Ex; [|apply nth_error_None in Ex; lia].
      assert (HF : firstn (S k) F ++ R = firstn k F ++ (x :: R)).
      { rewrite (firstn_S_nth _ _ _ _ Ex), <- app_assoc. auto. }
      cbn [ending]. rewrite Ex.
      destruct (Nat.leb_spec (S k + length R) m).
      * cbn [orb flat_map]. rewrite HF.
        rewrite filter_map_comm, map_map.
        rewrite (filter_ext' _ (fun a => m <=? length (a ++ [x]) + length R) (fun s => k <=? length s)).
        2:{ intros a. rewrite app_length. simpl. apply eq_true_iff_eq. rewrite !Nat.leb_le. unfold mf in Hk. lia. }
        rewrite filter_full by (rewrite firstn_length; lia). cbn [map]. rewrite <- app_assoc. auto.
      * destruct (Nat.leb_spec (S k + length R) (length R)); [lia|]. cbn [orb].
        rewrite HF. change (S (length R)) with (length (x :: R)).
        assert (Hr : root (pm f (firstn k F ++ x :: R) m (length (x :: R))) = firstn k F ++ x :: R).
        { apply pm_root; rewrite app_length, firstn_length; simpl; lia. }
        rewrite <- Hr at 1. rewrite <- values_root_shrinks.
        rewrite IH.
        -- rewrite filter_map_comm, map_map. apply perm_of_eq.
           rewrite (filter_ext' _ (fun a => m <=? length (a ++ [x]) + length R) (fun s => m <=? length s + length (x :: R))).
           2:{ intros a. rewrite app_length. simpl. f_equal. lia. }
           apply map_ext. intros s. rewrite <- app_assoc. auto.
        -- unfold size, INT64_MAX. rewrite app_length, firstn_length. simpl. lia.
        -- rewrite app_length, firstn_length. simpl. lia.
        -- rewrite firstn_length. lia.
  - rewrite <- map_flat_map. apply Permutation_map.
    rewrite (Permutation_filter _ _ _ _ (sublists_ending _ F)). rewrite filter_flat_map.
    rewrite (seq_split mf (S (length F))) by (unfold mf; lia). rewrite flat_map_app'.
    rewrite (flat_map_nil _ _ _ (seq 0 mf)).
    + cbn [app]. replace (S (length F) - mf) with (S d) by (unfold d, mf; lia). auto.
    + intros k Hk. apply in_seq in Hk. apply filter_none. intros s Hin.
      apply Nat.leb_gt. assert (length s <= k); [|unfold mf in Hk; lia].
      destruct k as [|k]; simpl in Hin.
      * destruct Hin as [<-|[]]; auto.
      * destruct (nth_error F k); [|destruct Hin]. apply in_map_iff in Hin. destruct Hin as [s' [<- Hs']].
        apply sublists_len in Hs'. rewrite app_length, firstn_length in *. simpl. lia.
Qed.
