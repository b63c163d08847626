From Coq Require Import List ZArith Lia Bool Arith Permutation.
From Verif Require Import Base TreeModel TreeSpec TreeProof BinSearchModel BinSearchSpec BinSearchProof
  IntegralProof ListModel ListSpec ListProof ListShapeProof ListBulkProof.
Import ListNotations.
Local Open Scope nat_scope.

Definition mtree {X} (l : list X) (m : nat) : tree (list X) := pm (S (length l)) l m 0.

Lemma membership_ok : forall X (l : list X) m, (size l <= INT64_MAX)%Z -> m <= length l ->
  shrinkMembershipwise l (Z.of_nat m) = Ok (mtree l m).
Proof.
  intros. unfold shrinkMembershipwise, shrinkFrontAndThenMid. apply (frontAndThenMid_ok _ _ _ _ _ 0); auto; lia.
Qed.

Lemma mtree_root : forall X (l : list X) m, m <= length l -> root (mtree l m) = l.
Proof. intros. apply pm_root; lia. Qed.

Lemma mtree_values : forall X (l : list X) m, (size l <= INT64_MAX)%Z -> m <= length l ->
  Permutation (values (mtree l m)) (sublists_min m l).
Proof.
  intros X l m Hs Hm. unfold mtree.
  pose proof (pm_values X (S (length l)) l [] m) as H. rewrite app_nil_r in H. simpl length in H at 4.
  rewrite H by (auto; lia). unfold sublists_min. apply perm_of_eq.
  rewrite (map_ext _ (fun s => s)) by (intros; apply app_nil_r). rewrite map_id.
  apply filter_ext. intros a. simpl. rewrite Nat.add_0_r. auto.
Qed.

Lemma mtree_steps : forall X (l : list X) m, (size l <= INT64_MAX)%Z -> m <= length l ->
  all_nodes shorter_sub (mtree l m).
Proof.
  intros X l m Hs Hm. pose proof (pm_steps X (S (length l)) l [] m) as H. rewrite app_nil_r in H.
  apply H; auto.
Qed.

Lemma mtree_natural : forall X Y (g : X -> Y) l m, mtree (map g l) m = map_tree (map g) (mtree l m).
Proof. intros. unfold mtree. rewrite map_length. apply pm_natural. Qed.

Lemma mtree_leaf : forall n m, (Z.of_nat n <= INT64_MAX)%Z -> m <= n ->
  forall s, reach (mtree (seq 0 n) m) s ->
  (shrinks s = [] <-> (length (root s) = m \/ (root s <> seq 0 n /\ ~ (In 0 (root s) /\ In 1 (root s))))).
Proof.
  intros n m Hn Hm s Hr. destruct n as [|n].
  - assert (m = 0) by lia. subst m. unfold mtree in Hr. simpl length in Hr.
    assert (Hl : shrinks (pm 1 (seq 0 0) 0 0) = []) by (apply (pm_nil_shrinks nat 1 []); simpl; lia).
    inversion Hr as [t0 Ht0 Ht1|t0 c s1 Hc Hs1 Ht0 Ht1]; subst.
    + rewrite Hl. rewrite pm_root by (simpl; lia). simpl. split; auto.
    + rewrite Hl in Hc. destruct Hc.
  - pose proof (pm_leaf (S (S n)) (S n) [] m) as H. rewrite app_nil_r in H. unfold mtree in Hr.
    rewrite seq_length in Hr. apply H; auto; try lia.
    unfold size. rewrite seq_length. auto.
Qed.

Definition etree {A} (vec : list (tree A)) (m : nat) (ew : bool) : tree (list (tree A)) :=
  if ew then andThen (fun s => pb (root s)) (mtree vec m) else mtree vec m.

Lemma elementwise_leaf : forall A (s : tree (list (tree A))), shrinks s = [] -> shrinkElementwise s = Ok (pb (root s)).
Proof.
  intros A [v ts] E. simpl in E. subst ts. unfold shrinkElementwise. cbn [root].
  destruct v as [|x v]; [reflexivity|]. cbn [isEmpty]. rewrite Z.div_1_r.
  destruct (Z.ltb_spec (size (x :: v)) 1) as [H|H]; [unfold size in H; simpl in H; lia|].
  cbn [concatM]. change (mapM (concatM (fun s : tree (list (tree A)) => if (size (root s) / 1 <? 1)%Z then Ok []
     else shrinkBulk (bulkFuel (root s)) (root s))) []) with (@Ok (list (tree (list (tree A)))) []).
  cbn [bind root]. rewrite Z.div_1_r. destruct (Z.ltb_spec (size (x :: v)) 1); [lia|].
  rewrite (proj1 (pb_ok A (x :: v))). reflexivity.
Qed.

Lemma elems_ok : forall A (vec : list (tree A)) m ew, (size vec <= INT64_MAX)%Z -> m <= length vec ->
  shrinkListLike_elems vec (Z.of_nat m) ew = Ok (etree vec m ew).
Proof.
  intros A vec m ew Hs Hm. unfold shrinkListLike_elems. rewrite membership_ok by auto. cbn [bind].
  destruct ew; auto. apply andThenM_ok. intros s _ E. apply elementwise_leaf. auto.
Qed.

Lemma listlike_ok : forall A (vec : list (tree A)) m ew, (size vec <= INT64_MAX)%Z -> m <= length vec ->
  shrinkListLike vec (Z.of_nat m) ew = Ok (map_tree (map root) (etree vec m ew)).
Proof.
  intros A vec m ew Hs Hm. unfold shrinkListLike. rewrite elems_ok by auto. cbn [bind].
  rewrite flatMap_is_map. auto.
Qed.

Lemma etree_root : forall A (vec : list (tree A)) m ew, m <= length vec -> root (etree vec m ew) = vec.
Proof. intros A vec m [] H; simpl; [rewrite root_andThen|]; apply mtree_root; auto. Qed.

Lemma mtree_sub : forall X (l : list X) m s, (size l <= INT64_MAX)%Z -> m <= length l -> reach (mtree l m) s ->
  In (root s) (sublists l) /\ m <= length (root s).
Proof.
  intros X l m s Hs Hm Hr. apply reach_root_in in Hr.
  apply (Permutation_in _ (mtree_values _ _ _ Hs Hm)) in Hr. unfold sublists_min in Hr. apply filter_In in Hr.
  destruct Hr as [H1 H2]. split; auto. apply Nat.leb_le. auto.
Qed.

Lemma etree_sound : forall A (vec : list (tree A)) m ew s, (size vec <= INT64_MAX)%Z -> m <= length vec ->
  reach (etree vec m ew) s ->
  exists sub, In sub (sublists vec) /\ m <= length sub /\ Forall2 (fun e e' => reach e e') sub (root s).
Proof.
  intros A vec m ew s Hs Hm Hr.
  assert (Hself : forall l : list (tree A), Forall2 (fun e e' => reach e e') l l)
    by (induction l; constructor; auto; apply reach_refl).
  destruct ew; simpl in Hr.
  - apply reach_andThen_inv in Hr. destruct Hr as [[u [Hu ->]]|[u [c [Hu [Hl [Hc Hr]]]]]].
    + exists (root u). rewrite root_andThen. destruct (mtree_sub _ _ _ _ Hs Hm Hu). auto.
    + exists (root u). destruct (mtree_sub _ _ _ _ Hs Hm Hu). destruct (pb_nodes _ _ _ _ Hc Hr) as [_ [_ [_ H3]]]. auto.
  - exists (root s). destruct (mtree_sub _ _ _ _ Hs Hm Hr). auto.
Qed.

Lemma weight_sub : forall A (l s : list (tree A)), In s (sublists l) -> weight s + length l <= weight l + length s.
Proof.
  intros A. induction l as [|x l IH]; simpl; intros s H.
  - destruct H as [<-|[]]. auto.
  - apply in_app_iff in H. destruct H as [H|H].
    + apply in_map_iff in H. destruct H as [s0 [<- H]]. apply IH in H. unfold weight in *. simpl. lia.
    + pose proof (sublists_len _ _ _ H). apply IH in H. unfold weight in *.
      simpl. assert (1 <= tsize x) by (destruct x; simpl; lia). lia.
Qed.

Lemma etree_steps : forall A (vec : list (tree A)) m ew, (size vec <= INT64_MAX)%Z -> m <= length vec ->
  all_nodes (fun s => Forall (fun c => list_step (root s) (root c)) (shrinks s)) (etree vec m ew).
Proof.
  intros A vec m ew Hs Hm s Hr.
  assert (Hb : forall (v w : list (tree A)), In w (bulk_candidates v) -> list_step v w).
  { intros v0 w Hw. right. rewrite bulk_candidates_eq in Hw. apply in_map_iff in Hw. destruct Hw as [j [<- Hj]].
    apply bulk_cand_step. apply in_seq in Hj. lia. }
  destruct ew; simpl in Hr.
  - apply reach_andThen_inv in Hr. destruct Hr as [[u [Hu ->]]|[u [c [Hu [Hl [Hc Hr]]]]]].
    + rewrite root_andThen. pose proof (mtree_steps _ _ _ Hs Hm _ Hu) as Hst. unfold shorter_sub in Hst.
      rewrite shrinks_andThen. destruct (shrinks u) as [|c0 l0] eqn:E.
      * destruct (pb_ok A (root u)) as [_ [G1 _]]. apply Forall_forall. intros c Hc. apply Hb. rewrite <- G1.
        apply in_map. auto.
      * apply Forall_map. eapply Forall_impl; [|exact Hst]. cbv beta. intros c H. rewrite root_andThen. left. exact H.
    + destruct (pb_nodes _ _ _ _ Hc Hr) as [H1 _]. unfold bulk_node in H1. apply Forall_forall.
      intros d Hd. apply Hb. rewrite <- H1. apply in_map. auto.
  - pose proof (mtree_steps _ _ _ Hs Hm _ Hr) as Hst. eapply Forall_impl; [|exact Hst]. intros c H. left. exact H.
Qed.

Lemma list_step_weight : forall A (v w : list (tree A)), list_step v w -> weight w < weight v.
Proof.
  intros A v w [[H1 H2]|H]; [|apply bulk_step_weight; auto]. apply weight_sub in H2. lia.
Qed.

Lemma tdepth_measure : forall B (f : B -> nat) t, all_nodes (fun s => Forall (fun c => f (root c) < f (root s)) (shrinks s)) t ->
  tdepth t <= f (root t).
Proof.
  intros B f. induction t as [a ts IH] using tree_ind'. intros H. cbn [tdepth root]. apply list_max_le.
  apply Forall_map. pose proof (H _ (reach_refl _)) as H0. cbn [shrinks root] in H0. rewrite Forall_forall in *.
  intros c Hc. specialize (H0 _ Hc). assert (tdepth c <= f (root c)); [|lia]. apply IH; auto.
  intros s Hs. apply H. eapply reach_step; eauto.
Qed.

Lemma etree_depth : forall A (vec : list (tree A)) m ew, (size vec <= INT64_MAX)%Z -> m <= length vec ->
  tdepth (etree vec m ew) <= weight vec.
Proof.
  intros A vec m ew Hs Hm. rewrite <- (etree_root A vec m ew Hm) at 2. apply (tdepth_measure _ weight).
  intros s Hr. eapply Forall_impl; [|eapply etree_steps; eauto]. cbv beta. intros c. apply list_step_weight.
Qed.

Lemma map_nth_seq : forall X (l : list X) d, map (fun i => nth i l d) (seq 0 (length l)) = l.
Proof.
  intros X l d. apply nth_error_ext. intros i. rewrite nth_error_map.
  destruct (le_lt_dec (length l) i) as [H|H].
  - rewrite !(proj2 (nth_error_None _ _)); auto. rewrite seq_length. auto.
  - rewrite nth_error_seq' by auto. simpl. symmetry. apply nth_error_nth'. auto.
Qed.

Lemma mtree_positions : forall X (l : list X) m d,
  mtree l m = map_tree (map (fun i => nth i l d)) (mtree (seq 0 (length l)) m).
Proof. intros. rewrite <- mtree_natural, map_nth_seq. auto. Qed.

(* the shape of the tree with element shrinking *)
Lemma etree_inner : forall A (vec : list (tree A)) m d p s,
  node_at (mtree (seq 0 (length vec)) m) p = Some s -> shrinks s <> [] ->
  exists u, node_at (etree vec m true) p = Some u /\ root u = map (fun i => nth i vec d) (root s) /\
            map root (shrinks u) = map (map (fun i => nth i vec d)) (map root (shrinks s)).
Proof.
  intros A vec m d p s Hp Hn.
  exists (andThen (fun s => pb (root s)) (map_tree (map (fun i => nth i vec d)) s)). split.
  - unfold etree. apply node_at_andThen. rewrite (mtree_positions _ vec m d), node_at_map, Hp. auto.
  - rewrite root_andThen, root_map. split; auto. rewrite shrinks_andThen, shrinks_map.
    destruct (shrinks s) as [|c l]; [congruence|]. cbn [map]. rewrite root_andThen, root_map. f_equal.
    rewrite !map_map. apply map_ext. intros c0. rewrite root_andThen, root_map. auto.
Qed.

Lemma etree_leaf : forall A (vec : list (tree A)) m d p s,
  node_at (mtree (seq 0 (length vec)) m) p = Some s -> shrinks s = [] ->
  exists u, node_at (etree vec m true) p = Some u /\ root u = map (fun i => nth i vec d) (root s) /\
            all_nodes bulk_node u.
Proof.
  intros A vec m d p s Hp Hn.
  exists (andThen (fun s => pb (root s)) (map_tree (map (fun i => nth i vec d)) s)). split.
  - unfold etree. apply node_at_andThen. rewrite (mtree_positions _ vec m d), node_at_map, Hp. auto.
  - rewrite root_andThen, root_map. split; auto.
    destruct s as [v ts]. cbn [shrinks] in Hn. subst ts. cbn [map_tree map andThen root]. unfold with_. cbn [root].
    set (w := map (fun i => nth i vec d) v). destruct (pb_ok A w) as [_ [G1 G2]].
    intros x Hx. inversion Hx as [t0 Ht0 Ht1|t0 c s1 Hc Hs1 Ht0 Ht1]; subst.
    + unfold bulk_node. auto.
    + cbn [shrinks] in Hc. rewrite Forall_forall in G2. apply (G2 _ Hc). auto.
Qed.

Lemma etree_full_length : forall A (vec : list (tree A)) m s, (size vec <= INT64_MAX)%Z -> m < length vec ->
  reach (etree vec m true) s -> length (root s) = length vec -> root s = vec.
Proof.
  intros A vec m s Hs Hm Hr Hlen. assert (Hm' : m <= length vec) by lia. unfold etree in Hr.
  apply reach_andThen_inv in Hr. destruct Hr as [[u [Hu ->]]|[u [c [Hu [Hl [Hc Hr]]]]]].
  - rewrite root_andThen in *. destruct (mtree_sub _ _ _ _ Hs Hm' Hu) as [H _]. apply sublists_full; auto.
  - exfalso. destruct (pb_nodes _ _ _ _ Hc Hr) as [_ [H _]]. rewrite Hlen in H.
    destruct vec as [|e0 vec0]; [simpl in Hm; lia|]. set (vec := e0 :: vec0) in *.
    rewrite (mtree_positions _ vec m e0) in Hu. apply reach_map_inv in Hu. destruct Hu as [u0 [Hu ->]].
    rewrite root_map, map_length in H. rewrite shrinks_map in Hl.
    assert (Hu0 : shrinks u0 = []) by (destruct (shrinks u0); auto; discriminate).
    assert (Hsz : (size (seq 0 (length vec)) <= INT64_MAX)%Z) by (unfold size in *; rewrite seq_length; auto).
    destruct (mtree_sub _ (seq 0 (length vec)) m u0 Hsz) as [Hin _]; auto; [rewrite seq_length; auto|].
    apply sublists_full in Hin; [|rewrite seq_length; auto].
    apply (mtree_leaf (length vec) m) in Hu0; auto.
    destruct Hu0 as [E|[E _]]; [lia|congruence].
Qed.

Lemma length_ok : forall X (l : list X) m, (size l <= INT64_MAX)%Z -> m <= length l ->
  exists t, shrinkListLikeLength l (Z.of_nat m) = Ok t /\ root t = l /\ Permutation (values t) (prefixes_min m l).
Proof.
  intros X l m Hs Hm. unfold shrinkListLikeLength, size in *.
  rewrite (wrapU_small 64) by (unfold INT64_MAX in *; lia).
  rewrite sizeRange_ok by (unfold INT64_MAX in *; lia). cbn [bind].
  replace (Z.of_nat (length l) - Z.of_nat m)%Z with (Z.of_nat (length l - m)) by lia.
  set (d := length l - m).
  rewrite (flatMapM_ok _ _ _ (fun z => firstn (Z.to_nat z) l)).
  - exists (map_tree (fun z => firstn (Z.to_nat z) l) (map_tree (fun z => z + Z.of_nat m)%Z (bs_abs (Z.of_nat d)))).
    split; auto. split.
    + rewrite !root_map, bs_abs_root. apply firstn_all2. unfold d. lia.
    + rewrite !values_map, map_map. rewrite (bs_values_seq d) by (unfold UINT64_MAX, INT64_MAX, d in *; lia).
      apply perm_of_eq. rewrite map_map. unfold prefixes_min. replace (S (length l) - m) with (S d) by (unfold d; lia).
      pose proof (map_seq_plus (S d) 0 m) as Esq. cbn [Nat.add] in Esq. rewrite <- Esq, map_map. apply map_ext. intros i. f_equal. lia.
  - intros z Hz. rewrite values_map in Hz. apply in_map_iff in Hz. destruct Hz as [y [<- Hy]].
    apply bs_abs_in in Hy; [|unfold UINT64_MAX, INT64_MAX, d in *; lia].
    destruct (Z.eqb_spec (y + Z.of_nat m) 0) as [E|E]; [rewrite E; auto|].
    replace (y + Z.of_nat m)%Z with (Z.of_nat (Z.to_nat (y + Z.of_nat m))) by lia.
    pose proof (slice_ok X l 0 (Z.to_nat (y + Z.of_nat m))) as Hsl. change (Z.of_nat 0) with 0%Z in Hsl.
    rewrite Hsl by (unfold d in *; lia). cbn [bind]. rewrite Nat.sub_0_r, Nat2Z.id. auto.
Qed.

(* sets *)
Lemma ascending_sub : forall A (lt : A -> A -> bool) l s, ascending lt l -> In s (sublists l) -> ascending lt s.
Proof.
  intros A lt. induction l as [|x l IH]; intros s Ha H.
  - destruct H as [<-|[]]. auto.
  - simpl in Ha. destruct Ha as [H1 H2]. simpl in H. apply in_app_iff in H. destruct H as [H|H]; auto.
    apply in_map_iff in H. destruct H as [s0 [<- H]]. simpl. split; auto.
    clear -H1 H. revert s0 H. induction l as [|y l IH]; intros s0 H.
    + destruct H as [<-|[]]. auto.
    + inversion H1; subst. simpl in H. apply in_app_iff in H. destruct H as [H|H]; auto.
      apply in_map_iff in H. destruct H as [s1 [<- H]]. auto.
Qed.

Lemma sublists_map : forall X Y (f : X -> Y) l, sublists (map f l) = map (map f) (sublists l).
Proof.
  induction l; simpl; auto. rewrite IHl, map_app, !map_map. auto.
Qed.

Lemma sublists_min_map : forall X Y (f : X -> Y) m l, sublists_min m (map f l) = map (map f) (sublists_min m l).
Proof.
  intros. unfold sublists_min. rewrite sublists_map, filter_map_comm. f_equal. apply filter_ext.
  intros a. rewrite map_length. auto.
Qed.

Lemma so_asym : forall A (lt : A -> A -> bool), strict_order lt -> forall a b, lt a b = true -> lt b a = false.
Proof.
  intros A lt [Hi Ht] a b H. destruct (lt b a) eqn:E; auto. rewrite <- (Hi a). symmetry. eauto.
Qed.

Lemma set_insert_last : forall A (lt : A -> A -> bool) x l, strict_order lt -> Forall (fun y => lt y x = true) l ->
  set_insert lt x l = l ++ [x].
Proof.
  intros A lt x l Hso H. induction H as [|y l Hy Hl IH]; simpl; auto.
  rewrite (so_asym _ _ Hso _ _ Hy), Hy, IH. auto.
Qed.

Lemma ascending_app_lt : forall A (lt : A -> A -> bool) l x r, ascending lt (l ++ x :: r) -> Forall (fun y => lt y x = true) l.
Proof.
  induction l as [|y l IH]; simpl; intros x r H; constructor.
  - destruct H as [H _]. rewrite Forall_forall in H. apply H. apply in_app_iff. simpl. auto.
  - destruct H as [_ H]. eauto.
Qed.

Lemma fold_insert : forall A (lt : A -> A -> bool) v acc, strict_order lt -> ascending lt (acc ++ map root v) ->
  fold_left (fun s e => set_insert lt (root e) s) v acc = acc ++ map root v.
Proof.
  intros A lt. induction v as [|e v IH]; intros acc Hso H; simpl.
  - rewrite app_nil_r. auto.
  - simpl in H. rewrite set_insert_last; auto; [|eapply ascending_app_lt; eauto].
    rewrite IH; auto; rewrite <- app_assoc; auto.
Qed.

Lemma ascending_NoDup : forall A (lt : A -> A -> bool) l, strict_order lt -> ascending lt l -> NoDup l.
Proof.
  intros A lt l Hso. induction l as [|x l IH]; simpl; intros H; constructor; [|apply IH; tauto].
  intros Hx. destruct H as [H _]. rewrite Forall_forall in H. apply H in Hx. rewrite (so_irrefl _ Hso) in Hx. discriminate.
Qed.

Lemma NoDup_map_inj : forall A B (f : A -> B) l, (forall a b, f a = f b -> a = b) -> NoDup l -> NoDup (map f l).
Proof.
  intros A B f l Hi. induction 1 as [|x l Hx Hl IH]; simpl; constructor; auto.
  intros H. apply in_map_iff in H. destruct H as [y [E H]]. apply Hi in E. subst. auto.
Qed.

Lemma NoDup_app_intro : forall A (l l' : list A), NoDup l -> NoDup l' -> (forall x, In x l -> In x l' -> False) -> NoDup (l ++ l').
Proof.
  intros A l l' H. induction H as [|x l Hx Hl IH]; simpl; intros H' Hd; auto. constructor.
  - rewrite in_app_iff. intros [H|H]; auto. apply (Hd x); auto.
  - apply IH; auto. intros y H1 H2. apply (Hd y); auto.
Qed.

Lemma sublists_In : forall A (l s : list A) x, In s (sublists l) -> In x s -> In x l.
Proof.
  induction l as [|y l IH]; simpl; intros s x H Hx.
  - destruct H as [<-|[]]. auto.
  - apply in_app_iff in H. destruct H as [H|H]; [|right; eauto].
    apply in_map_iff in H. destruct H as [s0 [<- H]]. simpl in Hx. destruct Hx as [->|Hx]; eauto.
Qed.

Lemma sublists_NoDup : forall A (l : list A), NoDup l -> NoDup (sublists l).
Proof.
  intros A l. induction 1 as [|x l Hx Hl IH]; simpl; [constructor; auto; constructor|].
  apply NoDup_app_intro; auto.
  - apply NoDup_map_inj; auto. intros a b E. injection E; auto.
  - intros s H1 H2. apply in_map_iff in H1. destruct H1 as [s0 [<- H1]]. apply Hx. eapply sublists_In; [exact H2|simpl; auto].
Qed.

Lemma set_ok : forall A (lt : A -> A -> bool) cont m, strict_order lt -> ascending lt (map root cont) ->
  (size cont <= INT64_MAX)%Z -> m <= length cont ->
  exists t, shrinkContainer lt cont (Z.of_nat m) = Ok t /\ root t = map root cont /\
    Permutation (values t) (sublists_min m (map root cont)) /\ NoDup (values t).
Proof.
  intros A lt cont m Hso Ha Hs Hm. unfold shrinkContainer. rewrite membership_ok by auto. cbn [bind].
  rewrite flatMap_is_map. rewrite (map_tree_ext _ _ _ (map root)).
  - assert (Hp : Permutation (values (map_tree (map root) (mtree cont m))) (sublists_min m (map root cont))).
    { rewrite values_map, sublists_min_map. apply Permutation_map. apply mtree_values; auto. }
    exists (map_tree (map root) (mtree cont m)). split; auto. split; [rewrite root_map, mtree_root; auto|].
    split; auto. eapply Permutation_NoDup; [apply Permutation_sym; exact Hp|].
    apply NoDup_filter. apply sublists_NoDup. eapply ascending_NoDup; eauto.
  - intros v Hv. apply (Permutation_in _ (mtree_values _ _ _ Hs Hm)) in Hv. unfold sublists_min in Hv.
    apply filter_In in Hv. destruct Hv as [Hv _]. cbn [root make_shrinkable].
    unfold make_shrinkable. cbn [root]. rewrite fold_insert; auto. simpl. eapply ascending_sub; [exact Ha|].
    rewrite sublists_map. apply in_map. auto.
Qed.

(* maps *)
Lemma map_insert_last : forall K V (lt : K -> K -> bool) (p : K * V) l, strict_order lt ->
  Forall (fun k => lt k (fst p) = true) (map fst l) -> map_insert lt p l = l ++ [p].
Proof.
  intros K V lt p l Hso. induction l as [|y l IH]; simpl; intros H; auto. inversion H; subst.
  rewrite (so_asym _ _ Hso _ _ H2), H2, IH; auto.
Qed.

Definition entry {K V} (e : tree K * tree V) : K * V := (root (fst e), root (snd e)).

Lemma fold_map_insert : forall K V (lt : K -> K -> bool) (v : list (tree K * tree V)) acc, strict_order lt ->
  ascending lt (map fst (acc ++ map entry v)) ->
  fold_left (fun s e => map_insert lt (root (fst e), root (snd e)) s) v acc = acc ++ map entry v.
Proof.
  intros K V lt. induction v as [|e v IH]; intros acc Hso H; simpl.
  - rewrite app_nil_r. auto.
  - simpl in H. rewrite map_insert_last; auto.
    + rewrite IH; auto; rewrite <- app_assoc; auto.
    + rewrite map_app in H. simpl in H. eapply ascending_app_lt; eauto.
Qed.

Lemma map_ok : forall K V (lt : K -> K -> bool) (es : list (tree K * tree V)) m, strict_order lt ->
  ascending lt (map (fun e => root (fst e)) es) -> (size es <= INT64_MAX)%Z -> m <= length es ->
  exists t, shrinkMap lt es (Z.of_nat m) = Ok t /\ root t = map entry es /\
    Permutation (values t) (prefixes_min m (map entry es)).
Proof.
  intros K V lt es m Hso Ha Hs Hm. unfold shrinkMap, size in *.
  rewrite (wrapU_small 64) by (unfold INT64_MAX in *; lia).
  rewrite sizeRange_ok by (unfold INT64_MAX in *; lia). cbn [bind].
  replace (Z.of_nat (length es) - Z.of_nat m)%Z with (Z.of_nat (length es - m)) by lia.
  set (d := length es - m). rewrite !flatMap_is_map.
  rewrite !map_tree_comp. rewrite (map_tree_ext _ _ _ (fun z => firstn (Z.to_nat (z + Z.of_nat m)) (map entry es))).
  - eexists. split; [reflexivity|]. split.
    + rewrite root_map, bs_abs_root. apply firstn_all2. rewrite map_length. unfold d. lia.
    + rewrite values_map. rewrite (bs_values_seq d) by (unfold UINT64_MAX, INT64_MAX, d in *; lia).
      apply perm_of_eq. rewrite map_map. unfold prefixes_min. rewrite map_length.
      replace (S (length es) - m) with (S d) by (unfold d; lia).
      pose proof (map_seq_plus (S d) 0 m) as Esq. cbn [Nat.add] in Esq. rewrite <- Esq, map_map. apply map_ext. intros i. f_equal. lia.
  - intros z _.
    assert (E : root (if (z + Z.of_nat m =? 0)%Z then make_shrinkable [] else make_shrinkable (map_prefix es (z + Z.of_nat m)))
                = firstn (Z.to_nat (z + Z.of_nat m)) es).
    { destruct (Z.eqb_spec (z + Z.of_nat m) 0) as [E|E]; [rewrite E; auto|reflexivity]. }
    rewrite E. unfold make_shrinkable at 1. cbn [root]. rewrite fold_map_insert; auto.
    + simpl. rewrite firstn_map. auto.
    + simpl. rewrite map_map. eapply ascending_sub; [exact Ha|].
      rewrite sublists_map. apply in_map. apply firstn_sublist.
Qed.
