(** C12-C18: list, set and map shrinking. *)
From Coq Require Import List ZArith Lia Bool Arith Permutation.
From Verif Require Import Base TreeModel TreeSpec TreeProof BinSearchModel BinSearchSpec BinSearchProof
  ListModel ListSpec ListProof ListShapeProof ListBulkProof ListMainProof.
Import ListNotations.
Local Open Scope nat_scope.

(** * C12: membership shrinking enumerates the sub-lists *)

Theorem C12_membership_enumerates : forall X (l : list X) m,
  (size l <= INT64_MAX)%Z -> m <= length l ->
  exists t, shrinkMembershipwise l (Z.of_nat m) = Ok t /\ root t = l /\
    Permutation (values t) (sublists_min m l).
Proof. intros X l m Hs Hm. exists (mtree l m). auto using membership_ok, mtree_root, mtree_values. Qed.

(** One node for each set of surviving positions. *)
Theorem C12_membership_positions_once : forall n m, (Z.of_nat n <= INT64_MAX)%Z -> m <= n ->
  exists t, shrinkMembershipwise (seq 0 n) (Z.of_nat m) = Ok t /\ NoDup (values t) /\
    (forall X (l : list X) d, length l = n ->
       shrinkMembershipwise l (Z.of_nat m) = Ok (map_tree (map (fun i => nth i l d)) t)).
Proof.
  intros n m Hn Hm. assert (Hs : (size (seq 0 n) <= INT64_MAX)%Z) by (unfold size; rewrite seq_length; auto).
  assert (Hm' : m <= length (seq 0 n)) by (rewrite seq_length; auto).
  exists (mtree (seq 0 n) m). split; [apply membership_ok; auto|]. split.
  - eapply Permutation_NoDup; [apply Permutation_sym; apply mtree_values; auto|].
    apply NoDup_filter. apply sublists_NoDup. apply seq_NoDup.
  - intros X l d E. subst n. rewrite <- mtree_positions. apply membership_ok; auto.
Qed.

Example C12_ex : exists t, shrinkMembershipwise [10; 20; 30] 1 = Ok t /\ length (values t) = 7 /\
  In [20; 30] (values t) /\ In [20] (values t) /\ ~ In [] (values t) /\ (size [10; 20; 30] <= INT64_MAX)%Z.
Proof.
  eexists. split; [vm_compute; reflexivity|]. split; [reflexivity|].
  split; [simpl; tauto|]. split; [simpl; tauto|].
  split; [|vm_compute; discriminate].
  intros H. vm_compute in H. intuition discriminate.
Qed.

(** Asking for more elements than there are is undefined behaviour for short lists. *)
Theorem C12_min_above_size_unchecked : shrinkMembershipwise [10; 20; 30] 5 = UB.
Proof. vm_compute. reflexivity. Qed.

(** * C13: sizes and elements *)

Theorem C13_list_sound : forall A (vec : list (tree A)) m ew,
  (size vec <= INT64_MAX)%Z -> m <= length vec ->
  exists t, shrinkListLike vec (Z.of_nat m) ew = Ok t /\ root t = map root vec /\
    all_values (fun v => m <= length v <= length vec /\
      exists sub, In sub (sublists vec) /\ Forall2 (fun e x => In x (values e)) sub v) t.
Proof.
  intros A vec m ew Hs Hm. eexists. split; [apply listlike_ok; auto|]. split.
  - rewrite root_map, etree_root; auto.
  - intros s Hr. apply reach_map_inv in Hr. destruct Hr as [u [Hu ->]]. rewrite root_map.
    destruct (etree_sound _ _ _ _ _ Hs Hm Hu) as [sub [H1 [H2 H3]]].
    pose proof (sublists_len _ _ _ H1) as Hl. pose proof (Forall2_len _ _ _ _ _ H3) as Hl2.
    rewrite map_length. split; [lia|]. exists sub. split; auto. clear -H3.
    induction H3 as [|a b l l' Hab H IH]; simpl; constructor; auto. apply reach_root_in. auto.
Qed.

(** Deletions are complete: with element shrinking on or off, every sub-list of allowed size is reachable. *)
Theorem C13_list_deletions_complete : forall A (vec : list (tree A)) m ew,
  (size vec <= INT64_MAX)%Z -> m <= length vec ->
  exists t, shrinkListLike vec (Z.of_nat m) ew = Ok t /\
    forall sub, In sub (sublists_min m vec) -> In (map root sub) (values t).
Proof.
  intros A vec m ew Hs Hm. eexists. split; [apply listlike_ok; auto|].
  intros sub Hsub. rewrite values_map. apply in_map.
  apply (Permutation_in _ (Permutation_sym (mtree_values _ _ _ Hs Hm))) in Hsub.
  destruct ew; auto. apply reach_values in Hsub. destruct Hsub as [s [Hr <-]].
  apply reach_node_at in Hr. destruct Hr as [p Hp]. apply reach_values.
  exists (andThen (fun s => pb (root s)) s). split; [|apply root_andThen].
  apply reach_node_at. exists p. apply node_at_andThen. auto.
Qed.

Theorem C13_length_only : forall X (l : list X) m, (size l <= INT64_MAX)%Z -> m <= length l ->
  exists t, shrinkListLikeLength l (Z.of_nat m) = Ok t /\ root t = l /\ Permutation (values t) (prefixes_min m l).
Proof. exact length_ok. Qed.

Definition C13_vec : list (tree nat) := [Node 5 [Node 2 [Node 0 []]]; Node 7 []; Node 4 [Node 1 []]].
Example C13_ex : exists t, shrinkListLike C13_vec 2 true = Ok t /\ In [7; 1] (values t) /\ In [2; 7] (values t) /\
  ~ In [1] (values t).
Proof.
  eexists. split; [vm_compute; reflexivity|]. split; [simpl; tauto|]. split; [simpl; tauto|].
  intros H. vm_compute in H. intuition discriminate.
Qed.
Example C13_ex_length : exists t, shrinkListLikeLength [1; 2; 3; 4] 2 = Ok t /\ In [1; 2] (values t) /\ length (values t) = 3.
Proof. eexists. split; [vm_compute; reflexivity|]. split; [simpl; tauto|reflexivity]. Qed.

(** * C14: termination *)

Theorem C14_steps_reduce : forall A (vec : list (tree A)) m ew,
  (size vec <= INT64_MAX)%Z -> m <= length vec ->
  exists t, shrinkListLike_elems vec (Z.of_nat m) ew = Ok t /\
    shrinkListLike vec (Z.of_nat m) ew = Ok (map_tree (map root) t) /\
    all_nodes (fun s => Forall (fun c => list_step (root s) (root c)) (shrinks s)) t.
Proof.
  intros A vec m ew Hs Hm. exists (etree vec m ew). auto using elems_ok, listlike_ok, etree_steps.
Qed.

Theorem C14_shrinking_ends : forall A (vec : list (tree A)) m ew,
  (size vec <= INT64_MAX)%Z -> m <= length vec ->
  exists t, shrinkListLike vec (Z.of_nat m) ew = Ok t /\ tdepth t <= weight vec.
Proof.
  intros A vec m ew Hs Hm. eexists. split; [apply listlike_ok; auto|]. rewrite tdepth_map. apply etree_depth; auto.
Qed.

(** The call to shrinkMid is dead: replacing it by anything changes nothing, starting from any rear size. *)
Theorem C14_shrinkMid_unreachable : forall X mid mid' fuel (cont : list X) m rear,
  (size cont <= INT64_MAX)%Z -> m <= length cont -> rear <= length cont -> length cont - rear < fuel ->
  frontAndThenMid mid fuel cont (Z.of_nat m) (Z.of_nat rear) =
  frontAndThenMid mid' fuel cont (Z.of_nat m) (Z.of_nat rear).
Proof. intros. rewrite !frontAndThenMid_ok; auto. Qed.

(** Were it called, it would read outside the list. *)
Theorem C14_shrinkMid_broken : shrinkMid 5 [1; 2; 3; 4] 0 1 1 = UB.
Proof. vm_compute. reflexivity. Qed.

Example C14_ex : exists t, shrinkListLike C13_vec 1 true = Ok t /\ tdepth t = 3 /\ weight C13_vec = 6.
Proof. eexists. split; [vm_compute; reflexivity|]. split; reflexivity. Qed.

(** * C15: when elements get shrunk *)

(** Positions of the surviving elements at which no further deletion is offered. *)
Theorem C15_membership_leaves : forall n m, (Z.of_nat n <= INT64_MAX)%Z -> m <= n ->
  exists t, shrinkMembershipwise (seq 0 n) (Z.of_nat m) = Ok t /\
    all_nodes (fun s => shrinks s = [] <->
      (length (root s) = m \/ (root s <> seq 0 n /\ ~ (In 0 (root s) /\ In 1 (root s))))) t.
Proof.
  intros n m Hn Hm. exists (mtree (seq 0 n) m). split.
  - apply membership_ok; unfold size; rewrite seq_length; auto.
  - intros s Hr. apply mtree_leaf; auto.
Qed.

(** Where a deletion is offered, the shrinks are the deletions and nothing else; where none is, the shrinks are
    the candidates of bulk element shrinking. *)
Theorem C15_elements_shrunk_at_leaves : forall A (vec : list (tree A)) m d,
  (size vec <= INT64_MAX)%Z -> m <= length vec ->
  exists pos t, shrinkMembershipwise (seq 0 (length vec)) (Z.of_nat m) = Ok pos /\
    shrinkListLike_elems vec (Z.of_nat m) true = Ok t /\
    forall p s, node_at pos p = Some s ->
      exists u, node_at t p = Some u /\ root u = map (fun i => nth i vec d) (root s) /\
        (shrinks s <> [] -> map root (shrinks u) = map (map (fun i => nth i vec d)) (map root (shrinks s))) /\
        (shrinks s = [] -> map root (shrinks u) = bulk_candidates (root u)).
Proof.
  intros A vec m d Hs Hm. exists (mtree (seq 0 (length vec)) m), (etree vec m true). split.
  - apply membership_ok; unfold size in *; rewrite seq_length; auto.
  - split; [apply elems_ok; auto|]. intros p s Hp. destruct (shrinks s) as [|c l] eqn:E.
    + destruct (etree_leaf A vec m d p s Hp E) as [u [H1 [H2 H3]]]. exists u. split; auto. split; auto.
      split; [congruence|]. intros _. apply (H3 _ (reach_refl _)).
    + rewrite <- E. destruct (etree_inner A vec m d p s Hp) as [u [H1 [H2 H3]]]; [rewrite E; discriminate|].
      exists u. split; auto. split; auto. split; auto. intros H. rewrite E in H. discriminate.
Qed.

(** A list that needs all its elements (and has more than minSize of them) never has an element shrunk. *)
Theorem C15_full_length_never_shrunk : forall A (vec : list (tree A)) m,
  (size vec <= INT64_MAX)%Z -> m < length vec ->
  exists t, shrinkListLike vec (Z.of_nat m) true = Ok t /\
    all_values (fun v => length v = length vec -> v = map root vec) t.
Proof.
  intros A vec m Hs Hm. eexists. split; [apply listlike_ok; auto; lia|].
  intros s Hr. apply reach_map_inv in Hr. destruct Hr as [u [Hu ->]]. rewrite root_map, map_length.
  intros E. f_equal. eapply etree_full_length; eauto.
Qed.

(** "Elements are only shrunk in lists of exactly minSize elements" does not hold. *)
Theorem C15_only_at_min_size_refuted : ~ (forall (vec : list (tree nat)) m t, m <= length vec ->
  shrinkListLike vec (Z.of_nat m) true = Ok t ->
  all_values (fun v => length v = m \/ In v (map (map root) (sublists vec))) t).
Proof.
  intros H. specialize (H C13_vec 0 _ ltac:(simpl; lia) ltac:(vm_compute; reflexivity)).
  apply all_values_values in H. rewrite Forall_forall in H. specialize (H [7; 1]).
  destruct H as [H|H]; [simpl; tauto|discriminate|]. vm_compute in H. intuition discriminate.
Qed.

Example C15_ex : exists t, shrinkListLike C13_vec 0 true = Ok t /\ In [7; 1] (values t) /\ ~ In [5; 7; 1] (values t).
Proof.
  eexists. split; [vm_compute; reflexivity|]. split; [simpl; tauto|].
  intros H. vm_compute in H. intuition discriminate.
Qed.

(** * C16: bulk element shrinking *)

(** At and below every list where elements are shrunk, the j-th candidate takes the j-th shrink of each element
    that has one and the element itself otherwise; the candidates stop with the longest shrink list. *)
Theorem C16_bulk_candidates : forall A (vec : list (tree A)) m d,
  (size vec <= INT64_MAX)%Z -> m <= length vec ->
  exists pos t, shrinkMembershipwise (seq 0 (length vec)) (Z.of_nat m) = Ok pos /\
    shrinkListLike_elems vec (Z.of_nat m) true = Ok t /\
    forall p s, node_at pos p = Some s -> shrinks s = [] ->
      exists u, node_at t p = Some u /\ root u = map (fun i => nth i vec d) (root s) /\
        all_nodes (fun x => map root (shrinks x) = bulk_candidates (root x) /\
                            Forall (bulk_step (root x)) (bulk_candidates (root x))) u.
Proof.
  intros A vec m d Hs Hm. exists (mtree (seq 0 (length vec)) m), (etree vec m true). split.
  - apply membership_ok; unfold size in *; rewrite seq_length; auto.
  - split; [apply elems_ok; auto|]. intros p s Hp E.
    destruct (etree_leaf A vec m d p s Hp E) as [u [H1 [H2 H3]]]. exists u. split; auto. split; auto.
    intros x Hx. split; [apply H3; auto|]. apply Forall_forall. intros w Hw. rewrite bulk_candidates_eq in Hw.
    apply in_map_iff in Hw. destruct Hw as [j [<- Hj]]. apply bulk_cand_step. apply in_seq in Hj. lia.
Qed.

(** shrinkBulk on any list of elements. *)
Theorem C16_shrinkBulk_total : forall A (v : list (tree A)),
  exists ts, shrinkBulk (bulkFuel v) v = Ok ts /\ map root ts = bulk_candidates v /\
    Forall (all_nodes (fun x => map root (shrinks x) = bulk_candidates (root x))) ts.
Proof. intros A v. exists (pb v). apply pb_ok. Qed.

Example C16_ex : exists ts, shrinkBulk (bulkFuel [Node 4 [Node 0 []; Node 2 [Node 1 []]]; Node 9 [Node 8 []]])
    [Node 4 [Node 0 []; Node 2 [Node 1 []]]; Node 9 [Node 8 []]] = Ok ts /\
  map (fun t => map root (root t)) ts = [[0; 8]; [2; 9]] /\
  map (fun t => map (fun u => map root (root u)) (shrinks t)) ts = [[]; [[1; 8]]].
Proof. eexists. split; [vm_compute; reflexivity|]. split; reflexivity. Qed.

(** * C17: sets *)

Theorem C17_set_subsets_once : forall A (lt : A -> A -> bool) cont m,
  strict_order lt -> ascending lt (map root cont) -> (size cont <= INT64_MAX)%Z -> m <= length cont ->
  exists t, shrinkContainer lt cont (Z.of_nat m) = Ok t /\ root t = map root cont /\
    Permutation (values t) (sublists_min m (map root cont)) /\ NoDup (values t).
Proof. exact set_ok. Qed.

Lemma C17_ltb : strict_order Nat.ltb.
Proof.
  split; [exact Nat.ltb_irrefl|]. intros a b c H1 H2. rewrite Nat.ltb_lt in *. lia.
Qed.

Example C17_ex : strict_order Nat.ltb /\ ascending Nat.ltb (map root [Node 3 [Node 0 []]; Node 5 []; Node 9 []]) /\
  exists t, shrinkContainer Nat.ltb [Node 3 [Node 0 []]; Node 5 []; Node 9 []] 1 = Ok t /\
    In [3; 9] (values t) /\ length (values t) = 7.
Proof.
  split; [exact C17_ltb|]. split; [simpl; repeat constructor|].
  eexists. split; [vm_compute; reflexivity|]. split; [simpl; tauto|reflexivity].
Qed.

(** * C18: maps *)

Theorem C18_map_prefixes : forall K V (lt : K -> K -> bool) (es : list (tree K * tree V)) m,
  strict_order lt -> ascending lt (map (fun e => root (fst e)) es) -> (size es <= INT64_MAX)%Z -> m <= length es ->
  exists t, shrinkMap lt es (Z.of_nat m) = Ok t /\ root t = map (fun e => (root (fst e), root (snd e))) es /\
    Permutation (values t) (prefixes_min m (map (fun e => (root (fst e), root (snd e))) es)).
Proof. exact map_ok. Qed.

Example C18_ex : exists t, shrinkMap Nat.ltb [(Node 3 [], Node 30 [Node 0 []]); (Node 5 [], Node 50 []); (Node 9 [], Node 90 [])] 1 = Ok t /\
  Permutation (values t) [[(3, 30)]; [(3, 30); (5, 50)]; [(3, 30); (5, 50); (9, 90)]] /\
  ascending Nat.ltb (map (fun e => root (fst e)) [(Node 3 [], Node 30 [Node 0 []]); (Node 5 [], Node 50 []); (Node 9 [], Node 90 [])]).
Proof.
  eexists. split; [vm_compute; reflexivity|]. split; [|simpl; repeat constructor].
  cbn [values flat_map app]. apply (perm_trans (l' := [[(3, 30)]; [(3, 30); (5, 50); (9, 90)]; [(3, 30); (5, 50)]])).
  - apply perm_swap.
  - apply perm_skip. apply perm_swap.
Qed.

Print Assumptions C12_membership_enumerates.
Print Assumptions C12_membership_positions_once.
Print Assumptions C12_min_above_size_unchecked.
Print Assumptions C13_list_sound.
Print Assumptions C13_list_deletions_complete.
Print Assumptions C13_length_only.
Print Assumptions C14_steps_reduce.
Print Assumptions C14_shrinking_ends.
Print Assumptions C14_shrinkMid_unreachable.
Print Assumptions C14_shrinkMid_broken.
Print Assumptions C15_membership_leaves.
Print Assumptions C15_elements_shrunk_at_leaves.
Print Assumptions C15_full_length_never_shrunk.
Print Assumptions C15_only_at_min_size_refuted.
Print Assumptions C16_bulk_candidates.
Print Assumptions C16_shrinkBulk_total.
Print Assumptions C17_set_subsets_once.
Print Assumptions C18_map_prefixes.
