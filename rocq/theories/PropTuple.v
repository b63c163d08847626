(** C19, C21: string, pair and tuple shrinking. *)
From Coq Require Import List ZArith Lia Bool Arith Permutation.
From Verif Require Import Base TreeModel TreeSpec TreeProof BinSearchProof ListModel ListProof StringModel StringSpec StringProof
  TupleModel TupleSpec TupleProof.
Import ListNotations.
Local Open Scope nat_scope.

(** * C19: strings *)

Theorem C19_string_enumerates : forall X (s : list X) m, m <= length s -> (size s <= UINT64_MAX)%Z ->
  exists t, shrinkString s (Z.of_nat m) = Ok t /\ root t = s /\ Permutation (values t) (string_shrinks m s).
Proof.
  intros X s m Hm Hs. exists (strT m s). auto using shrinkString_ok, strT_root, strT_values.
Qed.

Theorem C19_string_infix : forall X (s : list X) m, m <= length s -> (size s <= UINT64_MAX)%Z ->
  exists t, shrinkString s (Z.of_nat m) = Ok t /\ all_values (fun v => infix v s) t /\ tdepth t <= 128.
Proof.
  intros X s m Hm Hs. exists (strT m s). split; [apply shrinkString_ok; auto|]. split.
  - apply all_values_values. apply Forall_forall. intros v Hv.
    apply (Permutation_in _ (strT_values _ _ _ Hm Hs)) in Hv. eapply string_shrinks_infix; eauto.
  - unfold strT, size in *.
    destruct (bs_abs_shape (Z.of_nat (length s - m)) ltac:(lia)) as [Hd _].
    etransitivity; [apply (depth_concat _ _ 64)|rewrite tdepth_map; lia].
    intros u Hu. apply reach_map_inv in Hu. destruct Hu as [u0 [Hu ->]]. rewrite root_map.
    apply reach_root_in in Hu. apply bs_abs_in in Hu; [|lia].
    unfold fronts. destruct (length (firstn (Z.to_nat (root u0) + m) s) =? m); [constructor|].
    apply Forall_map. apply Forall_forall. intros c Hc. rewrite tdepth_map. apply tdepth_child in Hc.
    etransitivity; [exact Hc|]. apply bs_abs_shape. rewrite firstn_length. lia.
Qed.

(** The minimum size is honoured by the first phase only. *)
Theorem C19_min_size_refuted : ~ (forall (s : list nat) m t, m <= length s ->
  shrinkString s (Z.of_nat m) = Ok t -> all_values (fun v => m <= length v) t).
Proof.
  intros H. specialize (H [97; 98; 99] 2 _ ltac:(simpl; lia) ltac:(vm_compute; reflexivity)).
  apply all_values_values in H. rewrite Forall_forall in H. specialize (H [99] ltac:(simpl; tauto)). simpl in H. lia.
Qed.

(** A candidate can equal the string it is meant to simplify. *)
Theorem C19_candidates_differ_refuted : ~ (forall (s : list nat) m t, m <= length s ->
  shrinkString s (Z.of_nat m) = Ok t -> all_nodes (fun u => Forall (fun c => root c <> root u) (shrinks u)) t).
Proof.
  intros H. specialize (H [97] 0 _ ltac:(simpl; lia) ltac:(vm_compute; reflexivity)).
  specialize (H _ (reach_refl _)). rewrite Forall_forall in H. apply (H (Node [97] [])); simpl; auto.
Qed.

(** The size of the string is not compared with the minimum: computing the shrinks with a greater one throws out_of_range (substr). *)
Theorem C19_min_above_size : forall X (s : list X) m, (size s < m < 2 ^ 64)%Z -> shrinkString s m = Throw EOutOfRange.
Proof. intros. apply string_throws. auto. Qed.
Example C19_min_above_size_ex : shrinkString [97; 98] 3 = Throw EOutOfRange.
Proof. apply C19_min_above_size. unfold size. simpl. lia. Qed.

Example C19_ex : exists t, shrinkString [97; 98; 99; 100] 1 = Ok t /\ In [98; 99] (values t) /\ In [97; 98; 99] (values t) /\
  ~ In [] (values t) /\ length (values t) = 10.
Proof.
  eexists. split; [vm_compute; reflexivity|]. split; [simpl; tauto|]. split; [simpl; tauto|]. split; [|reflexivity].
  intros H. vm_compute in H. intuition discriminate.
Qed.

(** * C21: pairs and tuples *)

(** The tree is the image of a tree of tuples of component nodes: its root is the tuple of component trees,
    every combination of component nodes occurs at exactly one place, and each step moves one component to one
    of that component's own shrinks. *)
Theorem C21_tuple_product : forall U (es : list (tree U)),
  exists L : tree (list (tree U)),
    shrinkTuple es = map_tree (map root) L /\ root L = es /\
    Permutation (values L) (product (map nodes es)) /\
    all_nodes (fun s => Forall (fun c => one_component_step (root s) (root c)) (shrinks s)) L.
Proof.
  intros U es. exists (prodT (map dup es)). split.
  - rewrite shrinkTuple_ok, prodT_natural, map_dup_root. auto.
  - split.
    + rewrite prodT_root, map_map. erewrite map_ext; [apply map_id|]. apply dup_root.
    + split; [|exact (prodT_steps U es)]. rewrite prodT_values, map_map.
      apply perm_of_eq. f_equal. apply map_ext. intros; apply dup_values.
Qed.

Theorem C21_tuple_values : forall U (es : list (tree U)),
  root (shrinkTuple es) = map root es /\ Permutation (values (shrinkTuple es)) (product (map values es)).
Proof. intros. rewrite shrinkTuple_ok. split; [apply prodT_root|apply prodT_values]. Qed.

Theorem C21_pair_product : forall A B (t : tree A) (u : tree B),
  exists L : tree (tree A * tree B),
    shrinkPair t u = map_tree (fun p => (root (fst p), root (snd p))) L /\ root L = (t, u) /\
    Permutation (values L) (list_prod (nodes t) (nodes u)) /\
    all_nodes (fun s => Forall (fun c => one_side_step (root s) (root c)) (shrinks s)) L.
Proof.
  intros A B t u. exists (pairT (dup u) (dup t)). split.
  - rewrite shrinkPair_ok, pairT_natural, !dup_map. auto.
  - split; [destruct t; simpl; rewrite dup_root; auto|]. split; [|exact (pairT_steps A B u t)].
    rewrite pairT_values, !dup_values. auto.
Qed.

Theorem C21_pair_values : forall A B (t : tree A) (u : tree B),
  root (shrinkPair t u) = (root t, root u) /\ Permutation (values (shrinkPair t u)) (list_prod (values t) (values u)).
Proof. intros. rewrite shrinkPair_ok. split; [destruct t; auto|apply pairT_values]. Qed.

Example C21_ex : values (shrinkTuple [Node 2 [Node 0 []; Node 1 []]; Node 5 []; Node 7 [Node 3 []]]) =
  [[2; 5; 7]; [0; 5; 7]; [0; 5; 3]; [1; 5; 7]; [1; 5; 3]; [2; 5; 3]].
Proof. reflexivity. Qed.
Example C21_ex_pair : values (shrinkPair (Node 2 [Node 0 []; Node 1 []]) (Node true [Node false []])) =
  [(2, true); (0, true); (0, false); (1, true); (1, false); (2, false)].
Proof. reflexivity. Qed.

Print Assumptions C19_string_enumerates.
Print Assumptions C19_string_infix.
Print Assumptions C19_min_size_refuted.
Print Assumptions C19_candidates_differ_refuted.
Print Assumptions C19_min_above_size.
Print Assumptions C21_tuple_product.
Print Assumptions C21_tuple_values.
Print Assumptions C21_pair_product.
Print Assumptions C21_pair_values.
