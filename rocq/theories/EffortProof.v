From Coq Require Import List ZArith Lia Bool Arith Permutation.
From Verif Require Import Base TreeModel TreeSpec TreeProof BinSearchProof IntegralProof TupleModel TupleProof ListModel ListSpec ListProof ListShapeProof ListBulkProof
  ListMainProof StringModel StringProof SearchSpec SearchProof ListSearchSpec ListSearchProof RandomModel ContainerModel ContainerProof EffModel EffSpec EffProof ContextModel RunnerModel RunnerSpec RunnerProof RunnerShrinkProof MinimalSpec MinimalProof EffortSpec.
Import ListNotations.
Local Open Scope nat_scope.

(* the longest search *)
Fixpoint longest {A} (t : tree A) : nat :=
  match t with Node _ ts => (fix costs (ts : list (tree A)) : nat := match ts with [] => 0 | c :: r => S (Nat.max (longest c) (costs r)) end) ts end.
Definition costs {A} (ts : list (tree A)) : nat := fold_right (fun c n => S (Nat.max (longest c) n)) 0 ts.

Lemma longest_eq : forall A (t : tree A), longest t = costs (shrinks t).
Proof. intros A [a ts]. reflexivity. Qed.

Lemma search_costs : forall A (ts : list (tree A)) n, search ts n -> n <= costs ts.
Proof.
  intros A ts n H. induction H; cbn [costs fold_right]; try lia; fold (costs cs) in *; try lia. rewrite longest_eq. lia.
Qed.
Lemma costs_search_t : forall A (t : tree A), search (shrinks t) (longest t).
Proof.
  intros A. induction t as [a ts IH] using tree_ind'. rewrite longest_eq. cbn [shrinks].
  induction IH as [|c ts Hc _ IHts]; cbn [costs fold_right]; [constructor|]. fold (costs ts).
  destruct (Nat.max_spec (longest c) (costs ts)) as [[_ ->]|[_ ->]]; [apply search_pass|apply search_fail]; auto.
Qed.
Lemma within_iff : forall A k (t : tree A), within k t <-> longest t <= k.
Proof.
  intros A k t. split; intros H.
  - apply H. apply costs_search_t.
  - intros n Hn. apply search_costs in Hn. rewrite longest_eq in H. lia.
Qed.

Lemma costs_iff : forall A (ts : list (tree A)) k, costs ts <= k <-> length ts <= k /\ forall j c, nth_error ts j = Some c -> S j + longest c <= k.
Proof.
  induction ts as [|t ts IH]; intros k.
  - simpl. split; [intros _; split; [lia|intros [|j] c H; discriminate]|lia].
  - cbn [costs fold_right length]. fold (costs ts). destruct k as [|k].
    + split; [lia|]. intros [H _]. lia.
    + specialize (IH k). split.
      * intros H. assert (H1 : costs ts <= k) by lia. apply IH in H1. destruct H1 as [H1 H2]. split; [lia|].
        intros [|j] c Hj; cbn [nth_error] in Hj; [inversion Hj; subst; lia|apply H2 in Hj; lia].
      * intros [H1 H2]. assert (H3 : costs ts <= k).
        { apply IH. split; [lia|]. intros j c Hj. specialize (H2 (S j) c Hj). lia. }
        specialize (H2 0 t eq_refl). lia.
Qed.
Lemma costs_length : forall A (ts : list (tree A)), length ts <= costs ts.
Proof. intros. apply (proj1 (costs_iff _ ts (costs ts)) (le_n _)). Qed.
Lemma costs_nth : forall A (ts : list (tree A)) j c, nth_error ts j = Some c -> S j + longest c <= costs ts.
Proof. intros A ts. apply (proj1 (costs_iff _ ts (costs ts)) (le_n _)). Qed.

(* a search in which the candidates that fail are told apart by their values *)
Lemma flat_values : forall A (t : tree A), values t = root t :: flat_map values (shrinks t).
Proof. intros A [a ts]. reflexivity. Qed.
Lemma NoDup_parts : forall A (a b : list A), NoDup (a ++ b) -> NoDup a /\ NoDup b /\ forall x, In x a -> ~ In x b.
Proof.
  intros A a b H. split; [eapply NoDup_app_l; eauto|]. split; [eapply NoDup_app_r; eauto|]. intros x Ha Hb. eapply NoDup_app_disjoint; eauto.
Qed.
Lemma scan_in : forall A (fails : A -> Prop) cs tried found, scan fails cs tried found -> forall x, In x tried -> In x (flat_map values cs).
Proof.
  intros A fails cs tried found H. induction H as [|c cs tried found Hn Hs IH|c cs tried found Hf Hs IH]; intros x Hx; [auto| |];
    cbn [flat_map]; apply in_or_app; destruct Hx as [<-|Hx]; try (left; rewrite flat_values; left; reflexivity).
  - right. auto.
  - left. rewrite flat_values. right. auto.
Qed.
Lemma scan_ext : forall A (p q : A -> Prop) cs tried found, scan p cs tried found -> (forall x, In x (flat_map values cs) -> (p x <-> q x)) -> scan q cs tried found.
Proof.
  intros A p q cs tried found H. induction H as [|c cs tried found Hn Hs IH|c cs tried found Hf Hs IH]; intros Hx; [constructor| |].
  - constructor.
    + intros Hq. apply Hn. apply Hx; auto. cbn [flat_map]. apply in_or_app. left. rewrite flat_values. left. auto.
    + apply IH. intros x H. apply Hx. cbn [flat_map]. apply in_or_app. auto.
  - apply scan_fail.
    + apply Hx; auto. cbn [flat_map]. apply in_or_app. left. rewrite flat_values. left. auto.
    + apply IH. intros x H. apply Hx. cbn [flat_map]. apply in_or_app. left. rewrite flat_values. right. auto.
Qed.
Lemma search_scan : forall A (cs : list (tree A)) n, search cs n -> NoDup (flat_map values cs) ->
  exists F tried found, scan (fun x => In x F) cs tried found /\ length tried = n /\ forall x, In x F -> In x (flat_map values cs).
Proof.
  intros A cs n H. induction H as [|c cs n H IH|c cs n H IH]; intros Hd.
  - exists [], [], None. split; [constructor|]. split; auto.
  - cbn [flat_map] in Hd. apply NoDup_parts in Hd. destruct Hd as [D1 [D2 D3]]. destruct (IH D2) as [F [tried [found [S1 [S2 S3]]]]].
    exists F, (root c :: tried), found. split.
    + constructor; auto. intros Hin. apply S3 in Hin. apply (D3 (root c)); auto. rewrite flat_values. left. auto.
    + split; [simpl; auto|]. intros x Hx. cbn [flat_map]. apply in_or_app. auto.
  - cbn [flat_map] in Hd. apply NoDup_parts in Hd. destruct Hd as [D1 [D2 D3]]. rewrite flat_values in D1. inversion D1 as [|? ? Hni D1']; subst.
    destruct (IH D1') as [F [tried [found [S1 [S2 S3]]]]]. eexists (root c :: F), (root c :: tried), _. split.
    + apply scan_fail; [left; auto|]. eapply scan_ext; [exact S1|]. intros x Hx. simpl. split; auto. intros [<-|E]; auto. contradiction.
    + split; [simpl; auto|]. intros x [<-|Hx]; cbn [flat_map]; apply in_or_app; left; rewrite flat_values; [left|right]; auto.
Qed.
Lemma tries_within : forall A k (t : tree A), NoDup (values t) -> tries k t -> within k t.
Proof.
  intros A k t Hd Ht n Hn. rewrite flat_values in Hd. inversion Hd; subst. destruct (search_scan _ _ _ Hn) as [F [tried [found [S1 [<- _]]]]]; auto.
  eapply Ht; eauto.
Qed.
Lemma within_tries : forall A k (t : tree A), within k t -> tries k t.
Proof.
  intros A k t Hw fails tried found Hs. apply Hw. clear -Hs. induction Hs; cbn [length]; [constructor|apply search_pass|apply search_fail]; auto.
Qed.

(* maps *)
Lemma longest_map : forall A B (f : A -> B) t, longest (map_tree f t) = longest t.
Proof.
  intros A B f. induction t as [a ts IH] using tree_ind'. rewrite !longest_eq, shrinks_map. cbn [shrinks].
  induction IH as [|c ts Hc _ IHts]; auto. cbn [map costs fold_right]. fold (costs ts). fold (costs (map (map_tree f) ts)). rewrite Hc, IHts. auto.
Qed.
Lemma longest_leaf : forall A (a : A), longest (make_shrinkable a) = 0.
Proof. reflexivity. Qed.

Lemma longest_mapShrinkable : forall A B (f : tree A -> tree B) t, longest (mapShrinkable f t) = longest t.
Proof.
  intros A B f. induction t as [a ts IH] using tree_ind'. rewrite !longest_eq. cbn [mapShrinkable shrinks with_].
  induction IH as [|c ts Hc _ IHts]; auto. cbn [map costs fold_right]. fold (costs ts). fold (costs (map (mapShrinkable f) ts)). rewrite Hc, IHts. auto.
Qed.

(* concatenation *)
Lemma longest_concat : forall A (thn : tree A -> list (tree A)) k t, (forall s, reach t s -> costs (thn s) <= k) -> longest (concat_tree thn t) <= longest t + k.
Proof.
  intros A thn k. induction t as [a ts IH] using tree_ind'. intros Hk. rewrite !longest_eq. cbn [concat_tree shrinks].
  assert (H0 : costs (thn (Node a ts)) <= k) by (apply Hk; constructor).
  assert (Hr : forall c, In c ts -> forall s, reach c s -> costs (thn s) <= k) by (intros c Hc s Hs; apply Hk; econstructor; eauto).
  clear Hk. revert H0 Hr. generalize (thn (Node a ts)) as X. intros X H0. induction IH as [|c ts Hc _ IHts]; intros Hr; [auto|].
  cbn [map app costs fold_right]. fold (costs ts). fold (costs (map (concat_tree thn) ts ++ X)).
  assert (H1 := Hc (Hr c (or_introl eq_refl))). assert (H2 : costs (map (concat_tree thn) ts ++ X) <= costs ts + k) by (apply IHts; intros; eapply Hr; eauto; right; auto). lia.
Qed.
Lemma longest_andThen : forall A (thn : tree A -> list (tree A)) k t, (forall s, reach t s -> costs (thn s) <= k) -> longest (andThen thn t) <= longest t + k.
Proof.
  intros A thn k. induction t as [a ts IH] using tree_ind'. intros Hk. rewrite !longest_eq, shrinks_andThen. cbn [shrinks].
  assert (Hr : forall c, In c ts -> forall s, reach c s -> costs (thn s) <= k) by (intros c Hc s Hs; apply Hk; econstructor; eauto).
  destruct ts as [|c0 ts0]; [simpl; apply Hk; constructor|]. set (ts := c0 :: ts0) in *. clearbody ts. clear Hk.
  induction IH as [|c ts Hc _ IHts]; [simpl; lia|].
  cbn [map costs fold_right]. fold (costs ts). fold (costs (map (andThen thn) ts)).
  assert (H1 := Hc (Hr c (or_introl eq_refl))). assert (H2 : costs (map (andThen thn) ts) <= costs ts + k) by (apply IHts; intros; eapply Hr; eauto; right; auto). lia.
Qed.

(* pairs and tuples *)
Lemma costs_map : forall A B (f : A -> B) ts, costs (map (map_tree f) ts) = costs ts.
Proof.
  intros A B f. induction ts as [|t ts IH]; auto. cbn [map costs fold_right]. fold (costs ts). fold (costs (map (map_tree f) ts)). rewrite IH, longest_map. auto.
Qed.
Lemma longest_concat_eq : forall A (thn : tree A -> list (tree A)) k t, (forall s, reach t s -> costs (thn s) = k) -> longest (concat_tree thn t) = longest t + k.
Proof.
  intros A thn k. induction t as [a ts IH] using tree_ind'. intros Hk. rewrite !longest_eq. cbn [concat_tree shrinks].
  assert (H0 : costs (thn (Node a ts)) = k) by (apply Hk; constructor).
  assert (Hr : forall c, In c ts -> forall s, reach c s -> costs (thn s) = k) by (intros c Hc s Hs; apply Hk; econstructor; eauto).
  clear Hk. revert H0 Hr. generalize (thn (Node a ts)) as X. intros X H0. induction IH as [|c ts Hc _ IHts]; intros Hr; [auto|].
  cbn [map app costs fold_right]. fold (costs ts). fold (costs (map (concat_tree thn) ts ++ X)).
  assert (H1 := Hc (Hr c (or_introl eq_refl))). assert (H2 : costs (map (concat_tree thn) ts ++ X) = costs ts + k) by (apply IHts; intros; eapply Hr; eauto; right; auto). lia.
Qed.
Lemma longest_pair : forall A B (t : tree A) (e : tree B), longest (shrinkPair t e) = longest t + longest e.
Proof.
  intros A B t e. rewrite shrinkPair_ok, pairT_concat. rewrite longest_concat_eq with (k := longest e); [rewrite longest_map; auto|].
  intros s _. unfold second. rewrite costs_map, longest_eq. auto.
Qed.
Lemma longest_tuple : forall U (es : list (tree U)), longest (shrinkTuple es) = list_sum (map longest es).
Proof.
  intros U es. rewrite shrinkTuple_ok. induction es as [|e es IH] using rev_ind; [reflexivity|].
  rewrite prodT_snoc, snocT_pair, map_app, list_sum_app, longest_map. rewrite <- shrinkPair_ok, longest_pair, IH. simpl. lia.
Qed.

(* binary search *)
Lemma longest_bs : forall v k, (0 <= v <= UINT64_MAX)%Z -> (v <= 2 ^ Z.of_nat k)%Z -> longest (bs_abs v) <= S k.
Proof.
  intros v k Hv Hk. apply within_iff. apply tries_within.
  - eapply Permutation_NoDup; [symmetry; apply bs_abs_values; auto|]. constructor; [rewrite zrange_In; lia|apply zrange_NoDup].
  - intros fails tried found Hs. eapply bs_tries; eauto. lia.
Qed.

(* sublists *)
Lemma longest_mtree : forall X (l : list X) m k, (size l <= INT64_MAX)%Z -> m <= length l -> (Z.of_nat (length l) <= 2 ^ Z.of_nat k)%Z ->
  longest (mtree l m) <= S k * S (length l).
Proof.
  intros X l m k Hs Hm Hk. destruct l as [|x0 l0] eqn:El.
  - simpl in Hm. assert (m = 0) by lia. subst m. assert (E : shrinks (mtree (@nil X) 0) = []) by reflexivity. rewrite longest_eq, E. simpl. lia.
  - rewrite <- El in *. rewrite <- (map_nth_seq _ l x0), mtree_natural, longest_map, map_length, seq_length.
    apply within_iff. apply tries_within.
    + eapply Permutation_NoDup; [symmetry; apply mtree_values; [unfold size; rewrite seq_length; auto|rewrite seq_length; auto]|].
      unfold sublists_min. apply NoDup_filter. apply sublists_NoDup. apply seq_NoDup.
    + pose proof (mtree_tries nat (seq 0 (length l)) m k) as T. rewrite seq_length in T. apply T; auto. unfold size. rewrite seq_length. auto.
Qed.

(* the elements of a list, shrunk together *)
Lemma cand_le : forall A (v : list (tree A)) j, list_sum (map longest (bulk_cand v j)) <= list_sum (map longest v).
Proof.
  intros A v j. unfold bulk_cand. induction v as [|e v IH]; cbn [map list_sum fold_right]; auto. fold (list_sum (map longest v)).
  assert (longest (nth j (shrinks e) e) <= longest e).
  { destruct (nth_in_or_default j (shrinks e) e) as [H| ->]; auto. destruct (nth_error (shrinks e) j) as [c|] eqn:Ec.
    - rewrite (nth_error_nth _ _ _ Ec), (longest_eq _ e). apply costs_nth in Ec. lia.
    - apply nth_error_None in Ec. rewrite nth_overflow by auto. auto. }
  fold (list_sum (map longest (map (fun e => nth j (shrinks e) e) v))). lia.
Qed.
Lemma cand_lt : forall A (v : list (tree A)) j, j < bulk_max v -> S j + list_sum (map longest (bulk_cand v j)) <= list_sum (map longest v).
Proof.
  intros A v j Hj. unfold bulk_max in Hj. apply list_max_ex in Hj. destruct Hj as [x [Hx Hj]]. apply in_map_iff in Hx. destruct Hx as [e [<- He]].
  induction v as [|e0 v IH]; [destruct He|]. unfold bulk_cand. cbn [map list_sum fold_right].
  fold (list_sum (map longest v)). fold (bulk_cand v j). fold (list_sum (map longest (bulk_cand v j))).
  assert (H0 : longest (nth j (shrinks e0) e0) <= longest e0).
  { pose proof (cand_le _ [e0] j) as H. unfold bulk_cand in H. simpl in H. lia. }
  destruct He as [->|He]; [|specialize (IH He); lia].
  destruct (nth_error (shrinks e) j) as [c|] eqn:Ec; [|apply nth_error_None in Ec; lia].
  rewrite (nth_error_nth _ _ _ Ec), (longest_eq _ e). apply costs_nth in Ec. pose proof (cand_le _ v j). lia.
Qed.
Lemma bulk_longest : forall A n (s : tree (list (tree A))), all_nodes bulk_node s -> list_sum (map longest (root s)) <= n -> longest s <= list_sum (map longest (root s)).
Proof.
  intros A. induction n as [n IH] using lt_wf_ind. intros s Ha Hn. rewrite longest_eq. apply costs_iff.
  assert (Hb : map root (shrinks s) = bulk_candidates (root s)) by (apply (Ha s); constructor). rewrite bulk_candidates_eq in Hb.
  assert (Hl : length (shrinks s) = bulk_max (root s)) by (apply (f_equal (@length _)) in Hb; rewrite !map_length, seq_length in Hb; auto).
  split.
  - rewrite Hl. destruct (bulk_max (root s)) as [|j] eqn:E; [lia|]. pose proof (cand_lt _ (root s) j). lia.
  - intros j c Hj. assert (Hlt : j < bulk_max (root s)) by (rewrite <- Hl; apply nth_error_Some; congruence).
    assert (Hc : root c = bulk_cand (root s) j).
    { apply (f_equal (fun l => nth_error l j)) in Hb. rewrite !nth_error_map, Hj, nth_error_seq' in Hb by lia. simpl in Hb. inversion Hb. auto. }
    pose proof (cand_lt _ _ _ Hlt) as Hc1. rewrite <- Hc in Hc1.
    assert (Hac : all_nodes bulk_node c) by (intros u Hu; apply Ha; econstructor; eauto; eapply nth_error_In; eauto).
    pose proof (IH (list_sum (map longest (root c))) ltac:(lia) c Hac ltac:(lia)). lia.
Qed.
Lemma costs_pb : forall A (v : list (tree A)), costs (pb v) <= list_sum (map longest v).
Proof.
  intros A v. destruct (pb_ok A v) as [_ [H1 H2]].
  pose proof (bulk_longest A (list_sum (map longest v)) (Node v (pb v))) as H. rewrite longest_eq in H. cbn [root shrinks] in H. apply H; auto.
  intros s Hs. inversion Hs as [|? c ? Hc Hr]; subst; [exact H1|]. rewrite Forall_forall in H2. apply (H2 c Hc). auto.
Qed.

Lemma sublist_sum : forall X (f : X -> nat) l s, In s (sublists l) -> list_sum (map f s) <= list_sum (map f l).
Proof.
  intros X f. induction l as [|x l IH]; simpl; intros s H.
  - destruct H as [<-|[]]. auto.
  - apply in_app_iff in H. destruct H as [H|H].
    + apply in_map_iff in H. destruct H as [s' [<- Hs]]. specialize (IH _ Hs). simpl. unfold list_sum in *. lia.
    + specialize (IH _ H). unfold list_sum in *. lia.
Qed.

(* vectors and lists *)
Lemma longest_listlike : forall A (vec : list (tree A)) m t k, (size vec <= INT64_MAX)%Z -> m <= length vec -> (Z.of_nat (length vec) <= 2 ^ Z.of_nat k)%Z ->
  shrinkListLike vec (Z.of_nat m) true = Ok t -> longest t <= S k * S (length vec) + list_sum (map longest vec).
Proof.
  intros A vec m t k Hs Hm Hk Ht. rewrite listlike_ok in Ht by auto.
  assert (E : t = map_tree (map root) (ListMainProof.etree vec m true)) by congruence. clear Ht. subst t. rewrite longest_map. unfold ListMainProof.etree.
  etransitivity; [apply longest_andThen with (k := list_sum (map longest vec))|apply Nat.add_le_mono_r; apply longest_mtree; auto].
  intros s Hr. rewrite costs_pb. apply sublist_sum. destruct (mtree_sub _ _ _ _ Hs Hm Hr) as [Hsub _]. auto.
Qed.

(* strings *)
Lemma longest_str : forall X m (s : list X) k, m <= length s -> (size s <= UINT64_MAX)%Z -> (Z.of_nat (length s - m) <= 2 ^ Z.of_nat k)%Z -> longest (strT m s) <= 2 * S k.
Proof.
  intros X m s k Hm Hs Hk. unfold strT, size in *. etransitivity; [apply longest_concat with (k := S k)|].
  - intros u Hu. apply reach_map_inv in Hu. destruct Hu as [z [Hz ->]]. rewrite root_map. unfold fronts.
    assert (Hl : length (firstn (Z.to_nat (root z) + m) s) <= length s) by (rewrite firstn_length; lia).
    destruct (_ =? m)%nat; [simpl; lia|]. rewrite costs_map, <- longest_eq. apply longest_bs; lia.
  - rewrite longest_map. pose proof (longest_bs (Z.of_nat (length s - m)) k). lia.
Qed.

(* filters with tolerance 1 *)
Lemma stake_one : forall A (l : list A), stake 1 l = match l with [] => [] | x :: _ => [x] end.
Proof. intros A [|x [|y l]]; reflexivity. Qed.
Lemma costs_filterStream : forall A (crit : A -> bool) fuel s s', filterStream fuel crit 1 s = Ok s' -> costs s' <= costs s.
Proof.
  intros A crit. induction fuel as [|fuel IH]; intros s s' H; cbn [filterStream] in H; [discriminate|].
  destruct s as [|c r]; [inversion H; auto|]. destruct (crit (root c)).
  - apply bind_ok in H. destruct H as [r' [H1 H2]]. inversion H2; subst. apply IH in H1. cbn [costs fold_right]. fold (costs r). fold (costs r'). lia.
  - apply IH in H. etransitivity; [exact H|]. rewrite stake_one. cbn [costs fold_right]. fold (costs r). rewrite (longest_eq _ c).
    destruct (shrinks c) as [|d l]; [simpl; lia|]. cbn [app costs fold_right]. fold (costs r). fold (costs l). lia.
Qed.
Lemma longest_filter : forall A (crit : A -> bool) fuel t t', filter_tol fuel crit 1 t = Ok t' -> longest t' <= longest t.
Proof.
  intros A crit. induction fuel as [|fuel IH]; intros t t' H; cbn [filter_tol] in H; [discriminate|]. destruct (negb (crit (root t))); [discriminate|].
  apply bind_ok in H. destruct H as [s [H1 H]]. apply bind_ok in H. destruct H as [s' [H2 H]]. inversion H; subst. apply costs_filterStream in H1.
  rewrite !longest_eq. cbn [shrinks with_]. etransitivity; [|exact H1]. clear -IH H2. revert s' H2.
  induction s as [|c s IHs]; intros s' H2; cbn [mapM] in H2; [inversion H2; auto|].
  apply bind_ok in H2. destruct H2 as [c' [H1 H2]]. apply bind_ok in H2. destruct H2 as [r' [H2 H3]]. inversion H3; subst.
  cbn [costs fold_right]. fold (costs s). fold (costs r'). apply IH in H1. apply IHs in H2. lia.
Qed.

(* calls made while shrinking *)
Lemma tree_calls : forall E V W (P : property E V W) N t cur s fin s', shrinkTree P N cur (elift t) s = Ok (fin, s') ->
  (ncalls (lg s') <= ncalls (lg s) + longest t)%nat.
Proof.
  intros E V W P N. induction t as [a ts IH] using tree_ind'. intros cur s fin s' H. rewrite elift_eq in H. simpl in H. unfold gret in H.
  rewrite longest_eq. cbn [shrinks]. revert H. set (s0 := with_rnd (rnd s) s). change (lg s) with (lg s0). clearbody s0. generalize newctx. clear s. revert s0.
  induction IH as [|t ts Ht Hts IHts]; intros s0 c H; simpl in H.
  - inversion H; subst. simpl. lia.
  - apply bind_ok in H. destruct H as [[[b c'] s2] [H1 H2]]. apply test_calls in H1. change (lg (with_rnd (rnd s0) s0)) with (lg s0) in H1.
    cbn [costs fold_right]. fold (costs ts). destruct (negb b || hasFailures c').
    + apply Ht in H2. lia.
    + apply IHts in H2. lia.
Qed.
Lemma stream_calls : forall E V W (P : property E V W) N ts cur c s fin s', shrinkStream P N cur c (elist ts) s = Ok (fin, s') ->
  (ncalls (lg s') <= ncalls (lg s) + costs ts)%nat.
Proof.
  intros E V W P N. induction ts as [|t ts IHts]; intros cur c s0 fin s' H; simpl in H.
  - inversion H; subst. simpl. lia.
  - apply bind_ok in H. destruct H as [[[b c'] s2] [H1 H2]]. apply test_calls in H1. change (lg (with_rnd (rnd s0) s0)) with (lg s0) in H1.
    cbn [costs fold_right]. fold (costs ts). destruct (negb b || hasFailures c').
    + apply tree_calls in H2. lia.
    + apply IHts in H2. lia.
Qed.
Lemma each_calls : forall E V W (P : property E V W) (pts : list (tree V)) ord streams cur s fin s',
  shrinkEach P ord streams cur s = Ok (fin, s') -> streams = map (fun t => elist (shrinks t)) pts ->
  (ncalls (lg s') <= ncalls (lg s) + list_sum (map (fun N => match nth_error pts N with Some t => longest t | None => 0 end) ord))%nat.
Proof.
  intros E V W P pts. induction ord as [|N o IH]; intros streams cur s fin s' H Hs; simpl in H; [inversion H; subst; simpl; lia|].
  subst streams. rewrite nth_error_map in H. destruct (nth_error pts N) as [t|] eqn:En; [|discriminate]. simpl in H.
  apply bind_ok in H. destruct H as [[cur' s1] [H1 H2]]. apply stream_calls in H1. rewrite <- longest_eq in H1. apply IH in H2; auto. simpl. rewrite En. lia.
Qed.
Lemma shrink_longest : forall E V W ev (P : property E V W) s rep s' pts r1,
  order (length (gens P)) (ord_each ev) ->
  evalTuple (ord_regen ev) (gens P) (rnd s) = Ok (inl (map elift pts), r1) -> shrink ev P s = Ok (rep, s') ->
  (ncalls (lg s') <= ncalls (lg s) + list_sum (map longest pts))%nat.
Proof.
  intros E V W ev P s rep s' pts r1 Ho2 Hr H.
  apply shrink_inv in H. destruct H as [ts [r2 [streams [r3 [ts' [H1 [H2 [H3 _]]]]]]]].
  assert (Hts : ts = map elift pts) by congruence. subst ts.
  assert (Hlen : length pts = length (gens P)) by (apply evalTuple_length in Hr; rewrite map_length in Hr; auto).
  apply (each_calls _ _ _ _ pts) in H3.
  - eapply Nat.le_trans; [exact H3|]. simpl. apply Nat.add_le_mono_l. rewrite (list_sum_perm _ _ (Permutation_map _ Ho2)), <- Hlen.
    rewrite sum_positions with (f := longest). auto.
  - apply evalTuple_ok in H2. destruct H2 as [L R]. rewrite !map_length in L. apply nth_error_ext. intros i. rewrite nth_error_map.
    destruct (nth_error streams i) as [st|] eqn:Es.
    + destruct (R _ _ Es) as [f [q [q' [A B]]]]. rewrite !nth_error_map in A. destruct (nth_error pts i) as [t|]; [|discriminate].
      simpl in *. inversion A; subst f. rewrite elift_eq in B. inversion B. auto.
    + apply nth_error_None in Es. assert (Hn : nth_error pts i = None) by (apply nth_error_None; lia). rewrite Hn. auto.
Qed.

Lemma attempt_calls : forall E V W ev (P : property E V W) s o s', attempt ev P s = Ok (o, s') -> (ncalls (lg s') <= S (ncalls (lg s)))%nat.
Proof.
  intros E V W ev P s o s' H. unfold attempt in H. destruct (runHook (onStartup P) EStartup s) as [r s1] eqn:E1. apply runHook_calls in E1; auto.
  destruct r as [e|]; [inversion H; subst; lia|]. apply bind_ok in H. destruct H as [[x r1] [_ H]]. destruct x as [ts|e]; [|inversion H; subst; cbn [lg with_rnd]; lia].
  destruct (callFunc P (map eroot ts) (with_rnd r1 s1)) as [u s2] eqn:E2.
  assert (H2 : ncalls (lg s2) = S (ncalls (lg s1))).
  { unfold callFunc in E2. destruct (func P _ _) as [[ops u'] w]. inversion E2; subst. cbn [lg with_rnd]. rewrite ncalls_app. unfold ncalls at 2. simpl. lia. }
  destruct u as [b0|e]; [|destruct e; inversion H; subst; lia].
  destruct (runHook (onCleanup P) ECleanup s2) as [r s3] eqn:E3. apply runHook_calls in E3; auto. destruct r as [e|]; inversion H; subst; lia.
Qed.
Lemma history_calls : forall E V W ev (P : property E V W) s ks s', history ev P s ks s' -> (ncalls (lg s') <= ncalls (lg s) + length ks)%nat.
Proof.
  intros E V W ev P s ks s' H. induction H as [|? ? ? ? Ha|? ? ? ? Ha|? ? ? ? Ha]; cbn [length]; try lia; apply attempt_calls in Ha; lia.
Qed.
Lemma falsifies_calls : forall E V W ev (P : property E V W) s why s', falsifies ev P s why s' -> (ncalls (lg s') <= S (ncalls (lg s)))%nat.
Proof. intros E V W ev P s why s' H. inversion H as [? ? ? Ha|? ? Ha|? ? ? Ha]; subst; apply attempt_calls in Ha; cbn [lg with_cx]; auto. Qed.

Lemma evalIn_err : forall E X ord (fs : list (G E (X + err))) acc r e r', evalIn ord fs acc r = Ok (inr e, r') -> exists f q q', In f fs /\ f q = Ok (inr e, q').
Proof.
  intros E X. induction ord as [|i o IH]; intros fs acc r e r' H; cbn [evalIn] in H; [discriminate|].
  destruct (nth_error fs i) as [f|] eqn:Ef; [|discriminate]. apply gbind_ok in H. destruct H as [x [r1 [H1 H]]]. destruct x as [a|e'].
  - eapply IH; eauto.
  - inversion H; subst. apply nth_error_In in Ef. eauto.
Qed.
Lemma attempt_discard : forall E V W ev (P : property E V W) s s', never_discards P -> attempt ev P s <> Ok (AThrew EDiscard, s').
Proof.
  intros E V W ev P s s' [N1 [N2 N3]] H. unfold attempt in H. destruct (runHook (onStartup P) EStartup s) as [r s1] eqn:E1. destruct r as [e|].
  { inversion H; subst. unfold runHook in E1. destruct (onStartup P) as [h|] eqn:Eh; [|discriminate]. destruct (h (wd s)) as [[ops x] w] eqn:Ex. inversion E1; subst.
    apply (N2 h (wd s)); auto. rewrite Ex. auto. }
  apply bind_ok in H. destruct H as [[x r1] [H1 H]]. destruct x as [ts|e].
  - destruct (callFunc P (map eroot ts) (with_rnd r1 s1)) as [u s2] eqn:E2. destruct u as [b0|e].
    + destruct (runHook (onCleanup P) ECleanup s2) as [r s3] eqn:E3. destruct r as [e|]; inversion H; subst. unfold runHook in E3.
      destruct (onCleanup P) as [h|] eqn:Eh; [|discriminate]. destruct (h (wd s2)) as [[ops x] w] eqn:Ex. inversion E3; subst. apply (N2 h (wd s2)); auto. rewrite Ex. auto.
    + assert (e = EDiscard) by (destruct e; inversion H; auto). subst e. unfold callFunc in E2. destruct (func P (map eroot ts) (wd (with_rnd r1 s1))) as [[ops u'] w] eqn:Ef. inversion E2; subst.
      apply (N1 (map eroot ts) (wd (with_rnd r1 s1))). rewrite Ef. auto.
  - inversion H; subst. unfold evalTuple in H1. apply gbind_ok in H1. destruct H1 as [y [r2 [H1 H2]]]. destruct y as [acc|e].
    + destruct (collect acc); inversion H2.
    + inversion H2; subst. apply evalIn_err in H1. destruct H1 as [f [q [q' [F1 F2]]]]. rewrite Forall_forall in N3. eapply N3; eauto.
Qed.
Lemma history_no_discard : forall E V W ev (P : property E V W) s ks s', never_discards P -> history ev P s ks s' -> length ks = passes ks.
Proof.
  intros E V W ev P s ks s' Hn H. induction H as [|? ? ? ? Ha|? ? ? ? Ha|? ? ? ? Ha]; unfold passes in *; cbn [length filter]; auto.
  exfalso. eapply attempt_discard; eauto.
Qed.
