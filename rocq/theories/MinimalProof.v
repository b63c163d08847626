(** Which shrink trees lead greedy search to minimal values. *)
From Coq Require Import List ZArith Lia Bool Permutation.
From Verif Require Import Base TreeModel TreeSpec TreeProof RandomModel TupleModel TupleProof BinSearchProof IntegralModel IntegralSpec IntegralProof
  BoolModel ListModel ListSpec ListProof ListMainProof ContainerModel ContainerSpec ContainerProof SearchSpec SearchProof ListSearchSpec ListSearchProof MinimalSpec.
Import ListNotations.
Local Open Scope list_scope.

Lemma in_values_root : forall A (t : tree A), In (root t) (values t).
Proof. intros A [a ts]. left. auto. Qed.

Lemma scan_in_values : forall A (fails : A -> Prop) t tried found, scan fails (shrinks t) tried found -> In (root (ending t found)) (values t).
Proof. intros A fails t tried found H. apply reach_root_in. eapply scan_reach; eauto. Qed.

(* leaves *)
Lemma leaf_minimises : forall A (a : A), minimises eq (make_shrinkable a).
Proof.
  intros A a. split.
  - intros x [H|[]]. auto.
  - intros fails tried found H Hf _. inversion H; subst. split; auto.
Qed.
Lemma leaf_tries : forall A (a : A), tries 0 (make_shrinkable a).
Proof. intros A a fails tried found H. inversion H; subst. auto. Qed.

(* images *)
Lemma map_minimises : forall A B (f : A -> B) le t, (forall x y, f x = f y -> x = y) -> minimises le t -> minimises (le_image f le) (map_tree f t).
Proof.
  intros A B f le t Hf [H1 H2]. split.
  - intros v Hv. rewrite values_map in Hv. apply in_map_iff in Hv. destruct Hv as [x [<- Hx]]. rewrite root_map. exists x, (root t). auto.
  - intros fails tried found Hs Hr Hu. rewrite shrinks_map in Hs. apply scan_map in Hs. destruct Hs as [tr [fo [S1 [-> ->]]]].
    rewrite root_map in *. rewrite ending_map, root_map. destruct (H2 (fun x => fails (f x)) _ _ S1 Hr) as [M1 M2].
    + intros x y Hxy Hy Hfx. apply (Hu (f x) (f y)); auto; eexists; eexists; eauto.
    + split; auto. intros v [x [y [-> [E Hxy]]]] Hfv. apply Hf in E. subst y. eexists. eexists. split; [reflexivity|]. split; [reflexivity|]. auto.
Qed.
Lemma map_tries : forall A B (f : A -> B) k t, tries k t -> tries k (map_tree f t).
Proof.
  intros A B f k t H fails tried found Hs. rewrite shrinks_map in Hs. apply scan_map in Hs. destruct Hs as [tr [fo [S1 [-> ->]]]].
  rewrite map_length. eapply H; eauto.
Qed.

(* pairs *)
Definition second {A B} (e : tree B) (n : tree (A * B)) : list (tree (A * B)) := map (map_tree (fun b => (fst (root n), b))) (shrinks e).
Lemma pairT_concat : forall A B (e : tree B) (t : tree A), pairT e t = concat_tree (second e) (map_tree (fun a => (a, root e)) t).
Proof.
  intros A B e. induction t as [a ts IH] using tree_ind'. rewrite map_tree_eq, concat_tree_eq. cbn [pairT]. f_equal. unfold second. cbn [root fst].
  f_equal. rewrite map_map. apply map_ext_Forall. auto.
Qed.

Lemma pair_scan : forall A B (fails : A * B -> Prop) (t : tree A) (e : tree B) tried found, scan fails (shrinks (pairT e t)) tried found ->
  exists tr1 fo1 tr2 fo2, scan (fun a => fails (a, root e)) (shrinks t) tr1 fo1 /\
    scan (fun b => fails (root (ending t fo1), b)) (shrinks e) tr2 fo2 /\ length tried = length tr1 + length tr2 /\
    root (ending (pairT e t) found) = (root (ending t fo1), root (ending e fo2)).
Proof.
  intros A B fails t e tried found H. rewrite pairT_concat in *. apply scan_concat in H. destruct H as [tr1 [fo1 [tr2 [fo2 [S1 [S2 [S3 S4]]]]]]].
  rewrite shrinks_map in S1. apply scan_map in S1. destruct S1 as [tr1' [fo1' [S1 [-> ->]]]]. rewrite ending_map in *.
  unfold second in S2. rewrite root_map in S2. cbn [fst] in S2. apply scan_map in S2. destruct S2 as [tr2' [fo2' [S2 [-> ->]]]].
  exists tr1', fo1', tr2', fo2'. split; auto. split; auto. split; [rewrite S3, app_length, !map_length; auto|].
  rewrite S4. destruct fo2' as [u|]; simpl; rewrite root_map; auto.
Qed.

Lemma pair_minimises : forall A B (le : A -> A -> Prop) (le' : B -> B -> Prop) t e, orders le -> orders le' -> minimises le t -> minimises le' e ->
  minimises (le_pair le le') (shrinkPair t e).
Proof.
  intros A B le le' t e [T1 Q1] [T2 Q2] [V1 M1] [V2 M2]. rewrite shrinkPair_ok.
  assert (Hroot : root (pairT e t) = (root t, root e)) by (destruct t; auto). split.
  - intros [x y] Hx. apply (Permutation_in _ (pairT_values _ _ _ _)) in Hx. apply in_prod_iff in Hx. rewrite Hroot. split; simpl; [apply V1|apply V2]; tauto.
  - intros fails tried found Hs Hf Hu. rewrite Hroot in *. apply pair_scan in Hs. destruct Hs as [tr1 [fo1 [tr2 [fo2 [S1 [S2 [_ S4]]]]]]]. rewrite S4.
    pose proof (V1 _ (scan_in_values _ _ _ _ _ S1)) as L1. pose proof (V2 _ (scan_in_values _ _ _ _ _ S2)) as L2.
    set (r1 := root (ending t fo1)) in *. set (r2 := root (ending e fo2)) in *.
    destruct (Q1 _ _ L1) as [R1 R1']. destruct (Q2 _ _ L2) as [R2 R2'].
    destruct (M1 _ _ _ S1 Hf) as [F1 N1].
    { intros x y Hxy Hy Hfx. apply (Hu (x, root e)); auto; split; auto. }
    destruct (M2 _ _ _ S2 F1) as [F2 N2].
    { intros x y Hxy Hy Hfx. apply (Hu (r1, x)); auto; split; auto. }
    fold r1 r2 in N1, N2, F1, F2. split; auto. intros [x y] [Hx Hy] Hfx. simpl in Hx, Hy. split; simpl.
    + apply N1; auto. apply (Hu (x, y)); auto; split; simpl; eauto. apply (proj1 (Q1 _ _ Hx)).
    + apply N2; auto. apply (Hu (x, y)); auto; split; simpl; eauto. apply (proj1 (Q2 _ _ Hy)).
Qed.
Lemma pair_tries : forall A B j k (t : tree A) (e : tree B), tries j t -> tries k e -> tries (j + k) (shrinkPair t e).
Proof.
  intros A B j k t e H1 H2 fails tried found Hs. rewrite shrinkPair_ok in Hs. apply pair_scan in Hs. destruct Hs as [tr1 [fo1 [tr2 [fo2 [S1 [S2 [S3 _]]]]]]].
  apply H1 in S1. apply H2 in S2. lia.
Qed.

Lemma le_pair_orders : forall A B (le : A -> A -> Prop) (le' : B -> B -> Prop), orders le -> orders le' -> orders (le_pair le le').
Proof.
  intros A B le le' [T1 Q1] [T2 Q2]. split.
  - intros x y z [H1 H2] [H3 H4]. split; eauto.
  - intros x y [H1 H2]. destruct (Q1 _ _ H1), (Q2 _ _ H2). split; split; auto.
Qed.

(* tuples: a tuple is a pair of a shorter one and its last component *)
Lemma snocT_pair : forall U (e : tree U) (t : tree (list U)), snocT e t = map_tree (fun p => fst p ++ [snd p]) (pairT e t).
Proof.
  intros U e. induction t as [us ts IH] using tree_ind'. cbn [snocT pairT]. rewrite map_tree_eq. cbn [fst snd]. f_equal. rewrite map_app, !map_map. f_equal.
  - apply map_ext_Forall. auto.
  - apply map_ext. intros c. rewrite map_tree_comp. reflexivity.
Qed.

Lemma le_each_length : forall U (les : list (U -> U -> Prop)) xs ys, le_each les xs ys -> length xs = length les /\ length ys = length les.
Proof.
  intros U les. induction les as [|le les IH]; intros [|x xs] [|y ys] H; simpl in H; try contradiction; auto.
  destruct H as [_ H]. apply IH in H. simpl. lia.
Qed.
Lemma le_each_snoc : forall U (les : list (U -> U -> Prop)) le xs x ys y, le_each (les ++ [le]) (xs ++ [x]) (ys ++ [y]) <-> le_each les xs ys /\ le x y.
Proof.
  intros U les le. induction les as [|l les IH]; intros [|x0 xs] x [|y0 ys] y; simpl; try tauto.
  - split; [|tauto]. intros [_ H]. destruct (ys ++ [y]) eqn:E; [|contradiction]. destruct ys; discriminate.
  - split; [|tauto]. intros [_ H]. destruct (xs ++ [x]) eqn:E; [destruct xs; discriminate|contradiction].
  - split; [|tauto]. intros [_ H]. destruct (xs ++ [x]) eqn:E; [destruct xs; discriminate|contradiction].
  - split; [|tauto]. intros [_ H]. destruct les; contradiction.
  - split; [|tauto]. intros [_ H]. apply le_each_length in H. rewrite !app_length in H. simpl in H. lia.
  - split; [|tauto]. intros [_ H]. apply le_each_length in H. rewrite !app_length in H. simpl in H. lia.
  - rewrite IH. tauto.
Qed.
Lemma le_each_snoc_inv : forall U (les : list (U -> U -> Prop)) le v w, le_each (les ++ [le]) v w -> exists xs x ys y, v = xs ++ [x] /\ w = ys ++ [y].
Proof.
  intros U les le v w H. apply le_each_length in H. rewrite app_length in H. simpl in H. destruct H as [H1 H2].
  destruct (rev v) as [|x v'] eqn:Ev; [apply (f_equal (@length U)) in Ev; rewrite rev_length in Ev; simpl in Ev; lia|].
  destruct (rev w) as [|y w'] eqn:Ew; [apply (f_equal (@length U)) in Ew; rewrite rev_length in Ew; simpl in Ew; lia|].
  exists (rev v'), x, (rev w'), y. split; [rewrite <- (rev_involutive v), Ev|rewrite <- (rev_involutive w), Ew]; auto.
Qed.
Lemma le_each_orders : forall U (les : list (U -> U -> Prop)), Forall orders les -> orders (le_each les).
Proof.
  intros U les H. split.
  - induction H as [|le les [T Q] H IH]; intros [|x xs] [|y ys] [|z zs]; simpl; try tauto. intros [A B] [C D]. split; eauto.
  - induction H as [|le les [T Q] H IH]; intros [|x xs] [|y ys]; simpl; try tauto. intros [A B]. destruct (Q _ _ A), (IH _ _ B). tauto.
Qed.

Lemma minimises_iff : forall A (le le' : A -> A -> Prop) t, (forall x y, le x y <-> le' x y) -> minimises le t -> minimises le' t.
Proof.
  intros A le le' t Hi [H1 H2]. split; [intros x Hx; apply Hi; auto|]. intros fails tried found Hs Hf Hu.
  destruct (H2 _ _ _ Hs Hf) as [M1 M2].
  - intros x y Hxy Hy. apply Hu; apply Hi; auto.
  - split; auto. intros x Hx Hfx. apply Hi. apply M2; auto. apply Hi. auto.
Qed.

Lemma tuple_minimises : forall U (les : list (U -> U -> Prop)) es, Forall orders les -> Forall2 minimises les es -> minimises (le_each les) (shrinkTuple es).
Proof.
  intros U les es Ho H. rewrite shrinkTuple_ok. revert es H. induction les as [|le les IH] using rev_ind; intros es H.
  - inversion H; subst. split.
    + intros x [<-|[]]. exact I.
    + intros fails tried found Hs Hf _. inversion Hs; subst. split; [exact Hf|]. intros [|x xs] Hx; [auto|contradiction].
  - apply Forall2_app_inv_l in H. destruct H as [es1 [es2 [H1 [H2 ->]]]]. inversion H2 as [|? e ? ? He Hn]; subst. inversion Hn; subst.
    apply Forall_app in Ho. destruct Ho as [Ho Hl]. inversion Hl; subst. rewrite prodT_snoc, snocT_pair.
    eapply minimises_iff; [|apply map_minimises; [|rewrite <- shrinkPair_ok; apply pair_minimises; [apply le_each_orders; exact Ho| eassumption|apply IH; auto|exact He]]].
    + intros v w. split.
      * intros [[xs x] [[ys y] [-> [-> [L1 L2]]]]]. simpl in *. apply le_each_snoc. auto.
      * intros L. destruct (le_each_snoc_inv _ _ _ _ _ L) as [xs [x [ys [y [-> ->]]]]]. apply le_each_snoc in L. exists (xs, x), (ys, y). auto.
    + intros [xs x] [ys y] E. simpl in E. apply app_inj_tail in E. destruct E; subst. auto.
Qed.
Lemma tuple_tries : forall U ks (es : list (tree U)), Forall2 tries ks es -> tries (list_sum ks) (shrinkTuple es).
Proof.
  intros U ks es H. rewrite shrinkTuple_ok. revert es H. induction ks as [|k ks IH] using rev_ind; intros es H.
  - inversion H; subst. apply leaf_tries.
  - apply Forall2_app_inv_l in H. destruct H as [es1 [es2 [H1 [H2 ->]]]]. inversion H2 as [|? e ? ? He Hn]; subst. inversion Hn; subst.
    rewrite prodT_snoc, snocT_pair, list_sum_app. simpl. rewrite Nat.add_0_r. apply map_tries. rewrite <- shrinkPair_ok. apply pair_tries; auto.
Qed.

(* integers *)
Lemma le_int_orders : forall c, orders (le_int c).
Proof. intros c. unfold le_int, on_way. split; intros; lia. Qed.

Lemma integer_minimising : forall E ty min max, usable ty min max -> minimising (E := E) (le_int (nearest_zero min max)) (generateInteger ty min max).
Proof.
  intros E ty min max Hu r t r' H.
  destruct (generateInteger_shape _ _ _ _ _ _ _ Hu H) as [v [Hv Ht]].
  set (c := nearest_zero min max) in *.
  assert (Hc : (min <= c <= max)%Z) by (destruct Hu as [? [? _]]; unfold c, nearest_zero; lia).
  assert (Hvals : forall x, In x (values t) -> le_int c x (root t)).
  { intros x Hx. rewrite Ht in *. rewrite root_map, bs_abs_root. rewrite values_map in Hx. apply in_map_iff in Hx. destruct Hx as [d [<- Hd]].
    apply bs_abs_in in Hd.
    - unfold le_int, on_way. destruct (Z.leb_spec c v); lia.
    - destruct Hu as [U1 [U2 [U3 _]]]. pose proof (tmin_64 ty). pose proof (tmax_64 ty). unfold c, nearest_zero, INT64_MIN, UINT64_MAX in *.
      split; [lia|]. destruct (is_signed ty) eqn:Es; [pose proof (tmax_s64 ty Es); unfold INT64_MAX in *; lia|]. unfold tmin in U1. rewrite Es in U1. lia. }
  split; [exact Hvals|]. intros fails tried found Hs Hf Hup.
  destruct (integer_scan _ _ _ _ _ _ _ _ _ _ Hu H Hs) as [_ Hb]. fold c in Hb. destruct Hb as [B1 [B2 B3]]; auto.
  { intros x y Hx Hy Hn. apply Hup; unfold le_int, nearer, on_way in *; lia. }
  split; auto. intros x Hx Hfx. unfold le_int in *. destruct (Z.eq_dec x (root (ending t found))) as [->|Hne]; auto.
  exfalso. apply (B3 x); auto; unfold on_way in *; lia.
Qed.
Lemma integer_trying : forall E ty min max k, usable ty min max -> (max - min <= 2 ^ Z.of_nat k)%Z -> trying (E := E) (S k) (generateInteger ty min max).
Proof.
  intros E ty min max k Hu Hk r t r' H fails tried found Hs. destruct (integer_scan _ _ _ _ _ _ _ _ _ _ Hu H Hs) as [A _]. auto.
Qed.

(* booleans *)
Lemma le_bool_orders : orders le_bool.
Proof. split; unfold le_bool; auto. Qed.
Lemma bool_minimises : forall b, minimises le_bool (shrinkBool b).
Proof.
  intros [|].
  - split; [intros [|] _ _; auto|]. intros fails tried found Hs Hf Hu. unfold shrinkBool in *. cbn [shrinks with_ root make_shrinkable] in *. inversion Hs; subst; cbn [root] in *.
    + match goal with [ h : scan _ [] _ _ |- _ ] => inversion h; subst end. split; auto. intros [|] _ Hx; [intros _; auto|contradiction].
    + match goal with [ h : scan _ (shrinks _) _ _ |- _ ] => inversion h; subst end. split; auto. intros x _ _ E. discriminate.
  - split; [intros x [<-|[]] H; auto|]. intros fails tried found Hs Hf _. inversion Hs; subst. split; auto. intros x _ _ E. discriminate.
Qed.
Lemma bool_tries : forall b, tries 1 (shrinkBool b).
Proof.
  intros [|] fails tried found Hs; unfold shrinkBool in Hs; cbn [shrinks with_ make_shrinkable] in Hs; inversion Hs; subst; auto;
    match goal with [ h : scan _ _ _ _ |- _ ] => inversion h; subst end; auto.
Qed.

(* sets *)
Lemma le_sub_orders : forall X m, orders (le_sub (X := X) m).
Proof.
  intros X m. split.
  - intros x y z [H1 H2] [H3 H4]. split; auto. eapply sublists_trans; eauto.
  - intros x y [H1 H2]. assert (length x <= length y) by (apply sublists_len; auto). split; split; try apply sublists_self; auto; lia.
Qed.
Lemma sublists_missing : forall X (r s : list X), In s (sublists r) -> length s <> length r -> exists a x b, r = a ++ x :: b /\ In s (sublists (a ++ b)).
Proof.
  induction r as [|y r IH]; simpl; intros s H Hl.
  - destruct H as [<-|[]]. exfalso. apply Hl. auto.
  - apply in_app_iff in H. destruct H as [H|H].
    + apply in_map_iff in H. destruct H as [s' [<- Hs']]. destruct (IH s' Hs') as [a [x [b [-> Hab]]]]; [simpl in Hl; lia|].
      exists (y :: a), x, b. split; auto. simpl. apply in_app_iff. left. apply in_map. auto.
    + exists [], y, r. auto.
Qed.

Lemma mtree_minimises : forall X (l : list X) m, (size l <= INT64_MAX)%Z -> m <= length l -> minimises (le_sub m) (mtree l m).
Proof.
  intros X l m Hs Hm. assert (Hroot : root (mtree l m) = l) by (apply mtree_root; auto). split.
  - intros x Hx. rewrite Hroot. apply (Permutation_in _ (mtree_values _ _ _ Hs Hm)) in Hx. unfold sublists_min in Hx. apply filter_In in Hx.
    destruct Hx as [H1 H2]. apply Nat.leb_le in H2. split; auto.
  - intros fails tried found Hsc Hf Hu. rewrite Hroot in *. destruct (mtree_scan _ _ _ _ _ _ Hs Hm Hsc) as [M1 [M2 [_ M4]]].
    set (r := root (ending (mtree l m) found)) in *. split.
    { apply (scan_fails _ _ _ _ _ Hsc). rewrite Hroot. auto. }
    intros x [Hx Hmx] Hfx. destruct (Nat.eq_dec (length x) (length r)) as [E|E].
    { apply sublists_full in Hx; auto. subst x. split; [apply sublists_self|auto]. }
    exfalso. destruct M4 as [M|M]; auto.
    + intros a b Hb Ha Hma. apply Hu; split; auto. apply sublists_len in Ha. lia.
    + apply sublists_len in Hx. lia.
    + destruct (sublists_missing _ _ _ Hx E) as [a [y [b [Er Hab]]]]. apply (M a y b Er). apply (Hu x); auto; [split; auto|].
      assert (Hsub : In (a ++ b) (sublists r)).
      { rewrite Er. apply sublists_app; [apply sublists_self|]. simpl. apply in_app_iff. right. apply sublists_self. }
      split; [eapply sublists_trans; eauto|]. apply sublists_len in Hab. lia.
Qed.
Lemma mtree_tries : forall X (l : list X) m k, (size l <= INT64_MAX)%Z -> m <= length l -> (Z.of_nat (length l) <= 2 ^ Z.of_nat k)%Z ->
  tries (S k * S (length l)) (mtree l m).
Proof.
  intros X l m k Hs Hm Hk fails tried found Hsc. destruct (mtree_scan _ _ _ _ _ _ Hs Hm Hsc) as [M1 [_ [M3 _]]]. specialize (M3 k Hk).
  apply sublists_len in M1. etransitivity; [exact M3|]. apply Nat.mul_le_mono_l. lia.
Qed.

(* prefixes *)
Lemma le_prefix_orders : forall X m, orders (le_prefix (X := X) m).
Proof.
  intros X m. split.
  - intros x y z [j [-> Hj]] [k [-> Hk]]. rewrite firstn_firstn in *. exists (Nat.min j k). auto.
  - intros x y [k [Hx Hm]]. split; [exists (length x)|exists (length y)]; rewrite firstn_all; split; auto.
    rewrite Hx, firstn_length in Hm. lia.
Qed.

Lemma prefix_minimises : forall X (l : list X) m, m <= length l -> (size l <= UINT64_MAX)%Z -> minimises (le_prefix m) (prefixTree m l).
Proof.
  intros X l m Hm Hs. pose proof (prefixTree_root X m l Hm) as Hroot. split.
  - intros x Hx. rewrite Hroot. unfold prefixTree in Hx. rewrite values_map in Hx. apply in_map_iff in Hx. destruct Hx as [z [<- Hz]].
    apply bs_abs_in in Hz; [|unfold size in Hs; lia]. exists (Z.to_nat z + m). split; auto. rewrite firstn_length. lia.
  - intros fails tried found Hsc Hf Hu. rewrite Hroot in *. destruct (prefix_scan _ _ _ _ _ _ Hm Hs Hsc) as [_ [_ M]].
    destruct M as [k [E [Hk [M1 M2]]]]; auto.
    { intros j k Hj Hjk Hk. apply Hu.
      - exists j. rewrite firstn_firstn. split; [f_equal; lia|rewrite firstn_length; lia].
      - exists k. split; auto. rewrite firstn_length. lia. }
    split; auto. set (r := root (ending (prefixTree m l) found)) in *. intros x [j [Ex Hx]] Hfx. rewrite E, firstn_firstn in Ex.
    destruct (Nat.le_gt_cases k j) as [H|H].
    + rewrite Nat.min_r in Ex by auto. rewrite <- E in Ex. subst x. exists (length r). rewrite firstn_all. auto.
    + exfalso. rewrite Nat.min_l in Ex by lia. apply (M2 j); [|rewrite <- Ex; auto]. rewrite Ex, firstn_length in Hx. lia.
Qed.
Lemma prefix_tries : forall X (l : list X) m k, m <= length l -> (size l <= UINT64_MAX)%Z -> (Z.of_nat (length l - m) <= 2 ^ Z.of_nat k)%Z -> tries (S k) (prefixTree m l).
Proof. intros X l m k Hm Hs Hk fails tried found Hsc. destruct (prefix_scan _ _ _ _ _ _ Hm Hs Hsc) as [_ [M _]]. auto. Qed.

(* vectors of elements that do not shrink *)
Lemma listlike_root_values : forall A (vec : list (tree A)) m t, (size vec <= INT64_MAX)%Z -> m <= length vec -> shrinkListLike vec (Z.of_nat m) true = Ok t ->
  root t = map root vec /\ forall x, In x (values t) -> exists us rs, In us (sublists vec) /\ m <= length us /\ Forall2 (fun e e' => reach e e') us rs /\ x = map root rs.
Proof.
  intros A vec m t Hs Hm Ht. rewrite listlike_ok in Ht by auto.
  assert (E : t = map_tree (map root) (etree vec m true)) by congruence. clear Ht. subst t. split.
  - rewrite root_map, etree_root; auto.
  - intros x Hx. rewrite values_map in Hx. apply in_map_iff in Hx. destruct Hx as [rs [<- Hrs]]. apply reach_values in Hrs. destruct Hrs as [s [Hr <-]].
    destruct (etree_sound _ _ _ _ _ Hs Hm Hr) as [us [H1 [H2 H3]]]. exists us, (root s). auto.
Qed.
Lemma vec_minimises : forall A (vec : list (tree A)) m t, (size vec <= INT64_MAX)%Z -> m <= length vec -> Forall (fun e => shrinks e = []) vec ->
  shrinkListLike vec (Z.of_nat m) true = Ok t -> minimises (le_sub m) t.
Proof.
  intros A vec m t Hs Hm Hl Ht.
  assert (Hsub : forall us rs, In us (sublists vec) -> Forall2 (fun e e' => reach e e') us rs -> rs = us).
  { intros us rs Hin HF. assert (Hus : Forall (fun e => shrinks e = []) us) by (apply Forall_forall; intros e He; rewrite Forall_forall in Hl; apply Hl; eapply sublists_In; eauto).
    clear -HF Hus. induction HF as [|e e' us rs Hr HF IH]; auto. inversion Hus as [|? ? He Hus']; subst. rewrite IH by auto.
    inversion Hr as [|? c ? Hc]; subst; auto. rewrite He in Hc. destruct Hc. }
  destruct (listlike_root_values A vec m t Hs Hm Ht) as [Hroot Hvals].
  split.
  - intros x Hx. destruct (Hvals x Hx) as [us [rs [H1 [H2 [H3 ->]]]]]. apply Hsub in H3; auto. subst rs. rewrite Hroot. split; [rewrite sublists_map; apply in_map; auto|rewrite map_length; auto].
  - intros fails tried found Hsc Hf Hu. rewrite Hroot in *. destruct (vec_scan _ _ _ _ _ _ _ Hs Hm Ht Hsc) as [us [rs [V1 [V2 [V3 [V4 V5]]]]]].
    apply Hsub in V3; auto. subst rs. rewrite V4. destruct V5 as [V5 V6]; auto.
    { intros a b Hb Ha Hma. apply Hu; split; auto. apply sublists_len in Ha. lia. }
    set (r := map root us) in *. split; auto. intros x [Hx Hmx] Hfx. destruct (Nat.eq_dec (length x) (length r)) as [E|E].
    { apply sublists_full in Hx; auto. subst x. split; [apply sublists_self|auto]. }
    exfalso. destruct V6 as [M|M].
    + apply sublists_len in Hx. lia.
    + destruct (sublists_missing _ _ _ Hx E) as [a [y [b [Er Hab]]]]. apply (M a y b Er). apply (Hu x); auto; [split; auto|].
      assert (Hsb : In (a ++ b) (sublists r)).
      { rewrite Er. apply sublists_app; [apply sublists_self|]. simpl. apply in_app_iff. right. apply sublists_self. }
      split; [eapply sublists_trans; [exact Hsb|unfold r; rewrite sublists_map; apply in_map; auto]|]. apply sublists_len in Hab. lia.
Qed.
