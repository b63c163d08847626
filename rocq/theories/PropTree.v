(** C01-C05: streams and shrinkables. *)
From Coq Require Import List ZArith Bool Lia Permutation.
From Verif Require Import Base StreamModel StreamSpec StreamProof TreeModel TreeSpec TreeProof.
Import ListNotations.
Local Open Scope Z_scope.

(** * C01: lazy streams behave as the sequences they enumerate *)

Theorem C01_stream_finite : forall A B (f : A -> B) (crit : A -> bool) s l s' l' fuel,
  enum s l -> enum s' l' -> (length l < fuel)%nat ->
  enum (s_transform f s) (map f l) /\
  enum (s_concat s s') (l ++ l') /\
  (forall n, 0 <= n -> enum (s_take n s) (firstn (Z.to_nat n) l)) /\
  (forall n, n < 0 -> enum (s_take n s) l) /\
  denum (s_filter fuel crit s) (filter crit l) /\
  it_collect fuel s = Ok l.
Proof.
  intros. repeat split; auto using enum_transform, enum_concat, enum_take_nonneg, enum_take_neg, enum_filter,
    it_collect_enum.
Qed.

Theorem C01_stream_infinite : forall A B (f : A -> B) (crit : A -> bool) (s s' : stream A) n,
  prefix n (s_transform f s) = map f (prefix n s) /\
  enum (s_take (Z.of_nat n) s) (prefix n s) /\
  (forall k, k < 0 -> prefix n (s_take k s) = prefix n s) /\
  (infinite s -> prefix n (s_concat s s') = prefix n s) /\
  (forall l, enum s l -> prefix n (s_concat s s') = firstn n l ++ prefix (n - length l) s') /\
  (forall fuel, (n <= fuel)%nat ->
     dprefix (length (filter crit (prefix n s))) (s_filter fuel crit s) = filter crit (prefix n s)).
Proof.
  intros. repeat split; intros; auto using prefix_transform, prefix_take_neg, prefix_concat_inf,
    prefix_concat_fin, filter_prefix.
  pose proof (enum_take_any A (Z.of_nat n) s ltac:(lia)) as H. rewrite Nat2Z.id in H. exact H.
Qed.

Theorem C01_exhausted_iterator_throws : forall A, it_next (@SNil A) = Throw EInvalidArgument.
Proof. exact it_next_empty. Qed.

Theorem C01_enumeration_unique : forall A (s : stream A) l l', enum s l -> enum s l' -> l = l'.
Proof. exact enum_fun. Qed.

CoFixpoint C01_from (n : nat) : stream nat := SCons n (C01_from (S n)).
Example C01_ex_infinite : infinite (C01_from 3).
Proof. unfold infinite. intros n. generalize 3%nat. induction n; intros k; simpl; auto. Qed.
Example C01_ex_finite : enum (s_two 4 7) [4; 7] /\ enum (s_concat (s_two 4 7) (s_one 9)) [4; 7; 9].
Proof. split; [|apply (enum_concat _ _ _ [4;7] [9])]; repeat constructor. Qed.

(** * C02: mapping *)

Theorem C02_map_pathwise : forall A B (f : A -> B) t p,
  value_at (map_tree f t) p = option_map f (value_at t p).
Proof. exact value_at_map. Qed.

Theorem C02_flatMap_pathwise : forall A B (f : A -> tree B) t p,
  value_at (flatMap_tree f t) p = option_map (fun a => root (f a)) (value_at t p).
Proof. intros. rewrite flatMap_is_map. apply value_at_map. Qed.

Theorem C02_mapShrinkable_pathwise : forall A B (f : tree A -> tree B) t p,
  value_at (mapShrinkable f t) p = option_map (fun s => root (f s)) (node_at t p).
Proof. exact value_at_mapShrinkable. Qed.

(** The value at each path determines a shrinkable, so the statements above are complete descriptions. *)
Theorem C02_paths_determine : forall A (t t' : tree A), (forall p, value_at t p = value_at t' p) -> t = t'.
Proof. exact value_at_ext. Qed.

Theorem C02_map_identity : forall A (t : tree A), map_tree (fun x => x) t = t.
Proof. exact map_tree_id. Qed.

Theorem C02_map_composition : forall A B C (f : A -> B) (g : B -> C) t,
  map_tree g (map_tree f t) = map_tree (fun x => g (f x)) t.
Proof. exact map_tree_comp. Qed.

Definition C02_t : tree Z := Node 8 [Node 0 []; Node 4 [Node 2 [Node 1 []]]; Node 6 []].
Example C02_ex : value_at (map_tree (fun x => x + 100) C02_t) [1%nat; 0%nat; 0%nat] = Some 101.
Proof. reflexivity. Qed.

(** * C03: filter *)

Theorem C03_filter_exact : forall A (crit : A -> bool) t,
  (crit (root t) = false -> filter_tree crit t = Throw EInvalidArgument) /\
  (crit (root t) = true ->
     exists t', filter_tree crit t = Ok t' /\ root t' = root t /\
                walks t' = filter (forallb crit) (walks t)).
Proof. intros. split; [apply filter_tree_throws|apply filter_tree_ok]. Qed.

Theorem C03_filter_sound : forall A (crit : A -> bool) t t', filter_tree crit t = Ok t' ->
  Forall (fun v => crit v = true /\ In v (values t)) (values t').
Proof. exact filter_tree_sound. Qed.

Example C03_ex : exists t', filter_tree Z.even C02_t = Ok t' /\ values t' = [8; 0; 4; 2; 6].
Proof. eexists. split; reflexivity. Qed.

(** * C04: filter with tolerance *)

Theorem C04_filter_tolerance_exact : forall A (crit : A -> bool) tol t fuel,
  (tsize t <= fuel)%nat -> crit (root t) = true ->
  exists t', filter_tol fuel crit tol t = Ok t' /\ filtered crit tol t t'.
Proof. intros. apply filter_tol_ok; auto. Qed.

Theorem C04_filter_tolerance_throws : forall A (crit : A -> bool) tol t fuel,
  (0 < fuel)%nat -> crit (root t) = false -> filter_tol fuel crit tol t = Throw EInvalidArgument.
Proof. intros A crit tol t [|fuel] Hf Hc; [lia|]. simpl. rewrite Hc. reflexivity. Qed.

Theorem C04_filter_tolerance_sound : forall A (crit : A -> bool) tol t t', filtered crit tol t t' ->
  Forall (fun v => crit v = true /\ In v (values t)) (values t').
Proof. intros. eapply filtered_sound; eauto. Qed.

Theorem C04_filter_tolerance_keeps_plain : forall A (crit : A -> bool) tol t t' u,
  filtered crit tol t t' -> filter_tree crit t = Ok u -> incl (values u) (values t').
Proof. exact filtered_complete. Qed.

Theorem C04_filter_tolerance_zero : forall A (crit : A -> bool) t t',
  filtered crit 0 t t' -> filter_tree crit t = Ok t'.
Proof. exact filtered_0. Qed.

(** What a rejected candidate is replaced by. *)
Theorem C04_rejected_replaced : forall A (crit : A -> bool) tol t, crit (root t) = false ->
  survivors crit tol t =
  flat_map (survivors crit tol) (if tol <? 0 then shrinks t else firstn (Z.to_nat tol) (shrinks t)).
Proof.
  intros. rewrite survivors_reject by auto. destruct (Z.ltb_spec tol 0).
  rewrite stake_neg by auto; auto. rewrite stake_firstn by auto; auto.
Qed.

Example C04_ex : exists t', filter_tol 20 (fun x => x <? 3) 1 (Node 1 [Node 5 [Node 2 []; Node 0 []]; Node 7 [Node 9 [Node 1 []]]]) = Ok t'
  /\ values t' = [1; 2; 1].
Proof. eexists. split; reflexivity. Qed.

(** * C05: concat, andThen, take *)

Theorem C05_concat_exact : forall A thn (t : tree A),
  (forall p s, node_at t p = Some s ->
     exists s', node_at (concat_tree thn t) p = Some s' /\ root s' = root s /\
                length (shrinks s') = (length (shrinks s) + length (thn s))%nat /\
                skipn (length (shrinks s)) (shrinks s') = thn s) /\
  (forall p s', node_at (concat_tree thn t) p = Some s' ->
     (exists s, node_at t p = Some s) \/
     (exists q s i r c, p = q ++ (length (shrinks s) + i)%nat :: r /\ node_at t q = Some s /\
          nth_error (thn s) i = Some c /\ node_at c r = Some s')).
Proof.
  intros. split.
  - intros p s H. exists (concat_tree thn s). split; [apply node_at_concat; auto|].
    split; [apply root_concat|]. rewrite shrinks_concat, app_length, map_length. split; auto.
    rewrite skipn_app, map_length, Nat.sub_diag, skipn_all2 by (rewrite map_length; auto). reflexivity.
  - intros p s' H. destruct (node_at_concat_inv _ _ _ _ _ H) as [[s [H1 _]]|H1]; eauto.
Qed.

Theorem C05_concat_values : forall A thn (t : tree A),
  Permutation (values (concat_tree thn t)) (values t ++ flat_map (fun s => flat_map values (thn s)) (nodes t)).
Proof. exact values_concat. Qed.

Theorem C05_concatStatic : forall A (l : list (tree A)) t, concatStatic l t = concat_tree (fun _ => l) t.
Proof. exact concatStatic_is. Qed.

Theorem C05_andThen_exact : forall A thn (t : tree A),
  (forall p s, node_at t p = Some s ->
     exists s', node_at (andThen thn t) p = Some s' /\ root s' = root s /\
       (shrinks s = [] -> shrinks s' = thn s) /\
       (shrinks s <> [] -> length (shrinks s') = length (shrinks s))) /\
  (forall p s', node_at (andThen thn t) p = Some s' ->
     (exists s, node_at t p = Some s) \/
     (exists q s i r c, p = q ++ i :: r /\ node_at t q = Some s /\ shrinks s = [] /\
          nth_error (thn s) i = Some c /\ node_at c r = Some s')).
Proof.
  intros. split.
  - intros p s H. exists (andThen thn s). split; [apply node_at_andThen; auto|].
    split; [apply root_andThen|]. rewrite shrinks_andThen. split; intros Hs.
    + rewrite Hs. reflexivity.
    + destruct (shrinks s) eqn:E; [congruence|]. rewrite map_length. auto.
  - intros p s' H. destruct (node_at_andThen_inv _ _ _ _ _ H) as [[s [H1 _]]|H1]; eauto.
Qed.

Theorem C05_andThenStatic : forall A (l : list (tree A)) t, andThenStatic l t = andThen (fun _ => l) t.
Proof. exact andThenStatic_is. Qed.

Theorem C05_take_exact : forall A n (t : tree A) p, 0 <= n ->
  value_at (take_tree n t) p =
    if forallb (fun i => Z.of_nat i <? n) p then value_at t p else None.
Proof.
  intros. unfold value_at. rewrite node_at_take by auto. destruct (forallb _ p); auto.
  destruct (node_at t p); simpl; auto. rewrite root_take. auto.
Qed.

Theorem C05_take_negative : forall A n (t : tree A), n < 0 -> take_tree n t = t.
Proof. exact take_tree_neg. Qed.

Example C05_ex :
  concat_tree (fun s => [Node (root s + 10) []]) (Node 1 [Node 0 []]) = Node 1 [Node 0 [Node 10 []]; Node 11 []] /\
  andThen (fun s => [Node (root s + 10) []]) (Node 1 [Node 0 []]) = Node 1 [Node 0 [Node 10 []]] /\
  values (take_tree 1 C02_t) = [8; 0].
Proof. repeat split. Qed.

Print Assumptions C01_stream_finite.
Print Assumptions C01_stream_infinite.
Print Assumptions C01_exhausted_iterator_throws.
Print Assumptions C01_enumeration_unique.
Print Assumptions C02_map_pathwise.
Print Assumptions C02_flatMap_pathwise.
Print Assumptions C02_mapShrinkable_pathwise.
Print Assumptions C02_paths_determine.
Print Assumptions C02_map_identity.
Print Assumptions C02_map_composition.
Print Assumptions C03_filter_exact.
Print Assumptions C03_filter_sound.
Print Assumptions C04_filter_tolerance_exact.
Print Assumptions C04_filter_tolerance_throws.
Print Assumptions C04_filter_tolerance_sound.
Print Assumptions C04_filter_tolerance_keeps_plain.
Print Assumptions C04_filter_tolerance_zero.
Print Assumptions C04_rejected_replaced.
Print Assumptions C05_concat_exact.
Print Assumptions C05_concat_values.
Print Assumptions C05_concatStatic.
Print Assumptions C05_andThen_exact.
Print Assumptions C05_andThenStatic.
Print Assumptions C05_take_exact.
Print Assumptions C05_take_negative.
