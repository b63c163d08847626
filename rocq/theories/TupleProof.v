From Coq Require Import List ZArith Lia Bool Arith Permutation.
From Verif Require Import Base TreeModel TreeSpec TreeProof ListProof ListShapeProof TupleModel TupleSpec.
Import ListNotations.
Local Open Scope nat_scope.

Lemma map_tree_eq : forall A B (f : A -> B) a ts, map_tree f (Node a ts) = Node (f a) (map (map_tree f) ts).
Proof. reflexivity. Qed.

Lemma concat_tree_eq : forall A (thn : tree A -> list (tree A)) a ts,
  concat_tree thn (Node a ts) = Node a (map (concat_tree thn) ts ++ thn (Node a ts)).
Proof. reflexivity. Qed.

(* every node labelled with its own subtree *)
Fixpoint dup {A} (t : tree A) : tree (tree A) := match t with Node a ts => Node (Node a ts) (map dup ts) end.

Lemma dup_root : forall A (t : tree A), root (dup t) = t.
Proof. intros A []; auto. Qed.

Lemma dup_map : forall A (t : tree A), map_tree root (dup t) = t.
Proof.
  intros A. induction t as [a ts IH] using tree_ind'. cbn [dup]. rewrite map_tree_eq. cbn [root]. f_equal. rewrite map_map.
  rewrite <- (map_id ts) at 2. apply map_ext_Forall. auto.
Qed.

Lemma dup_values : forall A (t : tree A), values (dup t) = nodes t.
Proof.
  intros A. induction t as [a ts IH] using tree_ind'. cbn [dup values nodes]. f_equal.
  rewrite flat_map_map_l. apply flat_map_ext_Forall. auto.
Qed.

Lemma dup_shrinks : forall A (t : tree A), shrinks (dup t) = map dup (shrinks t).
Proof. intros A []; auto. Qed.

Lemma dup_steps : forall A (t : tree A) s, reach (dup t) s -> s = dup (root s).
Proof.
  intros A t s H. remember (dup t) as d. revert t Heqd. induction H as [d|d c s Hc Hs IH]; intros t ->.
  - rewrite dup_root. auto.
  - rewrite dup_shrinks in Hc. apply in_map_iff in Hc. destruct Hc as [c0 [<- Hc]]. eapply IH; eauto.
Qed.

(* the product tree, one component at a time *)
Fixpoint snocT {U} (e : tree U) (t : tree (list U)) : tree (list U) :=
  match t with
  | Node us ts => Node (us ++ [root e]) (map (snocT e) ts ++ map (map_tree (fun v => us ++ [v])) (shrinks e))
  end.

Definition prodT {U} (es : list (tree U)) : tree (list U) := fold_left (fun t e => snocT e t) es (Node [] []).

Lemma snocT_natural : forall U V (f : U -> V) e t,
  map_tree (map f) (snocT e t) = snocT (map_tree f e) (map_tree (map f) t).
Proof.
  intros U V f e. induction t as [us ts IH] using tree_ind'. rewrite map_tree_eq. cbn [snocT]. rewrite map_tree_eq, map_app, root_map. cbn [map]. f_equal.
  rewrite map_app, !map_map, shrinks_map, map_map. f_equal.
  - apply map_ext_Forall. auto.
  - apply map_ext. intros c. rewrite !map_tree_comp. apply map_tree_ext. intros; rewrite map_app; auto.
Qed.

Lemma prodT_natural : forall U V (f : U -> V) es, map_tree (map f) (prodT es) = prodT (map (map_tree f) es).
Proof.
  intros U V f es. unfold prodT.
  assert (H : forall t, map_tree (map f) (fold_left (fun t e => snocT e t) es t) =
                        fold_left (fun t e => snocT e t) (map (map_tree f) es) (map_tree (map f) t)).
  { induction es; intros t; simpl; auto. rewrite IHes, snocT_natural. auto. }
  apply (H (Node [] [])).
Qed.

Lemma snocT_values : forall U (e : tree U) t,
  Permutation (values (snocT e t)) (flat_map (fun us => map (fun v => us ++ [v]) (values e)) (values t)).
Proof.
  intros U e. induction t as [us ts IH] using tree_ind'. cbn [snocT values flat_map].
  assert (E : map (fun v => us ++ [v]) (values e) = (us ++ [root e]) :: map (fun v => us ++ [v]) (flat_map values (shrinks e)))
    by (rewrite (values_root_shrinks _ e); auto).
  rewrite E. cbn [app]. constructor.
  rewrite flat_map_app', !flat_map_map_l. rewrite Permutation_app_comm. apply Permutation_app.
  - apply perm_of_eq. rewrite map_flat_map. apply flat_map_ext. intros c. apply values_map.
  - rewrite flat_map_flat_map. apply Permutation_flat_map_Forall. auto.
Qed.

Lemma product_snoc : forall X (ls : list (list X)) l,
  Permutation (product (ls ++ [l])) (flat_map (fun us => map (fun v => us ++ [v]) l) (product ls)).
Proof.
  intros X. induction ls as [|k ls IH]; intros l; simpl.
  - apply perm_of_eq. rewrite app_nil_r. induction l; simpl; auto; f_equal; auto.
  - apply perm_trans with (flat_map (fun x => map (cons x) (flat_map (fun us => map (fun v => us ++ [v]) l) (product ls))) k).
    + apply Permutation_flat_map_Forall. apply Forall_forall. intros x _. apply Permutation_map. apply IH.
    + apply perm_of_eq. rewrite flat_map_flat_map. apply flat_map_ext. intros x. rewrite map_flat_map, flat_map_map_l.
      apply flat_map_ext. intros us. rewrite map_map. auto.
Qed.

Lemma flat_map_perm : forall A B (f : A -> list B) l l', Permutation l l' -> Permutation (flat_map f l) (flat_map f l').
Proof. intros. apply Permutation_flat_map. auto. Qed.

Lemma prodT_snoc : forall U (es : list (tree U)) e, prodT (es ++ [e]) = snocT e (prodT es).
Proof. intros. unfold prodT. rewrite fold_left_app. auto. Qed.

Lemma prodT_values : forall U (es : list (tree U)), Permutation (values (prodT es)) (product (map values es)).
Proof.
  intros U es. induction es as [|e es IH] using rev_ind; [simpl; auto|].
  rewrite prodT_snoc, snocT_values, map_app. simpl map. rewrite product_snoc. apply flat_map_perm. auto.
Qed.

Lemma prodT_root : forall U (es : list (tree U)), root (prodT es) = map root es.
Proof.
  intros U es. induction es as [|e es IH] using rev_ind; auto. rewrite prodT_snoc, map_app.
  destruct (prodT es) as [us ts]. simpl in *. rewrite IH. auto.
Qed.

Lemma prodT_length : forall U (es : list (tree U)), all_values (fun us => length us = length es) (prodT es).
Proof.
  intros U es. apply all_values_values. apply Forall_forall. intros us H.
  apply (Permutation_in _ (prodT_values _ es)) in H. revert us H. induction es as [|e es IH]; simpl; intros us H.
  - destruct H as [<-|[]]. auto.
  - apply in_flat_map in H. destruct H as [x [_ H]]. apply in_map_iff in H. destruct H as [w [<- H]]. simpl. f_equal. auto.
Qed.

(* each step moves one component *)
Definition steps {U} (s : tree (list (tree U))) : Prop :=
  Forall (fun c => one_component_step (root s) (root c)) (shrinks s).

Lemma snocT_root : forall U (e : tree U) t, root (snocT e t) = root t ++ [root e].
Proof. intros U e []; auto. Qed.

Lemma snocT_steps : forall U (e : tree U) (t : tree (list (tree U))), all_nodes steps t -> all_nodes steps (snocT (dup e) t).
Proof.
  intros U e. induction t as [us ts IH] using tree_ind'. intros H s Hr.
  cbn [snocT] in Hr. inversion Hr as [t0 Ht0 Ht1|t0 c s0 Hc Hs0 Ht0 Ht1]; subst.
  - unfold steps. cbn [root shrinks]. apply Forall_app. split.
    + pose proof (H _ (reach_refl _)) as H0. unfold steps in H0. cbn [root shrinks] in H0.
      apply Forall_map. eapply Forall_impl; [|exact H0]. cbv beta. intros c [v1 [x [x' [v2 [E1 [E2 Hin]]]]]].
      rewrite snocT_root. exists v1, x, x', (v2 ++ [root (dup e)]). rewrite E1, E2, <- !app_assoc. auto.
    + apply Forall_map. apply Forall_forall. intros c Hc. rewrite dup_shrinks in Hc. apply in_map_iff in Hc.
      destruct Hc as [c0 [<- Hc]]. rewrite root_map, !dup_root. exists us, e, c0, []. auto.
  - cbn [shrinks] in Hc. apply in_app_iff in Hc. destruct Hc as [Hc|Hc]; apply in_map_iff in Hc; destruct Hc as [c0 [<- Hc]].
    + rewrite Forall_forall in IH. apply (IH _ Hc); auto. intros x Hx. apply H. eapply reach_step; eauto.
    + apply reach_map_inv in Hs0. destruct Hs0 as [s1 [Hs1 ->]]. rewrite dup_shrinks in Hc. apply in_map_iff in Hc.
      destruct Hc as [c1 [<- Hc]]. apply dup_steps in Hs1. rewrite Hs1. unfold steps. rewrite shrinks_map, root_map, dup_root.
      apply Forall_map. rewrite dup_shrinks. apply Forall_map. apply Forall_forall. intros c Hin.
      rewrite root_map, dup_root. exists us, (root s1), c, []. auto.
Qed.

Lemma prodT_steps : forall U (es : list (tree U)), all_nodes steps (prodT (map dup es)).
Proof.
  intros U es. induction es as [|e es IH] using rev_ind.
  - intros s H. unfold prodT in H. simpl in H. inversion H; subst; [constructor|destruct H0].
  - rewrite map_app. simpl map. rewrite prodT_snoc. apply snocT_steps. auto.
Qed.

Lemma map_dup_root : forall U (es : list (tree U)), map (map_tree root) (map dup es) = es.
Proof. intros. rewrite map_map. erewrite map_ext; [apply map_id|]. apply dup_map. Qed.

(* the code computes the product tree *)
Lemma set_nth_map : forall X Y (f : X -> Y) n x l, map f (set_nth n x l) = set_nth n (f x) (map f l).
Proof. induction n; intros x [|y l]; simpl; auto. f_equal. auto. Qed.

Lemma set_nth_mid : forall X (l1 l2 : list X) x y, set_nth (length l1) x (l1 ++ y :: l2) = l1 ++ x :: l2.
Proof. induction l1; intros; simpl; auto. f_equal. auto. Qed.

Lemma skipn_set_nth : forall X (l : list X) n k x, n < k -> skipn k (set_nth n x l) = skipn k l.
Proof.
  induction l as [|y l IH]; intros [|n] [|k] x H; simpl; auto; try lia. apply IH. lia.
Qed.

Definition genStream' {U} (N : nat) (e : tree U) (s : tree (list U)) : list (tree (list U)) :=
  map (map_tree (fun v => set_nth N v (root s))) (shrinks e).

Lemma concat_snoc : forall U (e : tree U) rest N t, all_values (fun us => length us = N) t ->
  concat_tree (genStream' N e) (map_tree (fun us => us ++ root e :: rest) t) =
  map_tree (fun us => us ++ rest) (snocT e t).
Proof.
  intros U e rest N. induction t as [us ts IH] using tree_ind'. intros H. cbn [snocT]. rewrite !map_tree_eq, concat_tree_eq.
  rewrite <- app_assoc. cbn [app]. f_equal. rewrite map_app, !map_map. f_equal.
  - apply map_ext_in. intros c Hc. rewrite Forall_forall in IH. apply IH; auto. intros s Hs. apply H.
    eapply reach_step; eauto.
  - unfold genStream'. cbn [root]. apply map_ext. intros c. rewrite map_tree_comp. apply map_tree_ext. intros v _.
    pose proof (H _ (reach_refl _)) as E. cbn [root] in E. subst N. rewrite set_nth_mid, <- app_assoc. auto.
Qed.

Lemma nth_error_skipn0 : forall X (l : list X) k, nth_error l k = nth_error (skipn k l) 0.
Proof. intros X. induction l as [|x l IH]; intros [|k]; auto. apply IH. Qed.

Lemma genStream_root : forall U N (s : tree (list (tree U))) e, nth_error (root s) N = Some e ->
  map (map_tree (map root)) (genStream N s) = genStream' N e (map_tree (map root) s).
Proof.
  intros U N s e H. unfold genStream, genStream'. rewrite H. rewrite flatMap_is_map, shrinks_map, map_map, root_map.
  apply map_ext. intros c. rewrite map_tree_comp. apply map_tree_ext. intros v _. cbn [make_shrinkable root].
  unfold make_shrinkable. cbn [root]. rewrite set_nth_map. auto.
Qed.

Lemma skipn_S_tl : forall X (l : list X) k x r, skipn k l = x :: r -> skipn (S k) l = r.
Proof.
  intros X. induction l as [|y l IH]; intros [|k] x r H; cbn [skipn] in *; try discriminate; [injection H; auto|].
  destruct l; cbn [skipn] in *; [destruct k; discriminate|]. eapply (IH k); eauto.
Qed.

Lemma ConcatHelper_ok : forall U (es2 es1 : list (tree U)) aggr,
  all_values (fun v => skipn (length es1) v = es2) aggr ->
  map_tree (map root) aggr = map_tree (fun us => us ++ map root es2) (prodT es1) ->
  map_tree (map root) (ConcatHelper (length es2) (length es1) aggr) = prodT (es1 ++ es2).
Proof.
  intros U. induction es2 as [|e es2 IH]; intros es1 aggr Hinv Heq.
  - simpl. rewrite Heq, app_nil_r. erewrite map_tree_ext; [apply map_tree_id|]. intros; apply app_nil_r.
  - cbn [length ConcatHelper].
    assert (Hn : forall s, reach aggr s -> nth_error (root s) (length es1) = Some e).
    { intros s Hs. rewrite nth_error_skipn0, (Hinv s Hs). auto. }
    change (e :: es2) with ([e] ++ es2). rewrite app_assoc.
    replace (S (length es1)) with (length (es1 ++ [e])) by (rewrite app_length; simpl; lia).
    apply IH.
    + intros s' Hs'.
      assert (Hsk : forall v : list (tree U), skipn (length es1) v = e :: es2 -> skipn (length (es1 ++ [e])) v = es2).
      { intros v Hv. rewrite app_length. replace (length es1 + length [e]) with (S (length es1)) by (simpl; lia).
        eapply skipn_S_tl; eauto. }
      apply reach_concat_inv in Hs'. destruct Hs' as [[s [Hs ->]]|[s [c [Hs [Hc Hr]]]]].
      * rewrite root_concat. apply Hsk. apply Hinv; auto.
      * unfold genStream in Hc. rewrite (Hn _ Hs), flatMap_is_map, shrinks_map in Hc. apply in_map_iff in Hc.
        destruct Hc as [c0 [<- Hc]]. apply reach_map_inv in Hr. destruct Hr as [s0 [_ ->]]. rewrite root_map.
        unfold make_shrinkable. cbn [root]. rewrite skipn_set_nth by (rewrite app_length; simpl; lia).
        apply Hsk. apply Hinv; auto.
    + rewrite (concat_natural _ _ _ _ (genStream' (length es1) e)).
      * rewrite Heq. rewrite prodT_snoc. cbn [map]. apply concat_snoc. apply prodT_length.
      * intros s Hs. apply genStream_root. auto.
Qed.

Lemma shrinkTuple_ok : forall U (es : list (tree U)), shrinkTuple es = prodT es.
Proof.
  intros U es. unfold shrinkTuple. rewrite flatMap_is_map. unfold make_shrinkable. cbn [root].
  apply (ConcatHelper_ok U es [] (Node es [])).
  - intros s H. inversion H; subst; auto. destruct H0.
  - reflexivity.
Qed.

(* pairs *)
Fixpoint pairT {A B} (e : tree B) (t : tree A) : tree (A * B) :=
  match t with
  | Node a ts => Node (a, root e) (map (pairT e) ts ++ map (map_tree (fun b => (a, b))) (shrinks e))
  end.

Lemma concat_leaf : forall A (thn : tree A -> list (tree A)) a, concat_tree thn (Node a []) = Node a (thn (Node a [])).
Proof. reflexivity. Qed.

Lemma pair_nodes : forall A B (t : tree A) (e : tree B) (g : A -> tree A),
  (forall a, root (g a) = a) ->
  map_tree (fun p => (root (fst p), root (snd p))) (concat_tree shrinkSecond (map_tree (fun a => (g a, e)) t)) = pairT e t.
Proof.
  intros A B t e g Hg. induction t as [a ts IH] using tree_ind'.
  cbn [pairT]. rewrite map_tree_eq, concat_tree_eq, map_tree_eq. cbn [fst snd]. rewrite Hg. f_equal. rewrite map_app, !map_map. f_equal.
  - apply map_ext_Forall. auto.
  - unfold shrinkSecond. cbn [root fst snd]. rewrite flatMap_is_map, shrinks_map, map_map. apply map_ext. intros c.
    rewrite map_tree_comp. unfold make_shrinkable. cbn [root fst snd]. rewrite Hg. auto.
Qed.

Lemma shrinkPair_ok : forall A B (t : tree A) (e : tree B), shrinkPair t e = pairT e t.
Proof.
  intros A B t e. unfold shrinkPair. rewrite flatMap_is_map. unfold make_shrinkable at 1. cbn [root].
  unfold make_shrinkable. rewrite concat_leaf. destruct t as [a ts].
  rewrite concat_tree_eq, map_tree_eq. cbn [pairT fst snd root]. f_equal. rewrite map_app, !map_map. f_equal.
  - unfold shrinkFirst. cbn [root fst snd]. rewrite flatMap_is_map, shrinks_map. cbn [shrinks]. rewrite map_map.
    apply map_ext. intros c. apply (pair_nodes A B c e (fun a => Node a [])). auto.
  - unfold shrinkSecond. cbn [root fst snd]. rewrite flatMap_is_map, shrinks_map, map_map. apply map_ext. intros c.
    rewrite map_tree_comp. unfold make_shrinkable. cbn [root fst snd]. auto.
Qed.

Lemma pairT_natural : forall A B A' B' (f : A -> A') (g : B -> B') e t,
  map_tree (fun p => (f (fst p), g (snd p))) (pairT e t) = pairT (map_tree g e) (map_tree f t).
Proof.
  intros A B A' B' f g e. induction t as [a ts IH] using tree_ind'. rewrite map_tree_eq. cbn [pairT]. rewrite map_tree_eq. cbn [fst snd]. rewrite root_map. f_equal.
  rewrite map_app, !map_map, shrinks_map, map_map. f_equal; [apply map_ext_Forall; auto|].
  apply map_ext. intros c. rewrite !map_tree_comp. auto.
Qed.

Lemma pairT_values : forall A B (e : tree B) (t : tree A),
  Permutation (values (pairT e t)) (list_prod (values t) (values e)).
Proof.
  intros A B e.
  assert (Hp : forall l l' : list A, list_prod (l ++ l') (values e) = list_prod l (values e) ++ list_prod l' (values e)).
  { induction l; intros l'; simpl; auto. rewrite IHl, app_assoc. auto. }
  induction t as [a ts IH] using tree_ind'. cbn [pairT values list_prod].
  assert (E : map (fun b => (a, b)) (values e) = (a, root e) :: map (fun b => (a, b)) (flat_map values (shrinks e)))
    by (rewrite (values_root_shrinks _ e); auto).
  rewrite E. cbn [app]. constructor.
  rewrite flat_map_app', !flat_map_map_l. rewrite Permutation_app_comm. apply Permutation_app.
  - apply perm_of_eq. rewrite map_flat_map. apply flat_map_ext. intros c. apply values_map.
  - clear -IH Hp. induction IH as [|c ts Hc Hts IH']; simpl; auto. rewrite Hp. apply Permutation_app; auto.
Qed.

Definition psteps {A B} (s : tree (tree A * tree B)) : Prop :=
  Forall (fun c => one_side_step (root s) (root c)) (shrinks s).

Lemma pairT_steps : forall A B (e : tree B) (t : tree A), all_nodes psteps (pairT (dup e) (dup t)).
Proof.
  intros A B e. induction t as [a ts IH] using tree_ind'. intros s Hr. cbn [dup pairT] in Hr.
  inversion Hr as [t0 Ht0 Ht1|t0 c s0 Hc Hs0 Ht0 Ht1]; subst.
  - unfold psteps. cbn [root shrinks]. rewrite dup_root. apply Forall_app. split.
    + rewrite map_map. apply Forall_map. apply Forall_forall. intros c Hc. left. destruct c as [b bs].
      cbn [dup pairT root fst snd shrinks]. rewrite dup_root. auto.
    + apply Forall_map. apply Forall_forall. intros c Hc. rewrite dup_shrinks in Hc. apply in_map_iff in Hc.
      destruct Hc as [c0 [<- Hc]]. rewrite root_map, dup_root. right. auto.
  - cbn [shrinks] in Hc. apply in_app_iff in Hc. destruct Hc as [Hc|Hc]; apply in_map_iff in Hc; destruct Hc as [c0 [<- Hc]].
    + apply in_map_iff in Hc. destruct Hc as [c1 [<- Hc]]. rewrite Forall_forall in IH. apply (IH _ Hc); auto.
    + apply reach_map_inv in Hs0. destruct Hs0 as [s1 [Hs1 ->]]. rewrite dup_shrinks in Hc. apply in_map_iff in Hc.
      destruct Hc as [c1 [<- Hc]]. apply dup_steps in Hs1. rewrite Hs1. unfold psteps. rewrite shrinks_map, root_map, dup_root.
      apply Forall_map. rewrite dup_shrinks. apply Forall_map. apply Forall_forall. intros c Hin.
      rewrite root_map, dup_root. right. auto.
Qed.
