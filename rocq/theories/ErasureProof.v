(** Proofs about type erasure: shrinkables computed at once. *)
From Coq Require Import List ZArith Bool Lia.
From Verif Require Import Base TreeModel TreeSpec TreeProof BinSearchModel RandomModel ListModel TupleModel StringModel.
From Verif Require TupleProof.
From Verif Require Import ContainerModel ErasureModel ErasureSpec.
Import ListNotations.
Local Open Scope Z_scope.

Lemma cast_ok : forall A T (a : A), cast T (Obj T a) = Ok a.
Proof. intros. unfold cast. destruct (cty_eqb T T); congruence. Qed.

Lemma cast_other : forall A T T' (a : A), T' <> T -> cast T (Obj T' a) = UB.
Proof. intros. unfold cast. destruct (cty_eqb T' T); congruence. Qed.

Lemma bind_result : forall A B C (f : A -> B) (r : res A) (k : B -> res C), bind (result f r) k = bind r (fun a => k (f a)).
Proof. intros. destruct r; reflexivity. Qed.
Lemma result_bind : forall A B C (f : B -> C) (r : res A) (k : A -> res B), result f (bind r k) = bind r (fun a => result f (k a)).
Proof. intros. destruct r; reflexivity. Qed.
Lemma bind_ext : forall A B (r : res A) (k k' : A -> res B), (forall a, k a = k' a) -> bind r k = bind r k'.
Proof. intros * H. destruct r; cbn; auto. Qed.
Lemma bind_bind : forall A B C (r : res A) (k : A -> res B) (l : B -> res C), bind (bind r k) l = bind r (fun a => bind (k a) l).
Proof. intros. destruct r; reflexivity. Qed.
Lemma bind_Ok : forall A B (f : A -> B) (r : res A), bind r (fun a => Ok (f a)) = result f r.
Proof. intros. destruct r; reflexivity. Qed.
Lemma result_result : forall A B C (f : A -> B) (g : B -> C) r, result g (result f r) = result (fun a => g (f a)) r.
Proof. intros. destruct r; reflexivity. Qed.
Lemma result_ext : forall A B (f g : A -> B) r, (forall a, f a = g a) -> result f r = result g r.
Proof. intros * H. destruct r; cbn; congruence. Qed.

Lemma stored_map : forall A T (t : tree A), stored T t = map_tree (Obj T) t.
Proof.
  intros A T. induction t as [a ts IH] using tree_ind'. cbn. unfold with_, make_shrinkable. cbn. f_equal.
  apply map_ext_in. intros s Hs. rewrite Forall_forall in IH. auto.
Qed.
Lemma root_stored : forall A T (t : tree A), root (stored T t) = Obj T (root t).
Proof. intros A T [a ts]. reflexivity. Qed.
Lemma shrinks_stored : forall A T (t : tree A), shrinks (stored T t) = map (stored T) (shrinks t).
Proof. intros A T [a ts]. reflexivity. Qed.
Lemma stored_with : forall A T (t : tree A) ts, stored T (with_ t ts) = with_ (stored T t) (map (stored T) ts).
Proof. intros A T [a us] ts. reflexivity. Qed.

Lemma mapM_map : forall A B C (f : B -> res C) (g : A -> B) l, mapM f (map g l) = mapM (fun a => f (g a)) l.
Proof. intros. induction l as [|x l IH]; cbn; auto. apply bind_ext. intros y. rewrite IH. auto. Qed.
Lemma mapM_ext : forall A B (f g : A -> res B) l, (forall a, In a l -> f a = g a) -> mapM f l = mapM g l.
Proof.
  intros A B f g l. induction l as [|x l IH]; intros H; auto. cbn. rewrite (H x) by (left; auto). apply bind_ext. intros y.
  rewrite IH; auto. intros a Ha. apply H. right. auto.
Qed.
Lemma mapM_result : forall A B C (f : A -> res B) (h : B -> C) l, mapM (fun a => result h (f a)) l = result (map h) (mapM f l).
Proof.
  intros. induction l as [|x l IH]; cbn; auto. rewrite bind_result, result_bind. apply bind_ext. intros y. rewrite IH.
  rewrite bind_result, result_bind. apply bind_ext. intros ys. reflexivity.
Qed.
Lemma mapM_Ok : forall A B (f : A -> B) l, mapM (fun a => Ok (f a)) l = Ok (map f l).
Proof. intros. induction l as [|x l IH]; cbn; auto. rewrite IH. reflexivity. Qed.

(* operations on trees *)
Lemma flatMapM_ext : forall A B (f g : A -> res (tree B)) t, (forall a, f a = g a) -> flatMapM f t = flatMapM g t.
Proof.
  intros A B f g t H. induction t as [a ts IH] using tree_ind'. cbn. rewrite H. apply bind_ext. intros b.
  rewrite (mapM_ext _ _ (flatMapM f) (flatMapM g)); auto. rewrite Forall_forall in IH. auto.
Qed.

Lemma flatMapE_stored : forall A B T (f : A -> res (tree (obj B))) t, flatMapE T f (stored T t) = flatMapM f t.
Proof.
  intros A B T f t. unfold flatMapE. induction t as [a ts IH] using tree_ind'. cbn [flatMapM stored]. rewrite cast_ok. cbn [bind].
  apply bind_ext. intros b. rewrite mapM_map. rewrite (mapM_ext _ _ _ (flatMapM f)); auto. rewrite Forall_forall in IH. auto.
Qed.

Lemma flatMapM_result : forall A B U (f : A -> res (tree B)) t,
  flatMapM (fun a => result (stored U) (f a)) t = result (stored U) (flatMapM f t).
Proof.
  intros A B U f t. induction t as [a ts IH] using tree_ind'. cbn. rewrite bind_result, result_bind. apply bind_ext. intros b.
  rewrite (mapM_ext _ _ _ (fun s => result (stored U) (flatMapM f s))) by (rewrite Forall_forall in IH; auto).
  rewrite mapM_result, bind_result, result_bind. apply bind_ext. intros us. cbn [result]. rewrite stored_with. reflexivity.
Qed.

Lemma flatMapM_pure : forall A B (f : A -> tree B) t, flatMapM (fun a => Ok (f a)) t = Ok (flatMap_tree f t).
Proof.
  intros A B f t. induction t as [a ts IH] using tree_ind'. cbn.
  rewrite (mapM_ext _ _ _ (fun s => Ok (flatMap_tree f s))) by (rewrite Forall_forall in IH; auto).
  rewrite mapM_Ok. reflexivity.
Qed.

Lemma flatMap_result : forall A B T U (f : A -> res (tree (obj B))) (g : A -> res (tree B)) t,
  (forall a, f a = result (stored U) (g a)) -> flatMapE T f (stored T t) = result (stored U) (flatMapM g t).
Proof. intros * H. rewrite flatMapE_stored, <- flatMapM_result. apply flatMapM_ext. auto. Qed.

Lemma flatMap_stored : forall A B T U (f : A -> res (tree (obj B))) (g : A -> tree B) t,
  (forall a, f a = Ok (stored U (g a))) -> flatMapE T f (stored T t) = Ok (stored U (flatMap_tree g t)).
Proof.
  intros * H. rewrite (flatMap_result _ _ T U f (fun a => Ok (g a))) by auto. rewrite flatMapM_pure. reflexivity.
Qed.

Lemma mapTree_flat : forall A B (f : A -> B) t, flatMap_tree (fun a => make_shrinkable (f a)) t = map_tree f t.
Proof.
  intros A B f t. induction t as [a ts IH] using tree_ind'. cbn. f_equal. apply map_ext_in. rewrite Forall_forall in IH. auto.
Qed.

Lemma mapE_stored : forall A B T U (f : A -> B) t, mapE T U f (stored T t) = Ok (stored U (map_tree f t)).
Proof.
  intros. unfold mapE, mapTreeM.
  rewrite (flatMapM_ext _ _ _ (fun o => do a <- cast T o; Ok (make_shrinkable (Obj U (f a)))))
    by (intros o; rewrite bind_bind; reflexivity).
  change (flatMapM _ _) with (flatMapE T (fun a => Ok (make_shrinkable (Obj U (f a)))) (stored T t)).
  rewrite (flatMap_stored _ _ T U _ (fun a => make_shrinkable (f a))) by auto. rewrite mapTree_flat. reflexivity.
Qed.

Lemma mapTreeM_stored : forall A B T U (f : A -> res B) t,
  mapTreeM (fun o => do a <- cast T o; do b <- f a; Ok (Obj U b)) (stored T t) = result (stored U) (mapTreeM f t).
Proof.
  intros. unfold mapTreeM.
  rewrite (flatMapM_ext _ _ _ (fun o => do a <- cast T o; do b <- f a; Ok (make_shrinkable (Obj U b)))).
  2: { intros o. rewrite bind_bind. apply bind_ext. intros a. rewrite bind_bind. reflexivity. }
  change (flatMapM (fun o => do a <- cast T o; do b <- f a; Ok (make_shrinkable (Obj U b))) (stored T t))
    with (flatMapE T (fun a => do b <- f a; Ok (make_shrinkable (Obj U b))) (stored T t)).
  apply flatMap_result. intros a. rewrite result_bind. reflexivity.
Qed.

Lemma mapShrinkableE_stored : forall A B T U (f : tree (obj A) -> res (tree (obj B))) (g : tree A -> tree B) t,
  (forall u, f (stored T u) = Ok (stored U (g u))) -> mapShrinkableE f (stored T t) = Ok (stored U (mapShrinkable g t)).
Proof.
  intros A B T U f g t H. induction t as [a ts IH] using tree_ind'. cbn [stored mapShrinkableE mapShrinkable].
  change (Node (Obj T a) (map (stored T) ts)) with (stored T (Node a ts)). rewrite H. cbn [bind].
  rewrite mapM_map, (mapM_ext _ _ _ (fun s => Ok (stored U (mapShrinkable g s)))) by (rewrite Forall_forall in IH; auto).
  rewrite mapM_Ok. cbn [bind]. rewrite stored_with, map_map. reflexivity.
Qed.

Lemma boolFunction_ok : forall A T (crit : A -> bool) a, boolFunction T crit (Obj T a) = Ok (crit a).
Proof. intros. unfold boolFunction. rewrite cast_ok. reflexivity. Qed.

Lemma filterE_stored : forall A T (crit : A -> bool) t, filterE T crit (stored T t) = result (stored T) (filter_tree crit t).
Proof.
  intros A T crit t. unfold filterE. induction t as [a ts IH] using tree_ind'. cbn [filterM filter_tree stored]. rewrite boolFunction_ok. cbn [bind].
  destruct (crit a); cbn; auto.
  match goal with |- bind ?x _ = result _ (bind ?y _) => assert (H : x = result (map (stored T)) y) end.
  { induction IH as [|s ts Hs IH IHts]; cbn; auto. rewrite root_stored, boolFunction_ok. cbn. destruct (crit (root s)).
    - rewrite Hs, bind_result, result_bind. apply bind_ext. intros s'. cbn [map] in IHts. rewrite IHts, bind_result, result_bind.
      apply bind_ext. intros r'. reflexivity.
    - exact IHts. }
  rewrite H, bind_result, result_bind. apply bind_ext. intros us. reflexivity.
Qed.

Lemma stake_map : forall A B (f : A -> B) l n, stake n (map f l) = map f (stake n l).
Proof. induction l as [|x l IH]; intros n; auto. cbn. destruct (n =? 0); auto. cbn. rewrite IH. auto. Qed.

Lemma filterStream_stored : forall A T (crit : A -> bool) tol fuel s,
  filterStreamM fuel (boolFunction T crit) tol (map (stored T) s) = result (map (stored T)) (filterStream fuel crit tol s).
Proof.
  intros A T crit tol. induction fuel as [|fuel IH]; intros s; auto. destruct s as [|h s]; auto.
  cbn [filterStreamM filterStream map]. rewrite root_stored, boolFunction_ok. cbn [bind]. destruct (crit (root h)).
  - rewrite IH, bind_result, result_bind. reflexivity.
  - rewrite shrinks_stored, stake_map, <- map_app. apply IH.
Qed.

Lemma filterTolE_stored : forall A T fuel (crit : A -> bool) tol t,
  filterTolE T fuel crit tol (stored T t) = result (stored T) (filter_tol fuel crit tol t).
Proof.
  intros A T fuel crit tol. unfold filterTolE. induction fuel as [|fuel IH]; intros t; auto.
  cbn [filterTolM filter_tol]. rewrite root_stored, boolFunction_ok. cbn [bind]. destruct (crit (root t)); auto. cbn [negb].
  rewrite shrinks_stored, filterStream_stored, bind_result, result_bind. apply bind_ext. intros s.
  rewrite mapM_map, (mapM_ext _ _ _ (fun u => result (stored T) (filter_tol fuel crit tol u))) by auto.
  rewrite mapM_result, bind_result, result_bind. apply bind_ext. intros us. cbn [result]. rewrite stored_with. reflexivity.
Qed.

Lemma concatM_stored : forall A T (thn' : tree (obj A) -> res (list (tree (obj A)))) thn t,
  (forall u, thn' (stored T u) = result (map (stored T)) (thn u)) ->
  concatM thn' (stored T t) = result (stored T) (concatM thn t).
Proof.
  intros A T thn' thn t H. induction t as [a ts IH] using tree_ind'. cbn.
  rewrite mapM_map, (mapM_ext _ _ _ (fun u => result (stored T) (concatM thn u))) by (rewrite Forall_forall in IH; auto).
  rewrite mapM_result, bind_result, result_bind. apply bind_ext. intros us.
  change (Node (Obj T a) (map (stored T) ts)) with (stored T (Node a ts)). rewrite H, bind_result, result_bind.
  apply bind_ext. intros more. cbn. rewrite map_app. reflexivity.
Qed.

Lemma andThenM_stored : forall A T (thn' : tree (obj A) -> res (list (tree (obj A)))) thn t,
  (forall u, thn' (stored T u) = result (map (stored T)) (thn u)) ->
  andThenM thn' (stored T t) = result (stored T) (andThenM thn t).
Proof.
  intros A T thn' thn t H. induction t as [a ts IH] using tree_ind'.
  destruct ts as [|u ts].
  - cbn. change (Node (Obj T a) []) with (stored T (Node a [])). rewrite H, bind_result, result_bind. reflexivity.
  - change (stored T (Node a (u :: ts))) with (Node (Obj T a) (map (stored T) (u :: ts))).
    change (andThenM thn (Node a (u :: ts))) with (do ts' <- mapM (andThenM thn) (u :: ts); Ok (Node a ts')).
    change (andThenM thn' (Node (Obj T a) (map (stored T) (u :: ts))))
      with (do ts' <- mapM (andThenM thn') (map (stored T) (u :: ts)); Ok (Node (Obj T a) ts')).
    rewrite mapM_map, (mapM_ext _ _ _ (fun u => result (stored T) (andThenM thn u))) by (rewrite Forall_forall in IH; auto).
    rewrite mapM_result, bind_result, result_bind. reflexivity.
Qed.

Lemma concatM_pure : forall A (thn : tree A -> list (tree A)) t, concatM (fun u => Ok (thn u)) t = Ok (concat_tree thn t).
Proof.
  intros A thn t. induction t as [a ts IH] using tree_ind'. cbn.
  rewrite (mapM_ext _ _ _ (fun s => Ok (concat_tree thn s))) by (rewrite Forall_forall in IH; auto). rewrite mapM_Ok. reflexivity.
Qed.
Lemma andThenM_pure : forall A (thn : tree A -> list (tree A)) t, andThenM (fun u => Ok (thn u)) t = Ok (andThen thn t).
Proof.
  intros A thn t. induction t as [a ts IH] using tree_ind'. destruct ts as [|u ts]; auto.
  change (andThenM (fun u => Ok (thn u)) (Node a (u :: ts))) with (do ts' <- mapM (andThenM (fun u => Ok (thn u))) (u :: ts); Ok (Node a ts')).
  rewrite (mapM_ext _ _ _ (fun s => Ok (andThen thn s))) by (rewrite Forall_forall in IH; auto). rewrite mapM_Ok. reflexivity.
Qed.
Lemma concat_stored : forall A T (thn' : tree (obj A) -> res (list (tree (obj A)))) thn t,
  (forall u, thn' (stored T u) = Ok (map (stored T) (thn u))) ->
  concatM thn' (stored T t) = Ok (stored T (concat_tree thn t)).
Proof. intros * H. rewrite (concatM_stored _ T thn' (fun u => Ok (thn u))) by auto. rewrite concatM_pure. reflexivity. Qed.
Lemma andThen_stored : forall A T (thn' : tree (obj A) -> res (list (tree (obj A)))) thn t,
  (forall u, thn' (stored T u) = Ok (map (stored T) (thn u))) ->
  andThenM thn' (stored T t) = Ok (stored T (andThen thn t)).
Proof. intros * H. rewrite (andThenM_stored _ T thn' (fun u => Ok (thn u))) by auto. rewrite andThenM_pure. reflexivity. Qed.

Lemma take_stored : forall A T n (t : tree A), take_tree n (stored T t) = stored T (take_tree n t).
Proof.
  intros A T n t. induction t as [a ts IH] using tree_ind'. cbn. f_equal.
  generalize n at 2 4. induction IH as [|s ts Hs IH IHts]; intros k; auto. cbn. destruct (k =? 0); auto. cbn. rewrite Hs, IHts. auto.
Qed.

(* shrinkers *)
Lemma sizeRangeE_ok : forall d m, sizeRangeE d m = result (stored CU64) (sizeRange d m).
Proof.
  intros. unfold sizeRangeE, sizeRange, binarySearchE. rewrite bind_bind, result_bind. apply bind_ext. intros t. cbn [bind].
  rewrite <- stored_map, mapE_stored. reflexivity.
Qed.

Lemma shrinkMidE_ok : forall X fuel (cont : list X) minSize frontSize rearSize,
  shrinkMidE fuel cont minSize frontSize rearSize = result (stored CVecAny) (shrinkMid fuel cont minSize frontSize rearSize).
Proof.
  intros X. induction fuel as [|fuel IH]; intros; auto. cbn [shrinkMidE shrinkMid].
  rewrite sizeRangeE_ok, bind_result, result_bind. apply bind_ext. intros range.
  rewrite (flatMap_result _ _ _ CVecAny _ (fun rear =>
                do front <- slice cont 0 frontSize;
                do tail <- slice cont (wrapU 64 (size front - rear)) (size cont);
                Ok (make_shrinkable (front ++ tail)))).
  2: { intros rear. rewrite result_bind. apply bind_ext. intros front. cbv zeta. rewrite cast_ok. cbn [bind]. rewrite result_bind.
       reflexivity. }
  rewrite bind_result, result_bind. apply bind_ext. intros t. apply concatM_stored. intros u.
  rewrite root_stored, cast_ok. cbn [bind]. destruct (_ || _); auto. rewrite IH, bind_result, result_bind. apply bind_ext.
  intros s. rewrite shrinks_stored. reflexivity.
Qed.

Lemma frontAndThenMidE_ok : forall X midE (mid : list X -> Z -> Z -> Z -> res (tree (list X))) fuel cont minSize rearSize,
  (forall c a b d, midE c a b d = result (stored CVecAny) (mid c a b d)) ->
  frontAndThenMidE midE fuel cont minSize rearSize = result (stored CVecAny) (frontAndThenMid mid fuel cont minSize rearSize).
Proof.
  intros X midE mid fuel cont minSize rearSize H. revert cont rearSize. induction fuel as [|fuel IH]; intros; auto.
  cbn [frontAndThenMidE frontAndThenMid].
  rewrite sizeRangeE_ok, bind_result, result_bind. apply bind_ext. intros range.
  rewrite (flatMap_result _ _ _ CVecAny _ (fun front =>
                do head <- slice cont 0 front;
                do tail <- slice cont (wrapU 64 (size cont - rearSize)) (size cont);
                Ok (make_shrinkable (head ++ tail)))).
  2: { intros front. rewrite result_bind. apply bind_ext. intros head. cbv zeta. rewrite cast_ok. cbn [bind]. rewrite result_bind.
       reflexivity. }
  rewrite bind_result, result_bind. apply bind_ext. intros t. apply concatM_stored. intros u.
  rewrite root_stored, cast_ok. cbn [bind]. destruct (_ || _).
  - destruct (_ && _); auto. rewrite H, bind_result, result_bind. apply bind_ext. intros s. rewrite shrinks_stored. reflexivity.
  - rewrite IH, bind_result, result_bind. apply bind_ext. intros s. rewrite shrinks_stored. reflexivity.
Qed.

Lemma membershipwiseE_ok : forall X (cont : list X) minSize,
  shrinkMembershipwiseE cont minSize = result (stored CVecAny) (shrinkMembershipwise cont minSize).
Proof.
  intros. unfold shrinkMembershipwiseE, shrinkMembershipwise, shrinkFrontAndThenMid. apply frontAndThenMidE_ok.
  intros. apply shrinkMidE_ok.
Qed.

Lemma bulkStreamE_ok : forall X (sbE : tree (obj (list (tree X))) -> res (list (tree (obj (list (tree X)))))) sb,
  (forall v, sbE (make_shrinkable (Obj CVecAny v)) = result (map (stored CVecAny)) (sb v)) ->
  forall fuel anc par ancestor parent es, root ancestor = Obj CVecAny anc -> root parent = Obj CVecAny par ->
  bulkStreamE sbE fuel ancestor parent es = result (map (stored CVecAny)) (bulkStream sb fuel anc par es).
Proof.
  intros X sbE sb H. induction fuel as [|fuel IH]; intros anc par ancestor parent es Ha Hp; auto.
  cbn [bulkStreamE bulkStream]. rewrite Ha, Hp, !cast_ok. cbn [bind].
  destruct (size anc =? 0); auto. destruct (negb _); auto. destruct (negb _); auto. destruct (forallb _ _); auto. cbv zeta.
  rewrite H, bind_result, result_bind. apply bind_ext. intros sub.
  rewrite (IH anc (bulkStep anc es)) by auto. rewrite bind_result, result_bind. apply bind_ext. intros rest. reflexivity.
Qed.

Lemma shrinkBulkE_ok : forall X fuel (ancestor : tree (obj (list (tree X)))) anc, root ancestor = Obj CVecAny anc ->
  shrinkBulkE fuel ancestor = result (map (stored CVecAny)) (shrinkBulk fuel anc).
Proof.
  intros X. induction fuel as [|fuel IH]; intros ancestor anc Ha; auto.
  cbn [shrinkBulkE shrinkBulk]. rewrite Ha, cast_ok. cbn [bind]. destruct (_ <? 1); auto. destruct (forallb _ _); auto.
  apply bulkStreamE_ok; auto.
Qed.

Lemma elementwiseE_ok : forall X (shr : tree (list (tree X))),
  shrinkElementwiseE (stored CVecAny shr) = result (map (stored CVecAny)) (shrinkElementwise shr).
Proof.
  intros. unfold shrinkElementwiseE, shrinkElementwise. rewrite root_stored, cast_ok. cbn [bind]. destruct (isEmpty _); auto.
  destruct (_ <? 1); auto.
  rewrite (concatM_stored _ CVecAny _ (fun s => if size (root s) / 1 <? 1 then Ok [] else shrinkBulk (bulkFuel (root s)) (root s))).
  - rewrite bind_result, result_bind. apply bind_ext. intros t. rewrite shrinks_stored. reflexivity.
  - intros u. rewrite root_stored, cast_ok. cbn [bind]. destruct (_ <? 1); auto. apply shrinkBulkE_ok. apply root_stored.
Qed.

(* Renaming the values commutes with the shrinkers of vectors. *)
Lemma map_tree_eq : forall X Y (k : X -> Y) a ts, map_tree k (Node a ts) = Node (k a) (map (map_tree k) ts).
Proof. reflexivity. Qed.
Lemma root_map : forall X Y (k : X -> Y) t, root (map_tree k t) = k (root t).
Proof. intros X Y k [a ts]. reflexivity. Qed.
Lemma shrinks_map : forall X Y (k : X -> Y) t, shrinks (map_tree k t) = map (map_tree k) (shrinks t).
Proof. intros X Y k [a ts]. reflexivity. Qed.
Lemma map_tree_with : forall X Y (k : X -> Y) t ts, map_tree k (with_ t ts) = with_ (map_tree k t) (map (map_tree k) ts).
Proof. intros X Y k [a us] ts. reflexivity. Qed.

Lemma flatMapM_rename : forall A X Y (k : X -> Y) (f' : A -> res (tree Y)) (f : A -> res (tree X)) t,
  (forall a, f' a = result (map_tree k) (f a)) -> flatMapM f' t = result (map_tree k) (flatMapM f t).
Proof.
  intros A X Y k f' f t H. induction t as [a ts IH] using tree_ind'. cbn [flatMapM]. rewrite H, bind_result, result_bind.
  apply bind_ext. intros b.
  rewrite (mapM_ext _ _ _ (fun s => result (map_tree k) (flatMapM f s))) by (rewrite Forall_forall in IH; auto).
  rewrite mapM_result, bind_result, result_bind. apply bind_ext. intros us. cbn [result]. rewrite map_tree_with. reflexivity.
Qed.

Lemma concatM_rename : forall X Y (k : X -> Y) (thn' : tree Y -> res (list (tree Y))) thn t,
  (forall u, thn' (map_tree k u) = result (map (map_tree k)) (thn u)) ->
  concatM thn' (map_tree k t) = result (map_tree k) (concatM thn t).
Proof.
  intros X Y k thn' thn t H. induction t as [a ts IH] using tree_ind'. rewrite map_tree_eq. cbn [concatM].
  rewrite mapM_map, (mapM_ext _ _ _ (fun u => result (map_tree k) (concatM thn u))) by (rewrite Forall_forall in IH; auto).
  rewrite mapM_result, bind_result, result_bind. apply bind_ext. intros us.
  rewrite <- map_tree_eq. rewrite H, bind_result, result_bind. apply bind_ext. intros more. cbn [result]. rewrite map_tree_eq, map_app.
  reflexivity.
Qed.

Lemma andThenM_rename : forall X Y (k : X -> Y) (thn' : tree Y -> res (list (tree Y))) thn t,
  (forall u, thn' (map_tree k u) = result (map (map_tree k)) (thn u)) ->
  andThenM thn' (map_tree k t) = result (map_tree k) (andThenM thn t).
Proof.
  intros X Y k thn' thn t H. induction t as [a ts IH] using tree_ind'. rewrite map_tree_eq. destruct ts as [|u ts].
  - cbn [map andThenM]. change (Node (k a) []) with (map_tree k (Node a [])). rewrite H, bind_result, result_bind. reflexivity.
  - change (andThenM thn (Node a (u :: ts))) with (do ts' <- mapM (andThenM thn) (u :: ts); Ok (Node a ts')).
    change (andThenM thn' (Node (k a) (map (map_tree k) (u :: ts))))
      with (do ts' <- mapM (andThenM thn') (map (map_tree k) (u :: ts)); Ok (Node (k a) ts')).
    rewrite mapM_map, (mapM_ext _ _ _ (fun u => result (map_tree k) (andThenM thn u))) by (rewrite Forall_forall in IH; auto).
    rewrite mapM_result, bind_result, result_bind. reflexivity.
Qed.

Section Rename.
  Context {A B : Type}.
  Variable h : A -> B.

  Lemma size_map : forall l, size (map h l) = size l.
  Proof. intros. unfold size. rewrite map_length. auto. Qed.
  Lemma slice_map : forall l a b, slice (map h l) a b = result (map h) (slice l a b).
  Proof. intros. unfold slice. rewrite size_map. destruct (_ && _); auto. cbn [result]. rewrite skipn_map, firstn_map. auto. Qed.

  Lemma shrinkMid_rename : forall fuel cont minSize frontSize rearSize,
    shrinkMid fuel (map h cont) minSize frontSize rearSize
    = result (map_tree (map h)) (shrinkMid fuel cont minSize frontSize rearSize).
  Proof.
    induction fuel as [|fuel IH]; intros; auto. cbn [shrinkMid]. rewrite !size_map.
    rewrite result_bind. apply bind_ext. intros range.
    rewrite (flatMapM_rename _ _ _ (map h) _ (fun rear =>
                do front <- slice cont 0 frontSize;
                do tail <- slice cont (wrapU 64 (size front - rear)) (size cont);
                Ok (make_shrinkable (front ++ tail)))).
    2: { intros rear. rewrite slice_map, bind_result, result_bind. apply bind_ext. intros front.
         rewrite size_map, slice_map, bind_result, result_bind. apply bind_ext. intros tail. rewrite <- map_app. reflexivity. }
    rewrite bind_result, result_bind. apply bind_ext. intros t. apply concatM_rename. intros u.
    rewrite root_map, size_map. destruct (_ || _); auto. rewrite IH, bind_result, result_bind. apply bind_ext. intros s.
    rewrite shrinks_map. reflexivity.
  Qed.

  Lemma frontAndThenMid_rename : forall mid' mid fuel cont minSize rearSize,
    (forall c a b d, mid' (map h c) a b d = result (map_tree (map h)) (mid c a b d)) ->
    frontAndThenMid mid' fuel (map h cont) minSize rearSize
    = result (map_tree (map h)) (frontAndThenMid mid fuel cont minSize rearSize).
  Proof.
    intros mid' mid fuel cont minSize rearSize H. revert cont rearSize. induction fuel as [|fuel IH]; intros; auto.
    cbn [frontAndThenMid]. rewrite !size_map. rewrite result_bind. apply bind_ext. intros range.
    rewrite (flatMapM_rename _ _ _ (map h) _ (fun front =>
                do head <- slice cont 0 front;
                do tail <- slice cont (wrapU 64 (size cont - rearSize)) (size cont);
                Ok (make_shrinkable (head ++ tail)))).
    2: { intros front. rewrite slice_map, bind_result, result_bind. apply bind_ext. intros head.
         rewrite slice_map, bind_result, result_bind. apply bind_ext. intros tail. rewrite <- map_app. reflexivity. }
    rewrite bind_result, result_bind. apply bind_ext. intros t. apply concatM_rename. intros u.
    rewrite root_map, size_map. destruct (_ || _).
    - destruct (_ && _); auto. rewrite H, bind_result, result_bind. apply bind_ext. intros s. rewrite shrinks_map. reflexivity.
    - rewrite IH, bind_result, result_bind. apply bind_ext. intros s. rewrite shrinks_map. reflexivity.
  Qed.

  Lemma membershipwise_rename : forall cont minSize,
    shrinkMembershipwise (map h cont) minSize = result (map_tree (map h)) (shrinkMembershipwise cont minSize).
  Proof.
    intros. unfold shrinkMembershipwise, shrinkFrontAndThenMid. rewrite map_length. apply frontAndThenMid_rename.
    intros. apply shrinkMid_rename.
  Qed.
End Rename.

Section Elements.
  Context {A : Type}.
  Variable T : cty.
  Notation h := (@stored A T).

  Lemma bulkStep_rename : forall anc es, bulkStep (map h anc) (map (map h) es) = map h (bulkStep anc es).
  Proof.
    induction anc as [|a anc IH]; intros [|st es]; auto. cbn. rewrite IH. destruct st; auto.
  Qed.
  Lemma isEmpty_rename : forall es : list (list (tree A)), forallb isEmpty (map (map h) es) = forallb isEmpty es.
  Proof. induction es as [|st es IH]; auto. cbn. rewrite IH. destruct st; auto. Qed.
  Lemma tl_rename : forall es : list (list (tree A)), map (@tl _) (map (map h) es) = map (map h) (map (@tl _) es).
  Proof. intros. rewrite !map_map. apply map_ext. intros [|x l]; auto. Qed.

  Lemma bulkStream_rename : forall sb' sb, (forall v, sb' (map h v) = result (map (map_tree (map h))) (sb v)) ->
    forall fuel anc par es,
    bulkStream sb' fuel (map h anc) (map h par) (map (map h) es) = result (map (map_tree (map h))) (bulkStream sb fuel anc par es).
  Proof.
    intros sb' sb H. induction fuel as [|fuel IH]; intros; auto. cbn [bulkStream]. rewrite !size_map.
    destruct (_ =? 0); auto. destruct (negb _); auto. destruct (negb _); auto. rewrite isEmpty_rename. destruct (forallb _ _); auto.
    rewrite bulkStep_rename, H, bind_result, result_bind. apply bind_ext. intros sub. rewrite tl_rename, IH, bind_result, result_bind.
    reflexivity.
  Qed.

  Lemma shrinks_rename : forall v : list (tree A), map shrinks (map h v) = map (map h) (map shrinks v).
  Proof. intros. rewrite !map_map. apply map_ext. intros t. apply shrinks_stored. Qed.

  Lemma shrinkBulk_rename : forall fuel v, shrinkBulk fuel (map h v) = result (map (map_tree (map h))) (shrinkBulk fuel v).
  Proof.
    induction fuel as [|fuel IH]; intros; auto. cbn [shrinkBulk]. rewrite size_map. destruct (_ <? 1); auto.
    rewrite shrinks_rename, isEmpty_rename. destruct (forallb _ _); auto.
    replace (map (@length _) (map (map h) (map shrinks v))) with (map (@length _) (map shrinks v)).
    2: { rewrite (map_map (map h)). apply map_ext. intros l. rewrite map_length. auto. }
    apply bulkStream_rename. exact IH.
  Qed.

  Lemma tnodes_stored : forall t : tree A, tnodes (h t) = tnodes t.
  Proof.
    induction t as [a ts IH] using tree_ind'. cbn. rewrite map_map. do 2 f_equal. apply map_ext_in. rewrite Forall_forall in IH. auto.
  Qed.
  Lemma bulkFuel_rename : forall v, bulkFuel (map h v) = bulkFuel v.
  Proof. intros. unfold bulkFuel. rewrite map_map. do 2 f_equal. apply map_ext. apply tnodes_stored. Qed.

  Lemma elementwise_rename : forall shr,
    shrinkElementwise (map_tree (map h) shr) = result (map (map_tree (map h))) (shrinkElementwise shr).
  Proof.
    intros. unfold shrinkElementwise. rewrite root_map, size_map.
    replace (isEmpty (map h (root shr))) with (isEmpty (root shr)) by (destruct (root shr); auto).
    destruct (isEmpty _); auto. destruct (_ <? 1); auto.
    rewrite (concatM_rename _ _ (map h) _ (fun s => if size (root s) / 1 <? 1 then Ok [] else shrinkBulk (bulkFuel (root s)) (root s))).
    - rewrite bind_result, result_bind. apply bind_ext. intros t. rewrite shrinks_map. reflexivity.
    - intros u. rewrite root_map, size_map. destruct (_ <? 1); auto. rewrite bulkFuel_rename. apply shrinkBulk_rename.
  Qed.

  Lemma elems_rename : forall vec minSize elementwise,
    shrinkListLike_elems (map h vec) minSize elementwise
    = result (map_tree (map h)) (shrinkListLike_elems vec minSize elementwise).
  Proof.
    intros. unfold shrinkListLike_elems. rewrite membershipwise_rename, bind_result, result_bind. apply bind_ext. intros t.
    destruct elementwise; auto. apply andThenM_rename. apply elementwise_rename.
  Qed.

  Lemma roots_cast : forall v : list (tree A), mapM (fun shr => cast T (root shr)) (map h v) = Ok (map root v).
  Proof.
    intros. rewrite mapM_map, <- mapM_Ok. apply mapM_ext. intros t _. rewrite root_stored, cast_ok. reflexivity.
  Qed.
End Elements.

Lemma map_tree_flat : forall X Y W (k : X -> Y) (f : Y -> tree W) t, flatMap_tree f (map_tree k t) = flatMap_tree (fun x => f (k x)) t.
Proof.
  intros. induction t as [a ts IH] using tree_ind'. rewrite map_tree_eq. cbn [flatMap_tree]. f_equal. rewrite map_map.
  apply map_ext_in. rewrite Forall_forall in IH. auto.
Qed.

(* flatMap over a renamed tree *)
Lemma flatMapE_renamed : forall X Y W T U (k : X -> Y) (f : Y -> res (tree (obj W))) (g : X -> tree W) t,
  (forall x, f (k x) = Ok (stored U (g x))) -> flatMapE T f (stored T (map_tree k t)) = Ok (stored U (flatMap_tree g t)).
Proof.
  intros * H. rewrite flatMapE_stored. induction t as [a ts IH] using tree_ind'. rewrite map_tree_eq. cbn [flatMapM flatMap_tree].
  rewrite H. cbn [bind]. rewrite mapM_map, (mapM_ext _ _ _ (fun u => Ok (stored U (flatMap_tree g u)))) by (rewrite Forall_forall in IH; auto).
  rewrite mapM_Ok. cbn [bind]. rewrite stored_with, map_map. reflexivity.
Qed.

Lemma listLikeE_ok : forall A L T (elems : list (tree A)) minSize elementwise,
  shrinkListLikeE L T (map (stored T) elems) minSize elementwise
  = result (stored (L T)) (shrinkListLike elems minSize elementwise).
Proof.
  intros. unfold shrinkListLikeE. rewrite membershipwiseE_ok, bind_result.
  assert (H : forall t, (if elementwise then andThenM shrinkElementwiseE (stored CVecAny t) else Ok (stored CVecAny t))
              = result (stored CVecAny) (if elementwise then andThenM (@shrinkElementwise (obj A)) t else Ok t)).
  { intros t. destruct elementwise; auto. apply andThenM_stored. apply elementwiseE_ok. }
  rewrite (bind_ext _ _ _ _ (fun t => do t' <- (if elementwise then andThenM (@shrinkElementwise (obj A)) t else Ok t);
      flatMapE CVecAny (fun v => do l <- mapM (fun shr => cast T (root shr)) v; Ok (make_shrinkable (Obj (L T) l))) (stored CVecAny t')))
    by (intros t; rewrite H, bind_result; reflexivity).
  rewrite <- bind_bind. match goal with |- bind ?x _ = _ => change x with (shrinkListLike_elems (map (stored T) elems) minSize elementwise) end.
  unfold shrinkListLike. rewrite elems_rename, bind_result, result_bind. apply bind_ext. intros t.
  apply (flatMapE_renamed _ _ _ CVecAny (L T)). intros v. rewrite roots_cast. reflexivity.
Qed.

Lemma fold_roots : forall A S (f : A -> S -> S) (v : list (tree A)) s,
  fold_left (fun s e => f e s) (map root v) s = fold_left (fun s e => f (root e) s) v s.
Proof. intros. revert s. induction v as [|x v IH]; intros; cbn; auto. Qed.

Lemma containerE_ok : forall A lt T (elems : list (tree A)) minSize,
  shrinkContainerE lt T (map (stored T) elems) minSize = result (stored (CSet T)) (shrinkContainer lt elems minSize).
Proof.
  intros. unfold shrinkContainerE, shrinkContainer. rewrite membershipwiseE_ok, membershipwise_rename, !bind_result, result_bind.
  apply bind_ext. intros t. apply (flatMapE_renamed _ _ _ CVecAny (CSet T)). intros v. rewrite roots_cast. cbn [bind].
  rewrite (fold_roots _ _ (set_insert lt)). reflexivity.
Qed.

Lemma lengthE_ok : forall X L T (elems : list X) minSize,
  shrinkListLikeLengthE L T elems minSize = result (stored (L (CShr T))) (shrinkListLikeLength elems minSize).
Proof.
  intros. unfold shrinkListLikeLengthE, shrinkListLikeLength. rewrite sizeRangeE_ok, bind_result, result_bind. apply bind_ext.
  intros range. apply flatMap_result. intros n. destruct (n =? 0); auto. rewrite result_bind. reflexivity.
Qed.

Lemma mapE_pairs : forall K V CK CV (m : list (tree K * tree V)),
  mapM (fun e => do k <- cast CK (root (fst e)); do x <- cast CV (root (snd e)); Ok (k, x))
       (map (fun e => (stored CK (fst e), stored CV (snd e))) m)
  = Ok (map (fun e => (root (fst e), root (snd e))) m).
Proof.
  intros. rewrite mapM_map, <- mapM_Ok. apply mapM_ext. intros [k x] _. cbn [fst snd]. rewrite !root_stored, !cast_ok. reflexivity.
Qed.

Lemma mapShrE_ok : forall K V lt CK CV (m : list (tree K * tree V)) minSize,
  shrinkMapE lt CK CV (map (fun e => (stored CK (fst e), stored CV (snd e))) m) minSize
  = result (stored (CMap CK CV)) (shrinkMap lt m minSize).
Proof.
  intros. unfold shrinkMapE, shrinkMap. rewrite size_map, sizeRangeE_ok, bind_result, result_bind. apply bind_ext. intros range.
  set (h := fun e : tree K * tree V => (stored CK (fst e), stored CV (snd e))).
  rewrite (flatMap_stored _ _ CU64 (CMap (CShr CK) (CShr CV)) _
             (fun n => make_shrinkable (map h (if n =? 0 then [] else map_prefix m n)))).
  2: { intros n. unfold map_prefix. destruct (n =? 0); auto. rewrite firstn_map. reflexivity. }
  cbn [bind].
  replace (flatMap_tree (fun n => make_shrinkable (map h (if n =? 0 then [] else map_prefix m n))) range)
    with (map_tree (map h) (flatMap_tree (fun n => if n =? 0 then make_shrinkable [] else make_shrinkable (map_prefix m n)) range)).
  2: { clear. induction range as [a ts IH] using tree_ind'. cbn [flatMap_tree]. rewrite map_tree_with.
       replace (map_tree (map h) (if a =? 0 then make_shrinkable [] else make_shrinkable (map_prefix m a)))
         with (make_shrinkable (map h (if a =? 0 then [] else map_prefix m a))) by (destruct (a =? 0); auto).
       f_equal. rewrite map_map. apply map_ext_in. rewrite Forall_forall in IH. auto. }
  apply (flatMapE_renamed _ _ _ (CMap (CShr CK) (CShr CV)) (CMap CK CV)). intros v. unfold h. rewrite mapE_pairs. cbn [bind].
  f_equal. clear. generalize (@nil (K * V)). induction v as [|e v IH]; intros; [reflexivity|]. exact (IH _).
Qed.

(* pairs *)
Section Pairs.
  Context {X Y : Type}.
  Variables A B : cty.
  Let k (p : tree X * tree Y) := (stored A (fst p), stored B (snd p)).
  Let st (t : tree (tree X * tree Y)) := stored (pairE A B) (map_tree k t).

  Lemma st_map : forall t, st t = map_tree (fun p => Obj (pairE A B) (k p)) t.
  Proof.
    intros t. unfold st. induction t as [a ts IH] using tree_ind'. rewrite !map_tree_eq. cbn [stored]. f_equal. rewrite map_map.
    apply map_ext_in. rewrite Forall_forall in IH. auto.
  Qed.

  Lemma first_ok : forall u, shrinkFirstE A B (st u) = Ok (map st (shrinkFirst u)).
  Proof.
    intros u. unfold shrinkFirstE, st. rewrite root_stored, root_map, cast_ok. cbn [bind k fst snd].
    rewrite (flatMap_stored _ _ A (pairE A B) _ (fun val => make_shrinkable (k (make_shrinkable val, snd (root u))))) by reflexivity.
    cbn [bind]. unfold shrinkFirst. rewrite shrinks_stored. f_equal. destruct (fst (root u)) as [a ts]. cbn [flatMap_tree with_ shrinks].
    rewrite map_map, map_map. apply map_ext. intros t. f_equal.
    induction t as [b us IH] using tree_ind'. cbn [flatMap_tree]. rewrite map_tree_with. f_equal. rewrite map_map. apply map_ext_in.
    rewrite Forall_forall in IH. auto.
  Qed.
  Lemma second_ok : forall u, shrinkSecondE A B (st u) = Ok (map st (shrinkSecond u)).
  Proof.
    intros u. unfold shrinkSecondE, st. rewrite root_stored, root_map, cast_ok. cbn [bind k fst snd].
    rewrite (flatMap_stored _ _ B (pairE A B) _ (fun val => make_shrinkable (k (fst (root u), make_shrinkable val)))) by reflexivity.
    cbn [bind]. unfold shrinkSecond. rewrite shrinks_stored. f_equal. destruct (snd (root u)) as [a ts]. cbn [flatMap_tree with_ shrinks].
    rewrite map_map, map_map. apply map_ext. intros t. f_equal.
    induction t as [b us IH] using tree_ind'. cbn [flatMap_tree]. rewrite map_tree_with. f_equal. rewrite map_map. apply map_ext_in.
    rewrite Forall_forall in IH. auto.
  Qed.

  Lemma concat_st : forall thn' thn t, (forall u, thn' (st u) = Ok (map st (thn u))) -> concatM thn' (st t) = Ok (st (concat_tree thn t)).
  Proof.
    intros thn' thn t H. rewrite !st_map. rewrite (concatM_rename _ _ _ _ (fun u => Ok (thn u))).
    - rewrite concatM_pure. reflexivity.
    - intros u. rewrite <- st_map, H. cbn [result]. f_equal. apply map_ext. apply st_map.
  Qed.

  Lemma pairE_ok : forall (f : tree X) (s : tree Y), shrinkPairE A B (stored A f) (stored B s) = Ok (stored (CPair A B) (shrinkPair f s)).
  Proof.
    intros f s. unfold shrinkPairE.
    change (make_shrinkable (Obj (pairE A B) (stored A f, stored B s))) with (st (make_shrinkable (f, s))).
    rewrite (concat_st _ shrinkFirst) by apply first_ok. cbn [bind]. rewrite (concat_st _ shrinkSecond) by apply second_ok. cbn [bind].
    unfold shrinkPair, st. apply (flatMapE_renamed _ _ _ (pairE A B) (CPair A B)). intros p. cbn [k fst snd].
    rewrite !root_stored, !cast_ok. reflexivity.
  Qed.
End Pairs.

(* tuples *)
Lemma storedAll_nth : forall U us (l : list (tree U)) N,
  nth_error (storedAll us l) N = match nth_error us N, nth_error l N with Some T, Some t => Some (stored T t) | _, _ => None end.
Proof.
  induction us as [|T us IH]; intros [|x l] N; destruct N; cbn; auto. destruct (nth_error us N); auto.
Qed.
Lemma storedAll_set : forall U us (l : list (tree U)) N T x, nth_error us N = Some T ->
  set_nth N (stored T x) (storedAll us l) = storedAll us (set_nth N x l).
Proof.
  induction us as [|T0 us IH]; intros [|y l] N T x Hn; destruct N; cbn in *; try discriminate; try congruence.
  rewrite (IH l N T x) by auto. auto.
Qed.
Lemma getTuple_ok : forall U ts (l : list (tree U)), getTuple ts (storedAll ts l) = Ok (firstn (length ts) (map root l)).
Proof.
  induction ts as [|T ts IH]; intros [|x l]; auto. cbn [storedAll getTuple]. rewrite root_stored, cast_ok. cbn [bind]. rewrite IH. reflexivity.
Qed.

Section Tuples.
  Context {U : Type}.
  Variable ts : list cty.
  Let st (t : tree (list (tree U))) := stored (tupleE ts) (map_tree (storedAll ts) t).

  Lemma tst_map : forall t, st t = map_tree (fun p => Obj (tupleE ts) (storedAll ts p)) t.
  Proof.
    intros t. unfold st. induction t as [a us IH] using tree_ind'. rewrite !map_tree_eq. cbn [stored]. f_equal. rewrite map_map.
    apply map_ext_in. rewrite Forall_forall in IH. auto.
  Qed.

  Lemma genStreamE_ok : forall N u, (N < length ts)%nat -> genStreamE ts N (st u) = Ok (map st (genStream N u)).
  Proof.
    intros N u HN. unfold genStreamE, genStream, st. rewrite root_stored, root_map, cast_ok. cbn [bind]. rewrite storedAll_nth.
    apply nth_error_Some in HN. destruct (nth_error ts N) as [T|] eqn:HT; [|congruence].
    destruct (nth_error (root u) N) as [e|]; auto.
    rewrite (flatMap_stored _ _ T (tupleE ts) _ (fun val => make_shrinkable (storedAll ts (set_nth N (make_shrinkable val) (root u))))).
    2: { intros a. rewrite <- (storedAll_set _ _ _ _ T) by auto. reflexivity. }
    cbn [bind]. rewrite shrinks_stored. f_equal. destruct e as [a us]. cbn [flatMap_tree with_ shrinks].
    rewrite map_map, map_map. apply map_ext. intros t. f_equal.
    induction t as [b vs IH] using tree_ind'. cbn [flatMap_tree]. rewrite map_tree_with. f_equal. rewrite map_map. apply map_ext_in.
    rewrite Forall_forall in IH. auto.
  Qed.

  Lemma tconcat_st : forall thn' thn t, (forall u, thn' (st u) = Ok (map st (thn u))) -> concatM thn' (st t) = Ok (st (concat_tree thn t)).
  Proof.
    intros thn' thn t H. rewrite !tst_map. rewrite (concatM_rename _ _ _ _ (fun u => Ok (thn u))).
    - rewrite concatM_pure. reflexivity.
    - intros u. rewrite <- tst_map, H. cbn [result]. f_equal. apply map_ext. apply tst_map.
  Qed.

  Lemma ConcatHelperE_ok : forall rest N t, (N + rest <= length ts)%nat -> ConcatHelperE ts rest N (st t) = Ok (st (ConcatHelper rest N t)).
  Proof.
    induction rest as [|rest IH]; intros N t H; auto. cbn [ConcatHelperE ConcatHelper].
    rewrite (tconcat_st _ (genStream N)) by (intros; apply genStreamE_ok; lia). cbn [bind]. apply IH. lia.
  Qed.

  Lemma tupleE_ok : forall es : list (tree U), length es = length ts ->
    shrinkTupleE ts (storedAll ts es) = Ok (stored (tupleOfTypes ts) (shrinkTuple es)).
  Proof.
    intros es H. unfold shrinkTupleE.
    change (make_shrinkable (Obj (tupleE ts) (storedAll ts es))) with (st (make_shrinkable es)).
    rewrite ConcatHelperE_ok by lia. cbn [bind]. unfold st.
    rewrite (flatMapE_renamed _ _ _ (tupleE ts) (tupleOfTypes ts) _ _ (fun l => make_shrinkable (firstn (length ts) (map root l)))).
    2: { intros l. rewrite getTuple_ok. reflexivity. }
    do 2 f_equal. pose proof (TupleProof.prodT_length _ es) as L. rewrite <- TupleProof.shrinkTuple_ok in L.
    unfold shrinkTuple in *. rewrite H in *. revert L. generalize (ConcatHelper (length ts) 0 (make_shrinkable es)). intros t.
    induction t as [a us IH] using tree_ind'. cbn [flatMap_tree]. intros L.
    assert (L0 : length (map root a) = length ts) by (apply (L _ (reach_refl _))).
    rewrite firstn_all2 by lia. f_equal. apply map_ext_in. intros v Hv. rewrite Forall_forall in IH. apply IH; auto.
    intros x Hx. apply L. eapply reach_step; [|exact Hx]. cbn. apply in_map. auto.
  Qed.
End Tuples.

(* strings *)
Lemma binarySearchUE_ok : forall v, binarySearchUE v = result (stored CU64) (binarySearchU v).
Proof. intros. unfold binarySearchUE. destruct (binarySearchU v); cbn [bind result]; auto. rewrite stored_map. reflexivity. Qed.

Lemma stringFrontE_ok : forall X minSize (t : tree (list X)),
  shrinkStringFrontE minSize (stored CStr t) = result (map (stored CStr)) (shrinkStringFront minSize t).
Proof.
  intros. unfold shrinkStringFrontE, shrinkStringFront. rewrite root_stored, cast_ok. cbn [bind]. destruct (_ =? _); auto.
  rewrite binarySearchUE_ok, bind_result, result_bind. apply bind_ext. intros r.
  rewrite (mapTreeM_stored _ _ CU64 CStr), bind_result, result_bind. apply bind_ext. intros u. rewrite shrinks_stored. reflexivity.
Qed.

Lemma stringE_ok : forall X (str : list X) minSize, shrinkStringE str minSize = result (stored CStr) (shrinkString str minSize).
Proof.
  intros. unfold shrinkStringE, shrinkString. rewrite binarySearchUE_ok, bind_result, result_bind. apply bind_ext. intros r.
  rewrite (mapTreeM_stored _ _ CU64 CStr), bind_result, result_bind. apply bind_ext. intros u. apply concatM_stored. apply stringFrontE_ok.
Qed.

(* elements stored as another type *)
Lemma wrong_listLike : forall A L T U (elems : list (tree A)) m ew t, U <> T ->
  shrinkListLike elems m ew = Ok t -> root t <> [] -> shrinkListLikeE L T (map (stored U) elems) m ew = UB.
Proof.
  intros A L T U elems m ew t HU H Hne. unfold shrinkListLike in H. destruct (shrinkListLike_elems elems m ew) as [e| | |] eqn:He; try discriminate.
  assert (Hr : root e <> []).
  { intros Hr. apply Hne. cbn [bind] in H. destruct e as [v us]. cbn [root] in Hr. subst v. injection H as <-. reflexivity. }
  unfold shrinkListLikeE. rewrite membershipwiseE_ok, bind_result.
  assert (K : forall t, (if ew then andThenM shrinkElementwiseE (stored CVecAny t) else Ok (stored CVecAny t))
              = result (stored CVecAny) (if ew then andThenM (@shrinkElementwise (obj A)) t else Ok t)).
  { intros u. destruct ew; auto. apply andThenM_stored. apply elementwiseE_ok. }
  rewrite (bind_ext _ _ _ _ (fun t => do t' <- (if ew then andThenM (@shrinkElementwise (obj A)) t else Ok t);
      flatMapE CVecAny (fun v => do l <- mapM (fun shr => cast T (root shr)) v; Ok (make_shrinkable (Obj (L T) l))) (stored CVecAny t')))
    by (intros u; rewrite K, bind_result; reflexivity).
  rewrite <- bind_bind. match goal with |- bind ?x _ = _ => change x with (shrinkListLike_elems (map (stored U) elems) m ew) end.
  rewrite elems_rename, He. cbn [result bind]. destruct e as [v us]. cbn [root] in Hr. destruct v as [|x v]; [congruence|].
  rewrite flatMapE_stored, map_tree_eq. cbn [flatMapM map mapM]. rewrite root_stored, cast_other by auto. reflexivity.
Qed.
