From Coq Require Import List ZArith Lia Bool Permutation.
From Verif Require Import Base TreeModel TreeSpec.
Import ListNotations.

Section Ind.
  Context {A : Type}.
  Variable P : tree A -> Prop.
  Hypothesis H : forall a ts, Forall P ts -> P (Node a ts).
  Fixpoint tree_ind' (t : tree A) : P t :=
    match t with
    | Node a ts => H a ts ((fix go (l : list (tree A)) : Forall P l :=
                              match l with
                              | [] => Forall_nil _
                              | x :: r => Forall_cons _ (tree_ind' x) (go r)
                              end) ts)
    end.
End Ind.

(* generic list facts *)
Lemma map_ext_Forall : forall {A B} (f g : A -> B) l, Forall (fun x => f x = g x) l -> map f l = map g l.
Proof. induction 1; simpl; congruence. Qed.

Lemma flat_map_map_l : forall {A B C} (f : A -> B) (g : B -> list C) l,
  flat_map g (map f l) = flat_map (fun x => g (f x)) l.
Proof. induction l; simpl; congruence. Qed.

Lemma map_flat_map : forall {A B C} (f : B -> C) (g : A -> list B) l,
  map f (flat_map g l) = flat_map (fun x => map f (g x)) l.
Proof. induction l; simpl; auto. rewrite map_app. congruence. Qed.

Lemma flat_map_ext_Forall : forall {A B} (f g : A -> list B) l,
  Forall (fun x => f x = g x) l -> flat_map f l = flat_map g l.
Proof. induction 1; simpl; congruence. Qed.

Lemma filter_app' : forall {A} (f : A -> bool) l l', filter f (l ++ l') = filter f l ++ filter f l'.
Proof. induction l; simpl; intros; auto. destruct (f a); simpl; rewrite IHl; auto. Qed.

Lemma filter_flat_map : forall {A B} (f : B -> bool) (g : A -> list B) l,
  filter f (flat_map g l) = flat_map (fun x => filter f (g x)) l.
Proof. induction l; simpl; auto. rewrite filter_app'. congruence. Qed.

Lemma flat_map_app' : forall {A B} (f : A -> list B) l l', flat_map f (l ++ l') = flat_map f l ++ flat_map f l'.
Proof. induction l; simpl; intros; auto. rewrite IHl, app_assoc; auto. Qed.

(* reach *)
Lemma reach_trans : forall A (t u v : tree A), reach t u -> reach u v -> reach t v.
Proof. induction 1; auto. intros. econstructor; eauto. Qed.

Lemma reach_one : forall A (t c : tree A), In c (shrinks t) -> reach t c.
Proof. intros. econstructor; eauto. constructor. Qed.

Lemma reach_nodes : forall A (t s : tree A), reach t s <-> In s (nodes t).
Proof.
  split.
  - induction 1.
    + destruct t; simpl; auto.
    + destruct t; simpl in *. right. apply in_flat_map. eauto.
  - revert s. induction t using tree_ind'. simpl. intros s [<-|Hin]; [constructor|].
    apply in_flat_map in Hin. destruct Hin as [c [Hc Hs]].
    rewrite Forall_forall in H. econstructor; [|eapply H; eauto]. exact Hc.
Qed.

Lemma nodes_values : forall A (t : tree A), map root (nodes t) = values t.
Proof.
  intros *; induction t using tree_ind'. simpl. f_equal. rewrite map_flat_map.
  apply flat_map_ext_Forall. auto.
Qed.

Lemma reach_values : forall A (t : tree A) v, In v (values t) <-> exists s, reach t s /\ root s = v.
Proof.
  intros. rewrite <- nodes_values, in_map_iff. split; intros [s [H1 H2]]; exists s.
  - rewrite reach_nodes; auto.
  - rewrite <- reach_nodes; auto.
Qed.

Lemma all_values_values : forall A (P : A -> Prop) t, all_values P t <-> Forall P (values t).
Proof.
  intros. rewrite Forall_forall. split; intros H.
  - intros v Hv. apply reach_values in Hv. destruct Hv as [s [Hs <-]]. auto.
  - intros s Hs. apply H. apply reach_values. eauto.
Qed.

Lemma reach_node_at : forall A (t s : tree A), reach t s <-> exists p, node_at t p = Some s.
Proof.
  split.
  - induction 1 as [|t c s Hc Hr [p IH]].
    + exists []. reflexivity.
    + apply In_nth_error in Hc. destruct Hc as [i Hi]. exists (i :: p). simpl.
      destruct t; simpl in *. rewrite Hi. auto.
  - intros [p Hp]. revert t Hp. induction p as [|i p IH]; simpl; intros t Hp.
    + inversion Hp. constructor.
    + destruct t as [a ts]. destruct (nth_error ts i) eqn:E; [|discriminate].
      apply nth_error_In in E. econstructor; eauto.
Qed.

Lemma node_at_app : forall A (t : tree A) p q s, node_at t p = Some s -> node_at t (p ++ q) = node_at s q.
Proof.
  intros A t p. revert t. induction p; simpl; intros t q s H.
  - inversion H; auto.
  - destruct t. destruct (nth_error l a); [eauto|discriminate].
Qed.

(* trees are determined by the values at paths *)
Lemma nth_error_ext : forall A (l l' : list A), (forall i, nth_error l i = nth_error l' i) -> l = l'.
Proof.
  induction l; destruct l'; intros H; auto.
  - specialize (H 0). discriminate.
  - specialize (H 0). discriminate.
  - f_equal. specialize (H 0). simpl in H. congruence.
    apply IHl. intros i. apply (H (S i)).
Qed.

Lemma value_at_ext : forall A (t t' : tree A), (forall p, value_at t p = value_at t' p) -> t = t'.
Proof.
  intros A t. induction t using tree_ind'. destruct t' as [a' ts']. intros Hp.
  pose proof (Hp []) as H0. unfold value_at in H0. simpl in H0. inversion H0; subst a'. f_equal. clear H0.
  apply nth_error_ext. intros i.
  assert (Hi : forall q, value_at (Node a ts) (i :: q) = value_at (Node a ts') (i :: q)) by (intros; apply Hp).
  unfold value_at in Hi. simpl in Hi.
  destruct (nth_error ts i) eqn:E; destruct (nth_error ts' i) eqn:E'; auto.
  - f_equal. apply nth_error_In in E. rewrite Forall_forall in H. apply H; auto.
  - specialize (Hi []). simpl in Hi. discriminate.
  - specialize (Hi []). simpl in Hi. discriminate.
Qed.

(* map *)
Lemma node_at_map : forall A B (f : A -> B) t p,
  node_at (map_tree f t) p = option_map (map_tree f) (node_at t p).
Proof.
  intros A B f t p. revert t. induction p as [|i p IH]; intros [a ts]; simpl; auto.
  rewrite nth_error_map. destruct (nth_error ts i); simpl; auto.
Qed.

Lemma root_map : forall A B (f : A -> B) t, root (map_tree f t) = f (root t).
Proof. destruct t; auto. Qed.

Lemma shrinks_map : forall A B (f : A -> B) t, shrinks (map_tree f t) = map (map_tree f) (shrinks t).
Proof. destruct t; auto. Qed.

Lemma value_at_map : forall A B (f : A -> B) t p, value_at (map_tree f t) p = option_map f (value_at t p).
Proof.
  intros. unfold value_at. rewrite node_at_map. destruct (node_at t p); simpl; auto. rewrite root_map; auto.
Qed.

Lemma flatMap_is_map : forall A B (f : A -> tree B) t, flatMap_tree f t = map_tree (fun a => root (f a)) t.
Proof.
  intros *; induction t using tree_ind'. simpl. unfold with_; simpl. f_equal. apply map_ext_Forall; auto.
Qed.

Lemma node_at_mapShrinkable : forall A B (f : tree A -> tree B) t p,
  node_at (mapShrinkable f t) p = option_map (mapShrinkable f) (node_at t p).
Proof.
  intros A B f t p. revert t. induction p as [|i p IH]; intros [a ts]; simpl; auto.
  rewrite nth_error_map. destruct (nth_error ts i); simpl; auto.
Qed.

Lemma value_at_mapShrinkable : forall A B (f : tree A -> tree B) t p,
  value_at (mapShrinkable f t) p = option_map (fun s => root (f s)) (node_at t p).
Proof.
  intros. unfold value_at. rewrite node_at_mapShrinkable. destruct (node_at t p) as [[? ?]|]; simpl; auto.
Qed.

Lemma map_tree_id : forall A (t : tree A), map_tree (fun x => x) t = t.
Proof.
  intros *; induction t using tree_ind'. simpl. unfold with_; simpl. f_equal.
  rewrite <- (map_id ts) at 2. apply map_ext_Forall; auto.
Qed.

Lemma map_tree_comp : forall A B C (f : A -> B) (g : B -> C) t,
  map_tree g (map_tree f t) = map_tree (fun x => g (f x)) t.
Proof.
  intros *; induction t using tree_ind'. simpl. unfold with_; simpl. f_equal.
  rewrite map_map. apply map_ext_Forall; auto.
Qed.

Lemma map_tree_ext : forall A B (f g : A -> B) t, (forall a, In a (values t) -> f a = g a) ->
  map_tree f t = map_tree g t.
Proof.
  intros *; induction t using tree_ind'. intros Hv. simpl. unfold with_; simpl. f_equal.
  - apply Hv. simpl; auto.
  - apply map_ext_Forall. rewrite Forall_forall in *. intros c Hc. apply H; auto.
    intros b Hb. apply Hv. simpl. right. apply in_flat_map; eauto.
Qed.

Lemma values_map : forall A B (f : A -> B) t, values (map_tree f t) = map f (values t).
Proof.
  intros *; induction t using tree_ind'. simpl. f_equal. rewrite flat_map_map_l, map_flat_map.
  apply flat_map_ext_Forall; auto.
Qed.

Lemma reach_map : forall A B (f : A -> B) t s, reach t s -> reach (map_tree f t) (map_tree f s).
Proof.
  induction 1. constructor. econstructor; eauto. rewrite shrinks_map. apply in_map; auto.
Qed.

Lemma reach_map_inv : forall A B (f : A -> B) t s', reach (map_tree f t) s' ->
  exists s, reach t s /\ s' = map_tree f s.
Proof.
  intros A B f t s' H. remember (map_tree f t) as u eqn:E. revert t E.
  induction H as [u|u c s Hc Hr IH]; intros t ->.
  - exists t; split; auto; constructor.
  - rewrite shrinks_map in Hc. apply in_map_iff in Hc. destruct Hc as [c0 [<- Hc0]].
    destruct (IH c0 eq_refl) as [s0 [H1 H2]]. exists s0; split; auto. econstructor; eauto.
Qed.

(* filter *)
Definition fstream_of {A} (crit : A -> bool) :=
  fix fstream (ts : list (tree A)) : res (list (tree A)) :=
    match ts with
    | [] => Ok []
    | s :: r => if crit (root s)
                then do s' <- filter_tree crit s; do r' <- fstream r; Ok (s' :: r')
                else fstream r
    end.

Lemma filter_tree_eq : forall A (crit : A -> bool) a ts,
  filter_tree crit (Node a ts) =
  if negb (crit a) then Throw EInvalidArgument
  else do ts' <- fstream_of crit ts; Ok (Node a ts').
Proof. reflexivity. Qed.

Lemma filter_false_nil : forall A (l : list A), filter (fun _ => false) l = [].
Proof. induction l; auto. Qed.

Lemma filter_ext' : forall A (f g : A -> bool) l, (forall a, f a = g a) -> filter f l = filter g l.
Proof. intros. induction l; simpl; auto. rewrite H, IHl; auto. Qed.

Lemma filter_map_comm : forall A B (f : A -> B) (p : B -> bool) l,
  filter p (map f l) = map f (filter (fun x => p (f x)) l).
Proof. induction l; simpl; auto. destruct (p (f a)); simpl; congruence. Qed.

Lemma walks_rejected : forall A (crit : A -> bool) t, crit (root t) = false ->
  filter (forallb crit) (walks t) = [].
Proof.
  intros A crit [a ts] H. simpl in *. rewrite H. simpl. rewrite filter_map_comm.
  rewrite (filter_ext' _ _ (fun _ => false)). rewrite filter_false_nil; auto.
  intros l. simpl. rewrite H. auto.
Qed.

Lemma filter_tree_ok : forall A (crit : A -> bool) t, crit (root t) = true ->
  exists t', filter_tree crit t = Ok t' /\ root t' = root t
             /\ walks t' = filter (forallb crit) (walks t).
Proof.
  intros A crit. induction t as [a ts IH] using tree_ind'. intros Hc. simpl root in Hc.
  rewrite filter_tree_eq, Hc. simpl negb. cbv iota.
  assert (Hs : exists ts', fstream_of crit ts = Ok ts'
               /\ flat_map walks ts' = filter (forallb crit) (flat_map walks ts)).
  { clear Hc. induction IH as [|s r Hs Hr IHr].
    - exists []. auto.
    - destruct IHr as [r' [E1 E2]]. simpl. destruct (crit (root s)) eqn:Ec.
      + destruct (Hs eq_refl) as [s' [E3 [E4 E5]]]. rewrite E3. simpl. fold (fstream_of crit).
        rewrite E1. simpl. exists (s' :: r'). split; auto. simpl.
        rewrite filter_app', <- E5, <- E2. auto.
      + fold (fstream_of crit). rewrite E1. exists r'. split; auto.
        rewrite filter_app', walks_rejected by auto. auto. }
  destruct Hs as [ts' [E1 E2]]. rewrite E1. simpl. exists (Node a ts'). split; [auto|]. split; [auto|].
  simpl. rewrite Hc. simpl. f_equal. rewrite E2. rewrite filter_map_comm.
  f_equal. apply filter_ext'. intros l. simpl. rewrite Hc. auto.
Qed.

Lemma filter_tree_throws : forall A (crit : A -> bool) t, crit (root t) = false ->
  filter_tree crit t = Throw EInvalidArgument.
Proof. intros A crit [a ts] H. simpl in *. rewrite H. auto. Qed.

Lemma values_walks : forall A (t : tree A) d, map (fun w => last w d) (walks t) = values t.
Proof.
  intros A t. induction t as [a ts IH] using tree_ind'. intros d. simpl. f_equal. rewrite map_map.
  rewrite map_flat_map. apply flat_map_ext_Forall. rewrite Forall_forall in *. intros c Hc.
  rewrite <- (IH c Hc d). apply map_ext_in. intros w Hw.
  assert (w <> []). { destruct c; simpl in Hw. destruct Hw as [<-|Hw]; [discriminate|].
    apply in_map_iff in Hw. destruct Hw as [w' [<- _]]. discriminate. }
  simpl. destruct w; congruence.
Qed.

Lemma In_last : forall A (l : list A) d, l <> [] -> In (last l d) l.
Proof.
  induction l; intros d H; [congruence|]. simpl. destruct l; auto. right. apply IHl. discriminate.
Qed.

Lemma walks_nonempty : forall A (t : tree A) w, In w (walks t) -> w <> [].
Proof.
  intros A [a ts] w; simpl. intros [<-|H]; [discriminate|].
  apply in_map_iff in H. destruct H as [w' [<- _]]. discriminate.
Qed.

Lemma filter_tree_sound : forall A (crit : A -> bool) t t', filter_tree crit t = Ok t' ->
  Forall (fun v => crit v = true /\ In v (values t)) (values t').
Proof.
  intros A crit t t' H.
  assert (Hc : crit (root t) = true).
  { destruct (crit (root t)) eqn:E; auto. rewrite filter_tree_throws in H by auto. discriminate. }
  destruct (filter_tree_ok A crit t Hc) as [t2 [E [_ E2]]]. rewrite E in H. inversion H; subst t2.
  apply Forall_forall. intros v Hv.
  rewrite <- (values_walks _ t' (root t)) in Hv. apply in_map_iff in Hv. destruct Hv as [w [Hw Hin]].
  rewrite E2 in Hin. apply filter_In in Hin. destruct Hin as [Hin Hall].
  assert (Hne : w <> []) by (eapply walks_nonempty; eauto).
  split.
  - rewrite forallb_forall in Hall. apply Hall. subst v. apply In_last; auto.
  - rewrite <- (values_walks _ t (root t)). apply in_map_iff. eauto.
Qed.

(* filter with tolerance *)
Lemma survivors_accept : forall A (crit : A -> bool) tol t, crit (root t) = true -> survivors crit tol t = [t].
Proof. intros A crit tol [a ts] H. simpl in *. rewrite H. auto. Qed.

Lemma survivors_reject : forall A (crit : A -> bool) tol t, crit (root t) = false ->
  survivors crit tol t = flat_map (survivors crit tol) (stake tol (shrinks t)).
Proof.
  intros A crit tol [a ts] H. simpl in *. rewrite H. generalize tol at 2 4. clear H.
  induction ts; intros k; simpl; auto. destruct (k =? 0)%Z; simpl; auto. rewrite IHts. auto.
Qed.

Definition tsizes {A} (l : list (tree A)) : nat := list_sum (map tsize l).

Lemma tsizes_app : forall A (l l' : list (tree A)), tsizes (l ++ l') = tsizes l + tsizes l'.
Proof. intros. unfold tsizes. rewrite map_app, list_sum_app. auto. Qed.

Lemma tsizes_stake : forall A (l : list (tree A)) n, tsizes (stake n l) <= tsizes l.
Proof.
  induction l; intros n; simpl; auto. destruct (n =? 0)%Z; unfold tsizes in *; simpl; [lia|].
  specialize (IHl (n - 1)%Z). lia.
Qed.

Lemma tsize_eq : forall A (t : tree A), tsize t = S (tsizes (shrinks t)).
Proof. destruct t; auto. Qed.

Lemma filterStream_ok : forall A (crit : A -> bool) tol fuel s, tsizes s < fuel ->
  filterStream fuel crit tol s = Ok (flat_map (survivors crit tol) s).
Proof.
  induction fuel; intros s H; [lia|]. simpl. destruct s as [|t s]; auto.
  destruct (crit (root t)) eqn:E.
  - unfold tsizes in H. simpl in H. rewrite tsize_eq in H. rewrite IHfuel by (unfold tsizes in *; lia).
    simpl. rewrite survivors_accept by auto. auto.
  - unfold tsizes in H. simpl in H. rewrite tsize_eq in H. fold (tsizes s) in H.
    rewrite IHfuel. 2:{ rewrite tsizes_app. pose proof (tsizes_stake _ (shrinks t) tol). lia. }
    simpl. rewrite survivors_reject by auto. rewrite flat_map_app'. auto.
Qed.

Lemma In_stake : forall A (l : list A) n x, In x (stake n l) -> In x l.
Proof.
  induction l; simpl; intros n x H; auto. destruct (n =? 0)%Z; simpl in H; [tauto|].
  destruct H; auto. right; eauto.
Qed.

Lemma survivors_In : forall A (crit : A -> bool) tol t s, In s (survivors crit tol t) ->
  reach t s /\ crit (root s) = true.
Proof.
  intros A crit tol. induction t as [a ts IH] using tree_ind'. intros s Hs.
  destruct (crit a) eqn:E.
  - rewrite survivors_accept in Hs by auto. destruct Hs as [<-|[]]. split; auto. constructor.
  - rewrite survivors_reject in Hs by auto. apply in_flat_map in Hs. destruct Hs as [c [Hc Hs]].
    simpl in Hc. apply In_stake in Hc. rewrite Forall_forall in IH. destruct (IH c Hc s Hs). split; auto.
    econstructor; eauto.
Qed.

Lemma reach_tsize : forall A (t s : tree A), reach t s -> tsize s <= tsize t.
Proof.
  induction 1; auto. rewrite (tsize_eq _ t). apply Nat.le_trans with (1 := IHreach).
  apply in_split in H. destruct H as [l1 [l2 ->]]. rewrite tsizes_app. unfold tsizes. simpl. lia.
Qed.

Lemma child_tsize : forall A (t c : tree A), In c (shrinks t) -> tsize c < tsize t.
Proof.
  intros. rewrite (tsize_eq _ t). apply in_split in H. destruct H as [l1 [l2 ->]].
  rewrite tsizes_app. unfold tsizes. simpl. lia.
Qed.

Lemma mapM_ok : forall A B (f : A -> res B) (P : A -> B -> Prop) l,
  Forall (fun x => exists y, f x = Ok y /\ P x y) l ->
  exists l', mapM f l = Ok l' /\ Forall2 P l l'.
Proof.
  induction 1 as [|x l [y [E HP]] Hl [l' [E' HF]]]; simpl.
  - exists []; auto.
  - rewrite E, E'. simpl. exists (y :: l'). auto.
Qed.

Lemma filter_tol_ok : forall A (crit : A -> bool) tol fuel t, tsize t <= fuel ->
  crit (root t) = true -> exists t', filter_tol fuel crit tol t = Ok t' /\ filtered crit tol t t'.
Proof.
  induction fuel; intros t Hf Hc.
  - destruct t; simpl in Hf; lia.
  - cbn [filter_tol]. rewrite Hc. cbn [negb].
    pose proof (tsize_eq _ t) as Hts.
    rewrite filterStream_ok by lia. cbn [bind].
    destruct (mapM_ok _ _ (filter_tol fuel crit tol) (filtered crit tol)
                (flat_map (survivors crit tol) (shrinks t))) as [l' [E HF]].
    { apply Forall_forall. intros s Hs. apply in_flat_map in Hs. destruct Hs as [c [Hcin Hs]].
      destruct (survivors_In _ _ _ _ _ Hs) as [Hr Hcs]. apply IHfuel; auto.
      pose proof (child_tsize _ _ _ Hcin). pose proof (reach_tsize _ _ _ Hr). lia. }
    rewrite E. cbn [bind]. exists (with_ t l'). split; auto. destruct t as [a ts].
    unfold with_. simpl. constructor; auto.
Qed.

Lemma Forall2_In_r : forall A B (P : A -> B -> Prop) l l' y, Forall2 P l l' -> In y l' ->
  exists x, In x l /\ P x y.
Proof. induction 1; simpl; intros []; subst; eauto. destruct IHForall2 as [? []]; eauto. Qed.

Lemma Forall2_In_l : forall A B (P : A -> B -> Prop) l l' x, Forall2 P l l' -> In x l ->
  exists y, In y l' /\ P x y.
Proof. induction 1; simpl; intros []; subst; eauto. destruct IHForall2 as [? []]; eauto. Qed.

Lemma filtered_sound : forall A (crit : A -> bool) tol t' t, filtered crit tol t t' ->
  Forall (fun v => crit v = true /\ In v (values t)) (values t').
Proof.
  intros A crit tol. induction t' as [a' ts' IH] using tree_ind'. intros t H.
  inversion H as [a ts ts2 Hc HF]; subst. simpl. constructor; [simpl; auto|].
  apply Forall_forall. intros v Hv. apply in_flat_map in Hv. destruct Hv as [c' [Hc' Hv]].
  destruct (Forall2_In_r _ _ _ _ _ _ HF Hc') as [s [Hs Hf]].
  rewrite Forall_forall in IH. specialize (IH c' Hc' s Hf). rewrite Forall_forall in IH.
  destruct (IH v Hv) as [H1 H2]. split; auto. right.
  apply in_flat_map in Hs. destruct Hs as [c [Hcin Hs]]. apply in_flat_map. exists c. split; auto.
  apply survivors_In in Hs. destruct Hs as [Hr _]. apply reach_values in H2. destruct H2 as [u [Hu <-]].
  apply reach_values. exists u. split; auto. eapply reach_trans; eauto.
Qed.

(* plain filtering keeps a subset of what tolerant filtering keeps *)
Lemma filter_tree_inv : forall A (crit : A -> bool) a ts t', filter_tree crit (Node a ts) = Ok t' ->
  crit a = true /\ exists ts', t' = Node a ts' /\
    Forall2 (fun s s' => filter_tree crit s = Ok s') (filter (fun s => crit (root s)) ts) ts'.
Proof.
  intros A crit a ts t' H. rewrite filter_tree_eq in H. destruct (crit a); [|discriminate]. split; auto.
  simpl in H. destruct (fstream_of crit ts) as [ts'| | |] eqn:E; try discriminate. simpl in H.
  inversion H; subst. exists ts'. split; auto. clear H. revert ts' E.
  induction ts as [|s r IH]; simpl; intros ts' E.
  - inversion E. constructor.
  - destruct (crit (root s)).
    + destruct (filter_tree crit s) eqn:Es; try discriminate. simpl in E. fold (fstream_of crit) in E.
      destruct (fstream_of crit r) eqn:Er; try discriminate. simpl in E. inversion E; subst.
      constructor; auto.
    + apply IH. auto.
Qed.

Lemma filtered_complete : forall A (crit : A -> bool) tol t t' u, filtered crit tol t t' ->
  filter_tree crit t = Ok u -> incl (values u) (values t').
Proof.
  intros A crit tol. induction t as [a ts IH] using tree_ind'. intros t' u Hf Hu.
  apply filter_tree_inv in Hu. destruct Hu as [Hc [us [-> Hus]]].
  inversion Hf as [a0 ts0 ts' _ HF]; subst. intros v. simpl. intros [->|Hv]; auto. right.
  apply in_flat_map in Hv. destruct Hv as [s' [Hs' Hv]].
  destruct (Forall2_In_r _ _ _ _ _ _ Hus Hs') as [s [Hs Es]].
  apply filter_In in Hs. destruct Hs as [Hs Hcs].
  assert (Hs2 : In s (flat_map (survivors crit tol) ts)).
  { apply in_flat_map. exists s. split; auto. rewrite survivors_accept by auto. simpl; auto. }
  destruct (Forall2_In_l _ _ _ _ _ _ HF Hs2) as [y [Hy Hfy]].
  apply in_flat_map. exists y. split; auto. rewrite Forall_forall in IH. eapply (IH s); eauto.
Qed.

Lemma survivors_0 : forall A (crit : A -> bool) t,
  survivors crit 0 t = if crit (root t) then [t] else [].
Proof.
  intros. destruct (crit (root t)) eqn:E. apply survivors_accept; auto.
  rewrite survivors_reject by auto. destruct (shrinks t); auto.
Qed.

Lemma flat_map_survivors_0 : forall A (crit : A -> bool) ts,
  flat_map (survivors crit 0) ts = filter (fun s => crit (root s)) ts.
Proof. induction ts; auto. simpl flat_map. rewrite survivors_0, IHts. simpl. destruct (crit (root a)); auto. Qed.

Lemma filtered_0 : forall A (crit : A -> bool) t t', filtered crit 0 t t' -> filter_tree crit t = Ok t'.
Proof.
  intros A crit. induction t as [a ts IH] using tree_ind'. intros t' H.
  inversion H as [a0 ts0 ts' Hc HF]; subst. rewrite flat_map_survivors_0 in HF.
  rewrite filter_tree_eq, Hc. simpl.
  assert (E : fstream_of crit ts = Ok ts').
  { clear H Hc. revert ts' HF. induction IH as [|s r Hs Hr IHr]; intros ts' HF; simpl in *.
    - inversion HF; auto.
    - fold (fstream_of crit). destruct (crit (root s)).
      + inversion HF; subst. rewrite (Hs y), (IHr l'); auto.
      + apply IHr; auto. }
  rewrite E. auto.
Qed.

(* concat *)
Lemma shrinks_concat : forall A thn (t : tree A),
  shrinks (concat_tree thn t) = map (concat_tree thn) (shrinks t) ++ thn t.
Proof. destruct t; auto. Qed.

Lemma root_concat : forall A thn (t : tree A), root (concat_tree thn t) = root t.
Proof. destruct t; auto. Qed.

Lemma node_at_concat : forall A thn (t : tree A) p s, node_at t p = Some s ->
  node_at (concat_tree thn t) p = Some (concat_tree thn s).
Proof.
  intros A thn t p. revert t. induction p as [|i p IH]; intros [a ts] s H; simpl in *.
  - inversion H; auto.
  - destruct (nth_error ts i) eqn:E; [|discriminate].
    rewrite nth_error_app1. 2:{ rewrite map_length. apply nth_error_Some. congruence. }
    rewrite nth_error_map, E. simpl. auto.
Qed.

Lemma node_at_concat_inv : forall A thn (t : tree A) p s', node_at (concat_tree thn t) p = Some s' ->
  (exists s, node_at t p = Some s /\ s' = concat_tree thn s) \/
  (exists q s i r c, p = q ++ (length (shrinks s) + i) :: r /\ node_at t q = Some s /\
       nth_error (thn s) i = Some c /\ node_at c r = Some s').
Proof.
  intros A thn t p. revert t. induction p as [|i p IH]; intros [a ts] s' H.
  - left. simpl in H. inversion H. exists (Node a ts). auto.
  - simpl in H. destruct (Nat.lt_ge_cases i (length ts)) as [Hi|Hi].
    + rewrite nth_error_app1 in H by (rewrite map_length; auto). rewrite nth_error_map in H.
      destruct (nth_error ts i) as [c|] eqn:E; [|discriminate]. simpl in H.
      destruct (IH _ _ H) as [[s [H1 H2]]|[q [s [j [r [d [H1 [H2 [H3 H4]]]]]]]]].
      * left. exists s. simpl. rewrite E. auto.
      * right. exists (i :: q), s, j, r, d. simpl. rewrite E. subst p. auto.
    + right. rewrite nth_error_app2 in H by (rewrite map_length; auto). rewrite map_length in H.
      destruct (nth_error (thn (Node a ts)) (i - length ts)) as [c|] eqn:E; [|discriminate].
      exists [], (Node a ts), (i - length ts), p, c. simpl. split; [f_equal; lia|]. auto.
Qed.

Lemma concatStatic_is : forall A (l : list (tree A)) t, concatStatic l t = concat_tree (fun _ => l) t.
Proof. intros *; induction t using tree_ind'. simpl. f_equal. f_equal. apply map_ext_Forall; auto. Qed.

Lemma Permutation_flat_map_app : forall A B (f g : A -> list B) l,
  Permutation (flat_map (fun x => f x ++ g x) l) (flat_map f l ++ flat_map g l).
Proof.
  induction l; simpl; auto. rewrite <- !app_assoc. apply Permutation_app_head.
  rewrite IHl. rewrite !app_assoc. apply Permutation_app_tail. apply Permutation_app_comm.
Qed.

Lemma Permutation_flat_map_Forall : forall A B (f g : A -> list B) l,
  Forall (fun x => Permutation (f x) (g x)) l -> Permutation (flat_map f l) (flat_map g l).
Proof. induction 1; simpl; auto. apply Permutation_app; auto. Qed.

Lemma flat_map_flat_map : forall A B C (f : A -> list B) (g : B -> list C) l,
  flat_map g (flat_map f l) = flat_map (fun x => flat_map g (f x)) l.
Proof. induction l; simpl; auto. rewrite flat_map_app'. congruence. Qed.

Lemma values_concat : forall A thn (t : tree A),
  Permutation (values (concat_tree thn t)) (values t ++ flat_map (fun s => flat_map values (thn s)) (nodes t)).
Proof.
  intros A thn. induction t as [a ts IH] using tree_ind'. simpl.
  constructor. rewrite flat_map_app'. rewrite flat_map_map_l.
  rewrite (Permutation_flat_map_Forall _ _ _ _ _ IH).
  rewrite Permutation_flat_map_app. rewrite <- !app_assoc. apply Permutation_app_head.
  rewrite flat_map_flat_map. apply Permutation_app_comm.
Qed.

(* andThen *)
Lemma root_andThen : forall A thn (t : tree A), root (andThen thn t) = root t.
Proof. destruct t as [a [|]]; auto. Qed.

Lemma shrinks_andThen : forall A thn (t : tree A),
  shrinks (andThen thn t) = match shrinks t with [] => thn t | _ => map (andThen thn) (shrinks t) end.
Proof. destruct t as [a [|]]; auto. Qed.

Lemma node_at_andThen : forall A thn (t : tree A) p s, node_at t p = Some s ->
  node_at (andThen thn t) p = Some (andThen thn s).
Proof.
  intros A thn t p. revert t. induction p as [|i p IH]; intros [a ts] s H.
  - inversion H; auto.
  - simpl in H. destruct (nth_error ts i) eqn:E; [|discriminate].
    destruct ts as [|c ts]; [destruct i; discriminate|].
    change (andThen thn (Node a (c :: ts))) with (Node a (map (andThen thn) (c :: ts))). cbn [node_at].
    rewrite nth_error_map, E. cbn [option_map]. auto.
Qed.

Lemma node_at_andThen_inv : forall A thn (t : tree A) p s', node_at (andThen thn t) p = Some s' ->
  (exists s, node_at t p = Some s /\ s' = andThen thn s) \/
  (exists q s i r c, p = q ++ i :: r /\ node_at t q = Some s /\ shrinks s = [] /\
       nth_error (thn s) i = Some c /\ node_at c r = Some s').
Proof.
  intros A thn t p. revert t. induction p as [|i p IH]; intros [a ts] s' H.
  - left. simpl in H. inversion H. exists (Node a ts). auto.
  - destruct ts as [|c0 ts].
    + right. simpl in H. destruct (nth_error (thn (Node a [])) i) as [c|] eqn:E; [|discriminate].
      exists [], (Node a []), i, p, c. auto.
    + change (andThen thn (Node a (c0 :: ts))) with (Node a (map (andThen thn) (c0 :: ts))) in H.
      cbn [node_at] in H. rewrite nth_error_map in H.
      destruct (nth_error (c0 :: ts) i) as [c|] eqn:E; [|discriminate]. cbn [option_map] in H.
      destruct (IH _ _ H) as [[s [H1 H2]]|[q [s [j [r [d [H1 [H2 [H3 [H4 H5]]]]]]]]]].
      * left. exists s. cbn [node_at]. rewrite E. auto.
      * right. exists (i :: q), s, j, r, d. cbn [node_at]. rewrite E. subst p. auto.
Qed.

Lemma andThenStatic_is : forall A (l : list (tree A)) t, andThenStatic l t = andThen (fun _ => l) t.
Proof.
  intros *; induction t as [a ts IH] using tree_ind'. destruct ts; auto.
  change (Node a (map (andThenStatic l) (t :: ts)) = Node a (map (andThen (fun _ => l)) (t :: ts))).
  f_equal. apply map_ext_Forall; auto.
Qed.

(* take *)
Lemma shrinks_take : forall A n (t : tree A), shrinks (take_tree n t) = map (take_tree n) (stake n (shrinks t)).
Proof.
  destruct t as [a ts]. simpl. generalize n at 2 4. induction ts; intros k; simpl; auto.
  destruct (k =? 0)%Z; simpl; auto. rewrite IHts. auto.
Qed.

Lemma root_take : forall A n (t : tree A), root (take_tree n t) = root t.
Proof. destruct t; auto. Qed.

Lemma stake_firstn : forall A (l : list A) n, (0 <= n)%Z -> stake n l = firstn (Z.to_nat n) l.
Proof.
  induction l; intros n H; simpl.
  - rewrite firstn_nil; auto.
  - destruct (Z.eqb_spec n 0). subst; auto.
    rewrite IHl by lia. replace (Z.to_nat n) with (S (Z.to_nat (n - 1))) by lia. auto.
Qed.

Lemma stake_neg : forall A (l : list A) n, (n < 0)%Z -> stake n l = l.
Proof.
  induction l; intros n H; simpl; auto. destruct (Z.eqb_spec n 0); [lia|]. rewrite IHl by lia. auto.
Qed.

Lemma nth_error_firstn : forall A (l : list A) n i, nth_error (firstn n l) i = if i <? n then nth_error l i else None.
Proof.
  induction l; intros n i; simpl.
  - rewrite firstn_nil. destruct i; destruct (_ <? n); auto.
  - destruct n; simpl; [destruct i; auto|]. destruct i; simpl; auto. rewrite IHl. reflexivity.
Qed.

Lemma node_at_take : forall A n (t : tree A) p, (0 <= n)%Z ->
  node_at (take_tree n t) p =
    if forallb (fun i => (Z.of_nat i <? n)%Z) p then option_map (take_tree n) (node_at t p) else None.
Proof.
  intros A n t p Hn. revert t. induction p as [|i p IH]; intros t.
  - reflexivity.
  - pose proof (shrinks_take A n t) as Hs. pose proof (root_take A n t). 
    destruct (take_tree n t) as [a' ts'] eqn:Et. destruct t as [a ts]. cbn [node_at shrinks] in *. subst ts'.
    rewrite nth_error_map, stake_firstn, nth_error_firstn by auto. cbn [forallb].
    destruct (Nat.ltb_spec i (Z.to_nat n)); destruct (Z.ltb_spec (Z.of_nat i) n); try lia; cbn [andb]; auto.
    destruct (nth_error ts i); cbn [option_map]; auto. destruct (forallb _ p); auto.
Qed.

Lemma take_tree_neg : forall A n (t : tree A), (n < 0)%Z -> take_tree n t = t.
Proof.
  intros A n t Hn. induction t as [a ts IH] using tree_ind'.
  pose proof (shrinks_take A n (Node a ts)) as H. rewrite stake_neg in H by auto.
  pose proof (root_take A n (Node a ts)). destruct (take_tree n (Node a ts)); simpl in *. subst. f_equal.
  rewrite <- (map_id ts) at 2. apply map_ext_Forall; auto.
Qed.
