(** Proofs about contexts. *)
From Coq Require Import String Ascii List ZArith Lia Bool NArith.
From Verif Require Import Base ListModel ListSpec ContextModel ContextSpec.
Import ListNotations.
Local Open Scope list_scope.

(* the order of strings *)
Lemma ltb_refl : forall s, String.ltb s s = false.
Proof.
  intros s. unfold String.ltb. assert (H : String.compare s s = Eq); [|rewrite H; auto].
  induction s as [|a s IH]; auto. simpl. unfold Ascii.compare. rewrite N.compare_refl. auto.
Qed.

Lemma ltb_trans : forall a b c, String.ltb a b = true -> String.ltb b c = true -> String.ltb a c = true.
Proof.
  unfold String.ltb. induction a as [|x a IH]; intros b c H1 H2.
  - destruct b as [|y b]; [discriminate|]. destruct c as [|z c]; [discriminate|]. auto.
  - destruct b as [|y b]; [discriminate|]. destruct c as [|z c]; [simpl in H2; discriminate|].
    simpl in *. unfold Ascii.compare in *.
    destruct (N.compare (N_of_ascii x) (N_of_ascii y)) eqn:E1; try discriminate;
    destruct (N.compare (N_of_ascii y) (N_of_ascii z)) eqn:E2; try discriminate.
    + apply N.compare_eq in E1. rewrite E1, E2. eapply IH; eauto.
    + apply N.compare_eq in E1. rewrite E1, E2. auto.
    + apply N.compare_eq in E2. rewrite <- E2, E1. auto.
    + rewrite N.compare_lt_iff in E1, E2. assert (E3 : N.compare (N_of_ascii x) (N_of_ascii z) = Lt) by (apply N.compare_lt_iff; lia).
      rewrite E3. auto.
Qed.

Lemma ltb_total : forall a b, String.ltb a b = false -> String.ltb b a = false -> a = b.
Proof.
  intros a b H1 H2. unfold String.ltb in *. rewrite String.compare_antisym in H2.
  destruct (String.compare a b) eqn:E; simpl in *; try discriminate. apply String.compare_eq_iff. auto.
Qed.

Lemma ltb_strict : strict_order String.ltb.
Proof. constructor; [apply ltb_refl|apply ltb_trans]. Qed.

(* maps *)
Lemma sfind_insert : forall A k k' (a : A) m, sfind k' m = None ->
  sfind k (map_insert String.ltb (k', a) m) = if String.eqb k k' then Some a else sfind k m.
Proof.
  intros A k k' a. induction m as [|[q b] m IH]; intros H; simpl; auto.
  simpl in H. destruct (String.eqb_spec k' q) as [|Hq]; [discriminate|].
  destruct (String.ltb k' q) eqn:E1; simpl; auto.
  destruct (String.ltb q k') eqn:E2; simpl.
  - rewrite IH by auto. destruct (String.eqb_spec k q); auto. destruct (String.eqb_spec k k'); auto. congruence.
  - exfalso. apply Hq. apply ltb_total; auto.
Qed.

Lemma sfind_update : forall A k k' (a : A) m, sfind k' m <> None ->
  sfind k (supdate k' a m) = if String.eqb k k' then Some a else sfind k m.
Proof.
  intros A k k' a. induction m as [|[q b] m IH]; intros H; simpl in *; [congruence|].
  destruct (String.eqb_spec k' q) as [->|Hq]; simpl.
  - destruct (String.eqb_spec k q); auto.
  - rewrite IH by auto. destruct (String.eqb_spec k q); auto. destruct (String.eqb_spec k k'); auto. congruence.
Qed.

Lemma supdate_keys : forall A k (a : A) m, map fst (supdate k a m) = map fst m.
Proof. intros A k a. induction m as [|[q b] m IH]; auto. simpl. destruct (String.eqb k q); simpl; congruence. Qed.

Lemma insert_keys : forall A k (a : A) m x, In x (map fst (map_insert String.ltb (k, a) m)) -> x = k \/ In x (map fst m).
Proof.
  intros A k a. induction m as [|[q b] m IH]; simpl; intros x H; [intuition|].
  destruct (String.ltb k q); [simpl in H; intuition|]. destruct (String.ltb q k); simpl in H; [|intuition].
  destruct H as [H|H]; auto. apply IH in H. intuition.
Qed.

Lemma insert_ascending : forall A k (a : A) m, ascending String.ltb (map fst m) -> ascending String.ltb (map fst (map_insert String.ltb (k, a) m)).
Proof.
  intros A k a. induction m as [|[q b] m IH]; simpl; intros H; [split; auto|].
  destruct (String.ltb k q) eqn:E1; simpl.
  - split; auto. constructor; auto. destruct H as [H _]. eapply Forall_impl; [|exact H]. intros x Hx. eapply ltb_trans; eauto.
  - destruct (String.ltb q k) eqn:E2; simpl; auto. destruct H as [H1 H2]. split; auto.
    apply Forall_forall. intros x Hx. apply insert_keys in Hx. destruct Hx as [->|Hx]; auto.
    rewrite Forall_forall in H1. auto.
Qed.

Fixpoint execs (l : list op) (g : gst) : res gst :=
  match l with [] => Ok g | o :: r => do g' <- exec o g; execs r g' end.

Lemma exec_scope : forall body g, exec (OScope body) g =
  do g2 <- execs body (snd (enter g)); leave (fst (enter g)) g2.
Proof.
  reflexivity.
Qed.

Lemma heap_set_same : forall h id c old, nth_error h id = Some (c, old) -> heap_set id c h = h.
Proof.
  induction h as [|[c0 o0] h IH]; intros [|id] c old H; simpl in *; try discriminate.
  - inversion H; subst; auto.
  - f_equal. eapply IH; eauto.
Qed.

Lemma heap_set_nth : forall h id c c0 old, nth_error h id = Some (c0, old) -> nth_error (heap_set id c h) id = Some (c, old).
Proof.
  induction h as [|[c1 o1] h IH]; intros [|id] c c0 old H; simpl in *; try discriminate.
  - inversion H; subst; auto.
  - eapply IH; eauto.
Qed.

Lemma heap_set_set : forall h id c c', heap_set id c (heap_set id c' h) = heap_set id c h.
Proof. induction h as [|[c1 o1] h IH]; intros [|id] c c'; simpl; auto. f_equal. auto. Qed.

Lemma heap_set_app : forall h ext id c, (id < length h)%nat -> heap_set id c (h ++ ext) = heap_set id c h ++ ext.
Proof. induction h as [|[c1 o1] h IH]; intros ext [|id] c H; simpl in *; try lia; auto. f_equal. apply IH. lia. Qed.

Lemma heap_set_length : forall h id c, length (heap_set id c h) = length h.
Proof. induction h as [|[c1 o1] h IH]; intros [|id] c; simpl; auto. Qed.

Lemma nth_error_lt : forall A (l : list A) n a, nth_error l n = Some a -> (n < length l)%nat.
Proof. intros. apply nth_error_Some. congruence. Qed.

Lemma op_ind' : forall P : op -> Prop,
  (forall f l k v, P (OTag f l k v)) -> (forall ok f m, P (OExpect ok f m)) ->
  (forall body, Forall P body -> P (OScope body)) -> forall o, P o.
Proof.
  intros P H1 H2 H3. fix F 1. intros [f l k v|ok f m|body].
  - apply H1.
  - apply H2.
  - apply H3. induction body as [|o r IH]; constructor; auto.
Qed.

Definition runs_well (o : op) : Prop := forall g id c old, cur g = Some id -> nth_error (heap g) id = Some (c, old) ->
  exists ext, exec o g = Ok {| heap := heap_set id (apply_op o c) (heap g) ++ ext; cur := Some id |}.

Lemma execs_well : forall l, Forall runs_well l -> forall g id c old, cur g = Some id -> nth_error (heap g) id = Some (c, old) ->
  exists ext, execs l g = Ok {| heap := heap_set id (apply_ops l c) (heap g) ++ ext; cur := Some id |}.
Proof.
  induction 1 as [|o l Ho Hl IH]; intros g id c old Hc Hn.
  - exists []. simpl. rewrite app_nil_r. erewrite heap_set_same by eauto. destruct g; simpl in *; subst; auto.
  - destruct (Ho g id c old Hc Hn) as [e1 E1]. cbn [execs]. rewrite E1. cbn [bind].
    pose proof (nth_error_lt _ _ _ _ Hn) as Hlt.
    destruct (IH {| heap := heap_set id (apply_op o c) (heap g) ++ e1; cur := Some id |} id (apply_op o c) old) as [e2 E2]; auto.
    + simpl. rewrite nth_error_app1 by (rewrite heap_set_length; auto). eapply heap_set_nth; eauto.
    + rewrite E2. simpl. rewrite heap_set_app by (rewrite heap_set_length; auto). rewrite heap_set_set, <- app_assoc. eauto.
Qed.

Lemma scope_well : forall body, Forall runs_well body -> forall g,
  exists ext, exec (OScope body) g = Ok {| heap := heap g ++ (apply_ops body newctx, cur g) :: ext; cur := cur g |}.
Proof.
  intros body Hb g. rewrite exec_scope. unfold enter. cbn [fst snd].
  destruct (execs_well body Hb {| heap := heap g ++ [(newctx, cur g)]; cur := Some (length (heap g)) |} (length (heap g)) newctx (cur g)) as [ext E]; auto.
  { simpl. rewrite nth_error_app2, Nat.sub_diag; auto. }
  rewrite E. cbn [bind heap].
  assert (Es : heap_set (length (heap g)) (apply_ops body newctx) (heap g ++ [(newctx, cur g)]) = heap g ++ [(apply_ops body newctx, cur g)]).
  { clear. generalize (apply_ops body newctx) (newctx) (cur g). intros c c0 o. induction (heap g) as [|[x y] h IH]; simpl; auto. f_equal. auto. }
  rewrite Es, <- app_assoc. exists ext. unfold leave. cbn [heap].
  rewrite nth_error_app2, Nat.sub_diag; auto.
Qed.

Lemma all_well : forall o, runs_well o.
Proof.
  induction o as [f l k v|ok f m|body IH] using op_ind'; intros g id c old Hc Hn.
  - exists []. simpl. unfold on_context. rewrite Hc, Hn, app_nil_r. auto.
  - exists []. simpl. unfold on_context at 1. rewrite Hc, Hn. cbn [bind]. unfold on_context. cbn [cur heap].
    erewrite heap_set_nth by eauto. rewrite heap_set_set, app_nil_r. auto.
  - destruct (scope_well body IH g) as [ext E]. rewrite E. exists ((apply_ops body newctx, cur g) :: ext). simpl.
    erewrite heap_set_same by eauto. rewrite Hc. auto.
Qed.

Lemma exec_scope_ok : forall body g,
  exists ext, exec (OScope body) g = Ok {| heap := heap g ++ (apply_ops body newctx, cur g) :: ext; cur := cur g |}.
Proof. intros. apply scope_well. apply Forall_forall. intros. apply all_well. Qed.

(* what a context has recorded *)
Lemma count_tag : forall f l k v c k' v', count_of (ctx_tag f l k v c) k' v' =
  count_of c k' v' + (if String.eqb k' k && String.eqb v' v then 1 else 0).
Proof.
  intros f l k v c k' v'. unfold count_of, ctx_tag. cbn [tags].
  destruct (sfind k (tags c)) as [m|] eqn:Ek.
  - destruct (sfind v m) as [t|] eqn:Ev.
    + rewrite sfind_update by congruence. destruct (String.eqb_spec k' k) as [->|]; cbn [andb].
      * rewrite sfind_update by congruence. rewrite Ek. destruct (String.eqb_spec v' v) as [->|]; simpl; [rewrite Ev; lia|lia].
      * lia.
    + rewrite (@sfind_update (smap tagrec)) by congruence. destruct (String.eqb_spec k' k) as [->|]; cbn [andb].
      * rewrite sfind_insert by auto. rewrite Ek. destruct (String.eqb_spec v' v) as [->|]; simpl; [rewrite Ev; lia|lia].
      * lia.
  - rewrite (@sfind_insert (smap tagrec)) by auto. destruct (String.eqb_spec k' k) as [->|]; cbn [andb].
    + simpl. rewrite Ek. destruct (String.eqb_spec v' v); simpl; lia.
    + lia.
Qed.

Lemma tags_append : forall m c, tags (ctx_append m c) = tags c.
Proof. intros. unfold ctx_append. destruct (lastStreamExists c); auto. Qed.

Lemma tags_expect : forall (ok : bool) f m c, tags (ctx_append m ((if ok then ctx_succeed else ctx_fail f) c)) = tags c.
Proof. intros. rewrite tags_append. destruct ok; auto. Qed.

Lemma count_ops : forall k v body c, count_of (apply_ops body c) k v = count_of c k v + times_tagged k v body.
Proof.
  intros k v. induction body as [|o r IH]; intros c; [simpl; unfold times_tagged; simpl; lia|].
  change (apply_ops (o :: r) c) with (apply_ops r (apply_op o c)). rewrite IH. unfold times_tagged. destruct o as [f l k' v'|ok f m|b]; simpl.
  - rewrite count_tag. destruct (String.eqb k k' && String.eqb v v'); simpl; lia.
  - unfold count_of. rewrite tags_expect. lia.
  - lia.
Qed.

Definition sum_of (m : smap tagrec) : nat := fold_left (fun total v => total + t_count (snd v)) m 0.
Lemma sum_acc : forall (m : smap tagrec) a, fold_left (fun total v => total + t_count (snd v)) m a = a + sum_of m.
Proof.
  unfold sum_of. induction m as [|x m IH]; intros a; simpl; [lia|]. rewrite IH, (IH (t_count (snd x))). lia.
Qed.
Lemma sum_cons : forall x m, sum_of (x :: m) = t_count (snd x) + sum_of m.
Proof. intros. unfold sum_of at 1. simpl. rewrite sum_acc. auto. Qed.

Lemma sum_insert : forall k t m, sfind k m = None -> sum_of (map_insert String.ltb (k, t) m) = t_count t + sum_of m.
Proof.
  intros k t. induction m as [|[q b] m IH]; intros H; simpl; [rewrite sum_cons; auto|].
  simpl in H. destruct (String.eqb_spec k q) as [|Hq]; [discriminate|].
  destruct (String.ltb k q) eqn:E1; [rewrite !sum_cons; auto|].
  destruct (String.ltb q k) eqn:E2; [rewrite !sum_cons, IH by auto; simpl; lia|]. exfalso. apply Hq, ltb_total; auto.
Qed.
Lemma sum_update : forall k t t0 m, sfind k m = Some t0 -> t_count t = S (t_count t0) -> sum_of (supdate k t m) = S (sum_of m).
Proof.
  intros k t t0. induction m as [|[q b] m IH]; intros H Ht; simpl in *; [discriminate|].
  destruct (String.eqb_spec k q).
  - inversion H; subst. rewrite !sum_cons. simpl. lia.
  - rewrite !sum_cons, IH; auto; simpl; lia.
Qed.

Definition total_of (c : ctx) (k : string) : nat := match sfind k (tags c) with Some m => sum_of m | None => 0 end.
Lemma total_tag : forall f l k v c k', total_of (ctx_tag f l k v c) k' = total_of c k' + (if String.eqb k' k then 1 else 0).
Proof.
  intros f l k v c k'. unfold total_of, ctx_tag. cbn [tags].
  destruct (sfind k (tags c)) as [m|] eqn:Ek.
  - destruct (sfind v m) as [t|] eqn:Ev.
    + rewrite (@sfind_update (smap tagrec)) by congruence. destruct (String.eqb_spec k' k) as [->|]; [|lia].
      rewrite Ek. erewrite sum_update; eauto. simpl. lia.
    + rewrite (@sfind_update (smap tagrec)) by congruence. destruct (String.eqb_spec k' k) as [->|]; [|lia].
      rewrite Ek, sum_insert by auto. simpl. lia.
  - rewrite (@sfind_insert (smap tagrec)) by auto. destruct (String.eqb_spec k' k) as [->|]; [|lia]. rewrite Ek. reflexivity.
Qed.
Lemma total_ops : forall k body c, total_of (apply_ops body c) k = total_of c k + times_key k body.
Proof.
  intros k. induction body as [|o r IH]; intros c; [simpl; unfold times_key; simpl; lia|].
  change (apply_ops (o :: r) c) with (apply_ops r (apply_op o c)). rewrite IH. unfold times_key. destruct o as [f l k' v'|ok f m|b]; simpl.
  - rewrite total_tag. destruct (String.eqb k k'); simpl; lia.
  - unfold total_of. rewrite tags_expect. lia.
  - lia.
Qed.

Lemma failures_tag : forall f l k v c, failures (ctx_tag f l k v c) = failures c.
Proof. auto. Qed.

Lemma failures_expect : forall (ok : bool) f m c, failures (ctx_append m ((if ok then ctx_succeed else ctx_fail f) c)) =
  failures c ++ failed_expectations [OExpect ok f m].
Proof.
  intros [|] f m c; simpl.
  - unfold ctx_append. simpl. rewrite app_nil_r. auto.
  - unfold ctx_append. simpl. rewrite rev_app_distr. simpl. rewrite rev_involutive. auto.
Qed.

Lemma failures_ops : forall body c, failures (apply_ops body c) = failures c ++ failed_expectations body.
Proof.
  induction body as [|o r IH]; intros c; [simpl; rewrite app_nil_r; auto|].
  change (apply_ops (o :: r) c) with (apply_ops r (apply_op o c)). rewrite IH. destruct o as [f l k v|ok f m|b].
  - auto.
  - cbn [apply_op]. rewrite failures_expect. change (OExpect ok f m :: r) with ([OExpect ok f m] ++ r).
    unfold failed_expectations. rewrite flat_map_app, <- app_assoc. auto.
  - auto.
Qed.

(* the shape of the tag table *)
Definition wf_tags (ts : smap (smap tagrec)) : Prop :=
  ascending String.ltb (map fst ts) /\ Forall (fun kv => snd kv <> [] /\ ascending String.ltb (map fst (snd kv)) /\ Forall (fun v => (0 < t_count (snd v))%nat) (snd kv)) ts.

Lemma Forall_insert : forall A (P : string * A -> Prop) p m, P p -> Forall P m -> Forall P (map_insert String.ltb p m).
Proof.
  intros A P p. induction m as [|q m IH]; intros Hp H; simpl; auto. inversion H; subst.
  destruct (String.ltb (fst p) (fst q)); auto. destruct (String.ltb (fst q) (fst p)); auto.
Qed.
Lemma Forall_update : forall A (P : string * A -> Prop) k a m, P (k, a) -> Forall P m -> Forall P (supdate k a m).
Proof.
  intros A P k a. induction m as [|[q b] m IH]; intros Hp H; simpl; auto. inversion H; subst.
  destruct (String.eqb_spec k q); subst; auto.
Qed.
Lemma sfind_in : forall A k (m : smap A) a, sfind k m = Some a -> In (k, a) m.
Proof.
  intros A k. induction m as [|[q b] m IH]; simpl; intros a H; [discriminate|]. destruct (String.eqb_spec k q); subst; auto. inversion H; auto.
Qed.
Lemma insert_nonempty : forall A (p : string * A) m, map_insert String.ltb p m <> [].
Proof. intros A p [|q m]; simpl; [discriminate|]. destruct (String.ltb (fst p) (fst q)); [discriminate|]. destruct (String.ltb (fst q) (fst p)); discriminate. Qed.
Lemma supdate_nonempty : forall A k (a : A) m, m <> [] -> supdate k a m <> [].
Proof. intros A k a [|[q b] m] H; [congruence|]. simpl. destruct (String.eqb k q); discriminate. Qed.

Lemma wf_tag : forall f l k v c, wf_tags (tags c) -> wf_tags (tags (ctx_tag f l k v c)).
Proof.
  intros f l k v c [H1 H2]. unfold ctx_tag. cbn [tags]. destruct (sfind k (tags c)) as [m|] eqn:Ek.
  - apply sfind_in in Ek. rewrite Forall_forall in H2. pose proof (H2 _ Ek) as [N1 [N2 N3]]. simpl in N1, N2, N3.
    rewrite <- Forall_forall in H2.
    destruct (sfind v m) as [t|] eqn:Ev; split.
    + rewrite supdate_keys. auto.
    + apply Forall_update; auto. simpl. split; [apply supdate_nonempty; auto|]. split; [rewrite supdate_keys; auto|].
      apply Forall_update; auto. simpl. lia.
    + rewrite supdate_keys. auto.
    + apply Forall_update; auto. simpl. split; [apply insert_nonempty|]. split; [apply insert_ascending; auto|].
      apply Forall_insert; auto.
  - split; [apply insert_ascending; auto|]. apply Forall_insert; auto. simpl. split; [discriminate|]. split; auto.
Qed.

Lemma wf_ops : forall body c, wf_tags (tags c) -> wf_tags (tags (apply_ops body c)).
Proof.
  induction body as [|o r IH]; intros c H; auto. change (apply_ops (o :: r) c) with (apply_ops r (apply_op o c)). apply IH.
  destruct o; auto; [apply wf_tag; auto|]. cbn [apply_op]. rewrite tags_expect. auto.
Qed.

Lemma summary_of_eq : forall c k, summary_of c k =
  match sfind k (tags c) with Some m => Some (sum_of m, map (fun v => (fst v, t_count (snd v))) m) | None => None end.
Proof.
  intros c k. unfold summary_of, printSummary. induction (tags c) as [|[q m] ts IH]; auto. simpl.
  destruct (String.eqb k q); auto.
Qed.

Lemma sfind_map : forall (m : smap tagrec) v n, ascending String.ltb (map fst m) ->
  In (v, n) (map (fun x => (fst x, t_count (snd x))) m) <-> exists t, sfind v m = Some t /\ t_count t = n.
Proof.
  intros m v n Ha. induction m as [|[q b] m IH]; simpl; [split; [tauto|intros [? [? _]]; discriminate]|].
  destruct Ha as [H1 H2]. rewrite IH by auto. split.
  - intros [E|[t [E1 E2]]].
    + inversion E; subst. rewrite String.eqb_refl. eauto.
    + destruct (String.eqb_spec v q) as [->|]; [|eauto]. exfalso. apply sfind_in in E1. apply (in_map fst) in E1. simpl in E1.
      rewrite Forall_forall in H1. apply H1 in E1. rewrite ltb_refl in E1. discriminate.
  - intros [t [E1 E2]]. destruct (String.eqb_spec v q) as [->|]; [left; congruence|right; eauto].
Qed.

Lemma scope_context_eq : forall body g c, scope_context body g c -> c = apply_ops body newctx.
Proof.
  intros body g c [g' [E H]]. destruct (exec_scope_ok body g) as [ext E']. rewrite E in E'. inversion E'; subst. cbn [heap] in H.
  rewrite nth_error_app2, Nat.sub_diag in H by auto. simpl in H. congruence.
Qed.
