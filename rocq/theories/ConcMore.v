(** Consequences of the invariant. *)
From Coq Require Import List ZArith Bool Lia Arith.
From Verif Require Import Base TupleModel BitmapProof ConcModel ConcSpec ConcProof ConcInv ConcCo.
Import ListNotations.
Local Open Scope list_scope.

#[local] Arguments stepThread : simpl never.
#[local] Arguments stepCoord : simpl never.

(** * Traces in three parts *)

Lemma tail_none : forall O M (X : list (ev O M)) w, Forall (fun e => match e with V _ _ => False | _ => True end) X -> of w X = [] /\ takes X = [] /\ writes X = [].
Proof. induction 1 as [|e X He H IH]; auto. destruct e; cbn in *; tauto. Qed.

Section More.
Context {O M : Type}.
Variables (a : api) (front : list (act O M)) (rears : list (list (act O M))) (check : option (code O M unit)).
Notation n := (length rears).
Notation nf := (length front).
Notation inv := (inv a front rears check).
Notation shared := (shared a front rears).

Lemma inv_tail_shape : forall F T X (c : cfg O M), inv F T X c -> Forall (fun e => match e with V _ _ => False | _ => True end) X.
Proof.
  intros F T X c I. assert (Hco := i_co _ _ _ _ _ _ _ _ I). unfold co_ok in Hco.
  assert (Hfin : forall X0, finished a front rears T X0 c -> Forall (fun e => match e with V _ _ => False | _ => True end) X0).
  { intros X0 [(_ & _ & _ & l & -> & _)|(_ & _ & _ & -> & _)]; repeat constructor. }
  destruct (c_co c).
  1-5: destruct Hco as [(_ & -> & _) _]; constructor.
  1-5: destruct Hco as [(_ & -> & _) _]; constructor.
  - apply Hfin. tauto.
  - destruct Hco as (X0 & o & m & -> & Hf & _). apply Forall_app. split; [auto|]. repeat constructor.
  - destruct Hco as (_ & X0 & Hf & [(_ & ->)|(_ & o & m & ->)]); auto. apply Forall_app. split; [auto|]. repeat constructor.
Qed.
Lemma inv_of : forall F T X (c : cfg O M) i, inv F T X c -> of (Some i) (F ++ T ++ X) = of (Some i) T.
Proof.
  intros F T X c i I. rewrite !of_app. destruct (front_some _ _ i F (i_F _ _ _ _ _ _ _ _ I)) as (-> & _). destruct (tail_none _ _ X (Some i) (inv_tail_shape _ _ _ _ I)) as (-> & _).
  apply app_nil_r.
Qed.
Lemma inv_of_none : forall F T X (c : cfg O M), inv F T X c -> of None (F ++ T ++ X) = of None F.
Proof.
  intros F T X c I. rewrite !of_app, (rear_none _ _ n T (i_T _ _ _ _ _ _ _ _ I)). destruct (tail_none _ _ X None (inv_tail_shape _ _ _ _ I)) as (-> & _). rewrite !app_nil_r. auto.
Qed.
Lemma inv_takes : forall F T X (c : cfg O M), inv F T X c -> takes (F ++ T ++ X) = takes T.
Proof.
  intros F T X c I. rewrite !takes_app. destruct (front_some _ _ 0 F (i_F _ _ _ _ _ _ _ _ I)) as (_ & -> & _). destruct (tail_none _ _ X None (inv_tail_shape _ _ _ _ I)) as (_ & -> & _).
  apply app_nil_r.
Qed.
Lemma inv_writes : forall F T X (c : cfg O M), inv F T X c -> writes (F ++ T ++ X) = writes T.
Proof.
  intros F T X c I. rewrite !writes_app. destruct (front_some _ _ 0 F (i_F _ _ _ _ _ _ _ _ I)) as (_ & _ & ->). destruct (tail_none _ _ X None (inv_tail_shape _ _ _ _ I)) as (_ & _ & ->).
  apply app_nil_r.
Qed.

Lemma inv_shared : forall F T X (c : cfg O M), inv F T X c -> T = [] \/ shared T c.
Proof.
  intros F T X c I. assert (Hco := i_co _ _ _ _ _ _ _ _ I). unfold co_ok in Hco.
  assert (Hfin : forall X0, finished a front rears T X0 c -> T = [] \/ shared T c).
  { intros X0 [(? & _)|(_ & _ & ? & _)]; auto. }
  destruct (c_co c).
  1-5: destruct Hco as [(? & _) _]; auto.
  1-5: destruct Hco as [(? & _) _]; auto.
  - eapply Hfin. apply Hco.
  - destruct Hco as (X0 & o & m & _ & Hf & _). eauto.
  - destruct Hco as (_ & X0 & Hf & _). eauto.
Qed.

(** ** Slots *)

Lemma slots_range : forall F T X (c : cfg O M), inv F T X c ->
  map t_slot (takes T) = seq (base a front) (length (takes T)) /\ length (takes T) <= total a rears.
Proof.
  intros F T X c I. split.
  - destruct (inv_shared _ _ _ _ I) as [->|S]; auto. apply (s_slots _ _ _ _ _ S).
  - eapply takes_room; [apply (i_acts _ _ _ _ _ _ _ _ I)|apply (i_T _ _ _ _ _ _ _ _ I)|apply (i_thr _ _ _ _ _ _ _ _ I)].
Qed.

Definition twrites (es : list tev) : list nat := flat_map (fun e => match e with TWrite s => [s] | _ => [] end) es.
Lemma twrites_app : forall x y, twrites (x ++ y) = twrites x ++ twrites y.
Proof. intros; unfold twrites; apply flat_map_app. Qed.
Lemma twrites_steps : forall k q, twrites (repeat (TStep k) q) = [].
Proof. induction q; auto. Qed.
Lemma twrites_pres : forall k q, twrites (repeat (TPre k) q) = [].
Proof. induction q; auto. Qed.
Lemma head_writes : forall a k h, head a k h -> twrites h = map snd (ttakes h).
Proof. intros b k h H; inversion H; subst; cbn; auto. rewrite twrites_pres, ttakes_pres. auto. Qed.
Lemma chunks_writes : forall b k d, chunks b k d -> twrites d = map snd (ttakes d).
Proof.
  induction 1 as [|k l x H IH Hx]; auto. rewrite twrites_app, ttakes_app, map_app, IH. f_equal. inversion Hx; subst.
  - rewrite twrites_app, ttakes_app, map_app, (head_writes b k h) by auto. f_equal. cbn. rewrite twrites_app, ttakes_app, twrites_steps, ttakes_steps. auto.
  - rewrite twrites_app, ttakes_app, map_app, twrites_pres, ttakes_pres. auto.
Qed.
Lemma thread_writes : forall (t : thread O M) es, thread_ok a t es -> exists r, twrites es ++ r = map snd (ttakes es).
Proof.
  intros t es (k & d & p & -> & Hd & Hp). rewrite twrites_app, ttakes_app, map_app, (chunks_writes _ _ _ Hd).
  assert (Hb : forall h q z, head a k h -> twrites (h ++ TStart k :: repeat (TStep k) q ++ z) = map snd (ttakes h) ++ twrites z).
  { intros h q z Hh. rewrite twrites_app, (head_writes a k h) by auto. f_equal. cbn. rewrite twrites_app, twrites_steps. auto. }
  assert (Ht : forall h q z, map snd (ttakes (h ++ TStart k :: repeat (TStep k) q ++ z)) = map snd (ttakes h) ++ map snd (ttakes z)).
  { intros h q z. rewrite ttakes_app, map_app. f_equal. cbn. rewrite ttakes_app, ttakes_steps. auto. }
  assert (G : exists r, twrites p ++ r = map snd (ttakes p)); [|destruct G as (r & <-); exists r; rewrite <- app_assoc; auto].
  revert Hp. generalize (t_pc t), (length (t_acts t)). intros q0 n0 Hp.
  inversion Hp; subst; try (exists []; reflexivity).
  - eexists. cbn. reflexivity.
  - exists []. rewrite twrites_pres, ttakes_pres. auto.
  - exists []. rewrite app_nil_r. rewrite <- (app_nil_r (repeat _ _)), Hb, Ht by auto. auto.
  - exists []. rewrite app_nil_r, Hb, Ht by auto. auto.
  - rewrite Hb, Ht by auto. cbn. exists [s]. rewrite app_nil_r. auto.
Qed.

Definition wpairs (T : list (ev O M)) : list (nat * nat) := flat_map (fun e => match e with V (Some i) (TWrite s) => [(i, s)] | _ => [] end) T.
Lemma wpairs_writes : forall T, map snd (wpairs T) = writes T.
Proof.
  unfold writes, wpairs. induction T as [|e T IH]; auto. cbn [flat_map]. rewrite map_app, IH. f_equal. destruct e as [[i|] x| |]; auto. destruct x; auto.
Qed.
Lemma wpairs_of : forall i T, map snd (filter (fun p => Nat.eqb i (fst p)) (wpairs T)) = twrites (of (Some i) T).
Proof.
  induction T as [|e T IH]; auto. unfold wpairs, of in *. cbn [flat_map]. rewrite filter_app, map_app, twrites_app, IH. f_equal.
  destruct e as [[j|] x| |]; auto. cbn. destruct x; cbn; destruct (Nat.eqb i j); auto.
Qed.
Lemma nodup_pairs : forall L : list (nat * nat), (forall i, NoDup (map snd (filter (fun p => Nat.eqb i (fst p)) L))) ->
  (forall x y, In x L -> In y L -> snd x = snd y -> fst x = fst y) -> NoDup (map snd L).
Proof.
  induction L as [|[i s] L IH]; intros H1 H2; cbn; constructor.
  - intros Hin. apply in_map_iff in Hin. destruct Hin as ([j s'] & E & Hj). cbn in E. subst s'.
    assert (E : i = j) by (apply (H2 (i, s) (j, s)); cbn; auto). subst j. specialize (H1 i). cbn in H1. rewrite Nat.eqb_refl in H1. cbn in H1. inversion H1; subst.
    match goal with H : ~ In s _ |- _ => apply H end. apply in_map_iff. exists (i, s). split; auto. apply filter_In. cbn. rewrite Nat.eqb_refl. auto.
  - apply IH.
    + intros j. specialize (H1 j). cbn in H1. destruct (Nat.eqb j i); auto. cbn in H1. inversion H1; auto.
    + intros x y Hx Hy. apply H2; cbn; auto.
Qed.
Lemma prefix_nodup : forall X (l r s : list X), l ++ r = s -> NoDup s -> NoDup l.
Proof. intros X l r s <- H. induction l; constructor; inversion H; subst; auto. intros Hin. match goal with H : ~ In _ _ |- _ => apply H end. apply in_or_app; auto. Qed.
Lemma filter_nodup : forall X (f : X -> bool) Y (g : X -> Y) l, NoDup (map g l) -> NoDup (map g (filter f l)).
Proof.
  induction l as [|x l IH]; cbn; auto. intros H. inversion H; subst. destruct (f x); auto. cbn. constructor; auto.
  intros Hin. match goal with H : ~ In _ _ |- _ => apply H end. apply in_map_iff in Hin. destruct Hin as (y & E & Hy). apply filter_In in Hy. rewrite <- E. apply in_map. tauto.
Qed.

Lemma writes_nodup : forall F T X (c : cfg O M), inv F T X c -> NoDup (writes T).
Proof.
  intros F T X c I. destruct (inv_shared _ _ _ _ I) as [->|S]; [constructor|]. rewrite <- wpairs_writes.
  assert (Hin : forall i s, In (i, s) (wpairs T) -> In (TWrite s) (of (Some i) T)).
  { intros i s H. apply in_of. unfold wpairs in H. apply in_flat_map in H. destruct H as (e & He & H). destruct e as [[j|] x| |]; cbn in H; try tauto.
    destruct x; cbn in H; try tauto. destruct H as [E|[]]. inversion E; subst; auto. }
  assert (Htk : forall i s, In (i, s) (wpairs T) -> exists k l, In (TTake k l s) (of (Some i) T)).
  { intros i s H. apply Hin in H. assert (Hi := in_rear rears _ _ _ (i_T _ _ _ _ _ _ _ _ I) H). destruct (acts_some rears c i (i_acts _ _ _ _ _ _ _ _ I) Hi) as (t & Ht).
    apply (proj1 (thread_wt _ _ _ _ _ s (i_thr _ _ _ _ _ _ _ _ I _ _ Ht))). auto. }
  apply nodup_pairs.
  - intros i. rewrite wpairs_of. destruct (nth_error (c_threads c) i) as [t|] eqn:Ht.
    + destruct (thread_writes t _ (i_thr _ _ _ _ _ _ _ _ I _ _ Ht)) as (r & E). eapply prefix_nodup; eauto. rewrite <- takes_of, map_map. cbn.
      apply filter_nodup. eapply shared_nodup; eauto.
    + assert (E : of (Some i) T = []).
      { destruct (of (Some i) T) as [|e es] eqn:E; auto. assert (Hi : In e (of (Some i) T)) by (rewrite E; cbn; auto).
        apply (in_rear rears _ _ _ (i_T _ _ _ _ _ _ _ _ I)) in Hi. apply nth_error_None in Ht. rewrite (acts_len rears c (i_acts _ _ _ _ _ _ _ _ I)) in Ht. lia. }
      rewrite E. constructor.
  - intros [i s] [j s'] Hx Hy E. cbn in *. subst s'. destruct (Htk _ _ Hx) as (k & l & H1). destruct (Htk _ _ Hy) as (k' & l' & H2). eapply shared_same; eauto.
Qed.

(** ** At the end *)

Lemma inv_returned : forall F T X (c : cfg O M), inv F T X c -> returned c ->
  fchunks a nf (of None F) /\ exists X0, finished a front rears T X0 c /\ ((check = None /\ X = X0) \/ (check <> None /\ exists o m, X = X0 ++ [VCheck o m])).
Proof.
  intros F T X c I [_ K]. assert (Hco := i_co _ _ _ _ _ _ _ _ I). unfold co_ok in Hco. rewrite K in Hco. auto.
Qed.
Lemma done_thread : forall F T X (c : cfg O M) i l, inv F T X c -> (forall i t, nth_error (c_threads c) i = Some t -> t_pc t = PEnd) ->
  nth_error rears i = Some l -> chunks a (length l) (of (Some i) T).
Proof.
  intros F T X c i l I He Hl. assert (Hi : i < n) by (apply nth_error_Some; congruence).
  destruct (acts_some rears c i (i_acts _ _ _ _ _ _ _ _ I) Hi) as (t & Ht). destruct (acts_nth rears c i t (i_acts _ _ _ _ _ _ _ _ I) Ht) as [_ E].
  apply nth_error_nth with (d := []) in Hl. rewrite Hl in E. rewrite E. apply ok_end; [apply (i_thr _ _ _ _ _ _ _ _ I); auto|eauto].
Qed.
End More.

Lemma done_all_taken : forall O M front rears check F T X (c : cfg O M), inv Func front rears check F T X c -> (forall i t, nth_error (c_threads c) i = Some t -> t_pc t = PEnd) ->
  length (takes T) = total Func rears.
Proof.
  intros O M front rears check F T X c I He. rewrite (takes_len _ _ (length rears) T (i_T _ _ _ _ _ _ _ _ I)). unfold total.
  rewrite (map_seq_nth _ _ (fun l => entries Func (length l)) [] rears). f_equal. apply map_ext_in. intros i Hi. apply in_seq in Hi.
  assert (E : nth_error rears i = Some (nth i rears [])) by (apply nth_error_nth'; lia).
  assert (C := done_thread Func front rears check F T X c i _ I He E).
  rewrite <- (map_length fst), (chunks_takes_func _ _ C), alt_len. auto.
Qed.

(** ** Real time *)

Lemma split_app : forall X (l m p q : list X) x, l ++ m = p ++ x :: q -> (exists q', q = q' ++ m /\ l = p ++ x :: q') \/ (exists p', p = l ++ p' /\ m = p' ++ x :: q).
Proof.
  induction l as [|y l IH]; intros m p q x E; cbn in *.
  - right. exists p. auto.
  - destruct p as [|z p]; cbn in E; inversion E; subst.
    + left. exists l. auto.
    + destruct (IH _ _ _ _ H1) as [(q' & -> & ->)|(p' & -> & ->)]; [left; exists q'; auto|right; exists p'; auto].
Qed.
Lemma split_repeat : forall X (y : X) q0 p q x, repeat y q0 = p ++ x :: q -> x = y.
Proof. intros X y q0 p q x E. apply (repeat_spec q0 y). rewrite E. apply in_or_app. right. cbn; auto. Qed.

(** The end of an action comes before the entry for it is taken; its start after that. *)
Definition good (es : list tev) : Prop := forall p k s q, es = p ++ TTake k true s :: q -> In (TEnd k) p.
Definition good' (es : list tev) : Prop := forall p k s q, es = p ++ TTake k false s :: q -> In (TStart k) q.
Lemma chunk_good : forall a k x, chunk a k x -> good x /\ good' x.
Proof.
  intros a k x H. inversion H; subst.
  - assert (Hh : forall p j b s q, h = p ++ TTake j b s :: q -> b = false /\ j = k).
    { intros p j b s0 q E. match goal with H : head _ _ _ |- _ => inversion H as [? ? Ea Ek Eh|? ? Ea Ek Eh] end; rewrite E in Eh; clear - Eh; rename Eh into E.
      - destruct p as [|z [|z' [|z'' p]]]; cbn in E; inversion E; subst; auto.
      - apply split_repeat in E. discriminate. }
    split; intros p j s0 q E.
    + apply split_app in E. destruct E as [(q' & _ & E)|(p' & -> & E)]; [apply Hh in E; destruct E; discriminate|].
      destruct p' as [|z p']; cbn in E; [discriminate|]. injection E as E0 E1. subst z. apply split_app in E1. destruct E1 as [(q' & _ & E')|(p2 & -> & E')]; [apply split_repeat in E'; discriminate|].
      destruct p2 as [|z [|z' [|z'' p2]]]; cbn in E'; inversion E'; subst.
      * apply in_or_app. right. cbn. right. apply in_or_app. right. cbn; auto.
      * destruct p2; discriminate.
    + apply split_app in E. destruct E as [(q' & -> & E)|(p' & -> & E)].
      * apply Hh in E. destruct E as [_ ->]. apply in_or_app. right. cbn; auto.
      * exfalso. destruct p' as [|z p']; cbn in E; [discriminate|]. injection E as E0 E1. subst z. apply split_app in E1. destruct E1 as [(q' & _ & E')|(p2 & -> & E')]; [apply split_repeat in E'; discriminate|].
        destruct p2 as [|z [|z' [|z'' p2]]]; cbn in E'; inversion E'; subst. destruct p2; discriminate.
  - split; intros p j s0 q E; apply split_app in E; destruct E as [(q' & _ & E)|(p' & _ & E)]; try (apply split_repeat in E; discriminate);
      destruct p' as [|z [|z' p']]; cbn in E; inversion E.
Qed.
Lemma chunks_good : forall a k d, chunks a k d -> good d /\ good' d.
Proof.
  induction 1 as [|k l x H IH Hx].
  - split; intros p j s q E; destruct p; discriminate.
  - destruct IH as [G1 G2], (chunk_good _ _ _ Hx) as [H1 H2]. split; intros p j s q E; apply split_app in E; destruct E as [(q' & -> & E)|(p' & -> & E)].
    + eapply G1; eauto. + apply in_or_app. right. eapply H1; eauto. + apply in_or_app. left. eapply G2; eauto. + eapply H2; eauto.
Qed.

Lemma before_map : forall X Y (f : X -> Y) l x y, before x y (map f l) -> exists x' y', f x' = x /\ f y' = y /\ before x' y' l.
Proof.
  intros X Y f l x y (t1 & t2 & t3 & E). apply map_eq_app in E. destruct E as (l1 & l2 & -> & _ & E). destruct l2 as [|x' l2]; cbn in E; inversion E; subst.
  apply map_eq_app in H1. destruct H1 as (l3 & l4 & -> & _ & E'). destruct l4 as [|y' l4]; cbn in E'; inversion E'; subst. exists x', y'. split; auto. split; auto. exists l1, l3, l4. auto.
Qed.
Lemma before_takes : forall O M (T : list (ev O M)) i k b s j l b' s', before (i, k, b, s) (j, l, b', s') (takes T) ->
  exists t1 t2 t3, T = t1 ++ V (Some i) (TTake k b s) :: t2 ++ V (Some j) (TTake l b' s') :: t3.
Proof.
  intros O M T i k b s j l b' s' (u1 & u2 & u3 & E).
  assert (G : forall T u1 x u2, takes (O := O) (M := M) T = u1 ++ x :: u2 -> exists t1 t2, T = t1 ++ V (Some (t_who x)) (TTake (fst (t_which x)) (snd (t_which x)) (t_slot x)) :: t2 /\ takes t2 = u2).
  { clear. induction T as [|e T IH]; intros u1 x u2 E; [destruct u1; discriminate|]. rewrite (takes_app _ _ [e] T : takes (e :: T) = _) in E.
    assert (D : takes [e] = [] \/ exists y, takes [e] = [y] /\ e = V (Some (t_who y)) (TTake (fst (t_which y)) (snd (t_which y)) (t_slot y))).
    { destruct e as [[w|] e| |]; auto. destruct e; auto. right. eexists. split; reflexivity. }
    destruct D as [D|(y & D & Ee)]; rewrite D in E; cbn in E.
    - destruct (IH _ _ _ E) as (t1 & t2 & -> & E2). exists (e :: t1), t2. auto.
    - destruct u1 as [|z u1]; cbn in E; inversion E; subst.
      + exists [], T. auto.
      + destruct (IH _ _ _ H1) as (t1 & t2 & -> & E2). eexists (_ :: t1), t2. split; [reflexivity|auto]. }
  destruct (G _ _ _ _ E) as (t1 & t2 & -> & E2). destruct (G _ _ _ _ E2) as (t3 & t4 & -> & _). exists t1, t3, t4. auto.
Qed.

Lemma of_cons_same : forall O M i e (T : list (ev O M)), of (Some i) (V (Some i) e :: T) = e :: of (Some i) T.
Proof. intros. cbn. rewrite Nat.eqb_refl. auto. Qed.

Lemma real_time : forall O M a (T : list (ev O M)) i j k l s s' ki kj, chunks a ki (of (Some i) T) -> chunks a kj (of (Some j) T) ->
  before (i, k, true, s) (j, l, false, s') (takes T) -> before (V (Some i) (TEnd k)) (V (Some j) (TStart l)) T.
Proof.
  intros O M a T i j k l s s' ki kj Hi Hj Hb. apply before_takes in Hb. destruct Hb as (t1 & t2 & t3 & E).
  assert (A : In (TEnd k) (of (Some i) t1)).
  { apply (proj1 (chunks_good _ _ _ Hi) (of (Some i) t1) k s (of (Some i) (t2 ++ V (Some j) (TTake l false s') :: t3))). rewrite E, of_app, of_cons_same. auto. }
  assert (B : In (TStart l) (of (Some j) t3)).
  { apply (proj2 (chunks_good _ _ _ Hj) (of (Some j) (t1 ++ V (Some i) (TTake k true s) :: t2)) l s' (of (Some j) t3)).
    rewrite E. replace (t1 ++ V (Some i) (TTake k true s) :: t2 ++ V (Some j) (TTake l false s') :: t3) with ((t1 ++ V (Some i) (TTake k true s) :: t2) ++ V (Some j) (TTake l false s') :: t3) by (rewrite <- app_assoc; auto).
    rewrite of_app, of_cons_same. auto. }
  apply in_of in A. apply in_of in B. apply in_split in A. destruct A as (x1 & x2 & ->). apply in_split in B. destruct B as (y1 & y2 & ->).
  exists x1, (x2 ++ V (Some i) (TTake k true s) :: t2 ++ V (Some j) (TTake l false s') :: y1), y2.
  rewrite E. repeat (rewrite <- app_assoc; cbn [app]). auto.
Qed.
