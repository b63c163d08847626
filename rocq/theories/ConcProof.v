(** Proofs about concurrent runs: what the threads do, and the log. *)
From Coq Require Import List ZArith Bool Lia Arith.
From Verif Require Import Base TupleModel BitmapProof ConcModel ConcSpec.
Import ListNotations.
Local Open Scope list_scope.

#[local] Arguments stepThread : simpl never.
#[local] Arguments stepCoord : simpl never.

(** * Traces *)

Lemma of_app : forall O M w (a b : list (ev O M)), of w (a ++ b) = of w a ++ of w b.
Proof. intros; unfold of; apply flat_map_app. Qed.
Lemma takes_app : forall O M (a b : list (ev O M)), takes (a ++ b) = takes a ++ takes b.
Proof. intros; unfold takes; apply flat_map_app. Qed.
Lemma writes_app : forall O M (a b : list (ev O M)), writes (a ++ b) = writes a ++ writes b.
Proof. intros; unfold writes; apply flat_map_app. Qed.

Definition by_ {O M} (i : nat) (es : list tev) : list (ev O M) := map (V (Some i)) es.
Lemma of_by_same : forall O M i es, of (Some i) (by_ (O := O) (M := M) i es) = es.
Proof. induction es; cbn; auto. rewrite Nat.eqb_refl. cbn. f_equal; auto. Qed.
Lemma of_by_other : forall O M i j es, i <> j -> of (Some i) (by_ (O := O) (M := M) j es) = [].
Proof. induction es; cbn; auto. intros H. rewrite (proj2 (Nat.eqb_neq i j)) by auto. cbn; auto. Qed.

(** The takes of one thread. *)
Definition ttakes (es : list tev) : list (nat * bool * nat) :=
  flat_map (fun e => match e with TTake k last s => [(k, last, s)] | _ => [] end) es.
Lemma ttakes_app : forall a b, ttakes (a ++ b) = ttakes a ++ ttakes b.
Proof. intros; unfold ttakes; apply flat_map_app. Qed.
Lemma ttakes_steps : forall k n, ttakes (repeat (TStep k) n) = [].
Proof. induction n; auto. Qed.
Lemma ttakes_pres : forall k n, ttakes (repeat (TPre k) n) = [].
Proof. induction n; auto. Qed.
Lemma takes_by : forall O M i es, takes (by_ (O := O) (M := M) i es) = map (fun x => (i, fst (fst x), snd (fst x), snd x)) (ttakes es).
Proof.
  induction es as [|e es IH]; auto. destruct e; cbn; auto; f_equal; auto.
Qed.

(** * What one thread does *)

Inductive partial {O M} : api -> pc O M -> nat -> nat -> list tev -> Prop :=
| pa_none : forall a n, partial a PNone n 0 []
| pa_begin : forall a n, partial a PBegin n 0 []
| pa_spin : forall a n, partial a PSpin n 0 []
| pa_next : forall a n k, k <= n -> partial a (PNext k) n k []
| pa_take0 : forall n k, k < n -> partial Func (PTake k false) n k []
| pa_write0 : forall n k s, k < n -> partial Func (PWrite k false s) n k [TTake k false s]
| pa_pre : forall n k c m, k < n -> partial Class (PPre k c) n k (repeat (TPre k) m)
| pa_body : forall a n k c h q, k < n -> head a k h -> partial a (PBody k c) n k (h ++ TStart k :: repeat (TStep k) q)
| pa_take1 : forall a n k h q, k < n -> head a k h -> partial a (PTake k true) n k (h ++ TStart k :: repeat (TStep k) q ++ [TEnd k])
| pa_write1 : forall a n k h q s, k < n -> head a k h -> partial a (PWrite k true s) n k (h ++ TStart k :: repeat (TStep k) q ++ [TEnd k; TTake k true s])
| pa_end : forall a n, partial a PEnd n n [].

Definition thread_ok {O M} (a : api) (t : thread O M) (es : list tev) : Prop :=
  exists k d p, es = d ++ p /\ chunks a k d /\ partial a (t_pc t) (length (t_acts t)) k p.

(** Taken entries alternate between start and end (function-based). *)
Definition alt (k : nat) : list (nat * bool) := flat_map (fun j => [(j, false); (j, true)]) (seq 0 k).
Lemma alt_S : forall k, alt (S k) = alt k ++ [(k, false); (k, true)].
Proof. intros; unfold alt. rewrite seq_S, flat_map_app. reflexivity. Qed.
Lemma alt_len : forall k, length (alt k) = 2 * k.
Proof. induction k; auto. rewrite alt_S, app_length, IHk; cbn; lia. Qed.

Lemma head_takes : forall a k h, head a k h -> map fst (ttakes h) = (match a with Func => [(k, false)] | Class => [] end).
Proof. intros a k h H; inversion H; subst; cbn; auto. rewrite ttakes_pres; auto. Qed.
Lemma chunks_takes_func : forall k d, chunks Func k d -> map fst (ttakes d) = alt k.
Proof.
  induction 1 as [|k l x H IH Hx]; auto. rewrite ttakes_app, map_app, IH, alt_S. f_equal. inversion Hx; subst.
  rewrite ttakes_app, map_app, (head_takes Func k h) by auto. cbn. rewrite ttakes_app, ttakes_steps. reflexivity.
Qed.
Lemma chunks_takes_class : forall k d, chunks Class k d -> length (ttakes d) <= k.
Proof.
  induction 1 as [|k l x H IH Hx]; auto. rewrite ttakes_app, app_length. inversion Hx; subst.
  - rewrite ttakes_app, app_length. match goal with H : head _ _ _ |- _ => inversion H; subst end. rewrite ttakes_pres. cbn.
    rewrite ttakes_app, ttakes_steps. cbn; lia.
  - rewrite ttakes_app, ttakes_pres. cbn. lia.
Qed.

Lemma head_takes_len : forall a k h, head a k h -> length (ttakes h) = match a with Func => 1 | Class => 0 end.
Proof. intros. rewrite <- (map_length fst), (head_takes a k h) by auto. destruct a; auto. Qed.

(** At most [entries] entries are taken, and fewer if the thread is about to take one. *)
Lemma thread_takes : forall O M a (t : thread O M) es, thread_ok a t es ->
  length (ttakes es) <= entries a (length (t_acts t)) /\
  ((exists k last, t_pc t = PTake k last) -> length (ttakes es) < entries a (length (t_acts t))).
Proof.
  intros O M a t es (k & d & p & -> & Hd & Hp). rewrite ttakes_app, app_length.
  assert (Hk : length (ttakes d) <= entries a k).
  { destruct a; [rewrite <- (map_length fst), (chunks_takes_func k d), alt_len by auto; cbn; lia|apply chunks_takes_class; auto]. }
  revert Hp. generalize (t_pc t), (length (t_acts t)). intros q n Hp.
  assert (Hb : forall h m z, head a k h -> length (ttakes (h ++ TStart k :: repeat (TStep k) m ++ z)) = match a with Func => 1 | Class => 0 end + length (ttakes z)).
  { intros h m z Hh. rewrite ttakes_app, app_length, (head_takes_len a k h) by auto. cbn. rewrite ttakes_app, ttakes_steps. auto. }
  assert (Hb0 : forall h m, head a k h -> length (ttakes (h ++ TStart k :: repeat (TStep k) m)) = match a with Func => 1 | Class => 0 end).
  { intros h m Hh. rewrite <- (app_nil_r (repeat (TStep k) m)), (Hb h m []) by auto. cbn; lia. }
  destruct a; inversion Hp; subst; cbn [ttakes length flat_map app];
    try (rewrite ttakes_pres; cbn [length]);
    repeat match goal with H : head _ _ _ |- _ => first [rewrite (Hb _ _ _ H)|rewrite (Hb0 _ _ H)]; clear H end; cbn [ttakes length flat_map app];
    cbn [entries] in *; (split; [lia|intros (k1 & l1 & E); try discriminate; lia]).
Qed.

Lemma alt_firstn : forall k m, m <= k -> firstn (2 * m) (alt k) = alt m.
Proof.
  induction k; intros m Hm; [assert (m = 0) by lia; subst; auto|]. destruct (Nat.eq_dec m (S k)) as [->|N].
  - rewrite <- alt_len. apply firstn_all.
  - rewrite alt_S, firstn_app, alt_len. rewrite IHk by lia. replace (2 * m - 2 * k) with 0 by lia. cbn. apply app_nil_r.
Qed.
Lemma alt_firstn_odd : forall k m, m < k -> firstn (2 * m + 1) (alt k) = alt m ++ [(m, false)].
Proof.
  intros k m Hm. assert (E : firstn (2 * m + 2) (alt k) = alt m ++ [(m, false); (m, true)]).
  { rewrite <- alt_S. replace (2 * m + 2) with (2 * S m) by lia. apply alt_firstn; lia. }
  assert (F : firstn (2 * m + 1) (alt k) = firstn (2 * m + 1) (firstn (2 * m + 2) (alt k))) by (rewrite firstn_firstn; f_equal; lia).
  rewrite F, E, firstn_app, alt_len. rewrite (firstn_all2 (alt m)) by (rewrite alt_len; lia). replace (2 * m + 1 - 2 * m) with 1 by lia. auto.
Qed.

Lemma thread_alt : forall O M (t : thread O M) es, thread_ok Func t es ->
  map fst (ttakes es) = firstn (length (ttakes es)) (alt (length (t_acts t))).
Proof.
  intros O M t es (k & d & p & -> & Hd & Hp).
  rewrite ttakes_app, map_app, (chunks_takes_func k d), app_length by auto.
  assert (Hl : length (ttakes d) = 2 * k) by (rewrite <- (map_length fst), (chunks_takes_func k d), alt_len by auto; auto).
  rewrite Hl. revert Hp. generalize (t_pc t), (length (t_acts t)). intros q n Hp.
  assert (Hb : forall h m z, head Func k h -> map fst (ttakes (h ++ TStart k :: repeat (TStep k) m ++ z)) = (k, false) :: map fst (ttakes z)).
  { intros h m z Hh. rewrite ttakes_app, map_app, (head_takes Func k h) by auto. cbn. rewrite ttakes_app, ttakes_steps. auto. }
  assert (Z0 : forall m, m <= n -> alt m ++ [] = firstn (2 * m + 0) (alt n)) by (intros; rewrite app_nil_r, Nat.add_0_r; symmetry; apply alt_firstn; lia).
  assert (Z1 : forall m, m < n -> alt m ++ [(m, false)] = firstn (2 * m + 1) (alt n)) by (intros; symmetry; apply alt_firstn_odd; auto).
  assert (Z2 : forall m, m < n -> alt m ++ [(m, false); (m, true)] = firstn (2 * m + 2) (alt n)).
  { intros. rewrite <- alt_S. replace (2 * m + 2) with (2 * S m) by lia. symmetry; apply alt_firstn; lia. }
  assert (L : forall z, length (ttakes z) = length (map fst (ttakes z))) by (intros; symmetry; apply map_length).
  rewrite (L p). inversion Hp; subst; cbn [ttakes length flat_map app map fst];
    try (apply Z0; lia); try (apply Z1; lia).
  - rewrite <- (app_nil_r (repeat _ _)), Hb by auto. cbn. apply Z1; lia.
  - rewrite Hb by auto. cbn. apply Z1; lia.
  - rewrite Hb by auto. cbn. apply Z2; lia.
Qed.

(** Entries written were taken before; entries taken are written unless the thread is about to. *)
Lemma chunk_wt : forall a k x s, chunk a k x -> (In (TWrite s) x <-> exists j l, In (TTake j l s) x).
Proof.
  intros a k x s H. inversion H; subst.
  - assert (R : forall z n, In (TWrite s) (repeat (TStep k) n ++ z) <-> In (TWrite s) z).
    { intros; rewrite in_app_iff; split; auto. intros [E|E]; auto. apply repeat_spec in E; discriminate. }
    assert (R2 : forall j l z n, In (TTake j l s) (repeat (TStep k) n ++ z) <-> In (TTake j l s) z).
    { intros; rewrite in_app_iff; split; auto. intros [E|E]; auto. apply repeat_spec in E; discriminate. }
    match goal with H : head _ _ _ |- _ => inversion H; subst end.
    + cbn [app In]. rewrite R. cbn [In]. split.
      * intros [E|[E|[E|[E|[E|[E|[]]]]]]]; try discriminate; inversion E; subst; eauto 10.
        exists k, true. right; right; right. apply R2. cbn; auto.
      * intros (j & l & [E|[E|[E|E]]]); try discriminate; [inversion E; subst; auto|]. apply R2 in E. cbn in E.
        destruct E as [E|[E|[E|[]]]]; try discriminate. inversion E; subst; auto 10.
    + rewrite in_app_iff. cbn [In]. rewrite R. cbn [In]. split.
      * intros [E|[E|[E|[E|[E|[]]]]]]; try discriminate; [apply repeat_spec in E; discriminate|]. inversion E; subst.
        exists k, true. rewrite in_app_iff. right. cbn. right. apply R2. cbn; auto.
      * intros (j & l & E). rewrite in_app_iff in E. destruct E as [E|[E|E]]; try discriminate; [apply repeat_spec in E; discriminate|].
        apply R2 in E. cbn in E. destruct E as [E|[E|[E|[]]]]; try discriminate. inversion E; subst; auto 10.
  - split; [intros E|intros (j & l & E)]; rewrite in_app_iff in E; cbn in E; destruct E as [E|[E|[]]]; try discriminate; apply repeat_spec in E; discriminate.
Qed.
Lemma chunks_wt : forall a k d s, chunks a k d -> (In (TWrite s) d <-> exists j l, In (TTake j l s) d).
Proof.
  induction 1 as [|k l x H IH Hx]; [cbn; split; [tauto|intros (? & ? & [])]|].
  rewrite in_app_iff, IH, (chunk_wt _ _ _ _ Hx). split.
  - intros [(j & b & E)|(j & b & E)]; exists j, b; rewrite in_app_iff; auto.
  - intros (j & b & E). rewrite in_app_iff in E. destruct E; eauto.
Qed.
Lemma head_wt : forall a k h s, head a k h -> (In (TWrite s) h <-> exists j l, In (TTake j l s) h).
Proof.
  intros a k h s H. inversion H; subst; cbn.
  - split; [intros [E|[E|[]]]; try discriminate; inversion E; subst; eauto|]. intros (j & l & [E|[E|[]]]); try discriminate; inversion E; subst; auto.
  - split; [intros E|intros (j & l & E)]; apply repeat_spec in E; discriminate.
Qed.
Lemma thread_wt : forall O M a (t : thread O M) es s, thread_ok a t es ->
  (In (TWrite s) es -> exists j l, In (TTake j l s) es) /\
  ((exists j l, In (TTake j l s) es) -> In (TWrite s) es \/ exists k l, t_pc t = PWrite k l s).
Proof.
  intros O M a t es s (k & d & p & -> & Hd & Hp). revert Hp. generalize (t_pc t), (length (t_acts t)). intros q n Hp.
  assert (Wd := chunks_wt _ _ _ s Hd).
  assert (R : forall h m z e, (forall j, e <> TStart j) -> (forall j, e <> TStep j) -> (In e (h ++ TStart k :: repeat (TStep k) m ++ z) <-> In e h \/ In e z)).
  { intros h m z e N1 N2. rewrite in_app_iff. cbn [In]. rewrite in_app_iff. split; [|tauto]. intros [E|[E|[E|E]]]; auto.
    - symmetry in E; destruct (N1 _ E). - apply repeat_spec in E. destruct (N2 _ E). }
  assert (main : (In (TWrite s) p -> exists j l, In (TTake j l s) p) /\ ((exists j l, In (TTake j l s) p) -> In (TWrite s) p \/ exists k l, q = PWrite k l s)).
  { inversion Hp; subst; try (cbn; split; [tauto|intros (? & ? & [])]).
    - cbn. split; [intros [E|[]]; discriminate|]. intros (j & l & [E|[]]). inversion E; subst. eauto.
    - split; [intros E|intros (j & l & E)]; apply repeat_spec in E; discriminate.
    - match goal with H : head _ _ ?h |- _ => assert (Wh := head_wt _ _ _ s H) end. rewrite <- (app_nil_r (repeat _ _)). split.
      + intros E. apply R in E; try discriminate. destruct E as [E|[]]. apply Wh in E. destruct E as (j & l & E). exists j, l. apply R; try discriminate; auto.
      + intros (j & l & E). apply R in E; try discriminate. destruct E as [E|[]]. left. apply R; try discriminate. left. apply Wh; eauto.
    - match goal with H : head _ _ ?h |- _ => assert (Wh := head_wt _ _ _ s H) end. split.
      + intros E. apply R in E; try discriminate. destruct E as [E|[E|[]]]; try discriminate. apply Wh in E. destruct E as (j & l & E). exists j, l. apply R; try discriminate; auto.
      + intros (j & l & E). apply R in E; try discriminate. destruct E as [E|[E|[]]]; try discriminate. left. apply R; try discriminate. left. apply Wh; eauto.
    - match goal with H : head _ _ ?h |- _ => assert (Wh := head_wt _ _ _ s H) end. split.
      + intros E. apply R in E; try discriminate. destruct E as [E|[E|[E|[]]]]; try discriminate. apply Wh in E. destruct E as (j & l & E). exists j, l. apply R; try discriminate; auto.
      + intros (j & l & E). apply R in E; try discriminate. destruct E as [E|[E|[E|[]]]]; try discriminate; [|inversion E; subst; eauto]. left. apply R; try discriminate. left. apply Wh; eauto. }
  split.
  - rewrite in_app_iff. intros [E|E]; [apply Wd in E|apply main in E]; destruct E as (j & l & E); exists j, l; rewrite in_app_iff; auto.
  - intros (j & l & E). rewrite in_app_iff in E. rewrite in_app_iff. destruct E as [E|E].
    + left; left; apply Wd; eauto.
    + destruct (proj2 main) as [F|F]; eauto.
Qed.

(** An entry about to be written was taken and not written. *)
Lemma thread_writing : forall O M a (t : thread O M) es k l s, thread_ok a t es -> t_pc t = PWrite k l s -> exists es', es = es' ++ [TTake k l s].
Proof.
  intros O M a t es k l s (k0 & d & p & -> & Hd & Hp) E. rewrite E in Hp. inversion Hp; subst.
  - exists d; auto.
  - match goal with |- context [TEnd ?kk] => exists (d ++ h ++ TStart kk :: repeat (TStep kk) q ++ [TEnd kk]) end. rewrite <- !app_assoc. cbn. rewrite <- !app_assoc. auto.
Qed.

(** * Steps keep to the script *)

Lemma chunk_close : forall a k d h q s, chunks a k d -> head a k h ->
  chunks a (S k) ((d ++ h ++ TStart k :: repeat (TStep k) q ++ [TEnd k; TTake k true s]) ++ [TWrite s]).
Proof.
  intros. rewrite <- !app_assoc. cbn. rewrite <- !app_assoc. cbn. constructor; auto. constructor; auto.
Qed.

Section Steps.
Context {O M : Type}.
Implicit Types (t : thread O M) (es : list tev).

Lemma ok_next : forall a t es k, thread_ok a t es -> t_pc t = PNext k -> k <= length (t_acts t) /\ chunks a k es.
Proof. intros a t es k (k0 & d & p & -> & Hd & Hp) E. rewrite E in Hp. inversion Hp; subst. rewrite app_nil_r. auto. Qed.
Lemma ok_begin : forall a t es, thread_ok a t es -> t_pc t = PNone \/ t_pc t = PBegin \/ t_pc t = PSpin -> es = [].
Proof. intros a t es (k0 & d & p & -> & Hd & Hp) [E|[E|E]]; rewrite E in Hp; inversion Hp; subst; inversion Hd; auto. Qed.
Lemma ok_end : forall a t es, thread_ok a t es -> t_pc t = PEnd -> chunks a (length (t_acts t)) es.
Proof. intros a t es (k0 & d & p & -> & Hd & Hp) E. rewrite E in Hp. inversion Hp; subst. rewrite app_nil_r. auto. Qed.
End Steps.
