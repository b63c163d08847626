(** The invariant of a concurrent run. *)
From Coq Require Import List ZArith Bool Lia Arith.
From Verif Require Import Base TupleModel BitmapProof ConcModel ConcSpec ConcProof.
Import ListNotations.
Local Open Scope list_scope.

#[local] Arguments stepThread : simpl never.
#[local] Arguments stepCoord : simpl never.

(** * Sums *)

Lemma sum_le : forall (f g : nat -> nat) l, (forall i, In i l -> f i <= g i) -> list_sum (map f l) <= list_sum (map g l).
Proof. unfold list_sum. induction l; cbn; auto. intros H. specialize (IHl (fun i Hi => H i (or_intror Hi))). specialize (H a (or_introl eq_refl)). lia. Qed.
Lemma sum_lt : forall (f g : nat -> nat) l j, (forall i, In i l -> f i <= g i) -> In j l -> f j < g j -> list_sum (map f l) < list_sum (map g l).
Proof.
  unfold list_sum. induction l; cbn; [tauto|]. intros j H Hj Hlt. assert (A := sum_le f g l (fun i Hi => H i (or_intror Hi))).
  unfold list_sum in A. destruct Hj as [->|Hj]; [lia|]. specialize (IHl j (fun i Hi => H i (or_intror Hi)) Hj Hlt). specialize (H a (or_introl eq_refl)). lia.
Qed.
Lemma sum_one : forall (f g : nat -> nat) j n, j < n -> (forall i, i <> j -> f i = g i) -> f j = S (g j) -> list_sum (map f (seq 0 n)) = S (list_sum (map g (seq 0 n))).
Proof.
  unfold list_sum. intros f g j n Hj He Hs. assert (G : forall l, NoDup l -> In j l -> fold_right Init.Nat.add 0 (map f l) = S (fold_right Init.Nat.add 0 (map g l))).
  { induction l as [|x l IH]; [cbn; tauto|]. intros ND Hin. inversion ND; subst. cbn. destruct (Nat.eq_dec x j) as [->|N].
    - rewrite Hs. assert (E : map f l = map g l) by (apply map_ext_in; intros z Hz; apply He; intros ->; auto). rewrite E. lia.
    - rewrite He by auto. destruct Hin as [->|Hin]; [tauto|]. rewrite IH by auto. lia. }
  apply G; [apply seq_NoDup|apply in_seq; lia].
Qed.
Lemma map_seq_nth : forall X Y (f : X -> Y) d (l : list X), map f l = map (fun i => f (nth i l d)) (seq 0 (length l)).
Proof.
  induction l as [|x l IH]; auto. cbn [map length seq]. rewrite <- seq_shift, map_map, IH. cbn. f_equal. 
Qed.


Lemma rear_none : forall O M n (T : list (ev O M)), Forall (is_rear n) T -> of None T = [].
Proof. induction 1 as [|e T He H IH]; auto. destruct e as [[i|] x| |]; cbn in *; tauto. Qed.
Lemma front_some : forall O M i (T : list (ev O M)), Forall is_front T -> of (Some i) T = [] /\ takes T = [] /\ writes T = [].
Proof. induction 1 as [|e T He H IH]; auto. destruct e as [[j|] x| |]; cbn in *; tauto. Qed.

Definition who_is (i : nat) (x : nat * nat * bool * nat) : bool := Nat.eqb i (t_who x).
Lemma takes_of : forall O M i (T : list (ev O M)),
  map (fun x => (t_which x, t_slot x)) (filter (who_is i) (takes T)) = ttakes (of (Some i) T).
Proof.
  induction T as [|e T IH]; auto. destruct e as [[j|] x| |]; auto. unfold takes, of in *. cbn [flat_map]. rewrite filter_app, map_app, ttakes_app, IH. f_equal.
  cbn. unfold who_is. destruct x; cbn; try (destruct (Nat.eqb i j); reflexivity). 
Qed.
Lemma takes_len : forall O M n (T : list (ev O M)), Forall (is_rear n) T ->
  length (takes T) = list_sum (map (fun i => length (ttakes (of (Some i) T))) (seq 0 n)).
Proof.
  induction 1 as [|e T He H IH].
  - cbn. generalize (seq 0 n); intros l; induction l; cbn; auto.
  - destruct e as [[j|] x| |]; cbn in He; try tauto.
    assert (A : forall i, ttakes (of (Some i) (V (Some j) x :: T)) = (if Nat.eqb i j then ttakes [x] else []) ++ ttakes (of (Some i) T)).
    { intros. unfold of. cbn [flat_map]. rewrite ttakes_app. f_equal. cbn. destruct (Nat.eqb i j); auto. }
    destruct (ttakes [x]) as [|y r] eqn:E.
    + assert (takes (V (Some j) x :: T) = takes T) by (destruct x; auto; discriminate).
      rewrite H0, IH. f_equal. apply map_ext. intros i. rewrite A. destruct (Nat.eqb i j); auto.
    + assert (length (takes (V (Some j) x :: T)) = S (length (takes T)) /\ r = []) as [L ->].
      { destruct x; try discriminate. cbn in E. inversion E; subst. auto. }
      rewrite L, IH. symmetry. apply (sum_one _ _ j); auto.
      * intros i Hi. rewrite A. rewrite (proj2 (Nat.eqb_neq i j)) by auto. auto.
      * rewrite A, Nat.eqb_refl. auto.
Qed.

(** * The invariant *)

Section Inv.
Context {O M : Type}.
Variables (a : api) (front : list (act O M)) (rears : list (list (act O M))) (check : option (code O M unit)).
Notation n := (length rears).
Notation nf := (length front).

Definition base : nat := match a with Func => nf | Class => 0 end.
Definition loglen : nat := match a with Func => nf + total Func rears | Class => 5000 end.

Definition early (k : nat) (T X : list (ev O M)) (c : cfg O M) : Prop :=
  T = [] /\ X = [] /\ c_sync c = false /\ (forall i t, nth_error (c_threads c) i = Some t -> t_pc t = PNone) /\
  c_counter c = match a with Func => k | Class => 0 end /\ c_log c = match a with Func => repeat (-1)%Z k | Class => [] end.

(** The shared log after preparation. *)
Record shared (T : list (ev O M)) (c : cfg O M) : Prop := {
  s_counter : c_counter c = base + length (takes T);
  s_slots : map t_slot (takes T) = seq base (length (takes T));
  s_len : length (c_log c) = loglen;
  s_front : forall s, s < base -> nth_error (c_log c) s = Some (-1)%Z;
  s_written : forall i s, In (TWrite s) (of (Some i) T) -> nth_error (c_log c) s = Some (threadId a i)
}.

Definition printed (T : list (ev O M)) (l : list item) : Prop :=
  l = match a with
      | Func => map IFront (seq 0 nf) ++ map item_of (takes T)
      | Class => map (fun x => IRaw (threadId Class (t_who x))) (takes T)
      end.
Definition finished (T X : list (ev O M)) (c : cfg O M) : Prop :=
  (shared T c /\ (a = Func -> 1 < n) /\ (forall i t, nth_error (c_threads c) i = Some t -> t_pc t = PEnd) /\ exists l, X = [VPrint l] /\ printed T l) \/
  (a = Func /\ n <= 1 /\ T = [] /\ X = [] /\ (forall i t, nth_error (c_threads c) i = Some t -> t_pc t = PNone)).

Definition ready_ok (j : nat) (c : cfg O M) : Prop :=
  forall i t, nth_error (c_threads c) i = Some t -> (t_pc t = PBegin /\ t_ready t = false /\ j <= i) \/ (t_pc t = PSpin /\ t_ready t = true).
Definition launched (T X : list (ev O M)) (c : cfg O M) : Prop := shared T c /\ X = [] /\ (a = Func -> 1 < n).

Definition fhead (k : nat) (h : list tev) : Prop := match a with Func => h = [] | Class => exists q, h = repeat (TPre k) q end.
(** The front's events and the phase. *)
Definition co_ok (F T X : list (ev O M)) (c : cfg O M) : Prop :=
  match c_co c with
  | KFront k => early k T X c /\ k <= nf /\ fchunks a k (of None F)
  | KFrontPre k _ => early k T X c /\ a = Class /\ k < nf /\ exists d q, of None F = d ++ repeat (TPre k) q /\ fchunks a k d
  | KFrontBody k _ => early k T X c /\ k < nf /\ exists d h q, of None F = d ++ h ++ TStart k :: repeat (TStep k) q /\ fchunks a k d /\ fhead k h
  | KFrontPush k => early k T X c /\ a = Func /\ k < nf /\ fchunks a (S k) (of None F)
  | KPrepare => early nf T X c /\ fchunks a nf (of None F)
  | KStart j => launched T X c /\ fchunks a nf (of None F) /\ T = [] /\ c_sync c = false /\
      (forall i t, nth_error (c_threads c) i = Some t ->
        (i < j /\ ((t_pc t = PBegin /\ t_ready t = false) \/ (t_pc t = PSpin /\ t_ready t = true))) \/ (j <= i /\ t_pc t = PNone))
  | KWait j => launched T X c /\ fchunks a nf (of None F) /\ T = [] /\ c_sync c = false /\ ready_ok j c
  | KSync => launched T X c /\ fchunks a nf (of None F) /\ T = [] /\ c_sync c = false /\ ready_ok n c
  | KJoin j => launched T X c /\ fchunks a nf (of None F) /\ c_sync c = true /\
      (forall i t, nth_error (c_threads c) i = Some t -> t_pc t <> PNone /\ t_pc t <> PBegin /\ (i < j -> t_pc t = PEnd))
  | KPrint => launched T X c /\ fchunks a nf (of None F) /\ (forall i t, nth_error (c_threads c) i = Some t -> t_pc t = PEnd)
  | KCheck => finished T X c /\ fchunks a nf (of None F)
  | KChecking _ => exists X0 o m, X = X0 ++ [VCheck o m] /\ finished T X0 c /\ fchunks a nf (of None F) /\ check <> None
  | KDone => fchunks a nf (of None F) /\ exists X0, finished T X0 c /\ ((check = None /\ X = X0) \/ (check <> None /\ exists o m, X = X0 ++ [VCheck o m]))
  end.

Record inv (F T X : list (ev O M)) (c : cfg O M) : Prop := {
  i_acts : map t_acts (c_threads c) = rears;
  i_F : Forall is_front F;
  i_T : Forall (is_rear n) T;
  i_thr : forall i t, nth_error (c_threads c) i = Some t -> thread_ok a t (of (Some i) T);
  i_co : co_ok F T X c;
  i_def : a = Func \/ total a rears <= 5000 -> c_status c <> Undefined
}.

Lemma acts_nth : forall (c : cfg O M) i t, map t_acts (c_threads c) = rears -> nth_error (c_threads c) i = Some t -> i < n /\ nth i rears [] = t_acts t.
Proof.
  intros c i t H Ht. assert (E : nth_error rears i = Some (t_acts t)) by (rewrite <- H; apply map_nth_error; auto).
  split; [apply nth_error_Some; congruence|]. apply nth_error_nth; auto.
Qed.
Lemma acts_len : forall (c : cfg O M), map t_acts (c_threads c) = rears -> length (c_threads c) = n.
Proof. intros c H. rewrite <- H, map_length; auto. Qed.
Lemma acts_some : forall (c : cfg O M) i, map t_acts (c_threads c) = rears -> i < n -> exists t, nth_error (c_threads c) i = Some t.
Proof. intros c i H Hi. destruct (nth_error (c_threads c) i) eqn:E; eauto. apply nth_error_None in E. rewrite (acts_len c H) in E. lia. Qed.
Lemma map_set_same : forall X Y (f : X -> Y) (l : list X) i t t', nth_error l i = Some t -> f t' = f t -> map f (set_nth i t' l) = map f l.
Proof.
  induction l as [|x l IH]; intros [|i] t t' Ht He; cbn in *; try discriminate; auto.
  - inversion Ht; subst. congruence.
  - f_equal. eauto.
Qed.

(** A thread that is about to take an entry takes one of the log. *)
Lemma take_room : forall (T : list (ev O M)) (c : cfg O M) i t k last, map t_acts (c_threads c) = rears -> Forall (is_rear n) T ->
  (forall i t, nth_error (c_threads c) i = Some t -> thread_ok a t (of (Some i) T)) ->
  nth_error (c_threads c) i = Some t -> t_pc t = PTake k last -> length (takes T) < total a rears.
Proof.
  intros T c i t k last Ha HT Hthr Ht Hp. rewrite (takes_len _ _ n T HT). unfold total.
  rewrite (map_seq_nth _ _ (fun l => entries a (length l)) [] rears). destruct (acts_nth _ _ _ Ha Ht) as [Hi Hn].
  apply (sum_lt _ _ _ i).
  - intros j Hj. apply in_seq in Hj. destruct (acts_some c j Ha) as (u & Hu); [lia|]. destruct (acts_nth _ _ _ Ha Hu) as [_ ->].
    apply (thread_takes _ _ a u). auto.
  - apply in_seq. lia.
  - rewrite Hn. apply (proj2 (thread_takes _ _ a t _ (Hthr _ _ Ht))). eauto.
Qed.
Lemma takes_room : forall (T : list (ev O M)) (c : cfg O M), map t_acts (c_threads c) = rears -> Forall (is_rear n) T ->
  (forall i t, nth_error (c_threads c) i = Some t -> thread_ok a t (of (Some i) T)) -> length (takes T) <= total a rears.
Proof.
  intros T c Ha HT Hthr. rewrite (takes_len _ _ n T HT). unfold total.
  rewrite (map_seq_nth _ _ (fun l => entries a (length l)) [] rears). apply sum_le.
  intros j Hj. apply in_seq in Hj. destruct (acts_some c j Ha) as (u & Hu); [lia|]. destruct (acts_nth _ _ _ Ha Hu) as [_ ->].
  apply (thread_takes _ _ a u). auto.
Qed.

(** ** Steps of rear threads *)

(** What a thread step does to the shared parts, as far as needed here. *)
Definition tstep_ok (i : nat) (t t' : thread O M) (es : list tev) (T : list (ev O M)) (c c' : cfg O M) : Prop :=
  c_threads c' = set_nth i t' (c_threads c) /\ t_acts t' = t_acts t /\ t_ready t' = (match t_pc t with PBegin => true | _ => t_ready t end) /\
  c_sync c' = c_sync c /\ c_co c' = c_co c /\ c_status c' = c_status c /\
  thread_ok a t' (of (Some i) T ++ es) /\
  (ttakes es = [] \/ exists k l, t_pc t = PTake k l /\ es = [TTake k l (c_counter c)]) /\
  c_counter c' = c_counter c + length (ttakes es) /\
  ((c_log c' = c_log c /\ forall s, ~ In (TWrite s) es) \/
   exists k l s, t_pc t = PWrite k l s /\ s < length (c_log c) /\ c_log c' = set_nth s (threadId a i) (c_log c) /\ (forall z, In (TWrite z) es <-> z = s)) /\
  match t_pc t with
  | PBegin => t_pc t' = PSpin /\ es = []
  | PSpin => es = [] /\ if c_sync c then t_pc t' = PNext 0 else t' = t
  | _ => t_pc t' <> PNone /\ t_pc t' <> PBegin /\ (t_pc t' = PEnd -> es = [])
  end.

Lemma set_same : forall X (l : list X) i x, nth_error l i = Some x -> set_nth i x l = l.
Proof. induction l; intros [|i] x H; cbn in *; try discriminate; auto; [inversion H; auto|f_equal; auto]. Qed.

Lemma nothing_written : forall s : nat, ~ In (TWrite s) [].
Proof. cbn; auto. Qed.
Lemma one_written : forall (e : tev), (forall s, e <> TWrite s) -> forall s, ~ In (TWrite s) [e].
Proof. intros e H s [E|[]]. eapply H; eauto. Qed.

Lemma stepThread_ok : forall (T : list (ev O M)) (c : cfg O M) i es' c', 
  (forall i t, nth_error (c_threads c) i = Some t -> thread_ok a t (of (Some i) T)) ->
  stepThread a i c = Some (es', c') ->
  exists t, nth_error (c_threads c) i = Some t /\ t_pc t <> PNone /\ t_pc t <> PEnd /\
  ((exists t' es, es' = by_ i es /\ tstep_ok i t t' es T c c') \/
   (es' = [] /\ exists s, c' = with_status s c /\ (s = Undefined -> exists k l z, t_pc t = PWrite k l z /\ length (c_log c) <= z))).
Proof.
  intros T c i es' c' Hthr H. unfold stepThread in H. destruct (nth_error (c_threads c) i) as [t|] eqn:Ht; [|discriminate].
  assert (Hok := Hthr _ _ Ht). exists t. split; auto.
  assert (Hn := Hok). destruct Hn as (k0 & d & p & Eo & Hd & Hp).
  destruct (t_pc t) as [| | |k|k q|k last|k last slot|k q|] eqn:Epc; try discriminate; (split; [discriminate|]); (split; [discriminate|]).
  - (* PBegin *) inversion H; subst. left. eexists {| t_pc := PSpin; t_ready := true; t_acts := t_acts t; t_model := t_model t |}, [].
    split; auto. unfold tstep_ok. rewrite Epc. cbn. assert (E := ok_begin _ _ _ Hok (or_intror (or_introl Epc))). repeat (split; auto).
    rewrite E. exists 0, [], []. split; auto. split; constructor.
  - (* PSpin *) assert (E := ok_begin _ _ _ Hok (or_intror (or_intror Epc))). left. inversion H; subst. destruct (c_sync c) eqn:Es.
    + eexists (with_pc (PNext 0) t), []. split; auto. unfold tstep_ok. rewrite Epc, Es. cbn. repeat (split; auto).
      rewrite E. exists 0, [], []. split; auto. split; constructor. lia.
    + eexists t, []. split; auto. unfold tstep_ok. rewrite Epc, Es. rewrite set_same by auto. cbn. repeat (split; auto).
      rewrite app_nil_r. auto.
  - (* PNext *) destruct (ok_next _ _ _ _ Hok Epc) as [Hk Hc]. left. destruct (nth_error (t_acts t) k) as [x|] eqn:Ex.
    + assert (k < length (t_acts t)) by (apply nth_error_Some; congruence). inversion H; subst c' es'.
      eexists _, []. split; [reflexivity|]. unfold tstep_ok. rewrite Epc. cbn. repeat (split; auto); try (destruct a; discriminate).
      rewrite app_nil_r. exists k, (of (Some i) T), []. rewrite app_nil_r. split; auto. split; auto. cbn.
      destruct a; [constructor; auto|]. apply (pa_pre _ _ _ 0). auto.
    + assert (k = length (t_acts t)) by (apply nth_error_None in Ex; lia). subst k. inversion H; subst c' es'.
      eexists _, []. split; [reflexivity|]. unfold tstep_ok. rewrite Epc. cbn. repeat (split; auto); try discriminate.
      rewrite app_nil_r. exists (length (t_acts t)), (of (Some i) T), []. rewrite app_nil_r. split; auto. split; auto. constructor.
  - (* PPre *) inversion Hp; subst. match goal with E : Class = _ |- _ => rename E into EC end.
    destruct q as [[|]|e|u nx].
    + destruct (nth_error (t_acts t) k0) as [x|] eqn:Ex; [|discriminate]. inversion H; subst c' es'. left. eexists _, [_]. split; [reflexivity|].
      unfold tstep_ok. rewrite Epc. cbn. repeat (split; auto); try discriminate.
      * exists k0, d, (repeat (TPre k0) m ++ [TStart k0]). rewrite Eo, <- app_assoc. split; auto. split; auto.
        rewrite <- EC. apply (pa_body Class _ _ _ _ 0); auto. constructor.
      * left. split; auto. apply one_written; discriminate.
    + inversion H; subst c' es'. left. eexists _, [_]. split; [reflexivity|].
      unfold tstep_ok. rewrite Epc. cbn. repeat (split; auto); try discriminate.
      * exists (S k0), (d ++ (repeat (TPre k0) m ++ [TSkip k0])), []. rewrite Eo, !app_nil_r, <- app_assoc. split; auto. split; [constructor; auto; rewrite <- EC; constructor|].
        constructor. auto.
      * left. split; auto. apply one_written; discriminate.
    + inversion H; subst. right. split; auto. eexists. split; eauto. discriminate.
    + unfold stepped, seen_model in H. rewrite <- EC in H. inversion H; subst c' es'. left. eexists _, [_]. split; [reflexivity|].
      unfold tstep_ok. rewrite Epc. cbn. repeat (split; auto); try discriminate.
      * exists k0, d, (repeat (TPre k0) (S m)). rewrite Eo, <- app_assoc. split; [f_equal; symmetry; apply repeat_cons|]. split; auto.
        rewrite <- EC. constructor; auto.
      * left. split; auto. apply one_written; discriminate.
  - (* PTake *) inversion H; subst c' es'. left. eexists _, [_]. split; [reflexivity|].
    unfold tstep_ok. rewrite Epc. cbn. split; auto. split; auto. split; auto. split; auto. split; auto. split; auto.
    split; [|split; [right; eauto|split; [lia|split; [left; split; auto; apply one_written; discriminate|split; [discriminate|split; discriminate]]]]].
    inversion Hp; subst.
    + exists k0, d, [TTake k0 false (c_counter c)]. rewrite Eo, app_nil_r. split; auto. split; auto. constructor; auto.
    + exists k0, d, (h ++ TStart k0 :: repeat (TStep k0) q ++ [TEnd k0; TTake k0 true (c_counter c)]).
      rewrite Eo, <- !app_assoc. cbn. rewrite <- app_assoc. split; auto. split; auto. constructor; auto.
  - (* PWrite *) destruct (Nat.ltb_spec slot (length (c_log c))) as [Hs|Hs].
    + assert (R : forall X Y, (t_pc t = PTake k last -> X) -> (False \/ Y) -> Y) by tauto. clear R.
      destruct last.
      * inversion H; subst c' es'. left. eexists _, [_]. split; [reflexivity|].
        unfold tstep_ok. rewrite Epc. cbn. split; auto. split; auto. split; auto. split; auto. split; auto. split; auto.
        split; [|split; [auto|split; [lia|split; [|split; [discriminate|split; discriminate]]]]].
        -- inversion Hp; subst. exists (S k0), (of (Some i) T ++ [TWrite slot]), []. rewrite app_nil_r. split; auto.
           rewrite Eo. split; [apply chunk_close; auto|]. constructor. auto.
        -- right. exists k, true, slot. split; auto. split; auto. split; auto. intros z; split; [intros [E|[]]; inversion E; auto|intros ->; auto].
      * destruct (nth_error (t_acts t) k) as [x|] eqn:Ex; [|discriminate]. inversion H; subst c' es'. left. eexists _, [_; _]. split; [reflexivity|].
        unfold tstep_ok. rewrite Epc. cbn. split; auto. split; auto. split; auto. split; auto. split; auto. split; auto.
        split; [|split; [auto|split; [lia|split; [|split; [discriminate|split; discriminate]]]]].
        -- inversion Hp; subst. exists k0, d, ([TTake k0 false slot; TWrite slot] ++ TStart k0 :: repeat (TStep k0) 0). rewrite Eo, <- app_assoc. split; auto.
           split; auto. constructor; auto. constructor.
        -- right. exists k, false, slot. split; auto. split; auto. split; auto. intros z; split; [intros [E|[E|[]]]; inversion E; auto|intros ->; auto].
    + inversion H; subst. right. split; auto. eexists; split; [reflexivity|]; intros _; exists k, last, slot; auto.
  - (* PBody *) destruct q as [[|]|e|u nx].
    + inversion Hp; subst. inversion H; subst c' es'. left. eexists _, [_]. split; [reflexivity|].
      unfold tstep_ok. rewrite Epc. cbn. repeat (split; auto); try discriminate.
      * exists k0, d, (h ++ TStart k0 :: repeat (TStep k0) q ++ [TEnd k0]). rewrite Eo, <- !app_assoc. cbn. split; auto. split; auto.
        constructor; auto.
      * left. split; auto. apply one_written; discriminate.
    + inversion H; subst. right. split; auto. eexists. split; eauto. discriminate.
    + inversion H; subst. right. split; auto. eexists. split; eauto. discriminate.
    + inversion Hp; subst. inversion H; subst c' es'. left.
      exists (match a with Func => with_pc (PBody k0 (nx (c_obj c) (seen_model a c t))) (with_model (snd (u (c_obj c) (seen_model a c t))) t) | Class => with_pc (PBody k0 (nx (c_obj c) (seen_model a c t))) t end), [TStep k0].
      split; [reflexivity|]. unfold tstep_ok. rewrite Epc. 
      assert (Hk : thread_ok a (with_pc (PBody k0 (nx (c_obj c) (seen_model a c t))) t) (of (Some i) T ++ [TStep k0])).
      { exists k0, d, (h ++ TStart k0 :: repeat (TStep k0) (S q)). rewrite Eo, <- !app_assoc. cbn [app]. split; [do 3 f_equal; symmetry; apply repeat_cons|]. split; auto.
        constructor; auto. }
      destruct a; cbn; (repeat (split; auto)); try discriminate; (left; split; auto; apply one_written; discriminate).
Qed.

Lemma nodup_map_eq : forall X Y (f : X -> Y) l x y, NoDup (map f l) -> In x l -> In y l -> f x = f y -> x = y.
Proof.
  induction l as [|z l IH]; cbn; [tauto|]. intros x y ND [->|Hx] [->|Hy] E; auto; inversion ND; subst.
  - exfalso. match goal with H : ~ In _ _ |- _ => apply H end. rewrite E. apply in_map; auto.
  - exfalso. match goal with H : ~ In _ _ |- _ => apply H end. rewrite <- E. apply in_map; auto.
  - eauto.
Qed.
Lemma in_of : forall i e (T : list (ev O M)), In e (of (Some i) T) <-> In (V (Some i) e) T.
Proof.
  intros i e T. unfold of. rewrite in_flat_map. split.
  - intros (x & Hx & He). destruct x as [[j|] y| |]; cbn in He; try tauto. destruct (Nat.eqb_spec i j); [|cbn in He; tauto]. subst. destruct He as [->|[]]; auto.
  - intros H. eexists. split; eauto. cbn. rewrite Nat.eqb_refl. cbn; auto.
Qed.
Lemma in_takes : forall i k l s (T : list (ev O M)), In (i, k, l, s) (takes T) <-> In (V (Some i) (TTake k l s)) T.
Proof.
  intros i k l s T. unfold takes. rewrite in_flat_map. split.
  - intros (x & Hx & He). destruct x as [[j|] y| |]; cbn in He; try tauto. destruct y; cbn in He; try tauto. destruct He as [E|[]]. inversion E; subst; auto.
  - intros H. eexists. split; eauto. cbn. auto.
Qed.

Lemma shared_nodup : forall T c, shared T c -> NoDup (map t_slot (takes T)).
Proof. intros T c H. rewrite (s_slots _ _ H). apply seq_NoDup. Qed.
Lemma shared_range : forall (T : list (ev O M)) (c : cfg O M) i k l s, shared T c -> In (TTake k l s) (of (Some i) T) -> base <= s < base + length (takes T).
Proof.
  intros T c i k l s H Hi. apply in_of, in_takes in Hi. apply (in_map t_slot) in Hi. rewrite (s_slots _ _ H) in Hi. apply in_seq in Hi. auto.
Qed.
Lemma shared_same : forall (T : list (ev O M)) (c : cfg O M) i j k l k' l' s, shared T c -> In (TTake k l s) (of (Some i) T) -> In (TTake k' l' s) (of (Some j) T) -> i = j.
Proof.
  intros T c i j k l k' l' s H Hi Hj. apply in_of, in_takes in Hi. apply in_of, in_takes in Hj.
  assert (E : (i, k, l, s) = (j, k', l', s)) by (apply (nodup_map_eq _ _ t_slot (takes T)); auto; eapply shared_nodup; eauto). congruence.
Qed.
Lemma in_rear : forall i e (T : list (ev O M)), Forall (is_rear n) T -> In e (of (Some i) T) -> i < n.
Proof. intros i e T H Hi. apply in_of in Hi. rewrite Forall_forall in H. apply H in Hi. auto. Qed.

Lemma step_shared : forall (T : list (ev O M)) (c c' : cfg O M) i t t' es,
  map t_acts (c_threads c) = rears -> Forall (is_rear n) T ->
  (forall i t, nth_error (c_threads c) i = Some t -> thread_ok a t (of (Some i) T)) ->
  nth_error (c_threads c) i = Some t -> tstep_ok i t t' es T c c' -> shared T c -> shared (T ++ by_ i es) c'.
Proof.
  intros T c c' i t t' es Ha HT Hthr Ht (Ec & Eacts & Erdy & Esync & Eco & Est & Hok & Htk & Ecnt & Hlog & _) S.
  assert (L : length (takes (T ++ by_ i es)) = length (takes T) + length (ttakes es)) by (rewrite takes_app, takes_by, app_length, map_length; auto).
  constructor.
  - rewrite L, Ecnt, (s_counter _ _ S). lia.
  - rewrite L. destruct Htk as [E|(k & l & Ep & ->)].
    + rewrite takes_app, takes_by, E. cbn. rewrite app_nil_r, Nat.add_0_r. apply (s_slots _ _ S).
    + rewrite takes_app, takes_by. cbn. rewrite map_app, seq_app, (s_slots _ _ S), (s_counter _ _ S). auto.
  - destruct Hlog as [[-> _]|(k & l & s & _ & _ & -> & _)]; [|rewrite setnth_len]; apply (s_len _ _ S).
  - intros s Hs. destruct Hlog as [[-> _]|(k & l & z & Ep & Hz & -> & _)]; [apply (s_front _ _ S); auto|].
    rewrite setnth_other; [apply (s_front _ _ S); auto|]. intros ->.
    destruct (thread_writing _ _ _ _ _ _ _ _ (Hthr _ _ Ht) Ep) as (es0 & E). 
    assert (R := shared_range T c i k l s S). rewrite E in R. specialize (R ltac:(apply in_or_app; right; cbn; auto)). lia.
  - intros j s Hw. rewrite of_app in Hw. destruct Hlog as [[-> Hnw]|(k & l & z & Ep & Hz & -> & Hw2)].
    + apply (s_written _ _ S). apply in_app_or in Hw. destruct Hw as [Hw|Hw]; auto. exfalso.
      destruct (Nat.eq_dec j i) as [->|N]; [rewrite of_by_same in Hw; eapply Hnw; eauto|rewrite of_by_other in Hw by auto; destruct Hw].
    + destruct (thread_writing _ _ _ _ _ _ _ _ (Hthr _ _ Ht) Ep) as (es0 & E).
      assert (Htake : In (TTake k l z) (of (Some i) T)) by (rewrite E; apply in_or_app; right; cbn; auto).
      assert (Hat : exists y, nth_error (c_log c) z = Some y) by (destruct (nth_error (c_log c) z) eqn:X; eauto; apply nth_error_None in X; lia).
      destruct Hat as (y & Hy). apply in_app_or in Hw. destruct Hw as [Hw|Hw].
      * destruct (Nat.eq_dec z s) as [->|N]; [|rewrite setnth_other by auto; apply (s_written _ _ S); auto].
        rewrite (setnth_at _ _ _ _ _ Hy). f_equal. f_equal. symmetry.
        assert (Hj := in_rear _ _ _ HT Hw). destruct (acts_some c j Ha Hj) as (u & Hu).
        destruct (proj1 (thread_wt _ _ _ _ _ s (Hthr _ _ Hu)) Hw) as (k' & l' & Htake'). eapply shared_same; eauto.
      * destruct (Nat.eq_dec j i) as [->|N]; [rewrite of_by_same in Hw|rewrite of_by_other in Hw by auto; destruct Hw].
        apply Hw2 in Hw. subst. apply (setnth_at _ _ _ _ _ Hy).
Qed.

Lemma with_status_co : forall F T X (c : cfg O M) s, co_ok F T X c -> co_ok F T X (with_status s c).
Proof.
  intros F T X c s H. unfold co_ok in *. cbn [with_status c_co]. unfold early, launched, finished, ready_ok in *.
  assert (Sh : forall T, shared T c -> shared T (with_status s c)) by (intros T0 [? ? ? ? ?]; constructor; auto).
  destruct (c_co c); cbn [with_status c_threads c_sync c_counter c_log]; intuition auto.
  - destruct H as (X0 & o & m & ? & Hf & ? & ?). exists X0, o, m. intuition auto.
  - destruct H1 as (X0 & Hf & ?). exists X0. intuition auto.
Qed.

Lemma rear_inv : forall F T X (c : cfg O M) i es' c', inv F T X c -> stepThread a i c = Some (es', c') -> c_status c = Running -> inv F (T ++ es') X c'.
Proof.
  intros F T X c i es' c' [Ha HF HT Hthr Hco Hdef] H Hrun. destruct (stepThread_ok T c i es' c' Hthr H) as (t & Ht & Nn & Ne & Hcase).
  assert (Hi := proj1 (acts_nth _ _ _ Ha Ht)).
  destruct Hcase as [(t' & es & -> & Hs)|(-> & s & -> & Hu)].
  - assert (Hsh := step_shared T c c' i t t' es Ha HT Hthr Ht Hs).
    destruct Hs as (Ec & Eacts & Erdy & Esync & Eco & Est & Hok & Htk & Ecnt & Hlog & Hpc).
    constructor; auto.
    + rewrite Ec. rewrite (map_set_same _ _ _ _ _ t); auto.
    + apply Forall_app. split; auto. apply Forall_forall. intros e He. apply in_map_iff in He. destruct He as (y & <- & _). auto.
    + intros j u Hj. rewrite Ec in Hj. apply setnth_inv in Hj. rewrite of_app. destruct Hj as [[-> ->]|[N Hj]].
      * rewrite of_by_same. auto.
      * rewrite of_by_other, app_nil_r by auto. auto.
    + unfold co_ok in *. rewrite Eco. destruct (c_co c) eqn:K.
      1-5: destruct Hco as [(_ & _ & _ & Hp & _) _]; destruct Nn; eauto.
      * destruct Hco as ((Sh & EX & En) & Hf & ET & Es & Hp).
        assert (Hes : es = [] /\ (t_pc t = PBegin /\ t_pc t' = PSpin \/ t' = t)).
        { destruct (Hp _ _ Ht) as [[Hij [[E _]|[E _]]]|[_ E]]; [| |tauto]; rewrite E in Hpc; [tauto|]. rewrite Es in Hpc. tauto. }
        destruct Hes as [-> Hes]. cbn. rewrite app_nil_r in *. split; [split; auto|split; [auto|split; [auto|split; [congruence|]]]]. intros j u Hj. rewrite Ec in Hj. apply setnth_inv in Hj.
        destruct Hj as [[-> ->]|[N Hj]]; auto. destruct Hes as [[E E']| ->]; auto. left. destruct (Hp _ _ Ht) as [[Hij _]|[_ E0]]; [|tauto].
        split; auto. right. split; auto. rewrite Erdy, E. auto.
      * destruct Hco as ((Sh & EX & En) & Hf & ET & Es & Hp).
        assert (Hes : es = [] /\ (t_pc t = PBegin /\ t_pc t' = PSpin \/ t' = t)).
        { destruct (Hp _ _ Ht) as [[E _]|[E _]]; rewrite E in Hpc; [tauto|]. rewrite Es in Hpc. tauto. }
        destruct Hes as [-> Hes]. cbn. rewrite app_nil_r in *. split; [split; auto|split; [auto|split; [auto|split; [congruence|]]]]. intros j u Hj. rewrite Ec in Hj. apply setnth_inv in Hj.
        destruct Hj as [[-> ->]|[N Hj]]; auto. destruct Hes as [[E E']| ->]; auto. right. split; auto. rewrite Erdy, E. auto.
      * destruct Hco as ((Sh & EX & En) & Hf & ET & Es & Hp).
        assert (Hes : es = [] /\ (t_pc t = PBegin /\ t_pc t' = PSpin \/ t' = t)).
        { destruct (Hp _ _ Ht) as [[E _]|[E _]]; rewrite E in Hpc; [tauto|]. rewrite Es in Hpc. tauto. }
        destruct Hes as [-> Hes]. cbn. rewrite app_nil_r in *. split; [split; auto|split; [auto|split; [auto|split; [congruence|]]]]. intros j u Hj. rewrite Ec in Hj. apply setnth_inv in Hj.
        destruct Hj as [[-> ->]|[N Hj]]; auto. destruct Hes as [[E E']| ->]; auto. right. split; auto. rewrite Erdy, E. auto.
      * destruct Hco as ((Sh & EX & En) & Hf & Es & Hp). rewrite Esync. split; [split; auto|split; [auto|split; [auto|]]].
        intros j u Hj. rewrite Ec in Hj. apply setnth_inv in Hj. destruct Hj as [[-> ->]|[N Hj]]; [|eapply Hp; eauto].
        destruct (Hp _ _ Ht) as (P1 & P2 & P3). assert (Hij : ~ i < i0) by auto. rewrite Es in Hpc.
        assert (Q : t_pc t' <> PNone /\ t_pc t' <> PBegin); [|tauto].
        destruct (t_pc t) eqn:Et; try tauto. destruct Hpc as (_ & ->). split; discriminate.
      * destruct Hco as (_ & _ & Hp). destruct Ne; eauto.
      * destruct Hco as ([(_ & _ & Hp & _)|(_ & _ & _ & _ & Hp)] & _); [destruct Ne|destruct Nn]; eauto.
      * destruct Hco as (? & ? & ? & ? & [(_ & _ & Hp & _)|(_ & _ & _ & _ & Hp)] & _); [destruct Ne|destruct Nn]; eauto.
      * destruct Hco as (_ & ? & [(_ & _ & Hp & _)|(_ & _ & _ & _ & Hp)] & _); [destruct Ne|destruct Nn]; eauto.
    + rewrite Est. auto.
  - rewrite app_nil_r. constructor; auto.
    + apply with_status_co; auto.
    + intros Hb E. cbn in E. destruct (Hu E) as (k & l & z & Ep & Hz).
      assert (Hsh : shared T c).
      { unfold co_ok in Hco. destruct (c_co c).
        1-5: destruct Hco as [(_ & _ & _ & Hp & _) _]; destruct Nn; eauto.
        1-5: apply Hco.
        - destruct Hco as ([(? & _)|(_ & _ & _ & _ & Hp)] & _); [auto|destruct Nn; eauto].
        - destruct Hco as (? & ? & ? & ? & [(? & _)|(_ & _ & _ & _ & Hp)] & _); [auto|destruct Nn; eauto].
        - destruct Hco as (_ & ? & [(? & _)|(_ & _ & _ & _ & Hp)] & _); [auto|destruct Nn; eauto]. }
      destruct (thread_writing _ _ _ _ _ _ _ _ (Hthr _ _ Ht) Ep) as (es0 & E0).
      assert (R := shared_range T c i k l z Hsh). rewrite E0 in R. specialize (R ltac:(apply in_or_app; right; cbn; auto)).
      rewrite (s_len _ _ Hsh) in Hz. assert (Hr := takes_room T c Ha HT Hthr). unfold loglen, base in *. destruct a; [lia|]. destruct Hb; [discriminate|lia].
Qed.
End Inv.
