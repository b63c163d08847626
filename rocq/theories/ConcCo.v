(** What is printed, and the steps of invoke. *)
From Coq Require Import List ZArith Bool Lia Arith.
From Verif Require Import Base TupleModel BitmapProof ConcModel ConcSpec ConcProof ConcInv.
Import ListNotations.
Local Open Scope list_scope.

#[local] Arguments stepThread : simpl never.
#[local] Arguments stepCoord : simpl never.

Lemma alt_nth : forall m j k b, nth_error (alt m) j = Some (k, b) -> k = Nat.div2 j /\ b = Nat.odd j /\ k < m.
Proof.
  induction m; intros j k b H; [destruct j; discriminate|]. rewrite alt_S in H. destruct (Nat.lt_ge_cases j (2 * m)) as [Hj|Hj].
  - rewrite nth_error_app1 in H by (rewrite alt_len; auto). apply IHm in H. intuition lia.
  - rewrite nth_error_app2, alt_len in H by (rewrite alt_len; auto). destruct (j - 2 * m) as [|[|z]] eqn:E; cbn in H.
    + inversion H; subst. assert (j = 2 * k) by lia. subst. rewrite Nat.div2_double, Nat.odd_mul. auto.
    + inversion H; subst. assert (j = S (2 * k)) by lia. subst. rewrite Nat.div2_succ_double, Nat.odd_succ, Nat.even_mul. auto.
    + destruct z; discriminate.
Qed.

Definition cnt (i : nat) (P : list (nat * nat * bool * nat)) : nat := length (filter (who_is i) P).

Lemma printOrder_rears : forall (nf : nat) (rl : list nat) R P fi its started,
  (forall i m, nth_error rl i = Some m -> map t_which (filter (who_is i) (P ++ R)) = firstn (cnt i (P ++ R)) (alt m)) ->
  (forall x, In x R -> t_who x < length rl) ->
  (forall i, i < length rl -> nth_error its i = Some (Nat.div2 (cnt i P)) /\ nth_error started i = Some (Nat.odd (cnt i P))) ->
  printOrder nf rl fi its started (map (fun x => Z.of_nat (t_who x)) R) = Ok (map item_of R).
Proof.
  induction R as [|x R IH]; intros P fi its started Hw Hb Hs; auto. cbn [map printOrder].
  assert (Hx : t_who x < length rl) by (apply Hb; cbn; auto). destruct (nth_error rl (t_who x)) as [m|] eqn:Em; [|apply nth_error_None in Em; lia].
  destruct (Hs _ Hx) as [H1 H2].
  assert (Hat : nth_error (alt m) (cnt (t_who x) P) = Some (t_which x)).
  { specialize (Hw _ _ Em). assert (E : nth_error (map t_which (filter (who_is (t_who x)) (P ++ x :: R))) (cnt (t_who x) P) = Some (t_which x)).
    { apply map_nth_error. rewrite filter_app. cbn. unfold who_is at 2. rewrite Nat.eqb_refl. rewrite nth_error_app2; unfold cnt; auto. rewrite Nat.sub_diag. auto. }
    rewrite Hw in E. assert (L : cnt (t_who x) P < cnt (t_who x) (P ++ x :: R)).
    { unfold cnt. rewrite filter_app, app_length. cbn. unfold who_is at 3. rewrite Nat.eqb_refl. cbn. lia. }
    rewrite <- E. symmetry. clear - L. revert L. generalize (alt m), (cnt (t_who x) P), (cnt (t_who x) (P ++ x :: R)). clear.
    intros l j k. revert l j. induction k; intros l j L; [lia|]. destruct l; [destruct j; auto|]. destruct j; cbn; auto. apply IHk. lia. }
  destruct x as [[[i k] b] s]. unfold t_who, t_which in *; cbn [fst snd] in *. apply alt_nth in Hat. destruct Hat as (Ek & Eb & Hk).
  destruct (Z.eqb_spec (Z.of_nat i) (-1)); [lia|]. unfold idx. destruct (Z.ltb_spec (Z.of_nat i) 0); [lia|]. rewrite Nat2Z.id, H1, H2, Em. cbn [bind].
  rewrite <- Ek, <- Eb. destruct (Nat.ltb_spec k m); [|lia].
  assert (C : forall j, cnt j (P ++ [(i, k, b, s)]) = cnt j P + (if Nat.eqb j i then 1 else 0)).
  { intros j. unfold cnt. rewrite filter_app, app_length. cbn. unfold who_is at 2, t_who. cbn. destruct (Nat.eqb j i); auto. }
  rewrite (IH (P ++ [(i, k, b, s)])).
  - destruct b; auto.
  - intros j q Hj. rewrite <- app_assoc. auto.
  - intros y Hy. apply Hb. right; auto.
  - intros j Hj. rewrite C. destruct (Hs _ Hj) as [J1 J2]. destruct (Nat.eqb_spec j i) as [->|N].
    + split.
      * rewrite Nat.add_1_r. destruct b.
        -- rewrite (setnth_at _ _ _ _ _ H1). f_equal. rewrite Ek. symmetry. clear - Eb. symmetry in Eb. apply Nat.odd_spec in Eb. destruct Eb as (z & ->).
           rewrite Nat.add_1_r. rewrite Nat.div2_succ_double. replace (S (S (2 * z))) with (2 * S z) by lia. apply Nat.div2_double.
        -- rewrite H1. f_equal. clear - Eb. symmetry in Eb. rewrite <- Nat.negb_even in Eb. apply negb_false_iff, Nat.even_spec in Eb. destruct Eb as (z & ->).
           rewrite Nat.div2_succ_double, Nat.div2_double. auto.
      * rewrite (setnth_at _ _ _ _ _ H2), Nat.add_1_r, Nat.odd_succ, <- Nat.negb_odd, Eb. auto.
    + rewrite Nat.add_0_r. split; [destruct b; auto|]; rewrite setnth_other; auto.
Qed.

Lemma printOrder_front : forall nf rl R its started k j, j + k = nf ->
  (forall l, printOrder nf rl nf its started R = Ok l -> printOrder nf rl j its started (repeat (-1)%Z k ++ R) = Ok (map IFront (seq j k) ++ l)).
Proof.
  induction k; intros j E l H.
  - cbn. rewrite Nat.add_0_r in E. subst j. auto.
  - cbn [repeat app printOrder seq map]. destruct (Z.eqb_spec (-1) (-1)); [|lia]. destruct (Nat.ltb_spec j nf); [|lia].
    rewrite (IHk (S j) ltac:(lia) l H). auto.
Qed.

Lemma nth_ext_error : forall X (l l' : list X), (forall i, nth_error l i = nth_error l' i) -> l = l'.
Proof.
  induction l; destruct l'; intros H; auto; try (specialize (H 0); discriminate).
  f_equal; [specialize (H 0); cbn in H; congruence|]. apply IHl. intros i. apply (H (S i)).
Qed.
Lemma firstn_nth : forall X (l : list X) k j, j < k -> nth_error (firstn k l) j = nth_error l j.
Proof. induction l; intros [|k] [|j] H; cbn; auto; try lia. apply IHl. lia. Qed.

Section Co.
Context {O M : Type}.
Variables (a : api) (front : list (act O M)) (rears : list (list (act O M))) (check : option (code O M unit)).
Notation n := (length rears).
Notation nf := (length front).
Notation inv := (inv a front rears check).
Notation shared := (shared a front rears).
Notation printed := (printed a front).
Notation finished := (finished a front rears).
Notation early := (early a).
Notation co_ok := (co_ok a front rears check).

(** Once all threads are at their end, the log is what was taken. *)
Lemma log_done : forall (T : list (ev O M)) (c : cfg O M), map t_acts (c_threads c) = rears -> Forall (is_rear n) T ->
  (forall i t, nth_error (c_threads c) i = Some t -> thread_ok a t (of (Some i) T)) -> shared T c ->
  (forall i t, nth_error (c_threads c) i = Some t -> t_pc t = PEnd) ->
  c_counter c <= length (c_log c) /\ firstn (c_counter c) (c_log c) = repeat (-1)%Z (base a front) ++ map (fun x => threadId a (t_who x)) (takes T).
Proof.
  intros T c Ha HT Hthr S He.
  assert (W : forall q x, nth_error (takes T) q = Some x -> nth_error (c_log c) (base a front + q) = Some (threadId a (t_who x))).
  { intros q x Hq. assert (Hs : t_slot x = base a front + q).
    { assert (E := map_nth_error t_slot _ _ Hq). rewrite (s_slots _ _ _ _ _ S) in E. assert (q < length (takes T)) by (apply nth_error_Some; congruence).
      apply nth_error_nth with (d := 0) in E. rewrite seq_nth in E; auto. }
    destruct x as [[[i k] l] s]. cbn in Hs. unfold t_slot, t_who in *. cbn in *. subst s. apply nth_error_In in Hq. apply in_takes in Hq.
    assert (Hi : i < n) by (rewrite Forall_forall in HT; apply (HT _ Hq)). apply in_of in Hq. destruct (acts_some rears c i Ha Hi) as (t & Ht).
    apply (s_written _ _ _ _ _ S). destruct (proj2 (thread_wt _ _ _ _ _ (base a front + q) (Hthr _ _ Ht))) as [Hw|(k' & l' & E)]; eauto.
    rewrite (He _ _ Ht) in E. discriminate. }
  assert (L : base a front <= length (c_log c)). { rewrite (s_len _ _ _ _ _ S). unfold base, loglen. destruct a; lia. }
  assert (B : c_counter c <= length (c_log c)).
  { rewrite (s_counter _ _ _ _ _ S). destruct (length (takes T)) as [|q] eqn:E; [lia|].
    destruct (nth_error (takes T) q) as [x|] eqn:Hq; [|apply nth_error_None in Hq; lia]. specialize (W _ _ Hq).
    assert (base a front + q < length (c_log c)) by (apply nth_error_Some; congruence). lia. }
  split; auto. apply nth_ext_error. intros j. destruct (Nat.lt_ge_cases j (c_counter c)) as [Hj|Hj].
  - rewrite firstn_nth by auto. destruct (Nat.lt_ge_cases j (base a front)) as [Hb|Hb].
    + rewrite nth_error_app1 by (rewrite repeat_length; auto). rewrite nth_error_repeat by auto. apply (s_front _ _ _ _ _ S). auto.
    + rewrite nth_error_app2 by (rewrite repeat_length; auto). rewrite repeat_length. rewrite (s_counter _ _ _ _ _ S) in Hj.
      destruct (nth_error (takes T) (j - base a front)) as [x|] eqn:Hq; [|apply nth_error_None in Hq; lia].
      rewrite (map_nth_error _ _ _ Hq), <- (W _ _ Hq). f_equal. lia.
  - assert (E : nth_error (firstn (c_counter c) (c_log c)) j = None) by (apply nth_error_None; rewrite firstn_length; lia). rewrite E. symmetry.
    apply nth_error_None. rewrite app_length, repeat_length, map_length. rewrite (s_counter _ _ _ _ _ S) in Hj. lia.
Qed.

Lemma print_ok : forall (T : list (ev O M)) (c : cfg O M), map t_acts (c_threads c) = rears -> Forall (is_rear n) T ->
  (forall i t, nth_error (c_threads c) i = Some t -> thread_ok a t (of (Some i) T)) -> shared T c ->
  (forall i t, nth_error (c_threads c) i = Some t -> t_pc t = PEnd) ->
  exists l, printing a nf c = Ok l /\ printed T l.
Proof.
  intros T c Ha HT Hthr S He. destruct (log_done T c Ha HT Hthr S He) as [B E]. unfold printing. destruct (Nat.leb_spec (c_counter c) (length (c_log c))); [|lia].
  rewrite E. eexists. split; [|reflexivity]. destruct a eqn:Ea.
  - apply (printOrder_front nf _ _ _ _ nf 0); auto. apply (printOrder_rears nf _ (takes T) []).
    + intros i m Hm. destruct (nth_error (c_threads c) i) as [t|] eqn:Ht.
      * rewrite (map_nth_error _ _ _ Ht) in Hm. inversion Hm; subst m. cbn [app]. assert (A := thread_alt _ _ t _ (Hthr _ _ Ht)).
        rewrite <- takes_of in A. rewrite map_map in A. cbn in A. rewrite map_length in A. exact A.
      * apply nth_error_None in Ht. assert (nth_error (map (fun t => length (t_acts t)) (c_threads c)) i = None) by (apply nth_error_None; rewrite map_length; auto). congruence.
    + intros x Hx. rewrite map_length, (acts_len rears c Ha). destruct x as [[[i k] l] s]. apply in_takes in Hx. rewrite Forall_forall in HT. apply (HT _ Hx).
    + intros i Hi. rewrite map_length in Hi. destruct (nth_error (c_threads c) i) as [t|] eqn:Ht; [|apply nth_error_None in Ht; lia].
      cbn. rewrite (map_nth_error _ _ _ Ht), (map_nth_error _ _ _ Ht). auto.
  - cbn [base repeat app]. rewrite map_map. auto.
Qed.

Lemma of_none : forall (F : list (ev O M)) e, of None (F ++ [V None e]) = of None F ++ [e].
Proof. intros. rewrite of_app. auto. Qed.
Lemma front_snoc : forall (F : list (ev O M)) e, Forall is_front F -> Forall is_front (F ++ [V None e]).
Proof. intros. apply Forall_app. split; auto. constructor; cbn; auto. Qed.

Lemma inv_front : forall F T X (c c' : cfg O M) evs, inv F T X c ->
  c_threads c' = c_threads c -> (c_status c' = c_status c \/ c_status c' <> Undefined) -> Forall is_front evs -> co_ok (F ++ evs) T X c' -> inv (F ++ evs) T X c'.
Proof.
  intros F T X c c' evs [Ha HF HT Hthr Hco Hdef] E1 E2 E3 E4. constructor; auto.
  - rewrite E1; auto. - apply Forall_app; auto. - intros i t Ht. rewrite E1 in Ht. auto.
  - intros Hd. destruct E2 as [->|E2]; auto.
Qed.
Lemma inv_tail : forall F T X (c c' : cfg O M) evs, inv F T X c ->
  c_threads c' = c_threads c -> (c_status c' = c_status c \/ c_status c' <> Undefined) -> co_ok F T (X ++ evs) c' -> inv F T (X ++ evs) c'.
Proof.
  intros F T X c c' evs [Ha HF HT Hthr Hco Hdef] E1 E2 E4. constructor; auto.
  - rewrite E1; auto. - intros i t Ht. rewrite E1 in Ht. auto.
  - intros Hd. destruct E2 as [->|E2]; auto.
Qed.

Lemma threw_inv : forall F T X (c : cfg O M) s, inv F T X c -> s <> Undefined -> inv F T (X ++ []) (with_status s c).
Proof.
  intros F T X c s H Hs. rewrite app_nil_r. rewrite <- (app_nil_r X). eapply inv_tail; eauto. rewrite app_nil_r. apply with_status_co. apply (i_co _ _ _ _ _ _ _ _ H).
Qed.

Lemma early_nil : forall k (T X : list (ev O M)) c, early k T X c -> T = [] /\ X = [].
Proof. intros k T X c (? & ? & _); auto. Qed.
Lemma early_same : forall k (T X : list (ev O M)) (c c' : cfg O M), early k T X c -> c_sync c' = c_sync c -> c_threads c' = c_threads c -> c_counter c' = c_counter c ->
  c_log c' = c_log c -> early k T X c'.
Proof. intros k T X c c' (? & ? & ? & ? & ? & ?) E1 E2 E3 E4. unfold ConcInv.early. rewrite E1, E2, E3, E4. auto 10. Qed.
Lemma shared_ext : forall T (c c' : cfg O M), shared T c -> c_counter c' = c_counter c -> c_log c' = c_log c -> shared T c'.
Proof. intros T c c' [? ? ? ? ?] E1 E2. constructor; rewrite ?E1, ?E2; auto. Qed.
Lemma finished_ext : forall T X (c c' : cfg O M), finished T X c -> c_counter c' = c_counter c -> c_log c' = c_log c -> c_threads c' = c_threads c -> finished T X c'.
Proof.
  intros T X c c' [(H & Hs)|H] E1 E2 E3; [left|right]; rewrite E3; auto. split; auto. eapply shared_ext; eauto.
Qed.

Lemma total_repeat : forall l : list (thread O M),
  length (flat_map (fun t => repeat (-2)%Z (length (t_acts t) * 2)) l) = total Func (map t_acts l).
Proof.
  unfold total, list_sum. induction l; cbn; auto. rewrite app_length, repeat_length, IHl. cbn. lia.
Qed.

End Co.

Section Co2.
Context {O M : Type}.
Variables (a : api) (front : list (act O M)) (rears : list (list (act O M))) (check : option (code O M unit)).
Notation n := (length rears).
Notation nf := (length front).
Notation inv := (inv a front rears check).
Notation shared := (shared a front rears).
Notation printed := (printed a front).
Notation finished := (finished a front rears).
Notation early := (early a).
Notation co_ok := (co_ok a front rears check).

Definition co_result (F T X : list (ev O M)) (evs : list (ev O M)) (c' : cfg O M) : Prop :=
  (T = [] /\ X = [] /\ inv (F ++ evs) T X c') \/ inv F T (X ++ evs) c'.

Lemma coord_inv : forall F T X (c : cfg O M) evs c', inv F T X c -> stepCoord a front check c = Some (evs, c') -> c_status c = Running ->
  co_result F T X evs c'.
Proof.
  intros F T X c evs c' I H Hrun. assert (Hco := i_co _ _ _ _ _ _ _ _ I). unfold stepCoord in H. unfold ConcInv.co_ok in Hco. unfold co_result.
  destruct (c_co c) as [k|k p|k p|k| |j|j| |j| | |p|] eqn:K.
  - (* KFront *) destruct Hco as (He & Hk & Hf). destruct (early_nil _ _ _ _ _ He) as [ET EX]. left. split; auto. split; auto.
    destruct (nth_error front k) as [x|] eqn:Ex.
    + assert (k < nf) by (apply nth_error_Some; congruence). destruct a eqn:Ea; inversion H; subst evs c'; (eapply inv_front; [eauto|auto|auto|repeat constructor|]); unfold ConcInv.co_ok; cbn [with_co c_co].
      * split; [eapply early_same; eauto|]. split; auto. exists (of None F), [], 0. rewrite of_none. cbn. auto.
      * split; [eapply early_same; eauto|]. split; auto. split; auto. exists (of None F), 0. rewrite app_nil_r. cbn. rewrite app_nil_r. auto.
    + assert (k = nf) by (apply nth_error_None in Ex; lia). subst k. inversion H; subst evs c'. eapply inv_front; [eauto|auto|auto|repeat constructor|].
      unfold ConcInv.co_ok; cbn [with_co c_co]. rewrite app_nil_r. split; [eapply early_same; eauto|auto].
  - (* KFrontPre *) destruct Hco as (He & Ea & Hk & d & q & Ed & Hd). destruct (early_nil _ _ _ _ _ He) as [ET EX]. destruct p as [[|]|e|u nx].
    + destruct (nth_error front k) as [x|] eqn:Ex; [|discriminate]. inversion H; subst evs c'. left. split; auto. split; auto.
      eapply inv_front; [eauto|auto|auto|repeat constructor|]. unfold ConcInv.co_ok; cbn [with_co c_co].
      split; [eapply early_same; eauto|]. split; auto. exists d, (repeat (TPre k) q), 0. rewrite of_none, Ed, <- app_assoc. split; auto. split; auto. unfold fhead. rewrite Ea. eauto.
    + inversion H; subst evs c'. left. split; auto. split; auto.
      eapply inv_front; [eauto|auto|auto|repeat constructor|]. unfold ConcInv.co_ok; cbn [with_co c_co]. split; [|split; [lia|]].
      * destruct He as (? & ? & ? & ? & ? & ?). unfold ConcInv.early. cbn. rewrite Ea in *. auto 10.
      * rewrite of_none, Ed, <- app_assoc. constructor; auto. rewrite Ea. constructor.
    + inversion H; subst evs c'. right. apply threw_inv; auto. discriminate.
    + destruct (u (c_obj c) (c_model c)) as [o m]. inversion H; subst evs c'. left. split; auto. split; auto.
      eapply inv_front; [eauto|auto|auto|repeat constructor|]. unfold ConcInv.co_ok; cbn [with_co c_co].
      split; [eapply early_same; eauto|]. split; auto. split; auto. exists d, (S q). rewrite of_none, Ed, <- app_assoc. split; auto. f_equal. symmetry. apply repeat_cons.
  - (* KFrontBody *) destruct Hco as (He & Hk & d & h & q & Ed & Hd & Hh). destruct (early_nil _ _ _ _ _ He) as [ET EX]. destruct p as [[|]|e|u nx].
    + assert (Hc : fchunks a (S k) (of None (F ++ [V None (TEnd k)]))).
      { rewrite of_none, Ed, <- !app_assoc. constructor; auto. unfold fhead in Hh. destruct a; [subst h|destruct Hh as (z & ->)]; cbn; constructor. }
      inversion H; subst evs c'. left. split; auto. split; auto.
      eapply inv_front; [eauto|auto|auto|repeat constructor|]. unfold ConcInv.co_ok; cbn [with_co c_co]. destruct a eqn:Ea.
      * split; [eapply early_same; eauto|]. auto.
      * split; [|split; [lia|auto]]. destruct He as (? & ? & ? & ? & ? & ?). unfold ConcInv.early. cbn. auto 10.
    + inversion H; subst evs c'. right. apply threw_inv; auto. discriminate.
    + inversion H; subst evs c'. right. apply threw_inv; auto. discriminate.
    + destruct (u (c_obj c) (c_model c)) as [o m]. inversion H; subst evs c'. left. split; auto. split; auto.
      eapply inv_front; [eauto|auto|auto|repeat constructor|]. unfold ConcInv.co_ok; cbn [with_co c_co].
      split; [eapply early_same; eauto|]. split; auto. exists d, h, (S q). rewrite of_none, Ed, <- !app_assoc. split; auto. do 2 f_equal. cbn [app]. f_equal. symmetry. apply repeat_cons.
  - (* KFrontPush *) destruct Hco as (He & Ea & Hk & Hf). destruct (early_nil _ _ _ _ _ He) as [ET EX]. inversion H; subst evs c'. left. split; auto. split; auto.
    eapply inv_front; [eauto|auto|auto|repeat constructor|]. unfold ConcInv.co_ok; cbn [with_co c_co]. rewrite app_nil_r. split; [|split; auto].
    destruct He as (? & ? & ? & ? & Ec & El). unfold ConcInv.early. cbn. rewrite Ea in *. rewrite Ec, El. repeat (split; auto). symmetry. apply repeat_cons.
  - (* KPrepare *) destruct Hco as (He & Hf). destruct He as (ET & EX & Es & Hp & Ec & El). right. inversion H; subst evs c'; clear H.
    assert (Hlen := acts_len rears c (i_acts _ _ _ _ _ _ _ _ I)).
    destruct a eqn:Ea; [destruct (Nat.leb_spec (length (c_threads c)) 1) as [Hl|Hl]|].
    + eapply inv_tail; [eauto|auto|auto|]. unfold ConcInv.co_ok; cbn [with_co c_co]. rewrite app_nil_r. split; auto. right. split; auto. split; [lia|]. auto.
    + eapply inv_tail; [eauto|auto|auto|]. unfold ConcInv.co_ok; cbn [with_co c_co]. rewrite app_nil_r. split; [|split; [auto|split; [auto|split; [auto|]]]].
      * split; [|split; [auto|intros _; lia]]. subst T. constructor; cbn; auto.
        -- rewrite Ec. unfold base. lia.
        -- rewrite El, app_length, repeat_length, total_repeat, (i_acts _ _ _ _ _ _ _ _ I). auto.
        -- intros s Hs. unfold base in Hs. rewrite El, nth_error_app1 by (rewrite repeat_length; auto). apply nth_error_repeat; auto.
        -- intros i s [].
      * intros i t Ht. right. split; [lia|]. eauto.
    + eapply inv_tail; [eauto|auto|auto|]. unfold ConcInv.co_ok. change (c_co (with_co (KStart 0) (with_log 0 (repeat 0%Z 5000) c))) with (@KStart O M 0). cbn iota.
      rewrite app_nil_r. split; [|split; [auto|split; [auto|split; [auto|]]]].
      * split; [|split; [auto|discriminate]]. subst T. constructor; auto.
        -- intros s Hs. cbn in Hs. lia.
        -- intros i s [].
      * intros i t Ht. right. split; [lia|]. eapply Hp. exact Ht.
  - (* KStart *) destruct Hco as ((Sh & EX & En) & Hf & ET & Es & Hp). right. assert (Ha := i_acts _ _ _ _ _ _ _ _ I). destruct (nth_error (c_threads c) j) as [t|] eqn:Ht.
    + inversion H; subst evs c'; clear H. rewrite app_nil_r. destruct I as [_ HF HT Hthr _ Hdef]. constructor; auto.
      * cbn. rewrite (map_set_same _ _ _ _ _ t); auto.
      * intros i u Hu. cbn in Hu. apply setnth_inv in Hu. destruct Hu as [[-> ->]|[N Hu]]; auto. subst T. cbn. exists 0, [], []. split; auto. split; constructor.
      * unfold ConcInv.co_ok; cbn [with_co c_co]. split; [split; [eapply shared_ext; eauto|auto]|]. split; auto. split; auto. split; auto.
        intros i u Hu. cbn in Hu. apply setnth_inv in Hu. destruct Hu as [[-> ->]|[N Hu]]; [left; cbn; split; [lia|auto]|].
        destruct (Hp _ _ Hu) as [[Hi Hq]|[Hi Hq]]; [left; split; [lia|auto]|right; split; [lia|auto]].
    + inversion H; subst evs c'; clear H. eapply inv_tail; [eauto|auto|auto|]. rewrite app_nil_r. unfold ConcInv.co_ok; cbn [with_co c_co].
      split; [split; [eapply shared_ext; eauto|auto]|]. split; auto. split; auto. split; auto. intros i t Hi. cbn in Hi. apply nth_error_None in Ht.
      assert (i < length (c_threads c)) by (apply nth_error_Some; congruence). destruct (Hp _ _ Hi) as [[Hij [[? ?]|[? ?]]]|[? ?]]; [left; split; auto; split; auto; lia|right; auto|lia].
  - (* KWait *) destruct Hco as ((Sh & EX & En) & Hf & ET & Es & Hp). right. assert (Ha := i_acts _ _ _ _ _ _ _ _ I). destruct (nth_error (c_threads c) j) as [t|] eqn:Ht.
    + inversion H; subst evs c'; clear H. destruct (t_ready t) eqn:Er.
      * eapply inv_tail; [eauto|auto|auto|]. rewrite app_nil_r. unfold ConcInv.co_ok; cbn [with_co c_co].
        split; [split; [eapply shared_ext; eauto|auto]|]. split; auto. split; auto. split; auto. intros i u Hi. destruct (Hp _ _ Hi) as [(P1 & P2 & P3)|P]; auto.
        left. split; auto. split; auto. destruct (Nat.eq_dec i j) as [->|N]; [|lia]. cbn in Hi. congruence.
      * rewrite app_nil_r. auto.
    + inversion H; subst evs c'; clear H. eapply inv_tail; [eauto|auto|auto|]. rewrite app_nil_r. unfold ConcInv.co_ok; cbn [with_co c_co].
      split; [split; [eapply shared_ext; eauto|auto]|]. split; auto. split; auto. split; auto. intros i t Hi. cbn in Hi. apply nth_error_None in Ht.
      assert (i < length (c_threads c)) by (apply nth_error_Some; congruence). destruct (Hp _ _ Hi) as [(? & ? & ?)|?]; [lia|auto].
  - (* KSync *) destruct Hco as ((Sh & EX & En) & Hf & ET & Es & Hp). right. assert (Ha := i_acts _ _ _ _ _ _ _ _ I).
    inversion H; subst evs c'; clear H. eapply inv_tail; [eauto|auto|auto|]. rewrite app_nil_r. unfold ConcInv.co_ok; cbn [with_co c_co].
    split; [split; [eapply shared_ext; eauto|auto]|]. split; auto. split; auto. intros i t Hi. cbn in Hi. assert (i < length (c_threads c)) by (apply nth_error_Some; congruence).
    rewrite (acts_len rears c Ha) in *. destruct (Hp _ _ Hi) as [(? & ? & ?)|(E & ?)]; [lia|]. rewrite E. split; [discriminate|split; [discriminate|lia]].
  - (* KJoin *) destruct Hco as ((Sh & EX & En) & Hf & Es & Hp). right. destruct (nth_error (c_threads c) j) as [t|] eqn:Ht.
    + destruct (t_pc t) eqn:Et; try discriminate. inversion H; subst evs c'; clear H. eapply inv_tail; [eauto|auto|auto|]. rewrite app_nil_r. unfold ConcInv.co_ok; cbn [with_co c_co].
      split; [split; [eapply shared_ext; eauto|auto]|]. split; auto. split; auto. intros i u Hi. destruct (Hp _ _ Hi) as (P1 & P2 & P3). split; auto. split; auto.
      intros Hl. destruct (Nat.eq_dec i j) as [->|N]; [cbn in Hi; congruence|]. apply P3. lia.
    + inversion H; subst evs c'; clear H. eapply inv_tail; [eauto|auto|auto|]. rewrite app_nil_r. unfold ConcInv.co_ok; cbn [with_co c_co].
      split; [split; [eapply shared_ext; eauto|auto]|]. split; auto. intros i t Hi. apply nth_error_None in Ht.
      cbn in Hi. assert (i < length (c_threads c)) by (apply nth_error_Some; congruence). eapply Hp; eauto. lia.
  - (* KPrint *) destruct Hco as ((Sh & EX & En) & Hf & Hp). right.
    destruct (print_ok a front rears T c (i_acts _ _ _ _ _ _ _ _ I) (i_T _ _ _ _ _ _ _ _ I) (i_thr _ _ _ _ _ _ _ _ I) Sh Hp) as (l & El & Pl). rewrite El in H.
    inversion H; subst evs c'; clear H. eapply inv_tail; [eauto|auto|auto|]. unfold ConcInv.co_ok; cbn [with_co c_co]. split; auto. left. split; [eapply shared_ext; eauto|].
    split; auto. split; auto. exists l. rewrite EX. auto.
  - (* KCheck *) destruct Hco as (Hfin & Hf). right. destruct check as [p|] eqn:Ep; inversion H; subst evs c'; clear H; (eapply inv_tail; [eauto|auto|auto|]); unfold ConcInv.co_ok; cbn [with_co c_co].
    + exists X, (c_obj c), (c_model c). split; auto. split; [eapply finished_ext; eauto|]. split; auto. discriminate.
    + split; auto. exists X. split; [eapply finished_ext; eauto|]. left. split; auto. apply app_nil_r.
  - (* KChecking *) right. destruct p as [[]|e|u nx].
    + inversion H; subst evs c'; clear H. eapply inv_tail; [eauto|auto|auto|]. unfold ConcInv.co_ok; cbn [with_co c_co]. destruct Hco as (X0 & o & m & E & Hfin & Hf & Hc).
      split; auto. exists X0. split; [eapply finished_ext; eauto|]. right. split; auto. exists o, m. rewrite app_nil_r. auto.
    + inversion H; subst evs c'. apply threw_inv; auto. discriminate.
    + destruct (u (c_obj c) (c_model c)) as [o' m']. inversion H; subst evs c'; clear H. eapply inv_tail; [eauto|auto|auto|]. unfold ConcInv.co_ok; cbn [with_co c_co].
      destruct Hco as (X0 & o & m & E & Hfin & Hf & Hc). exists X0, o, m. rewrite app_nil_r. split; auto. split; [eapply finished_ext; eauto|]. auto.
  - discriminate.
Qed.

(** ** Runs *)

Lemma start_inv : forall (obj : O) (model : M), inv [] [] [] (start obj model rears).
Proof.
  intros. constructor; cbn; auto.
  - rewrite map_map. cbn. apply map_id.
  - intros i t Ht. apply nth_error_In, in_map_iff in Ht. destruct Ht as (l & <- & _). exists 0, [], []. split; auto. split; constructor.
  - split; [|split; [lia|constructor]]. repeat (split; auto); cbn.
    + intros i t Ht. apply nth_error_In, in_map_iff in Ht. destruct Ht as (l & <- & _). auto.
    + destruct a; auto.
    + destruct a; auto.
  - discriminate.
Qed.

Lemma move_inv : forall who F T X (c : cfg O M) evs c', inv F T X c -> move a front check who c = Some (evs, c') ->
  exists F' T' X', inv F' T' X' c' /\ (F ++ T ++ X) ++ evs = F' ++ T' ++ X'.
Proof.
  intros who F T X c evs c' I H. unfold move in H. destruct (c_status c) eqn:Hr; try discriminate. destruct who as [|i].
  - destruct (coord_inv _ _ _ _ _ _ I H Hr) as [(-> & -> & I')|I'].
    + exists (F ++ evs), [], []. rewrite !app_nil_r. auto.
    + exists F, T, (X ++ evs). rewrite !app_assoc. auto.
  - assert (EX : X = [] \/ evs = []).
    { destruct (stepThread_ok a T c i evs c' (i_thr _ _ _ _ _ _ _ _ I) H) as (t & Ht & Nn & Ne & _).
      assert (Hco := i_co _ _ _ _ _ _ _ _ I). unfold ConcInv.co_ok in Hco. destruct (c_co c).
      1-5: destruct Hco as [(_ & ? & _) _]; auto.
      1-5: left; apply Hco.
      - destruct Hco as ([(_ & _ & Hp & _)|(_ & _ & _ & _ & Hp)] & _); [destruct Ne|destruct Nn]; eauto.
      - destruct Hco as (? & ? & ? & ? & [(_ & _ & Hp & _)|(_ & _ & _ & _ & Hp)] & _); [destruct Ne|destruct Nn]; eauto.
      - destruct Hco as (_ & ? & [(_ & _ & Hp & _)|(_ & _ & _ & _ & Hp)] & _); [destruct Ne|destruct Nn]; eauto. }
    exists F, (T ++ evs), X. split; [eapply rear_inv; eauto|]. destruct EX as [-> | ->]; rewrite ?app_nil_r; auto. rewrite app_assoc. auto.
Qed.

Lemma run_inv : forall schedule F T X (c : cfg O M) tr c', inv F T X c -> run a front check schedule c = (tr, c') ->
  exists F' T' X', inv F' T' X' c' /\ (F ++ T ++ X) ++ tr = F' ++ T' ++ X'.
Proof.
  induction schedule as [|w s IH]; intros F T X c tr c' I H; cbn in H.
  - inversion H; subst. exists F, T, X. rewrite app_nil_r. auto.
  - destruct (move a front check w c) as [[evs c1]|] eqn:Em.
    + destruct (run a front check s c1) as [tr1 c2] eqn:Er. inversion H; subst. destruct (move_inv _ _ _ _ _ _ _ I Em) as (F1 & T1 & X1 & I1 & E1).
      destruct (IH _ _ _ _ _ _ I1 Er) as (F2 & T2 & X2 & I2 & E2). exists F2, T2, X2. split; auto. rewrite app_assoc, E1. auto.
    + eauto.
Qed.
Lemma outcome_inv : forall (obj : O) (model : M) tr c, outcome a front rears check obj model tr c -> exists F T X, inv F T X c /\ tr = F ++ T ++ X.
Proof.
  intros obj model tr c (s & H). destruct (run_inv _ _ _ _ _ _ _ (start_inv obj model) H) as (F & T & X & I & E). exists F, T, X. auto.
Qed.
End Co2.
