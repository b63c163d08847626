From Coq Require Import List ZArith Lia Bool Arith Permutation.
From Verif Require Import Base TreeModel TreeSpec TreeProof BinSearchModel BinSearchSpec BinSearchProof
  IntegralProof ListModel ListSpec ListProof ListShapeProof.
Import ListNotations.
Local Open Scope nat_scope.

Lemma tnodes_tsize : forall A (t : tree A), tnodes t = tsize t.
Proof. reflexivity. Qed.

Definition bulk_max {A} (v : list (tree A)) : nat := list_max (map (fun e => length (shrinks e)) v).
Definition bulk_cand {A} (v : list (tree A)) (j : nat) : list (tree A) := map (fun e => nth j (shrinks e) e) v.

Lemma list_max_in : forall l x, In x l -> x <= list_max l.
Proof.
  intros l x H. pose proof (proj1 (list_max_le l (list_max l)) (le_n _)) as Hf.
  rewrite Forall_forall in Hf. auto.
Qed.

Lemma list_max_ex : forall l j, j < list_max l -> exists x, In x l /\ j < x.
Proof.
  induction l as [|a l IH]; simpl; intros j H; [lia|].
  destruct (le_lt_dec (list_max l) j) as [H1|H1].
  - exists a. split; auto. lia.
  - destruct (IH _ H1) as [x [Hx Hj]]. eauto.
Qed.

Lemma bulk_cand_step : forall A (v : list (tree A)) j, j < bulk_max v -> bulk_step v (bulk_cand v j).
Proof.
  intros A v j Hj. unfold bulk_max in Hj. apply list_max_ex in Hj. destruct Hj as [x [Hx Hj]].
  apply in_map_iff in Hx. destruct Hx as [e [<- He]]. split.
  - clear. unfold bulk_cand. induction v as [|a v IH]; simpl; constructor; auto.
    destruct (nth_in_or_default j (shrinks a) a); auto.
  - apply In_nth_error in He. destruct He as [i Hi]. exists i, e, (nth j (shrinks e) e). split; auto. split.
    + unfold bulk_cand. rewrite nth_error_map, Hi. auto.
    + apply nth_In. auto.
Qed.

Lemma bulk_step_weight : forall A (v w : list (tree A)), bulk_step v w -> weight w < weight v.
Proof.
  intros A v w [H [i [a [b [Ha [Hb Hin]]]]]]. revert i Ha Hb. unfold weight.
  assert (Hle : forall (v w : list (tree A)), Forall2 (fun a b => b = a \/ In b (shrinks a)) v w ->
            list_sum (map tsize w) <= list_sum (map tsize v)).
  { clear. induction 1 as [|x y l l' Hxy Hl IH]; simpl; auto.
    assert (tsize y <= tsize x) by (destruct Hxy as [->|Hxy]; auto; apply child_tsize in Hxy; lia). lia. }
  induction H as [|x y l l' Hxy Hl IH]; intros i Ha Hb.
  - destruct i; discriminate.
  - destruct i as [|i].
    + simpl in Ha, Hb. injection Ha; injection Hb; intros; subst. apply child_tsize in Hin. apply Hle in Hl. simpl. lia.
    + simpl in Ha, Hb. specialize (IH _ Ha Hb).
      assert (tsize y <= tsize x) by (destruct Hxy as [->|Hxy]; auto; apply child_tsize in Hxy; lia). simpl. lia.
Qed.

Lemma Forall2_len : forall A B (P : A -> B -> Prop) l l', Forall2 P l l' -> length l = length l'.
Proof. induction 1; simpl; auto. Qed.

Lemma bulk_step_length : forall A (v w : list (tree A)), bulk_step v w -> length w = length v.
Proof. intros A v w [H _]. symmetry. eapply Forall2_len; eauto. Qed.

Lemma bulkStep_nth : forall A (v : list (tree A)) k,
  bulkStep v (map (fun e => skipn k (shrinks e)) v) = bulk_cand v k.
Proof.
  intros A v k. unfold bulk_cand. induction v as [|a v IH]; simpl; auto. f_equal; auto.
  clear. generalize (shrinks a). induction k; intros [|x l]; simpl; auto.
Qed.

Lemma forallb_isEmpty : forall A (v : list (tree A)) k,
  forallb isEmpty (map (fun e => skipn k (shrinks e)) v) = (bulk_max v <=? k).
Proof.
  intros A v k. unfold bulk_max. induction v as [|a v IH]; simpl; auto. rewrite IH.
  destruct (Nat.leb_spec (list_max (map (fun e => length (shrinks e)) v)) k) as [H|H];
  destruct (Nat.leb_spec (Nat.max (length (shrinks a)) (list_max (map (fun e => length (shrinks e)) v))) k) as [H'|H'];
  destruct (skipn k (shrinks a)) as [|y l] eqn:E; simpl; auto; try lia.
  - apply (f_equal (@length (tree A))) in E. rewrite skipn_length in E. simpl in E. lia.
  - apply (f_equal (@length (tree A))) in E. rewrite skipn_length in E. simpl in E. lia.
Qed.

Lemma size_map : forall A B (f : A -> B) l, size (map f l) = size l.
Proof. intros. unfold size. rewrite map_length. auto. Qed.

Definition bulk_node {A} (s : tree (list (tree A))) : Prop := map root (shrinks s) = bulk_candidates (root s).

Definition bulk_good {A} (v : list (tree A)) (ts : list (tree (list (tree A)))) : Prop :=
  map root ts = bulk_candidates v /\ Forall (all_nodes bulk_node) ts.

Lemma bulkStream_ok : forall A (rec : list (tree A) -> res (list (tree (list (tree A))))) (v : list (tree A)),
  (forall j, j < bulk_max v -> exists ts, rec (bulk_cand v j) = Ok ts /\ bulk_good (bulk_cand v j) ts) ->
  forall fuel k par, size par = size v -> bulk_max v - k < fuel -> v <> [] ->
  exists ts, bulkStream rec fuel v par (map (fun e => skipn k (shrinks e)) v) = Ok ts /\
    map root ts = map (bulk_cand v) (seq k (bulk_max v - k)) /\ Forall (all_nodes bulk_node) ts.
Proof.
  intros A rec v Hrec. induction fuel as [|f IH]; intros k par Hp Hf Hv; [lia|].
  cbn [bulkStream]. rewrite size_map, Hp, Z.eqb_refl. cbn [negb].
  destruct (Z.eqb_spec (size v) 0) as [E|E].
  { unfold size in E. destruct v; [congruence|simpl in E; lia]. }
  rewrite forallb_isEmpty. destruct (Nat.leb_spec (bulk_max v) k) as [H|H].
  - exists []. replace (bulk_max v - k) with 0 by lia. simpl. auto.
  - rewrite bulkStep_nth. destruct (Hrec k H) as [ts [E1 [G1 G2]]]. rewrite E1. cbn [bind].
    rewrite map_map.
    destruct (IH (S k) (bulk_cand v k)) as [rs [E2 [G3 G4]]].
    + unfold bulk_cand. apply size_map.
    + lia.
    + auto.
    + replace (map (fun x => tl (skipn k (shrinks x))) v) with (map (fun e => skipn (S k) (shrinks e)) v).
      * rewrite E2. cbn [bind]. exists (Node (bulk_cand v k) ts :: rs). split; auto. split.
        -- replace (bulk_max v - k) with (S (bulk_max v - S k)) by lia. cbn [seq map root]. f_equal. exact G3.
        -- constructor; auto. intros s Hs. inversion Hs as [t0 Ht0 Ht1|t0 c s0 Hc Hs0 Ht0 Ht1].
           ++ unfold bulk_node. simpl. auto.
           ++ simpl in Hc. rewrite Forall_forall in G2. apply (G2 _ Hc). auto.
      * apply map_ext. intros a. clear. generalize (shrinks a). induction k; intros [|x l]; auto. cbn [skipn].
        rewrite <- IHk. reflexivity.
Qed.

Lemma bulk_candidates_eq : forall A (v : list (tree A)), bulk_candidates v = map (bulk_cand v) (seq 0 (bulk_max v)).
Proof. reflexivity. Qed.

Lemma shrinkBulk_ok : forall A fuel (v : list (tree A)), weight v < fuel ->
  exists ts, shrinkBulk fuel v = Ok ts /\ bulk_good v ts.
Proof.
  intros A. induction fuel as [|f IH]; intros v Hf; [lia|].
  cbn [shrinkBulk]. rewrite Z.div_1_r. destruct (Z.ltb_spec (size v) 1) as [H|H].
  - destruct v; [|unfold size in H; simpl in H; lia]. exists []. repeat split; auto.
  - assert (Hv : v <> []) by (intros ->; unfold size in H; simpl in H; lia).
    pose proof (forallb_isEmpty A v 0) as E0. cbn [skipn] in E0. change (map (fun e : tree A => shrinks e) v) with (map shrinks v) in E0. rewrite E0.
    destruct (Nat.leb_spec (bulk_max v) 0) as [Hz|Hz].
    + exists []. split; auto. split; auto. rewrite bulk_candidates_eq. replace (bulk_max v) with 0 by lia. auto.
    + destruct (bulkStream_ok A (shrinkBulk f) v) with (fuel := S (bulk_max v)) (k := 0) (par := v) as [ts [E1 [G1 G2]]]; auto.
      * intros j Hj. apply IH. apply bulk_cand_step in Hj. apply bulk_step_weight in Hj. lia.
      * lia.
      * exists ts. rewrite map_map. fold (@bulk_max A v). cbn [skipn] in E1. change (map (fun e : tree A => shrinks e) v) with (map shrinks v) in E1. split; [exact E1|].
        split; auto. rewrite G1, bulk_candidates_eq. f_equal. f_equal. lia.
Qed.

Lemma Forall2_impl' : forall A B (P Q : A -> B -> Prop) l l',
  (forall a b, P a b -> Q a b) -> Forall2 P l l' -> Forall2 Q l l'.
Proof. induction 2; constructor; auto. Qed.

Lemma Forall2_trans' : forall A (P : A -> A -> Prop) l l' l'',
  (forall a b c, P a b -> P b c -> P a c) -> Forall2 P l l' -> Forall2 P l' l'' -> Forall2 P l l''.
Proof.
  intros A P l l' l'' H H1. revert l''. induction H1; intros l'' H2; inversion H2; subst; constructor; eauto.
Qed.

(* the bulk candidates of a list of elements *)
Definition pb {A} (v : list (tree A)) : list (tree (list (tree A))) :=
  match shrinkBulk (bulkFuel v) v with Ok ts => ts | _ => [] end.

Lemma pb_ok : forall A (v : list (tree A)), shrinkBulk (bulkFuel v) v = Ok (pb v) /\ bulk_good v (pb v).
Proof.
  intros A v. unfold pb. destruct (shrinkBulk_ok A (bulkFuel v) v) as [ts [E G]].
  - unfold bulkFuel, weight. erewrite map_ext; [apply Nat.lt_succ_diag_r|]. intros; symmetry; apply tnodes_tsize.
  - rewrite E. auto.
Qed.

Lemma pb_nodes : forall A (v : list (tree A)) c s, In c (pb v) -> reach c s ->
  bulk_node s /\ length (root s) = length v /\ weight (root s) < weight v /\
  Forall2 (fun e e' => reach e e') v (root s).
Proof.
  intros A v c s Hc Hr. destruct (pb_ok A v) as [_ [G1 G2]].
  rewrite Forall_forall in G2. pose proof (G2 _ Hc) as Hn.
  assert (Hstep : forall (v w : list (tree A)), In w (bulk_candidates v) -> bulk_step v w).
  { intros v0 w Hw. rewrite bulk_candidates_eq in Hw. apply in_map_iff in Hw. destruct Hw as [j [<- Hj]].
    apply bulk_cand_step. apply in_seq in Hj. lia. }
  assert (Hreach : forall (v w : list (tree A)), bulk_step v w -> Forall2 (fun e e' => reach e e') v w).
  { intros v0 w [H _]. eapply Forall2_impl'; [|exact H]. cbv beta.
    intros a b [->|Hb]; [apply reach_refl|apply reach_one; auto]. }
  assert (Hc' : bulk_step v (root c)).
  { apply Hstep. rewrite <- G1. apply in_map. auto. }
  split; [apply Hn; auto|].
  assert (Hgen : length (root s) = length (root c) /\ weight (root s) <= weight (root c) /\
                 Forall2 (fun e e' => reach e e') (root c) (root s)).
  { clear Hc Hc' G1 G2. induction Hr as [t|t c0 s Hc0 Hr IH].
    - split; auto. split; auto. induction (root t); constructor; auto. apply reach_refl.
    - destruct IH as [I1 [I2 I3]]; [intros x Hx; apply Hn; eapply reach_step; eauto|].
      assert (Hs : bulk_step (root t) (root c0)).
      { apply Hstep. pose proof (Hn _ (reach_refl _)) as E. unfold bulk_node in E. rewrite <- E. apply in_map. auto. }
      rewrite I1, (bulk_step_length _ _ _ Hs). split; auto. split.
      + apply bulk_step_weight in Hs. lia.
      + eapply Forall2_trans'; [|apply Hreach; exact Hs|exact I3]. intros a b c; apply reach_trans. }
  destruct Hgen as [I1 [I2 I3]]. rewrite I1, (bulk_step_length _ _ _ Hc'). split; auto. split.
  - apply bulk_step_weight in Hc'. lia.
  - eapply Forall2_trans'; [|apply Hreach; exact Hc'|exact I3]. intros a b d; apply reach_trans.
Qed.
