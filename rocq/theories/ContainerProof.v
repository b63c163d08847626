(** Proofs about container generators. *)
From Coq Require Import List ZArith Lia Bool Arith Permutation.
From Verif Require Import Base TreeModel TreeSpec TreeProof BinSearchProof RandomModel IntegralSpec IntegralProof ListModel ListSpec ListProof
  ListMainProof StringModel StringSpec StringProof TupleModel TupleSpec TupleProof ContainerModel ContainerSpec.
Import ListNotations.
Local Open Scope Z_scope.

Lemma gbind_ok : forall E A B (g : G E A) (f : A -> G E B) r b r', gbind g f r = Ok (b, r') ->
  exists a r1, g r = Ok (a, r1) /\ f a r1 = Ok (b, r').
Proof. intros E A B g f r b r' H. unfold gbind in H. destruct (g r) as [[a r1]| | |]; try discriminate. eauto. Qed.

Lemma gbind_eq : forall E A B (g : G E A) (f : A -> G E B) r a r1, g r = Ok (a, r1) -> gbind g f r = f a r1.
Proof. intros E A B g f r a r1 H. unfold gbind. rewrite H. auto. Qed.

Lemma times_ok : forall E A (g : G E A) n r l r', times n g r = Ok (l, r') <-> (draws g r l r' /\ length l = n).
Proof.
  intros E A g n. induction n as [|n IH]; intros r l r'; simpl.
  - split.
    + intros H. inversion H; subst. split; [constructor|auto].
    + intros [H Hl]. destruct l; [|discriminate]. inversion H; subst. auto.
  - split.
    + intros H. apply gbind_ok in H. destruct H as [a [r1 [H1 H2]]].
      apply gbind_ok in H2. destruct H2 as [l2 [r2 [H2 H3]]]. inversion H3; subst.
      apply IH in H2. destruct H2 as [H2 Hl]. split; [econstructor; eauto|simpl; auto].
    + intros [H Hl]. destruct l as [|a l]; [discriminate|]. inversion H; subst.
      erewrite gbind_eq by eauto. erewrite gbind_eq; [reflexivity|]. apply IH. split; auto.
Qed.

Lemma draws_total : forall E A (g : G E A), always_returns g -> forall n r, exists l r', draws g r l r' /\ length l = n.
Proof.
  intros E A g Hg. induction n as [|n IH]; intros r.
  - exists [], r. split; [constructor|auto].
  - destruct (Hg r) as [a [r1 H1]]. destruct (IH r1) as [l [r2 [H2 Hl]]].
    exists (a :: l), r2. split; [econstructor; eauto|simpl; auto].
Qed.

Lemma containerSize_eq : forall E mn mx (r : rst E), 0 <= mn -> mn <= mx -> mx <= UINT32_MAX ->
  containerSize {| minSize := mn; maxSize := mx |} r = draw mn mx r.
Proof.
  intros E mn mx r H0 H1 H2. unfold containerSize, getRandomSize. cbn [minSize maxSize].
  unfold UINT32_MAX in H2. assert (mx < 4294967296) by lia.
  rewrite (wrapU_small 64 (mx + 1)) by lia.
  rewrite (wrapU_small 64) by lia. rewrite !wrapU_small by lia. f_equal. lia.
Qed.

Lemma containerSize_wrap : forall E mn mx (r : rst E), 0 <= mn <= UINT64_MAX -> 0 <= mx <= UINT64_MAX ->
  containerSize {| minSize := mn; maxSize := mx |} r = draw (mn mod 2 ^ 32) (mx mod 2 ^ 32) r.
Proof.
  intros E mn mx r H1 H2. unfold containerSize, getRandomSize. cbn [minSize maxSize]. unfold wrapU. f_equal.
  rewrite Zminus_mod_idemp_l. replace (mx + 1 - 1) with mx by lia.
  rewrite (Z.mod_small mx (2 ^ 64)) by (unfold UINT64_MAX in H2; lia). auto.
Qed.

Lemma containerSize_bounds : forall E mn mx (r : rst E), 0 <= mn -> mn <= mx -> mx <= UINT32_MAX ->
  exists n r1, containerSize {| minSize := mn; maxSize := mx |} r = Ok (n, r1) /\ mn <= n <= mx.
Proof. intros. rewrite containerSize_eq by auto. apply draw_ok; auto. Qed.

Lemma u32_int64 : forall x, x <= UINT32_MAX -> x <= INT64_MAX.
Proof. unfold UINT32_MAX, INT64_MAX. intros. lia. Qed.

(** Sets *)
Lemma set_insert_in : forall A (lt : A -> A -> bool) x l y, In y (set_insert lt x l) -> y = x \/ In y l.
Proof.
  induction l as [|z l IH]; simpl; intros y H; [intuition|].
  destruct (lt x z); [simpl in H; intuition|]. destruct (lt z x); [|simpl in H; intuition].
  simpl in H. destruct H as [->|H]; auto. apply IH in H. intuition.
Qed.

Lemma set_insert_keeps : forall A (lt : A -> A -> bool) x l y, In y l -> In y (set_insert lt x l).
Proof.
  induction l as [|z l IH]; simpl; intros y H; [tauto|].
  destruct (lt x z); [simpl; auto|]. destruct (lt z x); [|simpl; auto]. simpl. intuition.
Qed.

Lemma set_insert_covers : forall A (lt : A -> A -> bool) x l, strict_order lt ->
  exists y, In y (set_insert lt x l) /\ lt x y = false /\ lt y x = false.
Proof.
  intros A lt x l Hso. induction l as [|z l IH]; simpl.
  - exists x. rewrite (so_irrefl _ Hso). auto.
  - destruct (lt x z) eqn:E1.
    + exists x. rewrite (so_irrefl _ Hso). simpl. auto.
    + destruct (lt z x) eqn:E2; [|exists z; simpl; auto].
      destruct IH as [y [H1 H2]]. exists y. simpl. auto.
Qed.

Lemma set_insert_asc : forall A (lt : A -> A -> bool) x l, strict_order lt -> ascending lt l -> ascending lt (set_insert lt x l).
Proof.
  intros A lt x l Hso. induction l as [|z l IH]; simpl; intros H.
  - auto.
  - destruct H as [H1 H2]. destruct (lt x z) eqn:E1.
    + simpl. repeat split; auto. constructor; auto. eapply Forall_impl; [|exact H1]. intros y Hy.
      eapply (so_trans _ Hso); eauto.
    + destruct (lt z x) eqn:E2; [|simpl; auto]. simpl. split; auto. apply Forall_forall. intros y Hy.
      apply set_insert_in in Hy. destruct Hy as [->|Hy]; auto. rewrite Forall_forall in H1. auto.
Qed.

Lemma less_shr_order : forall A (lt : A -> A -> bool), strict_order lt -> strict_order (less_shr lt).
Proof.
  intros A lt [Hi Ht]. split; unfold less_shr; intros; eauto.
Qed.

Lemma ascending_shr : forall A (lt : A -> A -> bool) l, ascending (less_shr lt) l <-> ascending lt (map root l).
Proof.
  induction l as [|x l IH]; simpl; [tauto|]. rewrite IH. unfold less_shr. rewrite Forall_map. tauto.
Qed.

Lemma set_insert_size : forall A (lt : A -> A -> bool) x l, size (set_insert lt x l) <= size l + 1.
Proof.
  unfold size. induction l as [|z l IH]; simpl; [lia|]. destruct (lt x z); [simpl; lia|].
  destruct (lt z x); simpl; lia.
Qed.

Record filled {E A} (lt : A -> A -> bool) (g : gen E A) (n : Z) (acc : list (tree A)) (r : rst E) (out : list (tree A)) (r' : rst E)
  (ts : list (tree A)) : Prop := {
  fl_draws : draws g r ts r';
  fl_asc : ascending (less_shr lt) acc -> ascending (less_shr lt) out;
  fl_from : forall e, In e out -> In e acc \/ In e ts;
  fl_keeps : forall e, In e acc -> In e out;
  fl_covers : forall e, In e ts -> exists y, In y out /\ less_shr lt e y = false /\ less_shr lt y e = false;
  fl_size : size acc <= n -> size out = n
}.

Lemma fillSet_ok : forall E A (lt : A -> A -> bool) (g : gen E A) n fuel acc r out r', strict_order lt ->
  fillSet fuel lt g n acc r = Ok (out, r') -> exists ts, filled lt g n acc r out r' ts.
Proof.
  intros E A lt g n fuel. induction fuel as [|fuel IH]; intros acc r out r' Hso H; simpl in H.
  - destruct (Z.ltb_spec (size acc) n); [discriminate|]. inversion H; subst.
    exists []. split; auto; [constructor|simpl; tauto|lia].
  - destruct (Z.ltb_spec (size acc) n).
    + apply gbind_ok in H. destruct H as [e [r1 [H1 H2]]]. apply IH in H2; auto. destruct H2 as [ts F].
      exists (e :: ts). destruct F as [F1 F2 F3 F4 F5 F6]. split.
      * econstructor; eauto.
      * intros Ha. apply F2. apply set_insert_asc; auto using less_shr_order.
      * intros x Hx. apply F3 in Hx. simpl. destruct Hx as [Hx|Hx]; auto. apply set_insert_in in Hx. intuition.
      * intros x Hx. apply F4. apply set_insert_keeps; auto.
      * intros x [<-|Hx]; [|auto].
        destruct (set_insert_covers _ (less_shr lt) e acc (less_shr_order _ _ Hso)) as [y [Hy Hy2]].
        exists y. split; auto.
      * intros _. apply F6. pose proof (set_insert_size _ (less_shr lt) e acc). lia.
    + inversion H; subst. exists []. split; auto; [constructor|simpl; tauto|lia].
Qed.

Lemma fillSet_mono : forall E A (lt : A -> A -> bool) (g : gen E A) n fuel acc r x,
  fillSet fuel lt g n acc r = Ok x -> forall k, fillSet (fuel + k) lt g n acc r = Ok x.
Proof.
  intros E A lt g n fuel. induction fuel as [|fuel IH]; intros acc r x H k; simpl in *.
  - destruct k; simpl; destruct (size acc <? n); auto; discriminate.
  - destruct (size acc <? n); auto. destruct x as [out r']. apply gbind_ok in H.
    destruct H as [e [r1 [H1 H2]]]. erewrite gbind_eq by eauto. auto.
Qed.

(* too few distinct values *)
Lemma asc_cls_NoDup : forall A B (lt : A -> A -> bool) (cls : A -> B) l, (forall a b, lt a b = true -> cls a <> cls b) ->
  ascending lt l -> NoDup (map cls l).
Proof.
  intros A B lt cls l Hc. induction l as [|x l IH]; simpl; intros H; constructor; [|tauto].
  intros Hx. apply in_map_iff in Hx. destruct Hx as [y [E Hy]]. destruct H as [H _].
  rewrite Forall_forall in H. apply H in Hy. apply Hc in Hy. congruence.
Qed.

Lemma fillSet_hangs : forall E A B (lt : A -> A -> bool) (cls : A -> B) (S : list B) (g : gen E A) n,
  strict_order lt -> (forall a b, lt a b = true -> cls a <> cls b) ->
  (forall r, exists t r', g r = Ok (t, r') /\ In (cls (root t)) S) ->
  Z.of_nat (length S) < n ->
  forall fuel acc r, ascending (less_shr lt) acc -> incl (map (fun t => cls (root t)) acc) S ->
  fillSet fuel lt g n acc r = OutOfFuel.
Proof.
  intros E A B lt cls S g n Hso Hc Hg Hn. induction fuel as [|fuel IH]; intros acc r Ha Hi.
  - assert (Hl : (length acc <= length S)%nat).
    { rewrite <- (map_length (fun t => cls (root t)) acc). apply NoDup_incl_length; auto.
      eapply asc_cls_NoDup with (lt := less_shr lt); eauto. }
    simpl. unfold size. destruct (Z.ltb_spec (Z.of_nat (length acc)) n); [auto|lia].
  - assert (Hl : (length acc <= length S)%nat).
    { rewrite <- (map_length (fun t => cls (root t)) acc). apply NoDup_incl_length; auto.
      eapply asc_cls_NoDup with (lt := less_shr lt); eauto. }
    simpl. unfold size. destruct (Z.ltb_spec (Z.of_nat (length acc)) n); [|lia].
    destruct (Hg r) as [t [r' [H1 H2]]]. erewrite gbind_eq by eauto. apply IH.
    + apply set_insert_asc; auto using less_shr_order.
    + intros b Hb. apply in_map_iff in Hb. destruct Hb as [u [<- Hu]].
      apply set_insert_in in Hu. destruct Hu as [->|Hu]; auto. apply Hi. apply in_map_iff. eauto.
Qed.

(* enough distinct values *)
Lemma fillSet_enough : forall E A (lt : A -> A -> bool) (g : gen E A) n ts acc r r2 (sub : list A),
  strict_order lt -> (forall a b, lt a b = false -> lt b a = false -> a = b) ->
  draws g r ts r2 -> NoDup sub -> incl sub (map root acc ++ map root ts) -> n <= Z.of_nat (length sub) ->
  exists out r', fillSet (length ts) lt g n acc r = Ok (out, r').
Proof.
  intros E A lt g n ts. induction ts as [|e ts IH]; intros acc r r2 sub Hso Ht Hd Hn Hi Hl; simpl.
  - unfold size. destruct (Z.ltb_spec (Z.of_nat (length acc)) n); [|eexists _, _; reflexivity].
    simpl in Hi. rewrite app_nil_r in Hi. apply NoDup_incl_length in Hi; auto. rewrite map_length in Hi. lia.
  - destruct (size acc <? n); [|eexists _, _; reflexivity].
    inversion Hd; subst. erewrite gbind_eq by eauto. eapply IH; eauto.
    intros x Hx. apply Hi in Hx. apply in_app_iff in Hx. apply in_app_iff. simpl in Hx.
    destruct Hx as [Hx|[Hx|Hx]]; auto.
    + left. apply in_map_iff in Hx. destruct Hx as [u [<- Hu]]. apply in_map. apply set_insert_keeps; auto.
    + left. destruct (set_insert_covers _ (less_shr lt) e acc (less_shr_order _ _ Hso)) as [y [Hy [E1 E2]]].
      apply in_map_iff. exists y. split; auto. unfold less_shr in *. rewrite <- Hx. symmetry. auto.
Qed.

(** Maps *)
Lemma map_insert_last : forall K V (lt : K -> K -> bool) (p : K * V) l, strict_order lt ->
  Forall (fun q => lt (fst q) (fst p) = true) l -> map_insert lt p l = l ++ [p].
Proof.
  intros K V lt p l Hso H. induction H as [|q l Hq Hl IH]; simpl; auto.
  rewrite (so_asym _ _ Hso _ _ Hq), Hq, IH. auto.
Qed.

Lemma fold_map_insert : forall K V (lt : K -> K -> bool) (v acc : list (K * V)), strict_order lt ->
  ascending lt (map fst (acc ++ v)) -> fold_left (fun m kv => map_insert lt kv m) v acc = acc ++ v.
Proof.
  intros K V lt. induction v as [|p v IH]; simpl; intros acc Hso H; [rewrite app_nil_r; auto|].
  rewrite map_insert_last; auto.
  - rewrite IH; auto; rewrite <- app_assoc; auto.
  - rewrite map_app in H. simpl in H. apply ascending_app_lt in H. apply Forall_map in H. auto.
Qed.

Lemma combine_fst : forall A B (l : list A) (l' : list B), length l = length l' -> map fst (combine l l') = l.
Proof. induction l as [|x l IH]; destruct l'; simpl; intros; try discriminate; auto. f_equal. auto. Qed.
Lemma combine_map2 : forall A B C D (f : A -> C) (h : B -> D) l l',
  map (fun e => (f (fst e), h (snd e))) (combine l l') = combine (map f l) (map h l').
Proof. induction l as [|x l IH]; destruct l'; simpl; auto. f_equal; auto. Qed.
