(** C22, C23: generated containers. *)
From Coq Require Import List ZArith Lia Bool Arith Permutation.
From Verif Require Import Base TreeModel TreeSpec TreeProof BinSearchProof RandomModel IntegralModel IntegralSpec IntegralProof ListModel ListSpec ListProof
  ListMainProof PropList StringModel StringSpec StringProof PropTuple TupleModel ContainerModel ContainerSpec ContainerProof.
Import ListNotations.
Local Open Scope Z_scope.

(** * C22: sizes *)

(** A generated vector or list: a size is drawn between the bounds, the element generator is run that many
    times, the value lists its results in order, and no shrink leaves the size bounds. *)
Theorem C22_vector : forall E A (elemGen : gen E A) mn mx r,
  0 <= mn -> mn <= mx -> mx <= UINT32_MAX ->
  exists n r1, draw mn mx r = Ok (n, r1) /\ mn <= n <= mx /\
    forall t r', arbi_vector elemGen {| minSize := mn; maxSize := mx |} r = Ok (t, r') <->
      exists vec, draws elemGen r1 vec r' /\ size vec = n /\ shrinkListLike vec mn true = Ok t /\
        root t = map root vec /\ all_values (fun v => mn <= size v <= n) t.
Proof.
  intros E A g mn mx r H0 H1 H2. destruct (draw_ok E mn mx r H1) as [n [r1 [Hd Hn]]].
  exists n, r1. split; auto. split; auto. intros t r'. unfold arbi_vector.
  rewrite (gbind_eq _ _ _ _ _ _ n r1) by (rewrite containerSize_eq; auto). cbn [minSize]. split.
  - intros H. apply gbind_ok in H. destruct H as [vec [r2 [Ht Hs]]]. apply times_ok in Ht. destruct Ht as [Ht Hl].
    assert (Hsz : size vec = n) by (unfold size; lia).
    destruct (C13_list_sound A vec (Z.to_nat mn) true) as [t' [E1 [E2 E3]]].
    + rewrite Hsz. apply u32_int64. lia.
    + lia.
    + rewrite Z2Nat.id in E1 by auto. unfold gfail in Hs. rewrite E1 in Hs. inversion Hs; subst t' r2.
      exists vec. repeat split; auto; try (apply E3 in H; unfold size in *; lia).
  - intros [vec [Ht [Hl [Hs _]]]]. rewrite (gbind_eq _ _ _ _ _ _ vec r').
    + unfold gfail. rewrite Hs. auto.
    + apply times_ok. split; auto. unfold size in Hl. lia.
Qed.

(** Generation returns whenever the element generator does. *)
Theorem C22_vector_total : forall E A (elemGen : gen E A) mn mx r,
  0 <= mn -> mn <= mx -> mx <= UINT32_MAX -> always_returns elemGen ->
  returns (arbi_vector elemGen {| minSize := mn; maxSize := mx |}) r (fun t => mn <= size (root t) <= mx).
Proof.
  intros E A g mn mx r H0 H1 H2 Hg. destruct (C22_vector E A g mn mx r H0 H1 H2) as [n [r1 [Hd [Hn Hiff]]]].
  destruct (draws_total _ _ g Hg (Z.to_nat n) r1) as [vec [r' [Hdr Hl]]].
  assert (Hsz : size vec = n) by (unfold size; lia).
  destruct (C13_list_sound A vec (Z.to_nat mn) true) as [t [E1 [E2 E3]]]; [rewrite Hsz; apply u32_int64; lia|lia|].
  rewrite Z2Nat.id in E1 by auto. exists t, r'. split.
  - apply Hiff. exists vec. repeat split; auto; try (apply E3 in H; unfold size in *; lia).
  - rewrite E2. unfold size in *. rewrite map_length. lia.
Qed.

(** The same for strings; shrinks never grow beyond the generated string but may fall below the minimum
    size (C19). *)
Theorem C22_string : forall E A (elemGen : gen E A) mn mx r,
  0 <= mn -> mn <= mx -> mx <= UINT32_MAX ->
  exists n r1, draw mn mx r = Ok (n, r1) /\ mn <= n <= mx /\
    forall t r', arbi_string elemGen {| minSize := mn; maxSize := mx |} r = Ok (t, r') <->
      exists vec, draws elemGen r1 vec r' /\ size vec = n /\ shrinkString (map root vec) mn = Ok t /\
        root t = map root vec /\ all_values (fun v => infix v (map root vec)) t.
Proof.
  intros E A g mn mx r H0 H1 H2. destruct (draw_ok E mn mx r H1) as [n [r1 [Hd Hn]]].
  exists n, r1. split; auto. split; auto. intros t r'. unfold arbi_string.
  rewrite (gbind_eq _ _ _ _ _ _ n r1) by (rewrite containerSize_eq; auto). cbn [minSize]. split.
  - intros H. apply gbind_ok in H. destruct H as [vec [r2 [Ht Hs]]]. apply times_ok in Ht. destruct Ht as [Ht Hl].
    assert (Hsz : size vec = n) by (unfold size; lia).
    assert (Hle : (Z.to_nat mn <= length (map root vec))%nat) by (rewrite map_length; lia).
    assert (Hu : size (map root vec) <= UINT64_MAX) by (unfold size in *; rewrite map_length; unfold UINT32_MAX, UINT64_MAX in *; lia).
    destruct (C19_string_enumerates A (map root vec) (Z.to_nat mn) Hle Hu) as [t1 [E1 [E2 _]]].
    destruct (C19_string_infix A (map root vec) (Z.to_nat mn) Hle Hu) as [t2 [F1 [F2 _]]].
    rewrite Z2Nat.id in * by auto. rewrite E1 in F1. inversion F1; subst t2.
    unfold gfail in Hs. rewrite E1 in Hs. inversion Hs; subst t1 r2.
    exists vec. auto.
  - intros [vec [Ht [Hl [Hs _]]]]. rewrite (gbind_eq _ _ _ _ _ _ vec r').
    + unfold gfail. rewrite Hs. auto.
    + apply times_ok. split; auto. unfold size in Hl. lia.
Qed.

(** Without any size setting the size is drawn from 0 to 200. *)
Theorem C22_default_sizes : forall E (r : rst E), containerSize defaultSizes r = draw 0 200 r.
Proof. intros. apply containerSize_eq; unfold UINT32_MAX; lia. Qed.

(** setSize(n) makes the size exact. *)
Theorem C22_setSize_exact : forall E A (elemGen : gen E A) s n r t r', 0 <= n <= UINT32_MAX ->
  arbi_vector elemGen (setSize n s) r = Ok (t, r') \/ arbi_string elemGen (setSize n s) r = Ok (t, r') ->
  size (root t) = n.
Proof.
  intros E A g s n r t r' Hn [H|H]; unfold setSize in H.
  - destruct (C22_vector E A g n n r) as [k [r1 [_ [Hk Hiff]]]]; try lia.
    apply Hiff in H. destruct H as [vec [_ [Hl [_ [Hr _]]]]]. rewrite Hr. unfold size in *. rewrite map_length. lia.
  - destruct (C22_string E A g n n r) as [k [r1 [_ [Hk Hiff]]]]; try lia.
    apply Hiff in H. destruct H as [vec [_ [Hl [_ [Hr _]]]]]. rewrite Hr. unfold size in *. rewrite map_length. lia.
Qed.

(** Sizes are truncated to 32 bits: a maximum of 2^32*q+k with minimum 0 yields at most k elements. *)
Theorem C22_max_truncated : forall E q k (r : rst E), 0 <= q < 2 ^ 32 -> 0 <= k < 2 ^ 32 ->
  exists n r1, containerSize {| minSize := 0; maxSize := 2 ^ 32 * q + k |} r = Ok (n, r1) /\ 0 <= n <= k.
Proof.
  intros E q k r Hq Hk. rewrite containerSize_wrap by (unfold UINT64_MAX; lia).
  rewrite Z.mod_0_l by lia. rewrite Z.add_comm, Z.mul_comm, Z.mod_add, Z.mod_small by lia.
  apply draw_ok. lia.
Qed.

(** Without the limit of 2^32-1 the bounds do not hold. *)
Theorem C22_large_sizes_refuted : ~ (forall E mn mx (r : rst E) n r1, 0 <= mn -> mn <= mx -> mx <= UINT64_MAX ->
  containerSize {| minSize := mn; maxSize := mx |} r = Ok (n, r1) -> mn <= n <= mx).
Proof.
  intros H. specialize (H replay (2 ^ 32) (2 ^ 32) [5] 0 [] ltac:(lia) ltac:(lia) ltac:(unfold UINT64_MAX; lia) ltac:(vm_compute; reflexivity)). lia.
Qed.

(** Reversed bounds are undefined behaviour. *)
Theorem C22_reversed_undefined : forall E A (elemGen : gen E A) mn mx r, 0 <= mx < mn -> mn <= UINT32_MAX ->
  arbi_vector elemGen {| minSize := mn; maxSize := mx |} r = UB.
Proof.
  intros E A g mn mx r H1 H2. unfold arbi_vector, gbind. rewrite containerSize_wrap by (unfold UINT32_MAX, UINT64_MAX in *; lia).
  rewrite !Z.mod_small by (unfold UINT32_MAX in *; lia). unfold draw. destruct (Z.leb_spec mn mx); [lia|auto].
Qed.

Definition C22_elem : gen replay Z := generateInteger TI32 0 9.
Example C22_ex : exists t, arbi_vector C22_elem {| minSize := 1; maxSize := 4 |} [3; 8; 0; 2; 77] = Ok (t, [77]) /\
  root t = [8; 0; 2] /\ In [8; 2] (values t) /\ ~ In [] (values t).
Proof.
  eexists. split; [vm_compute; reflexivity|]. split; [reflexivity|]. split; [simpl; tauto|].
  intros H. vm_compute in H. intuition discriminate.
Qed.
Example C22_ex_string : exists t, arbi_string C22_elem (setSize 2 defaultSizes) [2; 7; 5; 1] = Ok (t, [1]) /\ root t = [7; 5].
Proof. eexists. split; vm_compute; reflexivity. Qed.

(** * C23: sets and maps *)

(** If generation finishes, a size n was drawn within the bounds, the element generator was run some number
    of times, and the set has n elements in strictly ascending order, all of them drawn; every drawn value is
    in the set or equivalent to an element of the set; the shrinks are the subsets with at least the minimum size. *)
Theorem C23_set : forall E A (lt : A -> A -> bool) (elemGen : gen E A) mn mx fuel r t r',
  strict_order lt -> 0 <= mn -> mn <= mx -> mx <= UINT32_MAX ->
  arbi_set fuel lt elemGen {| minSize := mn; maxSize := mx |} r = Ok (t, r') ->
  exists n r1 drawn, draw mn mx r = Ok (n, r1) /\ mn <= n <= mx /\ draws elemGen r1 drawn r' /\
    size (root t) = n /\ ascending lt (root t) /\ NoDup (root t) /\ incl (root t) (map root drawn) /\
    (forall x, In x (map root drawn) -> exists y, In y (root t) /\ lt x y = false /\ lt y x = false) /\
    Permutation (values t) (sublists_min (Z.to_nat mn) (root t)).
Proof.
  intros E A lt g mn mx fuel r t r' Hso H0 H1 H2 H. unfold arbi_set in H.
  apply gbind_ok in H. destruct H as [n [r1 [Hd H]]]. rewrite containerSize_eq in Hd by auto. cbn [minSize] in H.
  destruct (draw_ok E mn mx r H1) as [n' [r1' [Hd' Hn]]]. rewrite Hd in Hd'. inversion Hd'; subst n' r1'.
  apply gbind_ok in H. destruct H as [cont [r2 [Hf Hs]]]. apply fillSet_ok in Hf; auto.
  destruct Hf as [ts [F1 F2 F3 F4 F5 F6]].
  assert (Hsz : size cont = n) by (apply F6; unfold size; simpl; lia).
  assert (Ha : ascending lt (map root cont)) by (apply ascending_shr; apply F2; simpl; auto).
  destruct (C17_set_subsets_once A lt cont (Z.to_nat mn) Hso Ha) as [t' [E1 [E2 [E3 E4]]]].
  { rewrite Hsz. apply u32_int64. lia. } { unfold size in Hsz. lia. }
  rewrite Z2Nat.id in E1 by auto. unfold gfail in Hs. rewrite E1 in Hs. inversion Hs; subst t' r2.
  exists n, r1, ts. rewrite E2. repeat split; auto; try lia.
  - unfold size in *. rewrite map_length. auto.
  - eapply ascending_NoDup; eauto.
  - intros x Hx. apply in_map_iff in Hx. destruct Hx as [e [<- He]]. apply F3 in He. destruct He as [[]|He].
    apply in_map; auto.
  - intros x Hx. apply in_map_iff in Hx. destruct Hx as [e [<- He]]. apply F5 in He.
    destruct He as [y [Hy Hy2]]. exists (root y). split; auto. apply in_map; auto.
Qed.

(** Maps: the same for the keys; then one value per key is generated, in key order. *)
Theorem C23_map : forall E K V (lt : K -> K -> bool) (keyGen : gen E K) (elemGen : gen E V) mn mx fuel r t r',
  strict_order lt -> 0 <= mn -> mn <= mx -> mx <= UINT32_MAX ->
  arbi_map fuel lt keyGen elemGen {| minSize := mn; maxSize := mx |} r = Ok (t, r') ->
  exists n r1 drawn r2 elems keys, draw mn mx r = Ok (n, r1) /\ mn <= n <= mx /\
    draws keyGen r1 drawn r2 /\ draws elemGen r2 elems r' /\
    size keys = n /\ ascending lt keys /\ NoDup keys /\ incl keys (map root drawn) /\
    (forall x, In x (map root drawn) -> exists y, In y keys /\ lt x y = false /\ lt y x = false) /\
    size elems = n /\ root t = combine keys (map root elems) /\
    Permutation (values t) (prefixes_min (Z.to_nat mn) (root t)).
Proof.
  intros E K V lt kg g mn mx fuel r t r' Hso H0 H1 H2 H. unfold arbi_map in H.
  apply gbind_ok in H. destruct H as [n [r1 [Hd H]]]. rewrite containerSize_eq in Hd by auto. cbn [minSize] in H.
  destruct (draw_ok E mn mx r H1) as [n' [r1' [Hd' Hn]]]. rewrite Hd in Hd'. inversion Hd'; subst n' r1'.
  apply gbind_ok in H. destruct H as [keys [r2 [Hf H]]]. apply fillSet_ok in Hf; auto.
  destruct Hf as [ts [F1 F2 F3 F4 F5 F6]].
  apply gbind_ok in H. destruct H as [elems [r3 [Ht Hs]]]. apply times_ok in Ht. destruct Ht as [Ht Hl].
  assert (Hsz : size keys = n) by (apply F6; unfold size; simpl; lia).
  assert (Ha : ascending lt (map root keys)) by (apply ascending_shr; apply F2; simpl; auto).
  rewrite fold_map_insert in Hs; auto using less_shr_order; cycle 1.
  { simpl. rewrite combine_fst by auto. apply ascending_shr; auto. }
  simpl in Hs.
  destruct (C18_map_prefixes K V lt (combine keys elems) (Z.to_nat mn) Hso) as [t' [E1 [E2 E3]]].
  { rewrite <- (map_map fst root). rewrite combine_fst by auto. auto. }
  { unfold size in *. rewrite combine_length. apply u32_int64. lia. }
  { unfold size in *. rewrite combine_length. lia. }
  rewrite Z2Nat.id in E1 by auto. unfold gfail in Hs. rewrite E1 in Hs. inversion Hs; subst t' r3.
  exists n, r1, ts, r2, elems, (map root keys). rewrite E2 in *. rewrite combine_map2 in *. unfold size in *.
  rewrite !map_length. repeat split; auto; try lia.
  - eapply ascending_NoDup; eauto.
  - intros x Hx. apply in_map_iff in Hx. destruct Hx as [e [<- He]]. apply F3 in He. destruct He as [[]|He].
    apply in_map; auto.
  - intros x Hx. apply in_map_iff in Hx. destruct Hx as [e [<- He]]. apply F5 in He.
    destruct He as [y [Hy Hy2]]. exists (root y). split; auto. apply in_map; auto.
Qed.

(** If the element generator's values fall into fewer classes of equivalent values than the drawn size,
    no number of iterations suffices. *)
Theorem C23_too_few_values_hang : forall E A B (lt : A -> A -> bool) (cls : A -> B) (classes : list B) (elemGen : gen E A) s r n r1,
  strict_order lt -> (forall a b, lt a b = true -> cls a <> cls b) ->
  (forall r, exists t r', elemGen r = Ok (t, r') /\ In (cls (root t)) classes) ->
  containerSize s r = Ok (n, r1) -> Z.of_nat (length classes) < n ->
  (forall fuel, arbi_set fuel lt elemGen s r = OutOfFuel) /\
  (forall fuel V (valGen : gen E V), arbi_map fuel lt elemGen valGen s r = OutOfFuel).
Proof.
  intros E A B lt cls S g s r n r1 Hso Hc Hg Hd Hn. split.
  - intros fuel. unfold arbi_set. erewrite gbind_eq by eauto. unfold gbind.
    erewrite fillSet_hangs; eauto; simpl; auto. intros x [].
  - intros fuel V vg. unfold arbi_map. erewrite gbind_eq by eauto. unfold gbind.
    erewrite fillSet_hangs; eauto; simpl; auto. intros x [].
Qed.

(** Conversely, as soon as the draws contain enough distinct values, generation finishes, after at most that
    many draws; more iterations allowed do not change the result. *)
Theorem C23_enough_values_finish : forall E A (lt : A -> A -> bool) (elemGen : gen E A) mn mx r n r1 drawn r2 distinct,
  strict_order lt -> (forall a b, lt a b = false -> lt b a = false -> a = b) ->
  0 <= mn -> mn <= mx -> mx <= UINT32_MAX ->
  draw mn mx r = Ok (n, r1) -> draws elemGen r1 drawn r2 ->
  NoDup distinct -> incl distinct (map root drawn) -> n <= size distinct ->
  exists t r', forall more, arbi_set (length drawn + more) lt elemGen {| minSize := mn; maxSize := mx |} r = Ok (t, r').
Proof.
  intros E A lt g mn mx r n r1 drawn r2 dis Hso Ht H0 H1 H2 Hd Hdr Hnd Hi Hl.
  destruct (fillSet_enough _ _ lt g n drawn [] r1 r2 dis Hso Ht Hdr Hnd Hi Hl) as [out [r' Hf]].
  destruct (fillSet_ok _ _ _ _ _ _ _ _ _ _ Hso Hf) as [ts [F1 F2 F3 F4 F5 F6]].
  destruct (draw_ok E mn mx r H1) as [n' [r1' [Hd' Hn]]]. rewrite Hd in Hd'. inversion Hd'; subst n' r1'.
  assert (Hsz : size out = n) by (apply F6; unfold size; simpl; lia).
  assert (Ha : ascending lt (map root out)) by (apply ascending_shr; apply F2; simpl; auto).
  destruct (C17_set_subsets_once A lt out (Z.to_nat mn) Hso Ha) as [t [E1 _]].
  { rewrite Hsz. apply u32_int64. lia. } { unfold size in Hsz. lia. }
  rewrite Z2Nat.id in E1 by auto. exists t, r'. intros more. unfold arbi_set.
  rewrite (gbind_eq _ _ _ _ _ _ n r1) by (rewrite containerSize_eq; auto).
  erewrite gbind_eq by (apply fillSet_mono; eauto). cbn [minSize]. unfold gfail. rewrite E1. auto.
Qed.

Lemma C23_Zltb : strict_order Z.ltb.
Proof. split; [exact Z.ltb_irrefl|]. intros a b c H1 H2. rewrite Z.ltb_lt in *. lia. Qed.
Example C23_ex : exists t, arbi_set 9 Z.ltb C22_elem {| minSize := 1; maxSize := 4 |} [3; 8; 2; 8; 2; 5; 77] = Ok (t, [77]) /\
  root t = [2; 5; 8].
Proof. eexists. split; vm_compute; reflexivity. Qed.
Example C23_ex_map : exists t, arbi_map 9 Z.ltb C22_elem C22_elem {| minSize := 1; maxSize := 4 |} [2; 8; 8; 2; 5; 6; 77] = Ok (t, [77]) /\
  root t = [(2, 5); (8, 6)].
Proof. eexists. split; vm_compute; reflexivity. Qed.
(** A generator of booleans cannot fill a set of three. *)
Definition C23_bits : gen replay bool :=
  fun (r : list Z) => match r with x :: q => Ok (Node (0 <? x) [], q) | [] => Ok (Node false [], []) end.
Example C23_ex_hang : forall fuel (r : rst replay),
  arbi_set fuel (fun a b => negb a && b) C23_bits (setSize 3 defaultSizes) r = OutOfFuel.
Proof.
  intros fuel r. destruct (draw_ok replay 3 3 r) as [n [r1 [Hd Hn]]]; [lia|].
  eapply C23_too_few_values_hang with (cls := fun b : bool => b) (classes := [true; false]) (n := n) (r1 := r1).
  - split; [intros []; auto|intros [] [] []; simpl; auto].
  - intros [] []; simpl; congruence.
  - unfold C23_bits. intros [|x q]; [exists (Node false []), []; simpl; auto|exists (Node (0 <? x) []), q; destruct (0 <? x); simpl; auto].
  - unfold setSize. rewrite containerSize_eq by (unfold UINT32_MAX; lia). auto.
  - simpl. lia.
Qed.

Print Assumptions C22_vector.
Print Assumptions C22_vector_total.
Print Assumptions C22_string.
Print Assumptions C22_default_sizes.
Print Assumptions C22_setSize_exact.
Print Assumptions C22_max_truncated.
Print Assumptions C22_large_sizes_refuted.
Print Assumptions C22_reversed_undefined.
Print Assumptions C23_set.
Print Assumptions C23_map.
Print Assumptions C23_too_few_values_hang.
Print Assumptions C23_enough_values_finish.
