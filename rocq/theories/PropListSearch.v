(** The search for a simplest failing container (C67). *)
From Coq Require Import String List ZArith Lia Bool Permutation.
From Verif Require Import Base TreeModel TreeSpec TreeProof RandomModel TupleModel TupleProof BinSearchProof IntegralModel IntegralSpec IntegralProof
  ListModel ListSpec ListProof ListMainProof StringModel StringSpec StringProof ContainerModel ContainerSpec ContainerProof
  EffModel EffSpec EffProof ContextModel ContextSpec ContextProof RunnerModel RunnerSpec RunnerProof RunnerPureProof RunnerShrinkProof
  SearchSpec SearchProof ListSearchSpec ListSearchProof PropList PropContainer PropRun PropSearch.
Import ListNotations.
Local Open Scope list_scope.

(** * C67: shrinking keeps only the elements that are needed *)

(** An argument drawn by [g], embedded in the type of arguments by [inj]. *)
Definition treeArg {E V A} (inj : A -> V) (g : gen E A) : xgen E V := gbind g (fun t => gret (inl (elift (map_tree inj t)))).

Lemma treeArg_ok : forall E V A (inj : A -> V) (g : gen E A) (r : rst E) x r', treeArg inj g r = Ok (inl x, r') ->
  exists t, g r = Ok (t, r') /\ x = elift (map_tree inj t).
Proof. intros E V A inj g r x r' H. apply gbind_ok in H. destruct H as [t [r1 [H1 H2]]]. inversion H2; subst. eauto. Qed.

(* the search at one position, from a falsified run *)
Lemma falsified_scan : forall E V W fuel ev (P : property E V W) beh w n why rep s' A (inj : A -> V) (g : gen E A) o1 N o2,
  pure_property P beh -> quiet (gens P) -> no_leak beh -> ord_regen ev = ord_call ev -> order (length (gens P)) (ord_each ev) ->
  nth_error (gens P) N = Some (treeArg inj g) -> ord_each ev = o1 ++ N :: o2 ->
  runForAll fuel ev P w = Ok (VFalsified n why rep, s') ->
  exists q q' t tried found, g q = Ok (t, q') /\
    nth_error (with_args rep) N = Some (inj (root t)) /\ nth_error (simplest_args rep) N = Some (inj (root (ending t found))) /\
    let fails x := bad beh (set_nth N (inj x) (partly o1 (simplest_args rep) (with_args rep))) in
    fails (root t) /\ scan fails (shrinks t) tried found.
Proof.
  intros E V W fuel ev P beh w n why rep s' A inj g o1 N o2 HP Hq Hnl Ho Hoe HgN Ho1 H.
  pose proof (C33_replay_fails _ _ _ _ _ _ _ _ _ _ _ _ HP Hq Hnl Ho H) as Hj.
  apply runLoop_ok in H. destruct H as [ks [s0 [s1 [_ [_ [_ [_ [_ Hs]]]]]]]].
  pose proof (shrink_inv _ _ _ _ _ _ _ _ Hs) as [ts [r2 [streams [r3 [ts' [H1 [H2 [H3 [H4 H5]]]]]]]]].
  assert (Hbad : bad beh (with_args rep)).
  { unfold judge, bad in *. destruct (snd (beh (with_args rep))) as [b|e]; [|left; discriminate].
    destruct (failed_expectations (fst (beh (with_args rep)))); [|right; discriminate]. destruct b; [discriminate|left; discriminate]. }
  assert (Hlen : length ts = length (gens P)) by (eapply evalTuple_length; eauto).
  destruct (streams_linked _ _ _ _ _ _ _ H2) as [_ Hl].
  assert (Hlk : forall M, In M (ord_each ev) -> linked_to streams ts M) by (intros M HM; apply Hl; apply (order_in _ _ Hoe) in HM; lia).
  destruct (shrinkEach_pure _ _ _ _ _ HP _ _ _ _ _ _ H3 (order_nodup _ _ Hoe) Hlk) as [I1 _].
  assert (Hst : bad beh (partly o1 (simplest_args rep) (with_args rep))).
  { rewrite H4, H5, <- map_partly by auto. rewrite Ho1 in H3. eapply stage_bad; eauto; rewrite <- ?Ho1; auto.
    - eapply order_nodup; eauto.
    - intros i. rewrite Hlen. apply order_in. auto.
    - rewrite <- H4. auto. }
  destruct (C66_search _ _ _ _ _ _ _ _ _ _ _ HP Hoe H1 Hs) as [logs [_ [_ L3]]].
  assert (HN : (N < length (gens P))%nat) by (eapply nth_error_lt; eauto).
  destruct (nth_error ts N) as [x|] eqn:Ex; [|apply nth_error_None in Ex; lia].
  destruct (evalTuple_ok _ _ _ _ _ _ _ H1) as [_ Hev]. destruct (Hev N x Ex) as [f [q [q' [F1 F2]]]].
  assert (Hff : Some f = Some (treeArg inj g)) by (transitivity (nth_error (gens P) N); [symmetry; exact F1|exact HgN]). inversion Hff; subst f.
  destruct (treeArg_ok _ _ _ _ _ _ _ _ F2) as [t [T1 ->]].
  destruct (L3 o1 N o2 _ Ho1 Ex) as [tried [found [S1 [S2 [S3 _]]]]].
  rewrite shrinks_map in S1. apply scan_map in S1. destruct S1 as [tr [fo [S1 [-> ->]]]]. rewrite ending_map, !root_map in *.
  exists q, q', t, tr, fo. split; auto. split; auto. split; auto. split; auto.
  rewrite set_nth_same; auto. rewrite H4, H5 in *. rewrite partly_nth by (rewrite !map_length; auto).
  destruct (existsb (Nat.eqb N) o1) eqn:Ein; auto. exfalso. apply existsb_in in Ein.
  pose proof (order_nodup _ _ Hoe) as Hnd. rewrite Ho1 in Hnd. eapply NoDup_app_not; [exact Hnd| |exact Ein]. left. auto.
Qed.

(** Vectors and lists.  The reported list comes from a list [u] by shrinking elements in place; [u] is the original list with elements deleted.  If putting elements back
    keeps a list failing, then [u] fails and is minimal: it has the minimum size, or deleting any one element makes the property pass. *)
Theorem C67_vector : forall E V W fuel ev (P : property E V W) beh w n why rep s' A (inj : list A -> V) (elemGen : gen E A) mn mx o1 N o2,
  pure_property P beh -> quiet (gens P) -> no_leak beh -> ord_regen ev = ord_call ev -> order (length (gens P)) (ord_each ev) ->
  (0 <= mn <= mx)%Z -> (mx <= UINT32_MAX)%Z ->
  nth_error (gens P) N = Some (treeArg inj (arbi_vector elemGen {| minSize := mn; maxSize := mx |})) -> ord_each ev = o1 ++ N :: o2 ->
  runForAll fuel ev P w = Ok (VFalsified n why rep, s') ->
  exists vec q q' us rs, draws elemGen q vec q' /\ In us (sublists vec) /\ (mn <= size us)%Z /\ Forall2 (fun e e' => reach e e') us rs /\
    nth_error (with_args rep) N = Some (inj (map root vec)) /\ nth_error (simplest_args rep) N = Some (inj (map root rs)) /\
    let fails x := bad beh (set_nth N (inj x) (partly o1 (simplest_args rep) (with_args rep))) in
    fails (map root rs) /\ (stays_failing fails (Z.to_nat mn) (map root vec) -> fails (map root us) /\ minimal_list fails (Z.to_nat mn) (map root us)).
Proof.
  intros E V W fuel ev P beh w n why rep s' A inj eg mn mx o1 N o2 HP Hq Hnl Ho Hoe Hmn Hmx HgN Ho1 H.
  destruct (falsified_scan _ _ _ _ _ _ _ _ _ _ _ _ _ _ _ _ _ _ HP Hq Hnl Ho Hoe HgN Ho1 H) as [q [q' [t [tried [found [T1 [T2 [T3 [T4 T5]]]]]]]]].
  destruct (C22_vector E A eg mn mx q) as [k [r1 [_ [Hk Hiff]]]]; try lia. apply Hiff in T1. destruct T1 as [vec [D1 [D2 [D3 [D4 _]]]]].
  assert (Hs : (size vec <= INT64_MAX)%Z) by (rewrite D2; apply u32_int64; lia).
  assert (Hm : (Z.to_nat mn <= length vec)%nat) by (unfold size in D2; lia).
  rewrite <- (Z2Nat.id mn) in D3 by lia.
  destruct (vec_scan _ _ _ _ _ _ _ Hs Hm D3 T5) as [us [rs [V1 [V2 [V3 [V4 V5]]]]]].
  exists vec, r1, q', us, rs. split; auto. split; auto. split; [unfold size; lia|]. split; auto. rewrite <- D4, <- V4. split; auto. split; auto. split.
  - apply (scan_fails _ _ _ _ _ T5). auto.
  - intros Hst. apply V5; auto; rewrite <- D4; auto.
Qed.

(** The same for the reported list itself, when in addition undoing the shrinking of elements keeps a list failing; [le] relates a shrunk element to the element. *)
Theorem C67_vector_minimal : forall E V W fuel ev (P : property E V W) beh w n why rep s' A (inj : list A -> V) (elemGen : gen E A) (le : A -> A -> Prop) mn mx o1 N o2,
  pure_property P beh -> quiet (gens P) -> no_leak beh -> ord_regen ev = ord_call ev -> order (length (gens P)) (ord_each ev) ->
  (0 <= mn <= mx)%Z -> (mx <= UINT32_MAX)%Z ->
  nth_error (gens P) N = Some (treeArg inj (arbi_vector elemGen {| minSize := mn; maxSize := mx |})) -> ord_each ev = o1 ++ N :: o2 ->
  (forall q t q', elemGen q = Ok (t, q') -> all_values (fun x => le x (root t)) t) ->
  runForAll fuel ev P w = Ok (VFalsified n why rep, s') ->
  exists v r, nth_error (with_args rep) N = Some (inj v) /\ nth_error (simplest_args rep) N = Some (inj r) /\ (mn <= size r <= size v)%Z /\
    let fails x := bad beh (set_nth N (inj x) (partly o1 (simplest_args rep) (with_args rep))) in
    fails r /\ (stays_failing fails (Z.to_nat mn) v -> (forall a b, Forall2 le a b -> fails a -> fails b) -> minimal_list fails (Z.to_nat mn) r).
Proof.
  intros E V W fuel ev P beh w n why rep s' A inj eg le mn mx o1 N o2 HP Hq Hnl Ho Hoe Hmn Hmx HgN Ho1 Hle H.
  destruct (C67_vector _ _ _ _ _ _ _ _ _ _ _ _ _ _ _ _ _ _ _ _ HP Hq Hnl Ho Hoe Hmn Hmx HgN Ho1 H) as [vec [q [q' [us [rs [A1 [A2 [A3 [A4 [A5 [A6 [A7 A8]]]]]]]]]]]].
  assert (Hl : length rs = length us) by (clear -A4; induction A4; simpl; auto).
  exists (map root vec), (map root rs). split; auto. split; auto. split.
  { pose proof (sublists_len _ _ _ A2). unfold size in *. rewrite !map_length. lia. }
  split; auto. intros Hst Hun. destruct (A8 Hst) as [_ [B|B]]; [left; rewrite map_length in *; lia|right].
  intros a x b E1 Hf. apply map_split in E1. destruct E1 as [a' [x' [b' [-> [-> [-> ->]]]]]].
  assert (Hus : forall u, In u us -> In u vec) by (intros u Hu; eapply sublists_In; eauto).
  assert (Hvec : forall u, In u vec -> exists p p', eg p = Ok (u, p')).
  { clear -A1. induction A1 as [|r a r1 l r2 G D IH]; intros u []; subst; eauto. }
  apply Forall2_app_inv_r in A4. destruct A4 as [c [d [C1 [C2 E2]]]]. inversion C2 as [|y x0 d0 l0 C3 C4]; subst.
  apply (B (map root c) (root y) (map root d0)); [rewrite map_app; reflexivity|].
  eapply Hun; [|exact Hf]. apply Forall2_app.
  - assert (Hc : forall u, In u c -> In u vec) by (intros u Hu; apply Hus; apply in_or_app; auto).
    clear -C1 Hc Hvec Hle. induction C1 as [|u v c a' R C1 IH]; simpl; constructor.
    + destruct (Hvec u) as [p [p' G]]; [apply Hc; left; auto|]. apply (Hle _ _ _ G). auto.
    + apply IH. intros z Hz. apply Hc. right. auto.
  - assert (Hc : forall u, In u d0 -> In u vec) by (intros u Hu; apply Hus; apply in_or_app; right; right; auto).
    clear -C4 Hc Hvec Hle. induction C4 as [|u v c a' R C1 IH]; simpl; constructor.
    + destruct (Hvec u) as [p [p' G]]; [apply Hc; left; auto|]. apply (Hle _ _ _ G). auto.
    + apply IH. intros z Hz. apply Hc. right. auto.
Qed.

Lemma arbi_set_tree : forall E A (lt : A -> A -> bool) (elemGen : gen E A) mn mx fuel r t r',
  strict_order lt -> (0 <= mn <= mx)%Z -> (mx <= UINT32_MAX)%Z -> arbi_set fuel lt elemGen {| minSize := mn; maxSize := mx |} r = Ok (t, r') ->
  (mn <= size (root t) <= mx)%Z /\ t = mtree (root t) (Z.to_nat mn).
Proof.
  intros E A lt g mn mx fuel r t r' Hso H0 H2 H. unfold arbi_set in H.
  apply gbind_ok in H. destruct H as [n [r1 [Hd H]]]. rewrite containerSize_eq in Hd by lia. cbn [minSize] in H.
  destruct (draw_ok E mn mx r) as [n' [r1' [Hd' Hn]]]; [lia|]. rewrite Hd in Hd'. inversion Hd'; subst n' r1'.
  apply gbind_ok in H. destruct H as [cont [r2 [Hf Hs]]]. apply fillSet_ok in Hf; auto.
  destruct Hf as [ts [F1 F2 F3 F4 F5 F6]].
  assert (Hsz : size cont = n) by (apply F6; unfold size; simpl; lia).
  assert (Ha : ascending lt (map root cont)) by (apply ascending_shr; apply F2; simpl; auto).
  rewrite <- (Z2Nat.id mn) in Hs by lia. unfold gfail in Hs. unfold size in Hsz.
  rewrite set_tree in Hs; auto; try (unfold size; rewrite Hsz; apply u32_int64; lia); try lia. inversion Hs; subst.
  rewrite mtree_root by (rewrite map_length; lia). split; auto. unfold size. rewrite map_length. lia.
Qed.

(** Sets: the reported set fails; if putting elements back keeps a set failing, it has the minimum size or needs all its elements. *)
Theorem C67_set : forall E V W fuel ev (P : property E V W) beh w n why rep s' A (inj : list A -> V) fuel' lt (elemGen : gen E A) mn mx o1 N o2,
  pure_property P beh -> quiet (gens P) -> no_leak beh -> ord_regen ev = ord_call ev -> order (length (gens P)) (ord_each ev) ->
  strict_order lt -> (0 <= mn <= mx)%Z -> (mx <= UINT32_MAX)%Z ->
  nth_error (gens P) N = Some (treeArg inj (arbi_set fuel' lt elemGen {| minSize := mn; maxSize := mx |})) -> ord_each ev = o1 ++ N :: o2 ->
  runForAll fuel ev P w = Ok (VFalsified n why rep, s') ->
  exists v r, nth_error (with_args rep) N = Some (inj v) /\ nth_error (simplest_args rep) N = Some (inj r) /\ (mn <= size r)%Z /\ In r (sublists v) /\
    let fails x := bad beh (set_nth N (inj x) (partly o1 (simplest_args rep) (with_args rep))) in
    fails r /\ (stays_failing fails (Z.to_nat mn) v -> minimal_list fails (Z.to_nat mn) r).
Proof.
  intros E V W fuel ev P beh w n why rep s' A inj fuel' lt eg mn mx o1 N o2 HP Hq Hnl Ho Hoe Hso Hmn Hmx HgN Ho1 H.
  destruct (falsified_scan _ _ _ _ _ _ _ _ _ _ _ _ _ _ _ _ _ _ HP Hq Hnl Ho Hoe HgN Ho1 H) as [q [q' [t [tried [found [T1 [T2 [T3 [T4 T5]]]]]]]]].
  apply arbi_set_tree in T1; auto. destruct T1 as [Hsz Ht].
  assert (Hs : (size (root t) <= INT64_MAX)%Z) by (apply u32_int64; lia).
  assert (Hm : (Z.to_nat mn <= length (root t))%nat) by (unfold size in Hsz; lia).
  pose proof T5 as T5'. rewrite Ht in T5'. destruct (mtree_scan _ _ _ _ _ _ Hs Hm T5') as [M1 [M2 [_ M4]]]. rewrite <- Ht in *.
  exists (root t), (root (ending t found)). split; auto. split; auto. split; [unfold size; lia|]. split; auto. split; auto.
  apply (scan_fails _ _ _ _ _ T5). auto.
Qed.

Lemma arbi_map_tree : forall E K T (lt : K -> K -> bool) (keyGen : gen E K) (elemGen : gen E T) mn mx fuel r t r',
  strict_order lt -> (0 <= mn <= mx)%Z -> (mx <= UINT32_MAX)%Z -> arbi_map fuel lt keyGen elemGen {| minSize := mn; maxSize := mx |} r = Ok (t, r') ->
  (mn <= size (root t) <= mx)%Z /\ t = prefixTree (Z.to_nat mn) (root t).
Proof.
  intros E K V lt kg g mn mx fuel r t r' Hso H0 H2 H. unfold arbi_map in H.
  apply gbind_ok in H. destruct H as [n [r1 [Hd H]]]. rewrite containerSize_eq in Hd by lia. cbn [minSize] in H.
  destruct (draw_ok E mn mx r) as [n' [r1' [Hd' Hn]]]; [lia|]. rewrite Hd in Hd'. inversion Hd'; subst n' r1'.
  apply gbind_ok in H. destruct H as [keys [r2 [Hf H]]]. apply fillSet_ok in Hf; auto.
  destruct Hf as [ts [F1 F2 F3 F4 F5 F6]].
  apply gbind_ok in H. destruct H as [elems [r3 [Ht Hs]]]. apply times_ok in Ht. destruct Ht as [Ht Hl].
  assert (Hsz : size keys = n) by (apply F6; unfold size; simpl; lia).
  assert (Ha : ascending lt (map root keys)) by (apply ascending_shr; apply F2; simpl; auto).
  rewrite fold_map_insert in Hs; auto using less_shr_order; cycle 1.
  { simpl. rewrite combine_fst by auto. apply ascending_shr; auto. }
  simpl in Hs. rewrite <- (Z2Nat.id mn) in Hs by lia. unfold gfail, size in *.
  rewrite map_tree_prefix in Hs; auto.
  - inversion Hs; subst. rewrite prefixTree_root by (rewrite map_length, combine_length; lia). split; auto.
    rewrite map_length, combine_length. lia.
  - rewrite <- (map_map fst root). rewrite combine_fst by auto. auto.
  - unfold size. rewrite combine_length. apply u32_int64. lia.
  - rewrite combine_length. lia.
Qed.

(** Maps: only prefixes in key order are tried.  The reported map is such a prefix and fails; if failing is kept from shorter to longer prefixes, it is the shortest
    failing one.  Nothing more can be said: entries before the last one may be superfluous, and values are never shrunk. *)
Theorem C67_map : forall E V W fuel ev (P : property E V W) beh w n why rep s' K T (inj : list (K * T) -> V) fuel' lt (keyGen : gen E K) (elemGen : gen E T) mn mx o1 N o2,
  pure_property P beh -> quiet (gens P) -> no_leak beh -> ord_regen ev = ord_call ev -> order (length (gens P)) (ord_each ev) ->
  strict_order lt -> (0 <= mn <= mx)%Z -> (mx <= UINT32_MAX)%Z ->
  nth_error (gens P) N = Some (treeArg inj (arbi_map fuel' lt keyGen elemGen {| minSize := mn; maxSize := mx |})) -> ord_each ev = o1 ++ N :: o2 ->
  runForAll fuel ev P w = Ok (VFalsified n why rep, s') ->
  exists v r, nth_error (with_args rep) N = Some (inj v) /\ nth_error (simplest_args rep) N = Some (inj r) /\ (mn <= size r)%Z /\ r = firstn (length r) v /\
    let fails x := bad beh (set_nth N (inj x) (partly o1 (simplest_args rep) (with_args rep))) in
    fails r /\ (prefixes_stay_failing fails (Z.to_nat mn) v -> shortest_prefix fails (Z.to_nat mn) v r).
Proof.
  intros E V W fuel ev P beh w n why rep s' K T inj fuel' lt kg eg mn mx o1 N o2 HP Hq Hnl Ho Hoe Hso Hmn Hmx HgN Ho1 H.
  destruct (falsified_scan _ _ _ _ _ _ _ _ _ _ _ _ _ _ _ _ _ _ HP Hq Hnl Ho Hoe HgN Ho1 H) as [q [q' [t [tried [found [T1 [T2 [T3 [T4 T5]]]]]]]]].
  apply arbi_map_tree in T1; auto. destruct T1 as [Hsz Ht].
  assert (Hs : (size (root t) <= UINT64_MAX)%Z) by (unfold UINT64_MAX, UINT32_MAX in *; lia).
  assert (Hm : (Z.to_nat mn <= length (root t))%nat) by (unfold size in Hsz; lia).
  pose proof T5 as T5'. rewrite Ht in T5'. destruct (prefix_scan _ _ _ _ _ _ Hm Hs T5') as [[k [M1 M2]] [_ M4]]. rewrite <- Ht in *.
  exists (root t), (root (ending t found)). split; auto. split; auto.
  assert (Hl : length (root (ending t found)) = k) by (rewrite M1, firstn_length; lia).
  split; [unfold size; lia|]. split; [rewrite Hl; auto|]. split; auto.
  apply (scan_fails _ _ _ _ _ T5). auto.
Qed.

Lemma arbi_string_tree : forall E A (elemGen : gen E A) mn mx r t r',
  (0 <= mn <= mx)%Z -> (mx <= UINT32_MAX)%Z -> arbi_string elemGen {| minSize := mn; maxSize := mx |} r = Ok (t, r') ->
  (mn <= size (root t) <= mx)%Z /\ t = strT (Z.to_nat mn) (root t).
Proof.
  intros E A g mn mx r t r' H0 H2 H. destruct (C22_string E A g mn mx r) as [n [r1 [_ [Hn Hiff]]]]; try lia.
  apply Hiff in H. destruct H as [vec [_ [Hl [Hs [Hr _]]]]]. unfold size in *.
  rewrite <- (Z2Nat.id mn) in Hs by lia. rewrite shrinkString_ok in Hs by (unfold size, UINT64_MAX, UINT32_MAX in *; rewrite map_length; lia).
  inversion Hs; subst. rewrite strT_root by (rewrite map_length; lia). split; auto. rewrite map_length. lia.
Qed.

(** Strings of no minimum length (the default): whatever the property is, the reported string is a prefix of the original one, because the first candidate for removing characters
    at the front is the string itself.  It is the shortest failing prefix, when failing is kept from shorter to longer prefixes. *)
Theorem C67_string : forall E V W fuel ev (P : property E V W) beh w n why rep s' A (inj : list A -> V) (elemGen : gen E A) mx o1 N o2,
  pure_property P beh -> quiet (gens P) -> no_leak beh -> ord_regen ev = ord_call ev -> order (length (gens P)) (ord_each ev) ->
  (0 <= mx <= UINT32_MAX)%Z ->
  nth_error (gens P) N = Some (treeArg inj (arbi_string elemGen {| minSize := 0; maxSize := mx |})) -> ord_each ev = o1 ++ N :: o2 ->
  runForAll fuel ev P w = Ok (VFalsified n why rep, s') ->
  exists v r, nth_error (with_args rep) N = Some (inj v) /\ nth_error (simplest_args rep) N = Some (inj r) /\ r = firstn (length r) v /\
    let fails x := bad beh (set_nth N (inj x) (partly o1 (simplest_args rep) (with_args rep))) in
    fails r /\ (prefixes_stay_failing fails 0 v -> shortest_prefix fails 0 v r).
Proof.
  intros E V W fuel ev P beh w n why rep s' A inj eg mx o1 N o2 HP Hq Hnl Ho Hoe Hmx HgN Ho1 H.
  destruct (falsified_scan _ _ _ _ _ _ _ _ _ _ _ _ _ _ _ _ _ _ HP Hq Hnl Ho Hoe HgN Ho1 H) as [q [q' [t [tried [found [T1 [T2 [T3 [T4 T5]]]]]]]]].
  apply arbi_string_tree in T1; try lia. destruct T1 as [Hsz Ht].
  assert (Hs : (size (root t) <= UINT64_MAX)%Z) by (unfold UINT64_MAX, UINT32_MAX in *; lia).
  pose proof T5 as T5'. rewrite Ht in T5'. destruct (str_scan _ _ _ _ _ _ (Nat.le_0_l _) Hs T5') as [_ [M2 [M3 _]]].
  change (Z.to_nat 0) with 0%nat in Ht. rewrite <- Ht in *. destruct (M2 T4 eq_refl) as [k [K1 K2]].
  exists (root t), (root (ending t found)). split; auto. split; auto.
  assert (Hl : length (root (ending t found)) = k) by (rewrite K2, firstn_length; lia).
  split; [rewrite Hl; auto|]. split; auto.
  apply (scan_fails _ _ _ _ _ T5). auto.
Qed.

(** Strings of a minimum length [mn]: if putting characters back keeps a string failing, the reported one is the shortest failing prefix of that length or more, or that
    prefix without its first [mn] characters: exactly when the latter fails (and is not empty). *)
Theorem C67_string_min : forall E V W fuel ev (P : property E V W) beh w n why rep s' A (inj : list A -> V) (elemGen : gen E A) mn mx o1 N o2,
  pure_property P beh -> quiet (gens P) -> no_leak beh -> ord_regen ev = ord_call ev -> order (length (gens P)) (ord_each ev) ->
  (0 <= mn <= mx)%Z -> (mx <= UINT32_MAX)%Z ->
  nth_error (gens P) N = Some (treeArg inj (arbi_string elemGen {| minSize := mn; maxSize := mx |})) -> ord_each ev = o1 ++ N :: o2 ->
  runForAll fuel ev P w = Ok (VFalsified n why rep, s') ->
  exists v r, nth_error (with_args rep) N = Some (inj v) /\ nth_error (simplest_args rep) N = Some (inj r) /\
    let fails x := bad beh (set_nth N (inj x) (partly o1 (simplest_args rep) (with_args rep))) in
    fails r /\ (stays_failing fails 0 v -> exists p, shortest_prefix fails (Z.to_nat mn) v p /\ (r = p \/ r = skipn (Z.to_nat mn) p) /\
      ((Z.to_nat mn < length p)%nat -> fails (skipn (Z.to_nat mn) p) -> r = skipn (Z.to_nat mn) p)).
Proof.
  intros E V W fuel ev P beh w n why rep s' A inj eg mn mx o1 N o2 HP Hq Hnl Ho Hoe Hmn Hmx HgN Ho1 H.
  destruct (falsified_scan _ _ _ _ _ _ _ _ _ _ _ _ _ _ _ _ _ _ HP Hq Hnl Ho Hoe HgN Ho1 H) as [q [q' [t [tried [found [T1 [T2 [T3 [T4 T5]]]]]]]]].
  apply arbi_string_tree in T1; try lia. destruct T1 as [Hsz Ht].
  assert (Hs : (size (root t) <= UINT64_MAX)%Z) by (unfold UINT64_MAX, UINT32_MAX in *; lia).
  assert (Hm : (Z.to_nat mn <= length (root t))%nat) by (unfold size in Hsz; lia).
  pose proof T5 as T5'. rewrite Ht in T5'. destruct (str_scan _ _ _ _ _ _ Hm Hs T5') as [_ [_ [_ M4]]]. rewrite <- Ht in *.
  exists (root t), (root (ending t found)). split; auto. split; auto. split; auto.
  apply (scan_fails _ _ _ _ _ T5). auto.
Qed.

Lemma one_scan : forall E V W ev (P : property E V W) beh s rep s' A (inj : A -> V) (g : gen E A), pure_property P beh -> order 1 (ord_each ev) ->
  gens P = [treeArg inj g] -> shrink ev P s = Ok (rep, s') ->
  exists q q' t tried found, g q = Ok (t, q') /\ with_args rep = [inj (root t)] /\ simplest_args rep = [inj (root (ending t found))] /\
    scan (fun a => bad beh [inj a]) (shrinks t) tried found /\ lg s' = lg s ++ calls beh (map (fun a => [inj a]) tried).
Proof.
  intros E V W ev P beh s rep s' A inj g HP Ho Hg H.
  assert (Ho1 : ord_each ev = [0%nat]) by (apply Permutation_sym in Ho; apply Permutation_length_1_inv in Ho; auto).
  assert (Hoe : order (length (gens P)) (ord_each ev)) by (rewrite Hg; auto).
  pose proof (shrink_inv _ _ _ _ _ _ _ _ H) as [ts [r2 [streams [r3 [ts' [H1 [H2 [H3 [H4 H5]]]]]]]]].
  assert (Hlen : length ts = 1%nat) by (apply evalTuple_length in H1; rewrite Hg in H1; auto).
  destruct (streams_linked _ _ _ _ _ _ _ H2) as [_ Hl].
  destruct (shrinkEach_pure _ _ _ _ _ HP _ _ _ _ _ _ H3 (order_nodup _ _ Hoe)) as [I1 _].
  { intros M HM; apply Hl; apply (order_in _ _ Hoe) in HM; rewrite Hg in HM; simpl in HM; lia. }
  destruct (C66_search _ _ _ _ _ _ _ _ _ _ _ HP Hoe H1 H) as [logs [L1 [L2 L3]]].
  destruct ts as [|x [|? ?]]; simpl in Hlen; try lia.
  destruct (evalTuple_ok _ _ _ _ _ _ _ H1) as [_ Hev]. destruct (Hev 0%nat x eq_refl) as [f [q [q' [F1 F2]]]].
  assert (Hff : Some f = Some (treeArg inj g)) by (transitivity (nth_error (gens P) 0); [symmetry; exact F1|rewrite Hg; reflexivity]). inversion Hff; subst f.
  destruct (treeArg_ok _ _ _ _ _ _ _ _ F2) as [t [T1 ->]].
  destruct (L3 [] 0%nat [] _ Ho1 eq_refl) as [tried [found [S1 [S2 [S3 S4]]]]].
  assert (Hw : with_args rep = [inj (root t)]) by (rewrite H4; simpl; rewrite elift_root, root_map; auto).
  rewrite shrinks_map in S1. apply scan_map in S1. destruct S1 as [tr [fo [S1 [-> ->]]]]. rewrite ending_map, !root_map in *.
  assert (Hsim : simplest_args rep = [inj (root (ending t fo))]).
  { rewrite H5 in *. destruct ts' as [|a [|? ?]]; simpl in I1; try lia. simpl in *. congruence. }
  assert (Hbase : forall a, set_nth 0 a (partly [] (simplest_args rep) (with_args rep)) = [a]) by (intros; rewrite Hw, Hsim; reflexivity).
  rewrite Hg in L1. simpl in L1. destruct logs as [|lo [|? ?]]; simpl in L1; try lia. simpl in S4. inversion S4; subst lo. rewrite L2. simpl. rewrite app_nil_r.
  exists q, q', t, tr, fo. split; auto. split; auto. split; auto. split.
  - clear -S1 Hbase. induction S1 as [|c cs tr fo Hp S1 IH|c cs tr fo Hf S1 IH]; [apply scan_end|apply scan_pass|apply scan_fail]; auto; rewrite Hbase in *; auto.
  - rewrite map_map. f_equal. f_equal. apply map_ext. intros a. apply Hbase.
Qed.

(** Calls, for a property of one container; the property need not be monotone.  A set whose original size is at most 2^k takes at most
    (k+1) * (size of the reported set + 1) calls. *)
Theorem C67_calls_set : forall E V W ev (P : property E V W) beh s rep s' A (inj : list A -> V) fuel lt (elemGen : gen E A) mn mx,
  pure_property P beh -> order 1 (ord_each ev) -> strict_order lt -> (0 <= mn <= mx)%Z -> (mx <= UINT32_MAX)%Z ->
  gens P = [treeArg inj (arbi_set fuel lt elemGen {| minSize := mn; maxSize := mx |})] -> shrink ev P s = Ok (rep, s') ->
  exists v r l, with_args rep = [inj v] /\ simplest_args rep = [inj r] /\ lg s' = lg s ++ calls beh l /\
    forall k, (size v <= 2 ^ Z.of_nat k)%Z -> (length l <= S k * S (length r))%nat.
Proof.
  intros E V W ev P beh s rep s' A inj fuel lt eg mn mx HP Ho Hso Hmn Hmx Hg H.
  destruct (one_scan _ _ _ _ _ _ _ _ _ _ _ _ HP Ho Hg H) as [q [q' [t [tried [found [T1 [T2 [T3 [T4 T5]]]]]]]]].
  apply arbi_set_tree in T1; auto. destruct T1 as [Hsz Ht].
  assert (Hs : (size (root t) <= INT64_MAX)%Z) by (apply u32_int64; lia).
  assert (Hm : (Z.to_nat mn <= length (root t))%nat) by (unfold size in Hsz; lia).
  rewrite Ht in T4. destruct (mtree_scan _ _ _ _ _ _ Hs Hm T4) as [_ [_ [M3 _]]]. rewrite <- Ht in *.
  exists (root t), (root (ending t found)), (map (fun a => [inj a]) tried). split; auto. split; auto. split; auto.
  intros k Hk. rewrite map_length. apply M3. auto.
Qed.

(** A map whose original size exceeds the minimum by at most 2^k takes at most k+1 calls. *)
Theorem C67_calls_map : forall E V W ev (P : property E V W) beh s rep s' K T (inj : list (K * T) -> V) fuel lt (keyGen : gen E K) (elemGen : gen E T) mn mx,
  pure_property P beh -> order 1 (ord_each ev) -> strict_order lt -> (0 <= mn <= mx)%Z -> (mx <= UINT32_MAX)%Z ->
  gens P = [treeArg inj (arbi_map fuel lt keyGen elemGen {| minSize := mn; maxSize := mx |})] -> shrink ev P s = Ok (rep, s') ->
  exists v l, with_args rep = [inj v] /\ lg s' = lg s ++ calls beh l /\
    forall k, (size v - mn <= 2 ^ Z.of_nat k)%Z -> (length l <= S k)%nat.
Proof.
  intros E V W ev P beh s rep s' K T inj fuel lt kg eg mn mx HP Ho Hso Hmn Hmx Hg H.
  destruct (one_scan _ _ _ _ _ _ _ _ _ _ _ _ HP Ho Hg H) as [q [q' [t [tried [found [T1 [T2 [T3 [T4 T5]]]]]]]]].
  apply arbi_map_tree in T1; auto. destruct T1 as [Hsz Ht].
  assert (Hs : (size (root t) <= UINT64_MAX)%Z) by (unfold UINT64_MAX, UINT32_MAX in *; lia).
  assert (Hm : (Z.to_nat mn <= length (root t))%nat) by (unfold size in Hsz; lia).
  rewrite Ht in T4. destruct (prefix_scan _ _ _ _ _ _ Hm Hs T4) as [_ [M3 _]]. rewrite <- Ht in *.
  exists (root t), (map (fun a => [inj a]) tried). split; auto. split; auto.
  intros k Hk. rewrite map_length. apply M3. unfold size in *. lia.
Qed.

(** A string whose original length exceeds the minimum by at most 2^k takes at most 2(k+1) calls. *)
Theorem C67_calls_string : forall E V W ev (P : property E V W) beh s rep s' A (inj : list A -> V) (elemGen : gen E A) mn mx,
  pure_property P beh -> order 1 (ord_each ev) -> (0 <= mn <= mx)%Z -> (mx <= UINT32_MAX)%Z ->
  gens P = [treeArg inj (arbi_string elemGen {| minSize := mn; maxSize := mx |})] -> shrink ev P s = Ok (rep, s') ->
  exists v l, with_args rep = [inj v] /\ lg s' = lg s ++ calls beh l /\
    forall k, (size v - mn <= 2 ^ Z.of_nat k)%Z -> (length l <= 2 * S k)%nat.
Proof.
  intros E V W ev P beh s rep s' A inj eg mn mx HP Ho Hmn Hmx Hg H.
  destruct (one_scan _ _ _ _ _ _ _ _ _ _ _ _ HP Ho Hg H) as [q [q' [t [tried [found [T1 [T2 [T3 [T4 T5]]]]]]]]].
  apply arbi_string_tree in T1; try lia. destruct T1 as [Hsz Ht].
  assert (Hs : (size (root t) <= UINT64_MAX)%Z) by (unfold UINT64_MAX, UINT32_MAX in *; lia).
  assert (Hm : (Z.to_nat mn <= length (root t))%nat) by (unfold size in Hsz; lia).
  rewrite Ht in T4. destruct (str_scan _ _ _ _ _ _ Hm Hs T4) as [M3 _]. rewrite <- Ht in *.
  exists (root t), (map (fun a => [inj a]) tried). split; auto. split; auto.
  intros k Hk. rewrite map_length. apply M3. unfold size in *. lia.
Qed.

(** Fails on the lists that contain 5 and, later, a number from 7 on. *)
Fixpoint five_then_big (five : bool) (l : list Z) : bool :=
  match l with [] => false | x :: r => (five && (7 <=? x)%Z) || five_then_big (five || (x =? 5)%Z) r end.
Definition f67 (a : list (list Z)) : list op * ures := match a with [l] => ([], URet (negb (five_then_big false l))) | _ => ([], URet true) end.
Definition prop67 (g : gen replay (list Z)) : property replay (list Z) unit :=
  {| func := fun a w => (fst (f67 a), snd (f67 a), w); gens := [treeArg (fun x => x) g];
     onStartup := None; onCleanup := None; numRuns := 5; maxDurationMs := 0; seed := 1 |}.
Definition start67 {V} (r : rst replay) : rs replay V unit := {| rnd := r; cx := newctx; wd := tt; lg := [] |}.
Definition digit : gen replay Z := generateInteger TI32 0 9.
Definition vec67 : gen replay (list Z) := arbi_vector digit {| minSize := 1; maxSize := 6 |}.
Definition set67 : gen replay (list Z) := arbi_set 10 Z.ltb digit {| minSize := 0; maxSize := 6 |}.
Definition str67 : gen replay (list Z) := arbi_string digit {| minSize := 0; maxSize := 6 |}.

Lemma bad67 : forall l, bad f67 [l] <-> five_then_big false l = true.
Proof.
  intros l. unfold bad. cbn [f67 fst snd failed_expectations]. destruct (five_then_big false l); cbn [negb]; split; intros H; auto.
  - left. discriminate.
  - destruct H as [H|H]; exfalso; apply H; reflexivity.
  - discriminate.
Qed.
Lemma five_mono : forall l a b b', In a (sublists l) -> (b = true -> b' = true) -> five_then_big b a = true -> five_then_big b' l = true.
Proof.
  induction l as [|x l IH]; intros a b b' Ha Hb H.
  - destruct Ha as [<-|[]]. discriminate.
  - simpl in Ha. apply in_app_or in Ha. simpl. apply orb_true_iff. destruct Ha as [Ha|Ha].
    + apply in_map_iff in Ha. destruct Ha as [a' [<- Ha]]. simpl in H. apply orb_true_iff in H. destruct H as [H|H].
      * left. apply andb_true_iff in H. destruct H as [H1 H2]. rewrite H2, (Hb H1). auto.
      * right. eapply IH; [exact Ha| |exact H]. intros C. apply orb_true_iff in C. destruct C as [C|C]; [rewrite (Hb C); auto|rewrite C; apply orb_true_r].
    + right. eapply IH; [exact Ha| |exact H]. intros C. rewrite (Hb C). auto.
Qed.
Lemma stays67 : forall m l, stays_failing (fun x => bad f67 [x]) m l.
Proof. intros m l a b _ Ha _ H. apply bad67. apply bad67 in H. eapply five_mono; eauto. Qed.

(** [3;5;8;5;9] is drawn; [5;8] is reported, and needs both elements. *)
Example C67_vector_ex : match runForAll 5 (inOrder 1 [5; 3; 5; 8; 5; 9]%Z) (prop67 vec67) tt with
    | Ok (VFalsified n why rep, s) => with_args rep = [[3; 5; 8; 5; 9]]%Z /\ simplest_args rep = [[5; 8]]%Z | _ => False end /\
  pure_property (prop67 vec67) f67 /\ no_leak f67 /\ stays_failing (fun x => bad f67 [x]) 1 [3; 5; 8; 5; 9]%Z /\
  minimal_list (fun x => bad f67 [x]) 1 [5; 8]%Z.
Proof.
  split; [vm_compute; auto|]. split; [split; auto|]. split; [intros [|x [|y a]] H; exfalso; apply H; reflexivity|].
  split; [apply stays67|].
  right. intros a x b E. rewrite bad67. destruct a as [|y [|z [|? ?]]]; inversion E; subst; vm_compute; discriminate.
Qed.

(** Sum of at least 10: kept when elements are put back, and when elements are made larger.  [0;0;9;9;2] is drawn, deletion gives [9;9], shrinking elements
    [5;5]. *)
Definition f67b (a : list (list Z)) : list op * ures := match a with [l] => ([], URet (fold_right Z.add 0 l <? 10)%Z) | _ => ([], URet true) end.
Definition prop67b (g : gen replay (list Z)) : property replay (list Z) unit :=
  {| func := fun a w => (fst (f67b a), snd (f67b a), w); gens := [treeArg (fun x => x) g];
     onStartup := None; onCleanup := None; numRuns := 5; maxDurationMs := 0; seed := 1 |}.
Example C67_vector_minimal_ex : match runForAll 5 (inOrder 1 [5; 0; 0; 9; 9; 2]%Z) (prop67b vec67) tt with
    | Ok (VFalsified n why rep, s) => with_args rep = [[0; 0; 9; 9; 2]]%Z /\ simplest_args rep = [[5; 5]]%Z | _ => False end /\
  pure_property (prop67b vec67) f67b /\ no_leak f67b /\
  (forall q t q', digit q = Ok (t, q') -> all_values (fun x => (x <= root t)%Z) t) /\ stays_failing (fun x => bad f67b [x]) 1 [0; 0; 9; 9; 2]%Z /\
  (forall a b, Forall2 Z.le a b -> bad f67b [a] -> bad f67b [b]) /\
  minimal_list (fun x => bad f67b [x]) 1 [5; 5]%Z.
Proof.
  assert (Hb : forall l, bad f67b [l] <-> (10 <= fold_right Z.add 0 l)%Z).
  { intros l. unfold bad. cbn [f67b fst snd failed_expectations]. destruct (Z.ltb_spec (fold_right Z.add 0%Z l) 10) as [Hz|Hz]; split; intros H; try lia.
    - destruct H as [H|H]; exfalso; apply H; reflexivity.
    - left. discriminate. }
  split; [vm_compute; auto|]. split; [split; auto|]. split; [intros [|x [|y a]] H; exfalso; apply H; reflexivity|].
  split; [|split; [|split]].
  - intros q t q' H. destruct (generateInteger_ok replay TI32 0 9 q) as [t2 [q2 [T2 G2]]]; try (vm_compute; discriminate); try (intros [C _]; discriminate).
    unfold digit in H. assert (t2 = t) by congruence. subst t2. intros u Hu. apply reach_root_in in Hu. apply (Permutation_in _ (gi_values _ _ _ G2)) in Hu.
    pose proof (gi_range _ _ _ G2). destruct Hu as [<-|Hu]; [lia|]. change (nearest_zero 0 9) with 0%Z in Hu. unfold between in Hu.
    destruct (0 <=? root t)%Z eqn:Ez; [|apply Z.leb_gt in Ez; lia]. apply zrange_In in Hu. lia.
  - assert (Hnn : forall l : list Z, Forall (fun x => 0 <= x)%Z l -> forall a, In a (sublists l) -> (fold_right Z.add 0 a <= fold_right Z.add 0 l)%Z).
    { induction l as [|x l IH]; intros Hl a Ha; simpl in Ha; [destruct Ha as [<-|[]]; simpl; lia|]. inversion Hl; subst. apply in_app_or in Ha. destruct Ha as [Ha|Ha].
      - apply in_map_iff in Ha. destruct Ha as [a' [<- Ha]]. specialize (IH H2 _ Ha). simpl. lia.
      - specialize (IH H2 _ Ha). simpl. lia. }
    intros a b Hb2 Ha _. rewrite !Hb. intros Hs. specialize (Hnn b). enough (Forall (fun x => 0 <= x)%Z b) by (specialize (Hnn H _ Ha); lia).
    apply Forall_forall. intros x Hx. pose proof (sublists_In _ _ _ _ Hb2 Hx) as Hin. simpl in Hin. intuition lia.
  - intros a b H. rewrite !Hb. intros Ha. enough (fold_right Z.add 0 a <= fold_right Z.add 0 b)%Z by lia. clear -H. induction H; simpl; lia.
  - right. intros a x b E. rewrite Hb. destruct a as [|y [|z [|? ?]]]; inversion E; subst; simpl; lia.
Qed.

(** The set {1,3,5,8,9}: {5,8} is reported, after 8 calls; the bound is 4 * 3. *)
Example C67_set_ex : match runForAll 5 (inOrder 1 [5; 3; 5; 8; 1; 9]%Z) (prop67 set67) tt with
    | Ok (VFalsified n why rep, s) => with_args rep = [[1; 3; 5; 8; 9]]%Z /\ simplest_args rep = [[5; 8]]%Z | _ => False end /\
  pure_property (prop67 set67) f67 /\ strict_order Z.ltb /\ stays_failing (fun x => bad f67 [x]) 0 [1; 3; 5; 8; 9]%Z /\ minimal_list (fun x => bad f67 [x]) 0 [5; 8]%Z.
Proof.
  split; [vm_compute; auto|]. split; [split; auto|]. split; [split; intros; rewrite ?Z.ltb_lt, ?Z.ltb_ge in *; lia|]. split; [apply stays67|].
  right. intros a x b E. rewrite bad67. destruct a as [|y [|z [|? ?]]]; inversion E; subst; vm_compute; discriminate.
Qed.
Example C67_calls_set_ex : exists rep s', shrink (inOrder 1 []) (prop67 set67) (start67 [5; 3; 5; 8; 1; 9]%Z) = Ok (rep, s') /\
  with_args rep = [[1; 3; 5; 8; 9]]%Z /\ simplest_args rep = [[5; 8]]%Z /\
  args_of (lg s') = [[[]]; [[1; 3]]; [[1; 3; 5]]; [[1; 3; 5; 8]]; [[8]]; [[1; 8]]; [[1; 3; 8]]; [[5; 8]]]%Z.
Proof. apply ok_witness. vm_compute. auto. Qed.

(** A map with a value from 4 on: the shortest failing prefix is reported; its first two entries are superfluous. *)
Definition f67c (a : list (list (Z * Z))) : list op * ures := match a with [l] => ([], URet (negb (existsb (fun e => 4 <=? snd e)%Z l))) | _ => ([], URet true) end.
Definition map67 : gen replay (list (Z * Z)) := arbi_map 10 Z.ltb digit digit {| minSize := 0; maxSize := 6 |}.
Definition prop67c : property replay (list (Z * Z)) unit :=
  {| func := fun a w => (fst (f67c a), snd (f67c a), w); gens := [treeArg (fun x => x) map67];
     onStartup := None; onCleanup := None; numRuns := 5; maxDurationMs := 0; seed := 1 |}.
Lemma bad67c : forall l, bad f67c [l] <-> exists e, In e l /\ (4 <= snd e)%Z.
Proof.
  intros l. unfold bad. cbn [f67c fst snd failed_expectations].
  assert (C : existsb (fun e => 4 <=? snd e)%Z l = true <-> exists e : Z * Z, In e l /\ (4 <= snd e)%Z).
  { rewrite existsb_exists. split; intros [e [E1 E2]]; exists e; split; auto; apply Z.leb_le; auto. }
  rewrite <- C. destruct (existsb (fun e => 4 <=? snd e)%Z l); cbn [negb]; split; intros H; auto.
  - left. discriminate.
  - destruct H as [H|H]; exfalso; apply H; reflexivity.
  - discriminate.
Qed.
Example C67_map_ex : match runForAll 5 (inOrder 1 [4; 3; 1; 9; 5; 2; 0; 7; 8]%Z) prop67c tt with
    | Ok (VFalsified n why rep, s) => with_args rep = [[(1, 2); (3, 0); (5, 7); (9, 8)]]%Z /\ simplest_args rep = [[(1, 2); (3, 0); (5, 7)]]%Z | _ => False end /\
  pure_property prop67c f67c /\ (forall l, prefixes_stay_failing (fun x => bad f67c [x]) 0 l).
Proof.
  split; [vm_compute; auto|]. split; [split; auto|]. intros l j k _ Hj _. rewrite !bad67c. intros [e [E1 E2]]. exists e. split; auto.
  rewrite <- (firstn_skipn j (firstn k l)), firstn_firstn, Nat.min_l by auto. apply in_or_app. auto.
Qed.
Example C67_calls_map_ex : exists rep s', shrink (inOrder 1 []) prop67c (start67 [4; 3; 1; 9; 5; 2; 0; 7; 8]%Z) = Ok (rep, s') /\
  args_of (lg s') = [[[]]; [[(1, 2); (3, 0)]]; [[(1, 2); (3, 0); (5, 7)]]]%Z.
Proof. apply ok_witness. vm_compute. auto. Qed.

(** The string 3 5 8 1 9: the reported 3 5 8 is the shortest failing prefix, the 3 is superfluous.  With a minimum length of 1 the first character of
    3 5 5 8 goes, and the second does not. *)
Example C67_string_ex : match runForAll 5 (inOrder 1 [5; 3; 5; 8; 1; 9]%Z) (prop67 str67) tt with
    | Ok (VFalsified n why rep, s) => with_args rep = [[3; 5; 8; 1; 9]]%Z /\ simplest_args rep = [[3; 5; 8]]%Z | _ => False end /\
  prefixes_stay_failing (fun x => bad f67 [x]) 0 [3; 5; 8; 1; 9]%Z.
Proof.
  split; [vm_compute; auto|]. intros j k _ Hj _. apply (stays67 0 [3; 5; 8; 1; 9]%Z); [apply firstn_sublist|apply ListShapeProof.firstn_le_sub; auto|apply Nat.le_0_l].
Qed.
Example C67_string_min_ex : match runForAll 5 (inOrder 1 [5; 3; 5; 5; 8; 9]%Z) (prop67 (arbi_string digit {| minSize := 1; maxSize := 6 |})) tt with
    | Ok (VFalsified n why rep, s) => with_args rep = [[3; 5; 5; 8; 9]]%Z /\ simplest_args rep = [[5; 5; 8]]%Z | _ => False end /\
  stays_failing (fun x => bad f67 [x]) 0 [3; 5; 5; 8; 9]%Z.
Proof. split; [vm_compute; auto|apply stays67]. Qed.
Example C67_calls_string_ex : exists rep s', shrink (inOrder 1 []) (prop67 str67) (start67 [5; 3; 5; 8; 1; 9]%Z) = Ok (rep, s') /\
  args_of (lg s') = [[[]]; [[3; 5]]; [[3; 5; 8]]; [[3; 5; 8]]]%Z.
Proof. apply ok_witness. vm_compute. auto. Qed.

(** Superfluous characters at the front are not removed, even when putting characters back keeps a string failing. *)
Theorem C67_string_minimal_refuted : ~ (forall (P : property replay (list Z) unit) beh ev w n why rep s' v r,
  pure_property P beh -> no_leak beh -> gens P = [treeArg (fun x => x) str67] -> runForAll 5 ev P w = Ok (VFalsified n why rep, s') ->
  with_args rep = [v] -> simplest_args rep = [r] -> stays_failing (fun x => bad beh [x]) 0 v -> minimal_list (fun x => bad beh [x]) 0 r).
Proof.
  intros H. destruct C67_string_ex as [X _]. destruct (runForAll 5 (inOrder 1 [5; 3; 5; 8; 1; 9]%Z) (prop67 str67) tt) as [[[| |n why rep] s]| | |] eqn:E; try contradiction.
  destruct X as [X1 X2]. specialize (H (prop67 str67) f67 _ _ _ _ _ _ _ _ ltac:(split; auto) ltac:(intros [|x [|y a]] C; exfalso; apply C; reflexivity) eq_refl E X1 X2 (stays67 _ _)).
  clear -H. destruct H as [H|H]; [discriminate|]. apply (H [] 3%Z [5; 8]%Z eq_refl). apply bad67. reflexivity.
Qed.

(** Nor are superfluous entries of a map before the last one. *)
Theorem C67_map_minimal_refuted : ~ (forall (P : property replay (list (Z * Z)) unit) beh ev w n why rep s' v r,
  pure_property P beh -> no_leak beh -> gens P = [treeArg (fun x => x) map67] -> runForAll 5 ev P w = Ok (VFalsified n why rep, s') ->
  with_args rep = [v] -> simplest_args rep = [r] -> stays_failing (fun x => bad beh [x]) 0 v -> minimal_list (fun x => bad beh [x]) 0 r).
Proof.
  intros H. destruct C67_map_ex as [X _]. destruct (runForAll 5 (inOrder 1 [4; 3; 1; 9; 5; 2; 0; 7; 8]%Z) prop67c tt) as [[[| |n why rep] s]| | |] eqn:E; try contradiction.
  destruct X as [X1 X2]. specialize (H prop67c f67c _ _ _ _ _ _ _ _ ltac:(split; auto) ltac:(intros [|x [|y a]] C; exfalso; apply C; reflexivity) eq_refl E X1 X2). clear -H.
  destruct H as [H|H]; [|discriminate|].
  - intros a b _ Ha _ Hf. apply bad67c. apply bad67c in Hf. destruct Hf as [e [E1 E2]]. exists e. split; auto. eapply sublists_In; eauto.
  - apply (H [] (1, 2)%Z [(3, 0); (5, 7)]%Z eq_refl). apply bad67c. exists (5, 7)%Z. split; [right; left; auto|simpl; lia].
Qed.

Print Assumptions C67_vector.
Print Assumptions C67_vector_minimal.
Print Assumptions C67_set.
Print Assumptions C67_map.
Print Assumptions C67_string.
Print Assumptions C67_string_min.
Print Assumptions C67_calls_set.
Print Assumptions C67_calls_map.
Print Assumptions C67_calls_string.
Print Assumptions C67_string_minimal_refuted.
Print Assumptions C67_map_minimal_refuted.
