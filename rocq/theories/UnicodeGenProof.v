From Coq Require Import List ZArith Lia Bool Arith Permutation.
From Verif Require Import Base TreeModel TreeSpec TreeProof BinSearchModel BinSearchSpec BinSearchProof
  IntegralModel IntegralSpec IntegralProof ListModel ListSpec ListProof ListShapeProof ListMainProof TupleProof StringModel StringSpec StringProof RandomModel
  ContainerModel ContainerSpec ContainerProof Utf8Model Cesu8Model Utf16Model UtfSpec UtfProof Utf16Proof UnicodeGenModel.
Import ListNotations.
Local Open Scope nat_scope.

(** What the proofs need to know about an encoding. *)
Record coding_exact (co : coding) (enc : Z -> list Z) : Prop := {
  ce_encode : forall c chars, scalar c -> co_encode co c chars = Ok (chars ++ enc c);
  ce_valid : forall cs, Forall scalar cs -> (bsize (flat_map enc cs ++ co_end co) < 2 ^ 31)%Z ->
    exists n, co_valid co (flat_map enc cs ++ co_end co) = Ok (true, n);
  ce_charsize : forall cs, Forall scalar cs -> (bsize (flat_map enc cs) < 2 ^ 31)%Z ->
    co_charsize co (flat_map enc cs) = Ok (Z.of_nat (length cs));
  ce_len : forall c, scalar c -> 1 <= length (enc c) <= 6;
  ce_end : length (co_end co) <= 2 }.

Lemma charsize_of : forall enc lead step (charsize : list Z -> res Z), exact_lead enc lead -> step_follows step lead ->
  (forall c, scalar c -> Forall byte (enc c)) ->
  (forall bs, charsize bs = do s <- (do r <- isValidLoop step (length bs) bs 0 0; if fst r then Ok (snd r) else Ok (-1)%Z);
                            if (s <? 0)%Z then Throw ERuntime else Ok (wrapU 64 s)) ->
  forall cs, Forall scalar cs -> (bsize (flat_map enc cs) < 2 ^ 31)%Z -> charsize (flat_map enc cs) = Ok (Z.of_nat (length cs)).
Proof.
  intros enc lead step charsize L S B C cs Hc Hs.
  apply (charsize_iff enc lead step charsize L S C (flat_map enc cs)); auto.
  - apply encode_bytes; auto.
  - split; auto.
Qed.

Lemma len_of : forall enc lead, exact_lead enc lead -> (forall c, scalar c -> length (enc c) <= 6) ->
  forall c, scalar c -> 1 <= length (enc c) <= 6.
Proof. intros enc lead L M c Hc. specialize (M c Hc). pose proof (enc_cons _ _ L c Hc). destruct (enc c); [congruence|cbn [length] in *; lia]. Qed.

Lemma utf8_max : forall c, scalar c -> length (utf8 c) <= 6.
Proof. intros c _. unfold utf8. destruct (c <? 0x80)%Z, (c <? 0x800)%Z, (c <? 0x10000)%Z; cbn; lia. Qed.

Lemma utf8_max3 : forall c, (c < 0x10000)%Z -> length (utf8 c) <= 3.
Proof. intros c H. unfold utf8. destruct (c <? 0x80)%Z, (c <? 0x800)%Z; cbn; try lia. destruct (Z.ltb_spec c 0x10000); cbn; lia. Qed.

Lemma cesu8_max : forall c, scalar c -> length (cesu8 c) <= 6.
Proof.
  intros c Hc. unfold cesu8, utf16_units. destruct (Z.ltb_spec c 0x10000); cbn [flat_map]; rewrite !app_length; cbn [length].
  - pose proof (utf8_max3 c). lia.
  - assert (((c - 0x10000) / 1024 < 1024)%Z) by (apply Z.div_lt_upper_bound; destruct Hc; lia).
    pose proof (Z.mod_pos_bound (c - 0x10000) 1024).
    pose proof (utf8_max3 (0xD800 + (c - 0x10000) / 1024)). pose proof (utf8_max3 (0xDC00 + (c - 0x10000) mod 1024)). lia.
Qed.

Lemma utf16be_max : forall c, scalar c -> length (utf16be c) <= 6.
Proof. intros c _. unfold utf16be, utf16_units. destruct (c <? 0x10000)%Z; cbn; lia. Qed.
Lemma utf16le_max : forall c, scalar c -> length (utf16le c) <= 6.
Proof. intros c _. unfold utf16le, utf16_units. destruct (c <? 0x10000)%Z; cbn; lia. Qed.

Lemma valid_of : forall enc lead step, exact_lead enc lead -> step_follows step lead ->
  (forall c, scalar c -> Forall byte (enc c)) ->
  forall cs, Forall scalar cs -> (bsize (flat_map enc cs) < 2 ^ 31)%Z ->
  exists n, isValidLoop step (length (flat_map enc cs)) (flat_map enc cs) 0 0 = Ok (true, n).
Proof. intros. eexists. eapply encodes_valid; eauto. apply encode_bytes; auto. Qed.

Lemma utf8_coding_exact : coding_exact utf8_coding utf8.
Proof.
  split; cbn [co_encode co_valid co_charsize co_end utf8_coding].
  - intros. apply encodeUTF8_ok. auto.
  - intros cs Hc Hs. rewrite app_nil_r in *. eapply valid_of; eauto using utf8_exact, step8_follows, utf8_bytes.
  - eapply charsize_of; eauto using utf8_exact, step8_follows, utf8_bytes.
  - eapply len_of; [apply utf8_exact|apply utf8_max].
  - cbn; lia.
Qed.

Lemma cesu8_coding_exact : coding_exact cesu8_coding cesu8.
Proof.
  split; cbn [co_encode co_valid co_charsize co_end cesu8_coding].
  - intros. apply encodeCESU8_ok. auto.
  - intros cs Hc Hs. rewrite app_nil_r in *. eapply valid_of; eauto using cesu8_exact, stepc_follows, cesu8_bytes.
  - eapply charsize_of; eauto using cesu8_exact, stepc_follows, cesu8_bytes.
  - eapply len_of; [apply cesu8_exact|apply cesu8_max].
  - cbn; lia.
Qed.

Lemma encode16_ok : forall c chars, scalar c ->
  encodeUTF16BE c chars = Ok (chars ++ utf16be c) /\ encodeUTF16LE c chars = Ok (chars ++ utf16le c).
Proof.
  intros c chars Hc. destruct (bmp c) eqn:Hn.
  - apply encode16_bmp; auto. destruct Hc; lia.
  - assert (Hb : (0x10000 <= c)%Z).
    { revert Hn. unfold bmp. destruct (Z.leb_spec c 0xD7FF), (Z.leb_spec 0xE000 c), (Z.leb_spec c 0xFFFF); try discriminate; intros; destruct Hc; lia. }
    assert (Hr : (0 <= c < 2 ^ 32)%Z) by (destruct Hc; lia).
    destruct (encode16_other c chars Hr Hn) as [E1 E2].
    assert (Hx : ((c - 0x10000) mod 2 ^ 26 = c - 0x10000)%Z) by (apply Z.mod_small; destruct Hc; lia).
    rewrite Hx in E1, E2. destruct (Z.ltb_spec (c - 0x10000) (2 ^ 20)); [|destruct Hc; lia].
    rewrite E1, E2. replace (0x10000 + (c - 0x10000))%Z with c by lia. auto.
Qed.

Lemma zero_scalar : forall cs, Forall scalar cs -> Forall scalar (cs ++ [0%Z]).
Proof. intros. apply Forall_app. split; auto. constructor; auto. left. lia. Qed.

Lemma utf16be_coding_exact : coding_exact utf16be_coding utf16be.
Proof.
  assert (B : forall c, scalar c -> Forall byte (utf16be c)) by (intros; apply utf16_bytes; auto).
  split; cbn [co_encode co_valid co_charsize co_end utf16be_coding].
  - intros. apply encode16_ok. auto.
  - intros cs Hc Hs. assert (E : flat_map utf16be cs ++ [0; 0]%Z = flat_map utf16be (cs ++ [0%Z])) by (rewrite flat_map_app; auto).
    rewrite E in *. eapply valid_of; eauto using utf16be_exact, step_be_follows, zero_scalar.
  - eapply charsize_of; eauto using utf16be_exact, step_be_follows.
  - eapply len_of; [apply utf16be_exact|apply utf16be_max].
  - cbn; lia.
Qed.

Lemma utf16le_coding_exact : coding_exact utf16le_coding utf16le.
Proof.
  assert (B : forall c, scalar c -> Forall byte (utf16le c)) by (intros; apply utf16_bytes; auto).
  split; cbn [co_encode co_valid co_charsize co_end utf16le_coding].
  - intros. apply encode16_ok. auto.
  - intros cs Hc Hs. assert (E : flat_map utf16le cs ++ [0; 0]%Z = flat_map utf16le (cs ++ [0%Z])) by (rewrite flat_map_app; auto).
    rewrite E in *. eapply valid_of; eauto using utf16le_exact, step_le_follows, zero_scalar.
  - eapply charsize_of; eauto using utf16le_exact, step_le_follows.
  - eapply len_of; [apply utf16le_exact|apply utf16le_max].
  - cbn; lia.
Qed.

(** ** Byte offsets of characters *)

Section Offsets.
Context (enc : Z -> list Z).
Local Notation offset := (offset enc).
Local Notation offsets := (offsets enc).

Lemma offsets_idx : forall codes k, k <= length codes -> idx (offsets codes) (Z.of_nat k) = Ok (offset codes k).
Proof.
  intros codes k Hk. unfold idx, offsets. destruct (Z.ltb_spec (Z.of_nat k) 0); [lia|]. rewrite Nat2Z.id.
  rewrite nth_error_map. assert (E : nth_error (seq 0 (S (length codes))) k = Some k).
  { rewrite nth_error_nth' with (d := 0) by (rewrite seq_length; lia). rewrite seq_nth by lia. auto. }
  rewrite E. reflexivity.
Qed.

Lemma offset_range : forall codes k, (0 <= offset codes k <= bsize (flat_map enc codes))%Z.
Proof.
  intros. unfold offset, bsize. rewrite <- (firstn_skipn k codes) at 3. rewrite flat_map_app, app_length. lia.
Qed.

Lemma offset_prefix : forall codes j k, j <= k -> offset (firstn k codes) j = offset codes j.
Proof. intros. unfold offset. rewrite firstn_firstn, Nat.min_l by auto. auto. Qed.

Lemma cut_front : forall codes k e, k <= length codes ->
  firstn (Z.to_nat (offset codes k)) (flat_map enc codes ++ e) = flat_map enc (firstn k codes).
Proof.
  intros codes k e Hk. unfold offset, bsize. rewrite Nat2Z.id.
  rewrite <- (firstn_skipn k codes) at 2. rewrite flat_map_app, <- app_assoc.
  rewrite firstn_app, Nat.sub_diag, firstn_O, app_nil_r. apply firstn_all.
Qed.

Lemma cut_rear : forall codes k,
  skipn (Z.to_nat (offset codes k)) (flat_map enc codes) = flat_map enc (skipn k codes).
Proof.
  intros codes k. unfold offset, bsize. rewrite Nat2Z.id.
  rewrite <- (firstn_skipn k codes) at 2. rewrite flat_map_app.
  rewrite skipn_app, Nat.sub_diag, skipn_O, skipn_all. auto.
Qed.

Lemma offset_all : forall codes, offset codes (length codes) = bsize (flat_map enc codes).
Proof. intros. unfold offset. rewrite firstn_all. auto. Qed.

Lemma offsets_nonempty : forall codes, exists p ps, offsets codes = p :: ps.
Proof. intros. unfold offsets. cbn [seq map]. eauto. Qed.

End Offsets.

(* concat on an image of a tree *)
Lemma concatM_map : forall A B (f : A -> B) (thn : tree B -> res (list (tree B))) (g : tree A -> list (tree A)) t,
  (forall s, reach t s -> thn (map_tree f s) = Ok (map (map_tree f) (g s))) ->
  concatM thn (map_tree f t) = Ok (map_tree f (concat_tree g t)).
Proof.
  intros A B f thn g. induction t as [a ts IH] using tree_ind'. intros H.
  pose proof (H (Node a ts) (reach_refl _)) as H0. rewrite concat_tree_eq. rewrite !map_tree_eq in *. cbn [concatM].
  assert (E : mapM (concatM thn) (map (map_tree f) ts) = Ok (map (map_tree f) (map (concat_tree g) ts))).
  { assert (Hs : forall c s, In c ts -> reach c s -> thn (map_tree f s) = Ok (map (map_tree f) (g s)))
      by (intros; apply H; eapply reach_step; eauto).
    clear H H0. induction IH as [|c ts Hc Hts IHts]; [reflexivity|].
    cbn [map]. change (mapM (concatM thn) (map_tree f c :: map (map_tree f) ts)) with
      (do y <- concatM thn (map_tree f c); do ys <- mapM (concatM thn) (map (map_tree f) ts); Ok (y :: ys)).
    rewrite Hc by (intros; eapply Hs; [left; reflexivity|auto]). cbn [bind].
    rewrite IHts by (intros; eapply Hs; [right; eauto|auto]). reflexivity. }
  rewrite E. cbn [bind]. rewrite H0. cbn [bind]. rewrite map_app. reflexivity.
Qed.

Lemma sub32_ok : forall a b, (- 2 ^ 31 <= a - b < 2 ^ 31)%Z -> sub32 a b = Ok (a - b)%Z.
Proof.
  intros a b H. unfold sub32. destruct (Z.leb_spec (- 2 ^ 31) (a - b)); [|lia].
  destruct (Z.leb_spec (a - b) (2 ^ 31 - 1)); [auto|lia].
Qed.

Section Shrinks.
Context (co : coding) (enc : Z -> list Z) (CE : coding_exact co enc).

Lemma chars_le_bytes : forall cs, Forall scalar cs -> length cs <= length (flat_map enc cs).
Proof. induction 1; cbn; auto. rewrite app_length. pose proof (ce_len _ _ CE x H). lia. Qed.

Lemma frontOf_ok : forall codes k m v, Forall scalar codes -> k <= length codes -> m + v <= k ->
  (bsize (flat_map enc codes) < 2 ^ 31)%Z ->
  frontOf (flat_map enc (firstn k codes)) (Z.of_nat m) (Z.of_nat k) (offsets enc codes) (Z.of_nat v) =
  Ok (flat_map enc (skipn (m + v) (firstn k codes))).
Proof.
  intros codes k m v Hc Hk Hv Hs. unfold frontOf. destruct (offsets_nonempty enc codes) as [p [ps E]].
  rewrite E, <- E. clear p ps E. pose proof (chars_le_bytes codes Hc) as Hl. unfold bsize in Hs.
  rewrite wrapU_small by lia. rewrite <- Nat2Z.inj_add.
  rewrite !offsets_idx by lia. cbn [bind].
  pose proof (offset_range enc codes k) as R1. pose proof (offset_range enc codes (m + v)) as R2. unfold bsize in R1, R2.
  rewrite sub32_ok by lia. cbn [bind].
  assert (R3 : (offset enc codes (m + v) <= offset enc codes k)%Z).
  { rewrite <- (offset_prefix enc codes (m + v) k) by auto. apply offset_range. }
  assert (R4 : offset enc codes k = bsize (flat_map enc (firstn k codes))) by reflexivity.
  rewrite !wrapU_small by lia.
  set (a := offset enc codes (m + v)) in *. set (b := offset enc codes k) in *.
  replace a with (Z.of_nat (Z.to_nat a)) by lia.
  replace (b - Z.of_nat (Z.to_nat a))%Z with (Z.of_nat (Z.to_nat (b - a))) by lia.
  unfold bsize in R4. rewrite substr_ok by lia. f_equal. unfold a.
  rewrite <- (offset_prefix enc codes (m + v) k) by auto. rewrite cut_rear.
  apply firstn_all2. rewrite <- cut_rear, skipn_length. rewrite (offset_prefix enc codes (m + v) k) by auto. fold a. lia.
Qed.

Lemma front_enc_ok : forall codes k m (s : tree (list Z)), Forall scalar codes -> m <= k <= length codes ->
  (bsize (flat_map enc codes) < 2 ^ 31)%Z -> root s = firstn k codes ->
  shrinkStringLikeFront (co_charsize co) (Z.of_nat m) (offsets enc codes) (map_tree (flat_map enc) s) =
  Ok (map (map_tree (flat_map enc)) (fronts m (root s))).
Proof.
  intros codes k m s Hc Hk Hs Hr. unfold shrinkStringLikeFront, fronts. rewrite root_map, Hr.
  pose proof (chars_le_bytes codes Hc) as Hl.
  assert (Hlen : length (firstn k codes) = k) by (apply firstn_length_le; lia).
  rewrite (ce_charsize _ _ CE).
  2:{ rewrite Forall_forall in *. intros x Hx. apply Hc. rewrite <- (firstn_skipn k codes). apply in_or_app. auto. }
  2:{ pose proof (offset_range enc codes k). unfold offset, bsize in *. lia. }
  cbn [bind]. rewrite Hlen. destruct (Nat.eqb_spec k m) as [E|E].
  - subst m. rewrite Z.eqb_refl. auto.
  - destruct (Z.eqb_spec (Z.of_nat k) (Z.of_nat m)); [lia|]. unfold bsize in Hs.
    rewrite wrapU_small by lia. rewrite binarySearchU_ok by (unfold in_uint64, UINT64_MAX; lia). cbn [bind].
    replace (Z.of_nat k - Z.of_nat m)%Z with (Z.of_nat (k - m)) by lia.
    rewrite (mapTreeM_ok _ _ _ (fun z => flat_map enc (skipn (m + Z.to_nat z) (firstn k codes)))).
    + cbn [bind]. rewrite shrinks_map. rewrite map_map. f_equal. apply map_ext. intros t.
      rewrite map_tree_comp. reflexivity.
    + intros a Ha. apply bs_abs_in in Ha; [|unfold UINT64_MAX in *; lia].
      replace a with (Z.of_nat (Z.to_nat a)) at 1 by lia. apply frontOf_ok; auto; unfold bsize; lia.
Qed.

Lemma rearOf_ok : forall codes m v, Forall scalar codes -> m + v <= length codes -> (bsize (flat_map enc codes ++ co_end co) < 2 ^ 31)%Z ->
  rearOf (flat_map enc codes ++ co_end co) (Z.of_nat m) (offsets enc codes) (Z.of_nat v) = Ok (flat_map enc (firstn (v + m) codes)).
Proof.
  intros codes m v Hc Hv Hs. unfold rearOf. destruct (offsets_nonempty enc codes) as [p [ps E]].
  rewrite E, <- E. clear p ps E. pose proof (chars_le_bytes codes Hc) as Hl. rewrite bsize_app in Hs. unfold bsize in Hs.
  rewrite (wrapU_small 64 (Z.of_nat v)) by lia. rewrite wrapU_small by lia. rewrite <- Nat2Z.inj_add.
  rewrite offsets_idx by lia. cbn [bind]. pose proof (offset_range enc codes (v + m)) as R. unfold bsize in R.
  rewrite wrapU_small by lia. set (a := offset enc codes (v + m)) in *.
  replace a with (Z.of_nat (Z.to_nat a)) by lia. change 0%Z with (Z.of_nat 0). rewrite substr_ok by lia.
  cbn [skipn]. unfold a. rewrite cut_front by lia. auto.
Qed.

Lemma shrinkStringLike_ok : forall codes m, Forall scalar codes -> m <= length codes ->
  (bsize (flat_map enc codes ++ co_end co) < 2 ^ 31)%Z ->
  shrinkStringLike (co_charsize co) (flat_map enc codes ++ co_end co) (Z.of_nat m) (Z.of_nat (length codes)) (offsets enc codes) =
  Ok (map_tree (flat_map enc) (strT m codes)).
Proof.
  intros codes m Hc Hm Hs. unfold shrinkStringLike, strT. pose proof (chars_le_bytes codes Hc) as Hl.
  assert (Hs' : (bsize (flat_map enc codes) < 2 ^ 31)%Z) by (rewrite bsize_app in Hs; unfold bsize in *; lia).
  pose proof Hs' as Hs''. unfold bsize in Hs''.
  rewrite wrapU_small by lia. rewrite wrapS_small by lia.
  replace (Z.of_nat (length codes) - Z.of_nat m)%Z with (Z.of_nat (length codes - m)) by lia.
  rewrite binarySearch_pos by (unfold INT64_MAX; lia). cbn [bind].
  rewrite (mapTreeM_ok _ _ _ (fun z => flat_map enc (firstn (Z.to_nat z + m) codes))).
  - cbn [bind]. rewrite <- (map_tree_comp _ _ _ (fun z => firstn (Z.to_nat z + m) codes) (flat_map enc)).
    apply concatM_map. intros s Hr. apply reach_map_inv in Hr. destruct Hr as [s0 [Hr ->]].
    apply reach_root_in in Hr. apply bs_abs_in in Hr; [|unfold UINT64_MAX; lia].
    apply (front_enc_ok codes (Z.to_nat (root s0) + m)); auto; [lia|]. apply root_map.
  - intros a Ha. apply bs_abs_in in Ha; [|unfold UINT64_MAX; lia].
    replace a with (Z.of_nat (Z.to_nat a)) at 1 by lia. apply rearOf_ok; auto. lia.
Qed.

(** ** The generation loop *)

Lemma encodeLoop_ok : forall E (g : gen E Z) n pre r vec r',
  Forall scalar (map root vec) -> length vec = n -> draws g r vec r' ->
  (bsize (flat_map enc (pre ++ map root vec)) < 2 ^ 31)%Z ->
  encodeLoop co g n (flat_map enc pre) (map (offset enc (pre ++ map root vec)) (seq 0 (length pre))) r =
  Ok ((flat_map enc (pre ++ map root vec), offsets enc (pre ++ map root vec)), r').
Proof.
  intros E g n. induction n as [|n IH]; intros pre r vec r' Hv Hn Hd Hs.
  - destruct vec; [|discriminate]. inversion Hd; subst. cbn [map] in *. rewrite app_nil_r in *. cbn [encodeLoop]. unfold gret.
    rewrite wrapS_small by (unfold bsize in *; lia).
    unfold offsets. rewrite seq_S, map_app. cbn [map Nat.add]. rewrite offset_all. auto.
  - destruct vec as [|c vec]; [discriminate|]. injection Hn as Hn. inversion Hd; subst. cbn [map] in Hv.
    apply Forall_cons_iff in Hv. destruct Hv as [Hc Hv]. cbn [encodeLoop].
    erewrite gbind_eq by eassumption. erewrite gbind_eq by (unfold gfail; rewrite (ce_encode _ _ CE) by auto; reflexivity).
    pose proof (IH (pre ++ [root c]) r1 vec r' Hv eq_refl H4) as IH'.
    cbn [map] in *. replace (pre ++ root c :: map root vec) with ((pre ++ [root c]) ++ map root vec) in * by (rewrite <- app_assoc; auto).
    specialize (IH' Hs). assert (Ef : flat_map enc (pre ++ [root c]) = flat_map enc pre ++ enc (root c))
      by (rewrite flat_map_app; cbn [flat_map]; rewrite app_nil_r; auto).
    rewrite Ef in IH'.
    rewrite app_length, Nat.add_comm in IH'. cbn [length Nat.add] in IH'. rewrite seq_S, map_app in IH'. cbn [map Nat.add] in IH'.
    assert (Eo : wrapS 32 (bsize (flat_map enc pre)) = offset enc ((pre ++ [root c]) ++ map root vec) (length pre)).
    { unfold offset. rewrite <- app_assoc. rewrite firstn_app, Nat.sub_diag, firstn_O, app_nil_r, firstn_all.
      apply wrapS_small; [lia|]. rewrite <- app_assoc, flat_map_app, bsize_app in Hs. unfold bsize in *. lia. }
    rewrite Eo. exact IH'.
Qed.

Lemma bytes_le : forall cs, Forall scalar cs -> length (flat_map enc cs) <= 6 * length cs.
Proof. induction 1; cbn [flat_map length]; [lia|]. rewrite app_length. pose proof (ce_len _ _ CE x H). lia. Qed.

(* the loop stops at the first code that cannot be encoded *)
Lemma encodeLoop_rejects : forall E (g : gen E Z) vec n chars positions r r1 t r2,
  Forall scalar (map root vec) -> length vec < n -> draws g r vec r1 -> g r1 = Ok (t, r2) ->
  (forall chars, co_encode co (root t) chars = Throw ERuntime) ->
  encodeLoop co g n chars positions r = Throw ERuntime.
Proof.
  intros E g vec. induction vec as [|c vec IH]; intros n chars positions r r1 t r2 Hv Hn Hd Hg Hx.
  - destruct n; [cbn in Hn; lia|]. inversion Hd; subst. cbn [encodeLoop]. erewrite gbind_eq by eassumption.
    unfold gbind, gfail. rewrite Hx. auto.
  - destruct n as [|n]; [lia|]. inversion Hd; subst. cbn [map] in Hv. apply Forall_cons_iff in Hv. destruct Hv as [Hc Hv].
    cbn [encodeLoop]. erewrite gbind_eq by eassumption.
    erewrite gbind_eq by (unfold gfail; rewrite (ce_encode _ _ CE) by auto; reflexivity).
    eapply IH; eauto. cbn [length] in Hn. lia.
Qed.

(* what the loop has drawn when it ends normally *)
Lemma encodeLoop_inv : forall E (g : gen E Z) n chars positions r out r',
  encodeLoop co g n chars positions r = Ok (out, r') ->
  exists vec, draws g r vec r' /\ length vec = n /\
    Forall (fun t => exists chars chars', co_encode co (root t) chars = Ok chars') vec.
Proof.
  intros E g n. induction n as [|n IH]; intros chars positions r out r' H.
  - cbn in H. unfold gret in H. injection H as _ <-. exists []. repeat split; constructor.
  - cbn [encodeLoop] in H. apply gbind_ok in H. destruct H as [t [r1 [Hg H]]]. apply gbind_ok in H. destruct H as [chars' [r2 [He H]]].
    apply IH in H. destruct H as [vec [Hd [Hl Hf]]]. unfold gfail in He.
    destruct (co_encode co (root t) chars) eqn:Ee; try discriminate. injection He as -> ->.
    exists (t :: vec). repeat split; [econstructor; eauto|cbn; lia|constructor; eauto].
Qed.

End Shrinks.
