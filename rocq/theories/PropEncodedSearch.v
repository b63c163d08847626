(** C92: which part of a failing Unicode string is reported. *)
From Coq Require Import List ZArith Lia Bool Permutation.
From Verif Require Import Base TreeModel TreeSpec TreeProof RandomModel TupleModel TupleProof BinSearchProof IntegralModel IntegralSpec IntegralProof
  ListModel ListSpec ListProof ListMainProof StringModel StringProof ContainerModel ContainerSpec ContainerProof
  Utf8Model Cesu8Model Utf16Model UtfSpec UtfProof Utf16Proof UnicodeGenModel UnicodeGenProof
  EffModel EffSpec EffProof ContextModel ContextSpec ContextProof RunnerModel RunnerSpec RunnerProof RunnerShrinkProof
  SearchSpec SearchProof ListSearchSpec ListSearchProof PropRun PropSearch PropListSearch PropUnicode PropMinimal.
Import ListNotations.
Local Open Scope list_scope.

(* the tree of a generated string is that of its characters, encoded *)
Lemma encoded_tree : forall co enc, In (co, enc) forms -> forall E (elemGen : gen E Z) mn mx r t r', (0 <= mn <= mx)%Z -> (6 * mx + 2 < 2 ^ 31)%Z ->
  (forall r t r', elemGen r = Ok (t, r') -> scalar (root t)) -> arbi_encoded co elemGen {| minSize := mn; maxSize := mx |} r = Ok (t, r') ->
  exists codes, Forall scalar codes /\ (mn <= size codes <= mx)%Z /\ t = map_tree (flat_map enc) (strT (Z.to_nat mn) codes).
Proof.
  intros co enc Hf E g mn mx r t r' H0 H2 Hg H. pose proof (forms_exact co enc Hf) as CE.
  destruct (draw_ok E mn mx r ltac:(lia)) as [n [r1 [Hd Hn]]]. unfold arbi_encoded in H.
  rewrite (gbind_eq _ _ _ _ _ _ n r1) in H by (rewrite containerSize_eq; auto; unfold Base.UINT32_MAX; lia).
  apply gbind_ok in H. destruct H as [[chars positions] [r2 [Hl Ha]]].
  pose proof (encodeLoop_inv co _ _ _ _ _ _ _ _ Hl) as [vec [Hv [Hlv _]]].
  assert (Hc : Forall scalar (map root vec)) by (apply Forall_map; clear -Hv Hg; induction Hv; constructor; eauto).
  assert (Hlen : Z.of_nat (length (map root vec)) = n) by (rewrite map_length; lia).
  pose proof (bytes_le co enc CE (map root vec) Hc) as Hb. pose proof (ce_end co enc CE) as He.
  assert (Hs : (bsize (flat_map enc (map root vec) ++ co_end co) < 2 ^ 31)%Z).
  { rewrite bsize_app. unfold bsize in *. lia. }
  assert (Hs' : (bsize (flat_map enc (map root vec)) < 2 ^ 31)%Z) by (rewrite bsize_app in Hs; unfold bsize in *; lia).
  pose proof (encodeLoop_ok co enc CE E g (Z.to_nat n) [] r1 vec r2 Hc ltac:(lia) Hv Hs') as El.
  cbn [app length seq map flat_map] in El. rewrite El in Hl. inversion Hl; subst chars positions. clear Hl El. cbv beta iota in Ha.
  destruct (ce_valid co enc CE (map root vec) Hc Hs) as [b Hb']. erewrite gbind_eq in Ha by (unfold gfail; rewrite Hb'; reflexivity). cbn [fst minSize] in Ha.
  unfold gfail in Ha. rewrite <- (Z2Nat.id mn), <- Hlen in Ha by lia. rewrite (shrinkStringLike_ok co enc CE) in Ha by (auto; lia). inversion Ha; subst t.
  exists (map root vec). split; auto. split; [unfold size; lia|]. reflexivity.
Qed.

(* the search in such a tree *)
Lemma encoded_scan : forall (enc : Z -> list Z) (fails : list Z -> Prop) m codes tried found, (m <= length codes)%nat -> (size codes <= UINT64_MAX)%Z ->
  scan fails (shrinks (map_tree (flat_map enc) (strT m codes))) tried found ->
  let bad x := fails (flat_map enc x) in
  (forall k, (Z.of_nat (length codes - m) <= 2 ^ Z.of_nat k)%Z -> (length tried <= 2 * S k)%nat) /\
  exists r, root (ending (map_tree (flat_map enc) (strT m codes)) found) = flat_map enc r /\
    (bad codes -> m = 0%nat -> r = firstn (length r) codes) /\
    (bad codes -> m = 0%nat -> prefixes_stay_failing bad 0 codes -> shortest_prefix bad 0 codes r) /\
    (bad codes -> stays_failing bad 0 codes -> exists p, shortest_prefix bad m codes p /\ (r = p \/ r = skipn m p) /\ ((m < length p)%nat -> bad (skipn m p) -> r = skipn m p)).
Proof.
  intros enc fails m codes tried found Hm Hs H. cbv zeta. rewrite shrinks_map in H. apply scan_map in H. destruct H as (tr & fo & S & -> & ->).
  destruct (str_scan _ (fun x => fails (flat_map enc x)) m codes tr fo Hm Hs S) as (M1 & M2 & M3 & M4). split; [intros k Hk; rewrite map_length; auto|].
  exists (root (ending (strT m codes) fo)). split; [rewrite ending_map, root_map; reflexivity|]. split; [|split].
  - intros F Z. destruct (M2 F Z) as (k & K1 & K2). set (e := root _) in *. assert (L : length e = k) by (rewrite K2, firstn_length; lia). rewrite L. exact K2.
  - intros F Z. rewrite Z in M3 at 2 3. auto.
  - exact M4.
Qed.

(** Strings of no minimum length (the default), in each encoding: whatever the property is, the characters of the reported string are the first ones of the original string.  It is
    the shortest failing prefix, when failing is kept from shorter to longer prefixes. *)
Theorem C92_prefix : forall co enc, In (co, enc) forms -> forall E V W fuel ev (P : property E V W) beh w n why rep s' (inj : list Z -> V) (elemGen : gen E Z) mx o1 N o2,
  pure_property P beh -> quiet (gens P) -> no_leak beh -> ord_regen ev = ord_call ev -> order (length (gens P)) (ord_each ev) ->
  (0 <= mx)%Z -> (6 * mx + 2 < 2 ^ 31)%Z -> (forall r t r', elemGen r = Ok (t, r') -> scalar (root t)) ->
  nth_error (gens P) N = Some (treeArg inj (arbi_encoded co elemGen {| minSize := 0; maxSize := mx |})) -> ord_each ev = o1 ++ N :: o2 ->
  runForAll fuel ev P w = Ok (VFalsified n why rep, s') ->
  exists codes r, Forall scalar codes /\ nth_error (with_args rep) N = Some (inj (flat_map enc codes)) /\ nth_error (simplest_args rep) N = Some (inj (flat_map enc r)) /\
    r = firstn (length r) codes /\
    let fails x := bad beh (set_nth N (inj (flat_map enc x)) (partly o1 (simplest_args rep) (with_args rep))) in
    fails r /\ (prefixes_stay_failing fails 0 codes -> shortest_prefix fails 0 codes r).
Proof.
  intros co enc Hf E V W fuel ev P beh w n why rep s' inj eg mx o1 N o2 HP Hq Hnl Ho Hoe Hmx0 Hmx Hg HgN Ho1 H.
  destruct (falsified_scan _ _ _ _ _ _ _ _ _ _ _ _ _ _ _ _ _ _ HP Hq Hnl Ho Hoe HgN Ho1 H) as [q [q' [t [tried [found [T1 [T2 [T3 [T4 T5]]]]]]]]].
  destruct (encoded_tree co enc Hf _ _ _ _ _ _ _ (conj (Z.le_refl 0) Hmx0) Hmx Hg T1) as (codes & Hc & Hsz & Ht). change (Z.to_nat 0) with 0%nat in Ht.
  assert (Hs : (size codes <= UINT64_MAX)%Z) by (unfold UINT64_MAX in *; lia).
  pose proof T5 as T5'. rewrite Ht in T5'. destruct (encoded_scan enc _ 0 codes _ _ (Nat.le_0_l _) Hs T5') as (_ & r & R1 & R2 & R3 & _). rewrite <- Ht in R1.
  assert (Rt : root t = flat_map enc codes) by (rewrite Ht, root_map, strT_root by lia; reflexivity). rewrite Rt in *. rewrite R1 in T3.
  exists codes, r. split; auto. split; auto. split; auto. split; auto. split.
  - assert (F := scan_fails _ _ _ _ _ T5 t). rewrite Rt, R1 in F. exact (F T4).
  - auto.
Qed.

(** With a minimum length: if putting characters back keeps a string failing, the reported one is the shortest failing prefix of that many characters or more, or that prefix
    without its first [mn] characters: exactly when the latter fails (and is not empty). *)
Theorem C92_min : forall co enc, In (co, enc) forms -> forall E V W fuel ev (P : property E V W) beh w n why rep s' (inj : list Z -> V) (elemGen : gen E Z) mn mx o1 N o2,
  pure_property P beh -> quiet (gens P) -> no_leak beh -> ord_regen ev = ord_call ev -> order (length (gens P)) (ord_each ev) ->
  (0 <= mn <= mx)%Z -> (6 * mx + 2 < 2 ^ 31)%Z -> (forall r t r', elemGen r = Ok (t, r') -> scalar (root t)) ->
  nth_error (gens P) N = Some (treeArg inj (arbi_encoded co elemGen {| minSize := mn; maxSize := mx |})) -> ord_each ev = o1 ++ N :: o2 ->
  runForAll fuel ev P w = Ok (VFalsified n why rep, s') ->
  exists codes r, Forall scalar codes /\ nth_error (with_args rep) N = Some (inj (flat_map enc codes)) /\ nth_error (simplest_args rep) N = Some (inj (flat_map enc r)) /\
    let fails x := bad beh (set_nth N (inj (flat_map enc x)) (partly o1 (simplest_args rep) (with_args rep))) in
    fails r /\ (stays_failing fails 0 codes -> exists p, shortest_prefix fails (Z.to_nat mn) codes p /\ (r = p \/ r = skipn (Z.to_nat mn) p) /\
      ((Z.to_nat mn < length p)%nat -> fails (skipn (Z.to_nat mn) p) -> r = skipn (Z.to_nat mn) p)).
Proof.
  intros co enc Hf E V W fuel ev P beh w n why rep s' inj eg mn mx o1 N o2 HP Hq Hnl Ho Hoe Hmn Hmx Hg HgN Ho1 H.
  destruct (falsified_scan _ _ _ _ _ _ _ _ _ _ _ _ _ _ _ _ _ _ HP Hq Hnl Ho Hoe HgN Ho1 H) as [q [q' [t [tried [found [T1 [T2 [T3 [T4 T5]]]]]]]]].
  destruct (encoded_tree co enc Hf _ _ _ _ _ _ _ Hmn Hmx Hg T1) as (codes & Hc & Hsz & Ht).
  assert (Hs : (size codes <= UINT64_MAX)%Z) by (unfold UINT64_MAX in *; lia).
  assert (Hm : (Z.to_nat mn <= length codes)%nat) by (unfold size in Hsz; lia).
  pose proof T5 as T5'. rewrite Ht in T5'. destruct (encoded_scan enc _ (Z.to_nat mn) codes _ _ Hm Hs T5') as (_ & r & R1 & _ & _ & R4). rewrite <- Ht in R1.
  assert (Rt : root t = flat_map enc codes) by (rewrite Ht, root_map, strT_root by lia; reflexivity). rewrite Rt in *. rewrite R1 in T3.
  exists codes, r. split; auto. split; auto. split; auto. split.
  - assert (F := scan_fails _ _ _ _ _ T5 t). rewrite Rt, R1 in F. exact (F T4).
  - auto.
Qed.

(** A property that fails when some character occurs: what is reported ends with its first occurrence, and keeps everything before it. *)
Theorem C92_occurs : forall co enc, In (co, enc) forms -> forall E V W fuel ev (P : property E V W) beh w n why rep s' (inj : list Z -> V) (elemGen : gen E Z) mx o1 N o2 (c : Z -> Prop),
  pure_property P beh -> quiet (gens P) -> no_leak beh -> ord_regen ev = ord_call ev -> order (length (gens P)) (ord_each ev) ->
  (0 <= mx)%Z -> (6 * mx + 2 < 2 ^ 31)%Z -> (forall r t r', elemGen r = Ok (t, r') -> scalar (root t)) ->
  nth_error (gens P) N = Some (treeArg inj (arbi_encoded co elemGen {| minSize := 0; maxSize := mx |})) -> ord_each ev = o1 ++ N :: o2 ->
  runForAll fuel ev P w = Ok (VFalsified n why rep, s') ->
  (forall x, Forall scalar x -> (bad beh (set_nth N (inj (flat_map enc x)) (partly o1 (simplest_args rep) (with_args rep))) <-> Exists c x)) ->
  exists before x after, nth_error (with_args rep) N = Some (inj (flat_map enc (before ++ x :: after))) /\ nth_error (simplest_args rep) N = Some (inj (flat_map enc (before ++ [x]))) /\
    Forall (fun y => ~ c y) before /\ c x.
Proof.
  intros co enc Hf E V W fuel ev P beh w n why rep s' inj eg mx o1 N o2 c HP Hq Hnl Ho Hoe Hmx0 Hmx Hg HgN Ho1 H HB.
  destruct (C92_prefix co enc Hf _ _ _ _ _ _ _ _ _ _ _ _ _ _ _ _ _ _ HP Hq Hnl Ho Hoe Hmx0 Hmx Hg HgN Ho1 H) as (codes & r & Hc & W1 & W2 & _ & F & S). cbv zeta in S.
  assert (Hp : forall k, Forall scalar (firstn k codes)) by (intros k; apply Forall_forall; intros y Hy; rewrite Forall_forall in Hc; apply Hc; rewrite <- (firstn_skipn k codes); apply in_or_app; auto).
  destruct S as (k & -> & [_ Hk] & Fk & Hl).
  { intros j k _ Hjk Hk Fj. apply HB; auto. apply HB in Fj; auto. replace j with (Nat.min j k) in Fj by lia. rewrite <- firstn_firstn in Fj. apply Exists_exists in Fj. destruct Fj as (y & Y1 & Y2).
    apply Exists_exists. exists y. split; auto. rewrite <- (firstn_skipn j (firstn k codes)). apply in_or_app. auto. }
  apply HB in Fk; auto. destruct k as [|k]; [inversion Fk|].
  assert (Hlast : firstn (S k) codes = firstn k codes ++ [nth k codes 0%Z]).
  { clear - Hk. revert k Hk. induction codes as [|a l IH]; intros k Hk; cbn [length] in Hk; [lia|]. destruct k as [|k]; [reflexivity|]. change (a :: firstn (S k) l = a :: (firstn k l ++ [nth k l 0%Z])). f_equal. apply IH. lia. }
  assert (Hnot : ~ Exists c (firstn k codes)) by (rewrite <- HB by auto; apply Hl; lia).
  exists (firstn k codes), (nth k codes 0%Z), (skipn (S k) codes). split; [|split].
  - replace (firstn k codes ++ nth k codes 0%Z :: skipn (S k) codes) with codes; auto. rewrite <- (firstn_skipn (S k) codes) at 1. rewrite Hlast, <- app_assoc. reflexivity.
  - rewrite <- Hlast. exact W2.
  - split; [apply Forall_Exists_neg; auto|]. rewrite Hlast in Fk. apply Exists_app in Fk. destruct Fk as [Fk|Fk]; [contradiction|]. inversion Fk as [? ? X|? ? X]; subst; auto. inversion X.
Qed.

(** The number of calls: twice k + 1 when at most 2^k characters can go. *)
Theorem C92_calls : forall co enc, In (co, enc) forms -> forall E V W ev (P : property E V W) beh s rep s' (inj : list Z -> V) (elemGen : gen E Z) mn mx,
  pure_property P beh -> order 1 (ord_each ev) -> (0 <= mn <= mx)%Z -> (6 * mx + 2 < 2 ^ 31)%Z -> (forall r t r', elemGen r = Ok (t, r') -> scalar (root t)) ->
  gens P = [treeArg inj (arbi_encoded co elemGen {| minSize := mn; maxSize := mx |})] -> shrink ev P s = Ok (rep, s') ->
  exists codes l, with_args rep = [inj (flat_map enc codes)] /\ lg s' = lg s ++ calls beh l /\
    forall k, (size codes - mn <= 2 ^ Z.of_nat k)%Z -> (length l <= 2 * S k)%nat.
Proof.
  intros co enc Hf E V W ev P beh s rep s' inj eg mn mx HP Ho Hmn Hmx Hg HgP H.
  destruct (one_scan _ _ _ _ _ _ _ _ _ _ _ _ HP Ho HgP H) as [q [q' [t [tried [found [T1 [T2 [T3 [T4 T5]]]]]]]]].
  destruct (encoded_tree co enc Hf _ _ _ _ _ _ _ Hmn Hmx Hg T1) as (codes & Hc & Hsz & Ht).
  assert (Hs : (size codes <= UINT64_MAX)%Z) by (unfold UINT64_MAX in *; lia).
  assert (Hm : (Z.to_nat mn <= length codes)%nat) by (unfold size in Hsz; lia).
  rewrite Ht in T4. destruct (encoded_scan enc _ (Z.to_nat mn) codes _ _ Hm Hs T4) as [M _].
  assert (Rt : root t = flat_map enc codes) by (rewrite Ht, root_map, strT_root by lia; reflexivity). rewrite Rt in *.
  exists codes, (map (fun a => [inj a]) tried). split; auto. split; auto. intros k Hk. rewrite map_length. apply M. unfold size in *. lia.
Qed.

(** Characters from U+0400 to U+04FF. *)
Definition cyrillic : gen replay Z := generateInteger TU32 0x400 0x4FF.
Definition cyrillics (mn : Z) : gen replay (list Z) := arbi_encoded utf8_coding cyrillic {| minSize := mn; maxSize := 8 |}.
Lemma cyrillic_scalar : forall r t r', cyrillic r = Ok (t, r') -> scalar (root t).
Proof.
  intros r t r' H. assert (HU : usable TU32 0x400 0x4FF) by (split; [|split; [|split]]; try (vm_compute; discriminate); intros [X _]; discriminate).
  destruct (generateInteger_ok replay TU32 0x400 0x4FF r) as [t2 [q2 [T2 G2]]]; try apply HU.
  unfold cyrillic in H. assert (t2 = t) by congruence. subst t2. apply gi_range in G2. unfold scalar. lia.
Qed.
(** No byte 0xB6: U+0436 (and U+0476) do not occur. *)
Definition noZhe (s : list Z) : bool := forallb (fun b => negb (b =? 0xB6)%Z) s.
Lemma noZhe_occurs : forall x, noZhe (flat_map utf8 x) = false <-> Exists (fun y => In 0xB6%Z (utf8 y)) x.
Proof.
  intros x. unfold noZhe. rewrite Exists_exists. split.
  - intros H. apply not_true_iff_false in H. destruct (existsb (fun y => existsb (Z.eqb 0xB6) (utf8 y)) x) eqn:E.
    + apply existsb_exists in E. destruct E as (y & Y1 & Y2). apply existsb_exists in Y2. destruct Y2 as (b & B1 & B2). apply Z.eqb_eq in B2. subst b. eauto.
    + exfalso. apply H. apply forallb_forall. intros b Hb. apply in_flat_map in Hb. destruct Hb as (y & Y1 & Y2). destruct (Z.eqb_spec b 0xB6); auto. exfalso. subst b.
      apply not_true_iff_false in E. apply E. apply existsb_exists. exists y. split; auto. apply existsb_exists. exists 0xB6%Z. split; auto.
  - intros (y & Y1 & Y2). apply not_true_iff_false. intros H. rewrite forallb_forall in H. specialize (H 0xB6%Z). rewrite in_flat_map in H. specialize (H ltac:(eauto)). discriminate.
Qed.
Lemma cyr_quiet : forall mn, quiet (gens (prop80 noZhe (cyrillics mn))).
Proof. intros mn. constructor; [|constructor]. intros r e r' He. apply gbind_ok in He. destruct He as [x [r1 [_ He]]]. discriminate. Qed.
(** U+0431 U+0436 U+0432 U+0436: the first two characters are reported, in UTF-8; with a minimum length of 1 only the second. *)
Example C92_prefix_ex : In (utf8_coding, utf8) forms /\ quiet (gens (prop80 noZhe (cyrillics 0))) /\ (forall r t r', cyrillic r = Ok (t, r') -> scalar (root t)) /\
  report80 noZhe (cyrillics 0) [4; 0x431; 0x436; 0x432; 0x436]%Z = Some ([flat_map utf8 [0x431; 0x436; 0x432; 0x436]], [flat_map utf8 [0x431; 0x436]], 5%nat)%Z /\
  prefixes_stay_failing (fun x => bad (f80 noZhe) [flat_map utf8 x]) 0 [0x431; 0x436; 0x432; 0x436]%Z.
Proof.
  split; [left; reflexivity|]. split; [apply cyr_quiet|]. split; [exact cyrillic_scalar|]. split; [vm_compute; reflexivity|].
  intros j k _ Hj _. rewrite !bad80, !noZhe_occurs. intros H. replace j with (Nat.min j k) in H by lia. rewrite <- firstn_firstn in H. rewrite Exists_exists in *. destruct H as (y & Y1 & Y2).
  exists y. split; auto. rewrite <- (firstn_skipn j (firstn k _)). apply in_or_app. auto.
Qed.
Example C92_min_ex : report80 noZhe (cyrillics 1) [4; 0x431; 0x436; 0x432; 0x436]%Z = Some ([flat_map utf8 [0x431; 0x436; 0x432; 0x436]], [flat_map utf8 [0x436]], 4%nat)%Z /\
  stays_failing (fun x => bad (f80 noZhe) [flat_map utf8 x]) 0 [0x431; 0x436; 0x432; 0x436]%Z.
Proof.
  split; [vm_compute; reflexivity|]. intros a b _ Hab _. rewrite !bad80, !noZhe_occurs, !Exists_exists. intros (y & Y1 & Y2). exists y. split; auto. eapply sublists_In; eauto.
Qed.
Example C92_occurs_ex : forall x, bad (f80 noZhe) [flat_map utf8 x] <-> Exists (fun y => In 0xB6%Z (utf8 y)) x.
Proof. intros x. rewrite bad80. apply noZhe_occurs. Qed.
Definition startCyr (r : rst replay) : rs replay (list Z) unit := {| rnd := r; cx := newctx; wd := tt; lg := [] |}.
(** The empty string, two characters, one, and those two once more. *)
Example C92_calls_ex : pure_property (prop80 noZhe (cyrillics 0)) (f80 noZhe) /\ exists rep s', shrink (inOrder 1 []) (prop80 noZhe (cyrillics 0)) (startCyr [4; 0x431; 0x436; 0x432; 0x436]%Z) = Ok (rep, s') /\
  args_of (lg s') = [[flat_map utf8 []]; [flat_map utf8 [0x431; 0x436]]; [flat_map utf8 [0x431]]; [flat_map utf8 [0x431; 0x436]]]%Z.
Proof. split; [split; auto|]. apply ok_witness. vm_compute. auto. Qed.

(** Superfluous characters at the front are kept, even when putting characters back keeps a string failing. *)
Theorem C92_minimal_refuted : exists draws v r k, report80 noZhe (cyrillics 0) draws = Some ([flat_map utf8 v], [flat_map utf8 r], k) /\ Forall scalar r /\
  (forall a b, In a (sublists b) -> noZhe (flat_map utf8 a) = false -> noZhe (flat_map utf8 b) = false) /\ noZhe (flat_map utf8 (tl r)) = false /\ tl r <> r.
Proof.
  exists [4; 0x431; 0x436; 0x432; 0x436]%Z, [0x431; 0x436; 0x432; 0x436]%Z, [0x431; 0x436]%Z, 5%nat. split; [vm_compute; reflexivity|]. split; [repeat constructor; unfold scalar; lia|].
  split; [|split; [reflexivity|discriminate]]. intros a b Hab. rewrite !noZhe_occurs, !Exists_exists. intros (y & Y1 & Y2). exists y. split; auto. eapply sublists_In; eauto.
Qed.

Print Assumptions C92_prefix.
Print Assumptions C92_min.
Print Assumptions C92_occurs.
Print Assumptions C92_calls.
Print Assumptions C92_minimal_refuted.
