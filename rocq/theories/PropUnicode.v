(** C20, C55: shrinking and generating strings in UTF-8, CESU-8, UTF-16BE and UTF-16LE. *)
From Coq Require Import List ZArith Lia Bool Permutation.
From Verif Require Import Base TreeModel TreeSpec TreeProof BinSearchProof IntegralModel IntegralSpec IntegralProof ListModel
  StringModel StringSpec StringProof RandomModel ContainerModel ContainerSpec ContainerProof GenModel GenSpec GenProof
  Utf8Model Cesu8Model Utf16Model UtfSpec UtfProof Utf16Proof UnicodeGenModel UnicodeGenProof PropInt PropGen PropUtf.
Import ListNotations.
Local Open Scope Z_scope.

(** The four string types with the encoding each is meant to have. *)
Definition forms : list (coding * (Z -> list Z)) :=
  [(utf8_coding, utf8); (cesu8_coding, cesu8); (utf16be_coding, utf16be); (utf16le_coding, utf16le)].

Lemma forms_exact : forall co enc, In (co, enc) forms -> coding_exact co enc.
Proof.
  intros co enc H. cbn in H.
  destruct H as [H|[H|[H|[H|[]]]]]; injection H as <- <-;
    [apply utf8_coding_exact|apply cesu8_coding_exact|apply utf16be_coding_exact|apply utf16le_coding_exact].
Qed.

(** * C20: shrinking *)

(** Shrinking the encoding of a text (to which UTF-16 generators append a NUL) never reads outside the table of
    offsets or the string, starts at the encoding of the text itself, and offers exactly the encodings of the texts
    that shrinking the text as a sequence of characters would offer. *)
Theorem C20_shrinks : forall co enc, In (co, enc) forms -> forall codes m,
  Forall scalar codes -> (m <= length codes)%nat -> bsize (flat_map enc codes ++ co_end co) < 2 ^ 31 ->
  exists t, shrinkStringLike (co_charsize co) (flat_map enc codes ++ co_end co) (Z.of_nat m)
                             (Z.of_nat (length codes)) (offsets enc codes) = Ok t /\
    root t = flat_map enc codes /\
    Permutation (values t) (map (flat_map enc) (string_shrinks m codes)).
Proof.
  intros co enc Hf codes m Hc Hm Hs. pose proof (forms_exact co enc Hf) as CE.
  eexists. split; [apply (shrinkStringLike_ok co enc CE); auto|]. split.
  - rewrite root_map, strT_root by auto. auto.
  - rewrite values_map. apply Permutation_map. apply strT_values; auto.
    pose proof (chars_le_bytes co enc CE codes Hc). rewrite bsize_app in Hs. unfold bsize, size, UINT64_MAX in *. lia.
Qed.

Lemma infix_scalar : forall cs codes, infix cs codes -> Forall scalar codes -> Forall scalar cs.
Proof. intros cs codes [a [b ->]] H. apply Forall_app in H. destruct H as [_ H]. apply Forall_app in H. tauto. Qed.

(** Every string reachable by shrinking is the valid encoding of a contiguous run of the original characters, so
    its character count is defined. *)
Theorem C20_shrinks_valid : forall co enc, In (co, enc) forms -> forall codes m t,
  Forall scalar codes -> (m <= length codes)%nat -> bsize (flat_map enc codes ++ co_end co) < 2 ^ 31 ->
  shrinkStringLike (co_charsize co) (flat_map enc codes ++ co_end co) (Z.of_nat m)
                   (Z.of_nat (length codes)) (offsets enc codes) = Ok t ->
  all_values (fun v => exists cs, encodes enc cs v /\ infix cs codes /\ co_charsize co v = Ok (Z.of_nat (length cs))) t.
Proof.
  intros co enc Hf codes m t Hc Hm Hs Ht. destruct (C20_shrinks co enc Hf codes m Hc Hm Hs) as [t' [E [_ P]]].
  rewrite E in Ht. injection Ht as <-. apply all_values_values. apply Forall_forall. intros v Hv.
  apply (Permutation_in _ P) in Hv. apply in_map_iff in Hv. destruct Hv as [cs [<- Hv]].
  apply string_shrinks_infix in Hv. pose proof (infix_scalar _ _ Hv Hc) as Hcs.
  exists cs. split; [split; auto|]. split; auto. apply (ce_charsize co enc (forms_exact co enc Hf)); auto.
  destruct Hv as [a [b Hv]]. rewrite Hv in Hs. rewrite bsize_app, !flat_map_app, !bsize_app in Hs.
  unfold bsize in *. lia.
Qed.

(** But a minimum size is not kept: a string of two characters with minimum size one shrinks to one of one
    character (its second), and a string with three characters and minimum two shrinks to its last character. *)
Theorem C20_minimum_refuted : ~ (forall co enc, In (co, enc) forms -> forall codes m t v,
  Forall scalar codes -> (m <= length codes)%nat -> bsize (flat_map enc codes ++ co_end co) < 2 ^ 31 ->
  shrinkStringLike (co_charsize co) (flat_map enc codes ++ co_end co) (Z.of_nat m)
                   (Z.of_nat (length codes)) (offsets enc codes) = Ok t ->
  In v (values t) -> exists n, co_charsize co v = Ok n /\ Z.of_nat m <= n).
Proof.
  intros H.
  assert (Hs : Forall scalar [0x41; 0x20AC; 0x1F600]) by (repeat constructor; unfold scalar; lia).
  destruct (C20_shrinks utf8_coding utf8 ltac:(left; reflexivity) [0x41; 0x20AC; 0x1F600] 2 Hs ltac:(cbn; lia) ltac:(vm_compute; reflexivity))
    as [t [E [_ P]]].
  destruct (H utf8_coding utf8 ltac:(left; reflexivity) [0x41; 0x20AC; 0x1F600] 2%nat t (utf8 0x1F600) Hs ltac:(cbn; lia)
              ltac:(vm_compute; reflexivity) E) as [n [Hn Hle]].
  - apply (Permutation_in _ (Permutation_sym P)). vm_compute. tauto.
  - vm_compute in Hn. injection Hn as <-. cbn in Hle. lia.
Qed.

Example C20_ex : exists t,
  shrinkStringLike utf16le_charsize (flat_map utf16le [0x41; 0x1F600] ++ [0; 0]) 0 2 (offsets utf16le [0x41; 0x1F600]) = Ok t /\
  offsets utf16le [0x41; 0x1F600] = [0; 2; 6] /\ root t = [0x41; 0; 0x3D; 0xD8; 0; 0xDE] /\
  values t = [[0x41; 0; 0x3D; 0xD8; 0; 0xDE]; []; [0x41; 0]; [0x41; 0]; [0x41; 0; 0x3D; 0xD8; 0; 0xDE]; [0x3D; 0xD8; 0; 0xDE]].
Proof. eexists. split; [vm_compute; reflexivity|]. repeat split; vm_compute; reflexivity. Qed.
(* a table of offsets that does not belong to the string: the cut falls inside a character *)
Example C20_ex_bad_offsets : shrinkStringLike utf8_charsize (flat_map utf8 [0x41; 0x20AC]) 0 2 [0; 2; 4] = Throw ERuntime.
Proof. vm_compute. reflexivity. Qed.

(** * C55: generation *)

Lemma draws_det : forall E A (g : G E A) r v1 r1, draws g r v1 r1 -> forall v2 r2, draws g r v2 r2 ->
  length v1 = length v2 -> v1 = v2 /\ r1 = r2.
Proof.
  induction 1; intros v2 r2' H2 Hl; destruct v2; try discriminate; inversion H2; subst; auto.
  rewrite H in H5. injection H5 as -> ->. destruct (IHdraws v2 r2') as [-> ->]; auto.
Qed.

(** With a maximum size small enough for offsets to fit an int: the generator draws a size within the bounds and
    then, if the codes drawn are scalar values, returns their encoding, with as many characters as drawn and the
    shrinks of C20. *)
Theorem C55_generates : forall co enc, In (co, enc) forms -> forall E (elemGen : gen E Z) mn mx r,
  0 <= mn -> mn <= mx -> 6 * mx + 2 < 2 ^ 31 ->
  exists n r1, draw mn mx r = Ok (n, r1) /\ mn <= n <= mx /\
    forall vec r', draws elemGen r1 vec r' -> size vec = n -> Forall scalar (map root vec) ->
    exists t, arbi_encoded co elemGen {| minSize := mn; maxSize := mx |} r = Ok (t, r') /\
      root t = flat_map enc (map root vec) /\ co_charsize co (root t) = Ok n /\
      Permutation (values t) (map (flat_map enc) (string_shrinks (Z.to_nat mn) (map root vec))).
Proof.
  intros co enc Hf E g mn mx r H0 H1 H2. pose proof (forms_exact co enc Hf) as CE.
  destruct (draw_ok E mn mx r H1) as [n [r1 [Hd Hn]]]. exists n, r1. split; auto. split; auto.
  intros vec r' Hv Hsz Hc. unfold arbi_encoded.
  rewrite (gbind_eq _ _ _ _ _ _ n r1) by (rewrite containerSize_eq; auto; unfold UINT32_MAX; lia).
  assert (Hlen : Z.of_nat (length (map root vec)) = n) by (rewrite map_length; exact Hsz).
  pose proof (bytes_le co enc CE (map root vec) Hc) as Hb. pose proof (ce_end co enc CE) as He.
  assert (Hs : bsize (flat_map enc (map root vec) ++ co_end co) < 2 ^ 31).
  { rewrite bsize_app. unfold bsize. lia. }
  assert (Hs' : bsize (flat_map enc (map root vec)) < 2 ^ 31) by (rewrite bsize_app in Hs; unfold bsize in *; lia).
  pose proof (encodeLoop_ok co enc CE E g (Z.to_nat n) [] r1 vec r' Hc ltac:(unfold size in Hsz; lia) Hv Hs') as El.
  cbn [app length seq map flat_map] in El. rewrite (gbind_eq _ _ _ _ _ _ _ _ El). cbv beta iota.
  destruct (ce_valid co enc CE (map root vec) Hc Hs) as [k Hk].
  erewrite gbind_eq by (unfold gfail; rewrite Hk; reflexivity). cbn [fst minSize].
  destruct (C20_shrinks co enc Hf (map root vec) (Z.to_nat mn) Hc ltac:(lia) Hs) as [t [Et [Rt Pt]]].
  rewrite Z2Nat.id in Et by auto. rewrite Hlen in Et. exists t. unfold gfail. rewrite Et. repeat split; auto.
  rewrite Rt, (ce_charsize co enc CE) by auto. congruence.
Qed.

(** Rejection: when a code drawn before the string is complete is not a scalar value, generating a UTF-8 or CESU-8
    string throws. *)
Theorem C55_rejects : forall co, In co [utf8_coding; cesu8_coding] -> forall E (elemGen : gen E Z) mn mx r,
  0 <= mn -> mn <= mx -> mx <= UINT32_MAX ->
  exists n r1, draw mn mx r = Ok (n, r1) /\ mn <= n <= mx /\
    forall vec r2 t r3, draws elemGen r1 vec r2 -> size vec < n -> Forall scalar (map root vec) ->
    elemGen r2 = Ok (t, r3) -> 0 <= root t -> ~ scalar (root t) ->
    arbi_encoded co elemGen {| minSize := mn; maxSize := mx |} r = Throw ERuntime.
Proof.
  intros co Hco E g mn mx r H0 H1 H2.
  assert (Hf : exists enc, In (co, enc) forms).
  { destruct Hco as [<-|[<-|[]]]; eexists; [left; reflexivity|right; left; reflexivity]. }
  destruct Hf as [enc Hf]. pose proof (forms_exact co enc Hf) as CE.
  destruct (draw_ok E mn mx r H1) as [n [r1 [Hd Hn]]]. exists n, r1. split; auto. split; auto.
  intros vec r2 t r3 Hv Hsz Hc Hg Hp Hx. unfold arbi_encoded.
  rewrite (gbind_eq _ _ _ _ _ _ n r1) by (rewrite containerSize_eq; auto).
  unfold gbind. rewrite (encodeLoop_rejects co enc CE E g vec (Z.to_nat n) [] [] r1 r2 t r3); auto.
  - unfold size in Hsz. lia.
  - intros chars. destruct Hco as [<-|[<-|[]]]; cbn [co_encode utf8_coding cesu8_coding];
      [apply C52_encode_rejects|apply C53_encode_rejects]; auto.
Qed.

(** Conversely a UTF-8 or CESU-8 string is only returned for scalar values. *)
Theorem C55_only_scalars : forall co enc, In (co, enc) [(utf8_coding, utf8); (cesu8_coding, cesu8)] ->
  forall E (elemGen : gen E Z) mn mx r t r',
  0 <= mn -> mn <= mx -> 6 * mx + 2 < 2 ^ 31 ->
  (forall r0 t0 r0', elemGen r0 = Ok (t0, r0') -> 0 <= root t0) ->
  arbi_encoded co elemGen {| minSize := mn; maxSize := mx |} r = Ok (t, r') ->
  exists n r1 vec, draw mn mx r = Ok (n, r1) /\ draws elemGen r1 vec r' /\ size vec = n /\
    encodes enc (map root vec) (root t) /\ co_charsize co (root t) = Ok n.
Proof.
  intros co enc Hco E g mn mx r t r' H0 H1 H2 Hg H.
  assert (Hf : In (co, enc) forms) by (destruct Hco as [Hco|[Hco|[]]]; [left|right; left]; auto).
  destruct (C55_generates co enc Hf E g mn mx r H0 H1 H2) as [n [r1 [Hd [Hn Hgen]]]]. exists n, r1.
  pose proof H as Ha. unfold arbi_encoded in Ha.
  rewrite (gbind_eq _ _ _ _ _ _ n r1) in Ha by (rewrite containerSize_eq; auto; unfold UINT32_MAX; lia).
  apply gbind_ok in Ha. destruct Ha as [[chars positions] [r2 [Hl Ha]]].
  pose proof (encodeLoop_inv co _ _ _ _ _ _ _ _ Hl) as [vec [Hv [Hlv Hok]]].
  assert (Hsc : Forall scalar (map root vec)).
  { apply Forall_map. assert (Hpos : Forall (fun t => 0 <= root t) vec).
    { clear -Hv Hg. induction Hv; constructor; eauto. }
    rewrite Forall_forall in *. intros x Hx. destruct (Hok x Hx) as [c1 [c2 Hx2]]. specialize (Hpos x Hx).
    destruct (scalar_dec (root x)) as [|Hno]; auto. exfalso.
    destruct Hco as [Hco|[Hco|[]]]; injection Hco as <- <-; cbn [co_encode utf8_coding cesu8_coding] in Hx2.
    - rewrite encodeUTF8_rejects in Hx2 by auto. discriminate.
    - rewrite encodeCESU8_rejects in Hx2 by auto. discriminate. }
  destruct (Hgen vec r2 Hv ltac:(unfold size; lia) Hsc) as [t1 [E1 [E2 [E3 _]]]].
  rewrite H in E1. injection E1 as -> <-. exists vec. repeat split; auto; unfold size; lia.
Qed.

(** UTF-16 strings are also generated for values that are not scalar, and then hold other characters. *)
Theorem C55_utf16_rejects_refuted : ~ (forall E (elemGen : gen E Z) r t0 r1, elemGen r = Ok (t0, r1) -> ~ scalar (root t0) ->
  forall co, In co [utf16be_coding; utf16le_coding] ->
  exists e, gbind (draw 1 1) (fun _ => encodeLoop co elemGen 1 [] []) r = Throw e).
Proof.
  intros H. destruct (H replay (just 0x4010000) [] (Node 0x4010000 []) [] eq_refl ltac:(unfold scalar; cbn; lia) utf16be_coding
    ltac:(left; reflexivity)) as [e He]. vm_compute in He. discriminate.
Qed.

Definition w_front : SpecFloat.spec_float := SpecFloat.S754_finite false 7165825429543515 (-57).
Definition w_rear : SpecFloat.spec_float := SpecFloat.S754_finite false 8559335165394522 (-53).

Lemma unicode_weights : forall E, oneOfWeights (map snd (unicodeRanges (E := E))) = Ok [w_front; w_rear].
Proof. intros E. vm_compute. reflexivity. Qed.

Definition unicode_pair {E} : list (weighted E Z) :=
  [(no_discard (interval TU32 0x1 0xD7FF), w_front); (no_discard (interval TU32 0xE000 0x10FFFF), w_rear)].

Lemma unicodeGen_eq : forall E fuel (r : rst E), unicodeGen fuel r = oneOfLoop fuel unicode_pair r.
Proof. intros. unfold unicodeGen, oneOf. rewrite unicode_weights. reflexivity. Qed.

(** The generator of code points: what it returns lies in one of the two ranges of scalar values other than NUL
    and shrinks inside that range, towards its least element. *)
Theorem C55_unicode : forall E fuel r t r', unicodeGen (E := E) fuel r = Ok (t, r') ->
  good_integer 0x1 0xD7FF t \/ good_integer 0xE000 0x10FFFF t.
Proof.
  intros E fuel r t r' H. rewrite unicodeGen_eq in H.
  assert (Hw : oneOfWeights (map snd (unicode_pair (E := E))) = Ok [w_front; w_rear]) by (vm_compute; reflexivity).
  assert (Ho : oneOf (unicode_pair (E := E)) = Ok (fun fuel => oneOfLoop fuel unicode_pair)).
  { unfold oneOf. rewrite Hw. reflexivity. }
  destruct (C25_first_accepted E Z unicode_pair (fun fuel => oneOfLoop fuel unicode_pair) [w_front; w_rear]
    ltac:(cbn; lia) ltac:(unfold UINT32_MAX; cbn; lia) Ho Hw r t r') as [Hf _].
  destruct Hf as [i [gi [l [r1 [r2 [_ [Hn [_ [_ G1]]]]]]]]]; [exists fuel; exact H|]. clear H Hw Ho.
  assert (Hnr : forall a b, ~ reversed_char TU32 a b) by (intros a b [Hx _]; discriminate).
  destruct i as [|[|i]]; cbn [unicode_pair map fst nth_error] in Hn.
  - injection Hn as <-. left. unfold no_discard, interval in G1. apply gbind_ok in G1. destruct G1 as [x [r3 [G1 G2]]].
    destruct (generateInteger_ok E TU32 0x1 0xD7FF r2 ltac:(cbn; lia) ltac:(lia) ltac:(cbn; lia) (Hnr _ _)) as [t0 [r4 [F1 F2]]].
    rewrite G1 in F1. injection F1 as -> ->. unfold gret in G2. injection G2 as -> ->. auto.
  - injection Hn as <-. right. unfold no_discard, interval in G1. apply gbind_ok in G1. destruct G1 as [x [r3 [G1 G2]]].
    destruct (generateInteger_ok E TU32 0xE000 0x10FFFF r2 ltac:(cbn; lia) ltac:(lia) ltac:(cbn; lia) (Hnr _ _)) as [t0 [r4 [F1 F2]]].
    rewrite G1 in F1. injection F1 as -> ->. unfold gret in G2. injection G2 as -> ->. auto.
  - destruct i; discriminate.
Qed.

Lemma coin_total : forall E (r : rst E), (exists b r', getRandomBool w_front r = Ok (b, r')) /\ (exists b r', getRandomBool w_rear r = Ok (b, r')).
Proof.
  intros E r. split.
  - destruct (C57_coin_exact E w_front 7165825429543515 (-57) r) as [H _].
    + split; [reflexivity|]. split; [vm_compute; reflexivity|]. split; lia.
    + rewrite H. destruct (unif E 0 UINT64_MAX r). eauto.
  - destruct (C57_coin_exact E w_rear 8559335165394522 (-53) r) as [H _].
    + split; [reflexivity|]. split; [vm_compute; reflexivity|]. split; lia.
    + rewrite H. destruct (unif E 0 UINT64_MAX r). eauto.
Qed.

Lemma range_total : forall E (r : rst E),
  (exists t r', no_discard (interval TU32 0x1 0xD7FF) r = Ok (Some t, r')) /\
  (exists t r', no_discard (interval TU32 0xE000 0x10FFFF) r = Ok (Some t, r')).
Proof.
  intros E r. split.
  - destruct (generateInteger_ok E TU32 0x1 0xD7FF r) as [t0 [r4 [F1 F2]]]; try (cbn; lia).
    { unfold reversed_char. intros [Hx _]. discriminate. }
    unfold no_discard, interval. rewrite (gbind_eq _ _ _ _ _ _ _ _ F1). eexists _, _. reflexivity.
  - destruct (generateInteger_ok E TU32 0xE000 0x10FFFF r) as [t0 [r4 [F1 F2]]]; try (cbn; lia).
    { unfold reversed_char. intros [Hx _]. discriminate. }
    unfold no_discard, interval. rewrite (gbind_eq _ _ _ _ _ _ _ _ F1). eexists _, _. reflexivity.
Qed.

(** The weights are accepted: it never throws and has no undefined behaviour. *)
Theorem C55_unicode_safe : forall E fuel r,
  (exists t r', unicodeGen (E := E) fuel r = Ok (t, r')) \/ unicodeGen (E := E) fuel r = OutOfFuel.
Proof.
  intros E fuel r. rewrite unicodeGen_eq. revert r. induction fuel as [|fuel IH]; intros r; [right; reflexivity|].
  cbn [oneOfLoop]. change (Z.of_nat (length (unicode_pair (E := E)))) with 2.
  destruct (draw_ok E 0 1 r ltac:(lia)) as [i [r1 [Hd Hi]]].
  rewrite (gbind_eq _ _ _ _ _ _ i r1) by exact Hd. cbv beta.
  assert (Hcase : i = 0 \/ i = 1) by lia. destruct Hcase as [-> | ->].
  - rewrite (gbind_eq _ (weighted E Z) _ _ _ r1 (no_discard (interval TU32 0x1 0xD7FF), w_front) r1) by reflexivity. cbv beta. cbn [fst snd].
    destruct (coin_total E r1) as [[b [r2 Hb]] _]. rewrite (gbind_eq _ _ _ _ _ _ _ _ Hb). cbv beta.
    destruct b; [|apply IH]. destruct fuel as [|fuel]; [right; reflexivity|]. cbn [retry].
    destruct (range_total E r2) as [[t [r3 Ht]] _]. rewrite (gbind_eq _ _ _ _ _ _ _ _ Ht). cbv beta. left. eexists _, _. reflexivity.
  - rewrite (gbind_eq _ (weighted E Z) _ _ _ r1 (no_discard (interval TU32 0xE000 0x10FFFF), w_rear) r1) by reflexivity. cbv beta. cbn [fst snd].
    destruct (coin_total E r1) as [_ [b [r2 Hb]]]. rewrite (gbind_eq _ _ _ _ _ _ _ _ Hb). cbv beta.
    destruct b; [|apply IH]. destruct fuel as [|fuel]; [right; reflexivity|]. cbn [retry].
    destruct (range_total E r2) as [_ [t [r3 Ht]]]. rewrite (gbind_eq _ _ _ _ _ _ _ _ Ht). cbv beta. left. eexists _, _. reflexivity.
Qed.

(** Every scalar value other than NUL can come up. *)
Theorem C55_unicode_covers : forall c, scalar c -> c <> 0 ->
  exists fuel r t r', unicodeGen (E := replay) fuel r = Ok (t, r') /\ root t = c.
Proof.
  intros c Hc H0. exists 2%nat.
  assert (Hnr : forall a b, ~ reversed_char TU32 a b) by (intros a b [Hx _]; discriminate).
  assert (Hr0 : 0 = tmin TU32 /\ tmax TU32 = 4294967295) by (split; reflexivity). destruct Hr0 as [T0 T1].
  destruct (Z.leb_spec c 0xD7FF).
  - destruct (value_reachable TU32 0x1 0xD7FF c ltac:(lia) ltac:(destruct Hc; lia) ltac:(lia) (Hnr _ _)) as [r [t [r' [Hg Hr]]]].
    exists (0 :: 0 :: r), t, r'. split; auto. rewrite unicodeGen_eq. cbn [oneOfLoop].
    rewrite (gbind_eq replay _ _ _ _ (0 :: 0 :: r : rst replay) 0 (0 :: r : rst replay)) by (vm_compute; reflexivity). cbv beta.
    rewrite (gbind_eq replay (weighted replay Z) _ _ _ _ (no_discard (interval TU32 0x1 0xD7FF), w_front) (0 :: r : rst replay)) by reflexivity. cbv beta.
    cbn [fst snd]. rewrite (gbind_eq replay _ _ _ _ _ true (r : rst replay)) by (vm_compute; reflexivity). cbv beta.
    cbn [retry]. assert (Hn : no_discard (interval TU32 0x1 0xD7FF) r = Ok (Some t, r')).
    { unfold no_discard, interval. rewrite (gbind_eq _ _ _ _ _ _ _ _ Hg). cbv beta. reflexivity. }
    rewrite (gbind_eq _ _ _ _ _ _ _ _ Hn). cbv beta. reflexivity.
  - destruct (value_reachable TU32 0xE000 0x10FFFF c ltac:(lia) ltac:(destruct Hc; lia) ltac:(lia) (Hnr _ _)) as [r [t [r' [Hg Hr]]]].
    exists (1 :: 0 :: r), t, r'. split; auto. rewrite unicodeGen_eq. cbn [oneOfLoop].
    rewrite (gbind_eq replay _ _ _ _ (1 :: 0 :: r : rst replay) 1 (0 :: r : rst replay)) by (vm_compute; reflexivity). cbv beta.
    rewrite (gbind_eq replay (weighted replay Z) _ _ _ _ (no_discard (interval TU32 0xE000 0x10FFFF), w_rear) (0 :: r : rst replay)) by reflexivity. cbv beta.
    cbn [fst snd]. rewrite (gbind_eq replay _ _ _ _ _ true (r : rst replay)) by (vm_compute; reflexivity). cbv beta.
    cbn [retry]. assert (Hn : no_discard (interval TU32 0xE000 0x10FFFF) r = Ok (Some t, r')).
    { unfold no_discard, interval. rewrite (gbind_eq _ _ _ _ _ _ _ _ Hg). cbv beta. reflexivity. }
    rewrite (gbind_eq _ _ _ _ _ _ _ _ Hn). cbv beta. reflexivity.
Qed.

(* a string of two characters from recorded random numbers: the size 2, then 0x41 from the first range and
   0xE00A from the second *)
Example C55_ex : exists t r', arbi_encoded utf16be_coding (unicodeGen 5) {| minSize := 0; maxSize := 3 |}
    ([2; 0; 0; 0x41; 1; 0; 0xE00A] : rst replay) = Ok (t, r') /\ root t = [0; 0x41; 0xE0; 0x0A] /\
    utf16be_charsize (root t) = Ok 2.
Proof.
  destruct (arbi_encoded utf16be_coding (unicodeGen 5) {| minSize := 0; maxSize := 3 |}
    ([2; 0; 0; 0x41; 1; 0; 0xE00A] : rst replay)) as [[t r']| | |] eqn:E; vm_compute in E; try discriminate.
  exists t, r'. split; auto. injection E as <- <-. split; reflexivity.
Qed.
Example C55_ex_rejects : exists r, arbi_encoded (E := replay) utf8_coding (just 0xDABC) {| minSize := 1; maxSize := 1 |} r = Throw ERuntime.
Proof. exists []. vm_compute. reflexivity. Qed.

Print Assumptions C20_shrinks.
Print Assumptions C20_shrinks_valid.
Print Assumptions C20_minimum_refuted.
Print Assumptions C55_generates.
Print Assumptions C55_rejects.
Print Assumptions C55_only_scalars.
Print Assumptions C55_utf16_rejects_refuted.
Print Assumptions C55_unicode.
Print Assumptions C55_unicode_safe.
Print Assumptions C55_unicode_covers.
