(** C52, C53, C54: encoding, decoding and validating UTF-8, CESU-8 and UTF-16. *)
From Coq Require Import List ZArith Lia Bool.
From Verif Require Import Base TreeModel BinSearchProof Utf8Model Cesu8Model Utf16Model UtfSpec UtfProof Utf16Proof.
Import ListNotations.
Local Open Scope Z_scope.

(** * C52: UTF-8 *)

(** Encoding appends the standard byte sequence. *)
Theorem C52_encode : forall c chars, scalar c -> encodeUTF8 c chars = Ok (chars ++ utf8 c).
Proof. intros. apply encodeUTF8_ok; auto. Qed.

(** Surrogates and values above 0x10FFFF are rejected; nothing else is. *)
Theorem C52_encode_rejects : forall c chars, 0 <= c -> (encodeUTF8 c chars = Throw ERuntime <-> ~ scalar c).
Proof.
  intros c chars H. split.
  - intros E Hc. rewrite encodeUTF8_ok in E by auto. discriminate.
  - intros Hc. apply encodeUTF8_rejects; auto.
Qed.

(** Decoding: the first character of the bytes if they start with an encoded character, and an exception if not. *)
Theorem C52_decode : forall l, Forall byte l ->
  (forall c, decodeUTF8 l = Ok c <-> scalar c /\ exists rest, l = utf8 c ++ rest) /\
  ((forall c rest, scalar c -> l <> utf8 c ++ rest) -> decodeUTF8 l = Throw ERuntime).
Proof. intros l. apply (decode_iff utf8 lead8 decodeUTF8 utf8_exact decodeUTF8_lead). Qed.

(** Validation reads inside the string, accepts exactly the encoded texts and counts their characters. *)
Theorem C52_valid : forall bs, Forall byte bs -> bsize bs < 2 ^ 31 ->
  exists valid numChars, isValidUTF8 bs = Ok (valid, numChars) /\
    (valid = true <-> exists cs, encodes utf8 cs bs) /\
    (forall cs, encodes utf8 cs bs -> numChars = Z.of_nat (length cs)).
Proof. apply (isValid_iff utf8 lead8 isValidUTF8Step utf8_exact step8_follows). Qed.

Theorem C52_charsize : forall bs, Forall byte bs -> bsize bs < 2 ^ 31 ->
  (forall cs, encodes utf8 cs bs -> utf8_charsize bs = Ok (Z.of_nat (length cs))) /\
  ((forall cs, ~ encodes utf8 cs bs) -> utf8_charsize bs = Throw ERuntime).
Proof. apply (charsize_iff utf8 lead8 isValidUTF8Step utf8_charsize utf8_exact step8_follows). reflexivity. Qed.

(** A byte string is the encoding of at most one text. *)
Theorem C52_unique : forall cs cs' bs, encodes utf8 cs bs -> encodes utf8 cs' bs -> cs = cs'.
Proof. apply (encodes_unique utf8 lead8 utf8_exact). Qed.

(** The counter is an int: a text of 2^31 characters or more overflows it. *)
Theorem C52_long_undefined : forall cs, Forall scalar cs -> 2 ^ 31 <= Z.of_nat (length cs) ->
  isValidUTF8 (flat_map utf8 cs) = UB.
Proof.
  intros cs Hc Hl. apply (isValidLoop_long utf8 lead8 isValidUTF8Step utf8_exact step8_follows cs _ [] 0); auto. lia.
Qed.

Example C52_ex : flat_map utf8 [0x24; 0xA2; 0x20AC; 0xD7FF; 0xE000; 0x10348; 0x10FFFF] =
  [0x24; 0xC2;0xA2; 0xE2;0x82;0xAC; 0xED;0x9F;0xBF; 0xEE;0x80;0x80; 0xF0;0x90;0x8D;0x88; 0xF4;0x8F;0xBF;0xBF] /\
  isValidUTF8 (flat_map utf8 [0x24; 0xA2; 0x20AC; 0x10348]) = Ok (true, 4) /\
  encodeUTF8 0x20AC [7] = Ok [7; 0xE2; 0x82; 0xAC] /\ encodeUTF8 0xDABC [] = Throw ERuntime /\
  decodeUTF8 [0xF0; 0x90; 0x8D; 0x88; 1] = Ok 0x10348.
Proof. repeat split; vm_compute; reflexivity. Qed.
(* overlong forms, surrogates, truncation and stray trailing bytes *)
Example C52_ex_invalid : map isValidUTF8 [[0xC0; 0xAF]; [0xE0; 0x9F; 0x80]; [0xED; 0xA0; 0x80]; [0xF4; 0x90; 0x80; 0x80]; [0x41; 0xE2; 0x82]; [0x80]] =
  [Ok (false, 0); Ok (false, 0); Ok (false, 0); Ok (false, 0); Ok (false, 1); Ok (false, 0)] /\
  Forall byte [0xE0; 0x9F; 0x80] /\ decodeUTF8 [0xE0; 0x9F; 0x80] = Throw ERuntime.
Proof. repeat split; try (vm_compute; reflexivity). repeat constructor; lia. Qed.
Example C52_ex_long : Forall scalar (repeat 65 (Z.to_nat (2 ^ 31))) /\ 2 ^ 31 <= Z.of_nat (length (repeat 65 (Z.to_nat (2 ^ 31)))).
Proof.
  split; [|rewrite repeat_length, Z2Nat.id by lia; lia].
  apply Forall_forall. intros x Hx. apply repeat_spec in Hx. subst. left. lia.
Qed.

(** * C53: CESU-8 *)

Theorem C53_encode : forall c chars, scalar c -> encodeCESU8 c chars = Ok (chars ++ cesu8 c).
Proof. intros. apply encodeCESU8_ok; auto. Qed.

Theorem C53_encode_rejects : forall c chars, 0 <= c -> (encodeCESU8 c chars = Throw ERuntime <-> ~ scalar c).
Proof.
  intros c chars H. split.
  - intros E Hc. rewrite encodeCESU8_ok in E by auto. discriminate.
  - intros Hc. apply encodeCESU8_rejects; auto.
Qed.

Theorem C53_decode : forall l, Forall byte l ->
  (forall c, decodeCESU8 l = Ok c <-> scalar c /\ exists rest, l = cesu8 c ++ rest) /\
  ((forall c rest, scalar c -> l <> cesu8 c ++ rest) -> decodeCESU8 l = Throw ERuntime).
Proof. intros l. apply (decode_iff cesu8 leadc decodeCESU8 cesu8_exact decodeCESU8_lead). Qed.

Theorem C53_valid : forall bs, Forall byte bs -> bsize bs < 2 ^ 31 ->
  exists valid numChars, isValidCESU8 bs = Ok (valid, numChars) /\
    (valid = true <-> exists cs, encodes cesu8 cs bs) /\
    (forall cs, encodes cesu8 cs bs -> numChars = Z.of_nat (length cs)).
Proof. apply (isValid_iff cesu8 leadc isValidCESU8Step cesu8_exact stepc_follows). Qed.

Theorem C53_charsize : forall bs, Forall byte bs -> bsize bs < 2 ^ 31 ->
  (forall cs, encodes cesu8 cs bs -> cesu8_charsize bs = Ok (Z.of_nat (length cs))) /\
  ((forall cs, ~ encodes cesu8 cs bs) -> cesu8_charsize bs = Throw ERuntime).
Proof. apply (charsize_iff cesu8 leadc isValidCESU8Step cesu8_charsize cesu8_exact stepc_follows). reflexivity. Qed.

Theorem C53_unique : forall cs cs' bs, encodes cesu8 cs bs -> encodes cesu8 cs' bs -> cs = cs'.
Proof. apply (encodes_unique cesu8 leadc cesu8_exact). Qed.

Theorem C53_long_undefined : forall cs, Forall scalar cs -> 2 ^ 31 <= Z.of_nat (length cs) ->
  isValidCESU8 (flat_map cesu8 cs) = UB.
Proof.
  intros cs Hc Hl. apply (isValidLoop_long cesu8 leadc isValidCESU8Step cesu8_exact stepc_follows cs _ [] 0); auto. lia.
Qed.

Example C53_ex : cesu8 0x10400 = [0xED; 0xA0; 0x81; 0xED; 0xB0; 0x80] /\
  encodeCESU8 0x10400 [9] = Ok [9; 0xED; 0xA0; 0x81; 0xED; 0xB0; 0x80] /\
  decodeCESU8 [0xED; 0xA0; 0x81; 0xED; 0xB0; 0x80; 0x41] = Ok 0x10400 /\
  isValidCESU8 ([0x41] ++ [0xED; 0xA0; 0x81; 0xED; 0xB0; 0x80]) = Ok (true, 2) /\
  isValidCESU8 (utf8 0x10400) = Ok (false, 0) /\ isValidCESU8 [0xED; 0xA0; 0x81] = Ok (false, 0) /\
  isValidCESU8 [0xED; 0xB0; 0x80; 0xED; 0xA0; 0x81] = Ok (false, 0).
Proof. repeat split; vm_compute; reflexivity. Qed.

(** * C54: UTF-16 *)

Lemma bmp_scalar : forall c, scalar c -> c < 0x10000 -> bmp c = true.
Proof.
  intros c H H1. unfold bmp. destruct (Z.leb_spec c 0xD7FF); auto. destruct (Z.leb_spec 0xE000 c), (Z.leb_spec c 0xFFFF); auto; destruct H; lia.
Qed.

Theorem C54_encode : forall c chars, scalar c ->
  encodeUTF16BE c chars = Ok (chars ++ utf16be c) /\ encodeUTF16LE c chars = Ok (chars ++ utf16le c).
Proof.
  intros c chars Hc. destruct (Z.ltb_spec c 0x10000) as [Hb|Hb].
  - apply encode16_bmp; [destruct Hc; lia|apply bmp_scalar; auto].
  - assert (Hn : bmp c = false).
    { unfold bmp. destruct (Z.leb_spec c 0xD7FF), (Z.leb_spec 0xE000 c), (Z.leb_spec c 0xFFFF); auto; lia. }
    assert (Hr : 0 <= c < 2 ^ 32) by (destruct Hc; lia).
    destruct (encode16_other c chars Hr Hn) as [E1 E2].
    assert (Hx : (c - 0x10000) mod 2 ^ 26 = c - 0x10000) by (apply Z.mod_small; destruct Hc; lia).
    rewrite Hx in E1, E2. destruct (Z.ltb_spec (c - 0x10000) (2 ^ 20)); [|destruct Hc; lia].
    rewrite E1, E2. replace (0x10000 + (c - 0x10000)) with c by lia. auto.
Qed.

(** Encoding rejects surrogates, but accepts every value that is a supplementary code point modulo 2^26, and
    encodes that code point. *)
Theorem C54_encode_rejects : forall c chars, 0 <= c < 2 ^ 32 ->
  let accepted := exists k, scalar (c - k * 2 ^ 26) /\ 0 <= k /\ (0 < k -> 0x10000 <= c - k * 2 ^ 26) in
  (encodeUTF16BE c chars = Throw ERuntime <-> ~ accepted) /\ (encodeUTF16LE c chars = Throw ERuntime <-> ~ accepted).
Proof.
  intros c chars Hr accepted.
  assert (A : accepted <-> bmp c = true \/ (c - 0x10000) mod 2 ^ 26 < 2 ^ 20).
  { unfold accepted, bmp, scalar. split.
    - intros [k [Hs [Hk Hk2]]]. destruct (Z.ltb_spec (c - k * 2 ^ 26) 0x10000).
      + left. assert (k = 0) by lia. subst k. rewrite Z.mul_0_l, Z.sub_0_r in *.
        destruct (Z.leb_spec c 0xD7FF), (Z.leb_spec 0xE000 c), (Z.leb_spec c 0xFFFF); auto; lia.
      + right. rewrite (Z.mod_eq _ (2 ^ 26)) by lia.
        assert ((c - 65536) / 2 ^ 26 = k); [|lia].
        symmetry. apply (Z.div_unique_pos _ _ _ (c - 65536 - k * 2 ^ 26)); lia.
    - intros [Hb|Hm].
      + exists 0. rewrite Z.mul_0_l, Z.sub_0_r. split; [|lia].
        destruct (Z.leb_spec c 0xD7FF), (Z.leb_spec 0xE000 c), (Z.leb_spec c 0xFFFF); try discriminate; lia.
      + destruct (Z.ltb_spec c 0x10000) as [Hc|Hc].
        * exfalso. assert ((c - 65536) mod 2 ^ 26 = c - 65536 + 2 ^ 26).
          { symmetry. apply (Z.mod_unique_pos _ _ (-1)); lia. } lia.
        * exists ((c - 65536) / 2 ^ 26). pose proof (Z.mod_eq (c - 65536) (2 ^ 26) ltac:(lia)).
          pose proof (Z.mod_pos_bound (c - 65536) (2 ^ 26) ltac:(lia)).
          assert (0 <= (c - 65536) / 2 ^ 26) by (apply Z.div_pos; lia). lia. }
  destruct (bmp c) eqn:Eb.
  - destruct (encode16_bmp c chars ltac:(lia) Eb) as [E1 E2]. rewrite E1, E2.
    split; (split; [discriminate|intros H; exfalso; apply H, A; auto]).
  - destruct (encode16_other c chars Hr Eb) as [E1 E2]. rewrite E1, E2.
    destruct (Z.ltb_spec ((c - 65536) mod 2 ^ 26) (2 ^ 20)).
    + split; (split; [discriminate|intros H0; exfalso; apply H0, A; auto]).
    + split; (split; [intros _ H0; apply A in H0; destruct H0; [discriminate|lia]|auto]).
Qed.

(** So "encoding rejects exactly the values that are not scalar" fails. *)
Theorem C54_encode_exact_refuted : ~ (forall c chars, 0 <= c < 2 ^ 32 -> ~ scalar c -> encodeUTF16BE c chars = Throw ERuntime).
Proof.
  intros H. assert (E : encodeUTF16BE 0x4010000 [] = Throw ERuntime).
  { apply H; [lia|]. unfold scalar. lia. }
  vm_compute in E. discriminate.
Qed.

(** Decoding gives the first character back. *)
Theorem C54_decode : forall c rest, scalar c -> Forall byte rest ->
  decodeUTF16BE (utf16be c ++ rest) = Ok c /\ decodeUTF16LE (utf16le c ++ rest) = Ok c.
Proof.
  intros c rest Hc Hr. destruct (utf16_lead c rest Hc) as [H1 H2]. destruct (utf16_bytes c Hc) as [B1 B2].
  split; [eapply (proj1 (decodeUTF16_lead _ _ _ _) H1)|eapply (proj2 (decodeUTF16_lead _ _ _ _) H2)].
  Unshelve. all: apply Forall_app; auto.
Qed.

(** Decoding reads inside the vector whatever the bytes are. *)
Theorem C54_decode_safe : forall l,
  ((exists c, decodeUTF16BE l = Ok c) \/ decodeUTF16BE l = Throw ERuntime) /\
  ((exists c, decodeUTF16LE l = Ok c) \/ decodeUTF16LE l = Throw ERuntime).
Proof. intros. split; [apply decodeUTF16_total|apply decodeUTF16LE_total]. Qed.

(** But it accepts bytes that do not start with an encoded character. *)
Theorem C54_decode_exact_refuted : ~ (forall l c, Forall byte l -> decodeUTF16BE l = Ok c ->
  exists c' rest, scalar c' /\ l = utf16be c' ++ rest).
Proof.
  intros H. destruct (H [0xDC; 0; 0; 0] 1057792) as [c' [rest [Hc E]]].
  - repeat constructor; lia.
  - vm_compute. reflexivity.
  - destruct (utf16_lead c' rest Hc) as [L _]. rewrite <- E in L. vm_compute in L. discriminate.
Qed.

Theorem C54_valid_be : forall bs, Forall byte bs -> bsize bs < 2 ^ 31 ->
  exists valid numChars, isValidUTF16BE bs = Ok (valid, numChars) /\
    (valid = true <-> exists cs, encodes utf16be cs bs) /\
    (forall cs, encodes utf16be cs bs -> numChars = Z.of_nat (length cs)).
Proof. apply (isValid_iff utf16be lead_be isValidUTF16BEStep utf16be_exact step_be_follows). Qed.

Theorem C54_valid_le : forall bs, Forall byte bs -> bsize bs < 2 ^ 31 ->
  exists valid numChars, isValidUTF16LE bs = Ok (valid, numChars) /\
    (valid = true <-> exists cs, encodes utf16le cs bs) /\
    (forall cs, encodes utf16le cs bs -> numChars = Z.of_nat (length cs)).
Proof. apply (isValid_iff utf16le lead_le isValidUTF16LEStep utf16le_exact step_le_follows). Qed.

Theorem C54_charsize_be : forall bs, Forall byte bs -> bsize bs < 2 ^ 31 ->
  (forall cs, encodes utf16be cs bs -> utf16be_charsize bs = Ok (Z.of_nat (length cs))) /\
  ((forall cs, ~ encodes utf16be cs bs) -> utf16be_charsize bs = Throw ERuntime).
Proof. apply (charsize_iff utf16be lead_be isValidUTF16BEStep utf16be_charsize utf16be_exact step_be_follows). reflexivity. Qed.

Theorem C54_charsize_le : forall bs, Forall byte bs -> bsize bs < 2 ^ 31 ->
  (forall cs, encodes utf16le cs bs -> utf16le_charsize bs = Ok (Z.of_nat (length cs))) /\
  ((forall cs, ~ encodes utf16le cs bs) -> utf16le_charsize bs = Throw ERuntime).
Proof. apply (charsize_iff utf16le lead_le isValidUTF16LEStep utf16le_charsize utf16le_exact step_le_follows). reflexivity. Qed.

Theorem C54_unique : forall cs cs' bs,
  (encodes utf16be cs bs -> encodes utf16be cs' bs -> cs = cs') /\ (encodes utf16le cs bs -> encodes utf16le cs' bs -> cs = cs').
Proof.
  intros. split; [apply (encodes_unique utf16be lead_be utf16be_exact)|apply (encodes_unique utf16le lead_le utf16le_exact)].
Qed.

Example C54_ex : utf16be 0x10437 = [0xD8; 0x01; 0xDC; 0x37] /\ utf16le 0x10437 = [0x01; 0xD8; 0x37; 0xDC] /\
  encodeUTF16BE 0x10437 [1] = Ok [1; 0xD8; 0x01; 0xDC; 0x37] /\ encodeUTF16LE 0x20AC [] = Ok [0xAC; 0x20] /\
  encodeUTF16LE 0xDABC [] = Throw ERuntime /\ encodeUTF16BE 0x4010437 [] = Ok [0xD8; 0x01; 0xDC; 0x37] /\
  isValidUTF16LE [0xAC; 0x20; 0x01; 0xD8; 0x37; 0xDC] = Ok (true, 2) /\
  isValidUTF16BE [0x20; 0xAC; 0x01] = Ok (false, 1) /\ isValidUTF16BE [0xDC; 0x37; 0xD8; 0x01] = Ok (false, 0) /\
  decodeUTF16LE [0x01; 0xD8; 0x37; 0xDC; 5] = Ok 0x10437.
Proof. repeat split; vm_compute; reflexivity. Qed.

Print Assumptions C52_encode.
Print Assumptions C52_encode_rejects.
Print Assumptions C52_decode.
Print Assumptions C52_valid.
Print Assumptions C52_charsize.
Print Assumptions C52_unique.
Print Assumptions C52_long_undefined.
Print Assumptions C53_encode.
Print Assumptions C53_encode_rejects.
Print Assumptions C53_decode.
Print Assumptions C53_valid.
Print Assumptions C53_charsize.
Print Assumptions C53_unique.
Print Assumptions C53_long_undefined.
Print Assumptions C54_encode.
Print Assumptions C54_encode_rejects.
Print Assumptions C54_encode_exact_refuted.
Print Assumptions C54_decode.
Print Assumptions C54_decode_safe.
Print Assumptions C54_decode_exact_refuted.
Print Assumptions C54_valid_be.
Print Assumptions C54_valid_le.
Print Assumptions C54_charsize_be.
Print Assumptions C54_charsize_le.
Print Assumptions C54_unique.
