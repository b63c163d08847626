(** C56, C60: printing of strings and of containers. *)
From Coq Require Import String Ascii List ZArith Bool Lia.
From Verif Require Import Base Utf8Model Cesu8Model Utf16Model PrintModel UtfSpec UtfProof Utf16Proof PrintSpec PrintProof ShowProof.
Import ListNotations.
Local Open Scope Z_scope.

(** ** C56: strings *)

(** The hexadecimal dump is the bytes in order, and determines them. *)
Theorem C56_dump : forall l, Forall byte l -> stringAsHex l = dump l.
Proof. exact stringAsHex_ok. Qed.

Theorem C56_dump_injective : forall a b, Forall byte a -> Forall byte b -> stringAsHex a = stringAsHex b -> a = b.
Proof. intros a b Ha Hb E. rewrite !stringAsHex_ok in E by auto. apply dump_inj; auto. Qed.

Example C56_dump_ex : stringAsHex [0x48; 0; 0xff; 0x0a] = lit "48 00 ff 0a".
Proof. reflexivity. Qed.

(** Printing a UTF-8 or CESU-8 string writes each of its characters, escaped where needed. *)
Theorem C56_utf8_text : forall cs, Forall scalar cs -> printUTF8 (flat_map utf8 cs) = Ok (flat_map esc8 cs).
Proof.
  intros cs Hc. destruct (printUTF8_tokens (flat_map utf8 cs)) as [ts [_ [_ [-> U]]]].
  - apply encode_bytes; auto. apply utf8_bytes.
  - rewrite (U cs) by (split; auto). f_equal. rewrite flat_map_concat_map, map_map, <- flat_map_concat_map. auto.
Qed.

Theorem C56_cesu8_text : forall cs, Forall scalar cs -> printCESU8 (flat_map cesu8 cs) = Ok (flat_map esc8 cs).
Proof.
  intros cs Hc. destruct (printCESU8_tokens (flat_map cesu8 cs)) as [ts [_ [_ [-> U]]]].
  - apply encode_bytes; auto. apply cesu8_bytes.
  - rewrite (U cs) by (split; auto). f_equal. rewrite flat_map_concat_map, map_map, <- flat_map_concat_map. auto.
Qed.

Theorem C56_utf16be_text : forall cs, Forall scalar cs -> printUTF16BE (flat_map utf16be cs) = Ok (flat_map esc16 cs).
Proof.
  intros cs Hc. apply (loop16_text 0 _ be_step16 ltac:(lia) cs _ [] Hc).
  apply Nat.le_refl.
Qed.

Theorem C56_utf16le_text : forall cs, Forall scalar cs -> printUTF16LE (flat_map utf16le cs) = Ok (flat_map esc16 cs).
Proof.
  intros cs Hc. apply (loop16_text 1 _ le_step16 ltac:(lia) cs _ [] Hc).
  apply Nat.le_refl.
Qed.

Example C56_text_ex : let cs := [0x41; 0x5c; 0x0a; 0xe9; 0x20ac; 0x1f600] in Forall scalar cs /\
  printUTF8 (flat_map utf8 cs) = Ok (lit "A\\\x0a\u00e9\u20ac\U01f600") /\
  printCESU8 (flat_map cesu8 cs) = Ok (lit "A\\\x0a\u00e9\u20ac\U01f600") /\
  printUTF16BE (flat_map utf16be cs) = Ok (lit "A\\\u000a\u00e9\u20ac\U01f600") /\
  printUTF16LE (flat_map utf16le cs) = Ok (lit "A\\\u000a\u00e9\u20ac\U01f600").
Proof. cbv zeta. split; [repeat constructor; unfold scalar; lia|]. repeat split; vm_compute; reflexivity. Qed.

(** Printing any byte string as UTF-8 or CESU-8, valid or not, reads nothing outside it and always ends, and what is
    printed determines the bytes. *)
Theorem C56_utf8_total : forall l, Forall byte l -> exists t, printUTF8 l = Ok t.
Proof. intros l Hl. destruct (printUTF8_tokens l Hl) as [ts [_ [_ [-> _]]]]. eauto. Qed.

Theorem C56_cesu8_total : forall l, Forall byte l -> exists t, printCESU8 l = Ok t.
Proof. intros l Hl. destruct (printCESU8_tokens l Hl) as [ts [_ [_ [-> _]]]]. eauto. Qed.

Theorem C56_utf8_injective : forall a b, Forall byte a -> Forall byte b -> printUTF8 a = printUTF8 b -> a = b.
Proof.
  intros a b Ha Hb E. destruct (printUTF8_tokens a Ha) as [ts [T [Ea [Pa _]]]], (printUTF8_tokens b Hb) as [us [U [Eb [Pb _]]]].
  rewrite Pa, Pb in E. injection E as E. apply toks_inj in E; auto. congruence.
Qed.

Theorem C56_cesu8_injective : forall a b, Forall byte a -> Forall byte b -> printCESU8 a = printCESU8 b -> a = b.
Proof.
  intros a b Ha Hb E. destruct (printCESU8_tokens a Ha) as [ts [T [Ea [Pa _]]]], (printCESU8_tokens b Hb) as [us [U [Eb [Pb _]]]].
  rewrite Pa, Pb in E. injection E as E. apply toks_inj in E; auto. congruence.
Qed.

Example C56_invalid_ex : printUTF8 [0xe2; 0x82; 0x41; 0xff] = Ok (lit "\xe2\x82A\xff") /\
  printUTF8 [0xe2; 0x82] = Ok (lit "\xe2\x82").
Proof. split; vm_compute; reflexivity. Qed.

(** Printing bytes as UTF-16 is defined exactly when they are whole 16-bit units in which every surrogate is followed by
    another unit; otherwise it reads outside the vector. *)
Theorem C56_utf16be_defined : forall l,
  (whole16 0 l /\ exists t, printUTF16BE l = Ok t) \/ (~ whole16 0 l /\ printUTF16BE l = UB).
Proof. intros l. apply (loop16 0 _ be_step16 (length l) [] l). auto. Qed.

Theorem C56_utf16le_defined : forall l,
  (whole16 1 l /\ exists t, printUTF16LE l = Ok t) \/ (~ whole16 1 l /\ printUTF16LE l = UB).
Proof. intros l. apply (loop16 1 _ le_step16 (length l) [] l). auto. Qed.

(** Hence every string of odd length is printed with undefined behaviour. *)
Theorem C56_utf16_odd_refuted : forall l, Nat.odd (length l) = true -> printUTF16BE l = UB /\ printUTF16LE l = UB.
Proof.
  assert (O : forall hi l, whole16 hi l -> Nat.odd (length l) = false) by (intros hi l W; induction W; auto).
  intros l Hl. destruct (C56_utf16be_defined l) as [[W _]|[_ ->]], (C56_utf16le_defined l) as [[W' _]|[_ ->]]; auto;
    exfalso; try (apply O in W; congruence); apply O in W'; congruence.
Qed.

Example C56_whole_ex : whole16 0 [0; 0x41; 0xd8; 0; 0xdc; 0] /\ ~ whole16 0 [0; 0x41; 0xd8; 0] /\ printUTF16BE [0; 0x41; 0xd8; 0] = UB /\
  printUTF16LE [0x41; 0; 0x42] = UB.
Proof.
  split; [apply whole16_unit; [cbn; lia|]; apply whole16_pair; [cbn; lia|]; constructor|]. split.
  - intros W. inversion W as [|? ? ? N W'|? ? ? ? ? N W']; subst; [inversion W'; subst|]; cbn in *; lia.
  - split; vm_compute; reflexivity.
Qed.

(** The text alone does not determine a UTF-16 string with an unpaired surrogate. *)
Theorem C56_utf16_text_refuted : exists a b, Forall byte a /\ Forall byte b /\ a <> b /\ whole16 0 a /\ whole16 0 b /\
  printUTF16BE a = printUTF16BE b.
Proof.
  exists [0xd8; 0; 0xe0; 0], [0xd8; 1; 0xdc; 0]. repeat split; try (repeat constructor; unfold byte; lia); try discriminate.
  - apply whole16_pair; [cbn; lia|constructor].
  - apply whole16_pair; [cbn; lia|constructor].
Qed.

(** What show prints for a string determines the string, whatever its encoding. *)
Theorem C56_show_utf8 : forall a b, Forall byte a -> Forall byte b -> show_utf8 a = show_utf8 b -> a = b.
Proof.
  intros a b Ha Hb E. unfold show_utf8 in E.
  destruct (C56_utf8_total a Ha) as [t Et], (C56_utf8_total b Hb) as [u Eu]. rewrite Et, Eu in E. cbn [bind] in E. assert (E' : quoted t a = quoted u b) by congruence. clear E. rename E' into E.
  refine (proj1 (quoted_right [] [] t u a b Ha Hb _ E)). intros Eab. rewrite Eab in Et. congruence.
Qed.

Theorem C56_show_cesu8 : forall a b, Forall byte a -> Forall byte b -> show_cesu8 a = show_cesu8 b -> a = b.
Proof.
  intros a b Ha Hb E. unfold show_cesu8 in E.
  destruct (C56_cesu8_total a Ha) as [t Et], (C56_cesu8_total b Hb) as [u Eu]. rewrite Et, Eu in E. cbn [bind] in E. assert (E' : quoted t a = quoted u b) by congruence. clear E. rename E' into E.
  refine (proj1 (quoted_right [] [] t u a b Ha Hb _ E)). intros Eab. rewrite Eab in Et. congruence.
Qed.

Theorem C56_show_utf16 : forall a b t, Forall byte a -> Forall byte b ->
  (show_utf16be a = Ok t -> show_utf16be b = Ok t -> a = b) /\ (show_utf16le a = Ok t -> show_utf16le b = Ok t -> a = b).
Proof.
  intros a b t Ha Hb. split; intros E1 E2; apply show_str_ok in E1; destruct E1 as [u [E1 ->]];
    apply show_str_ok in E2; destruct E2 as [v [E2 E]]; refine (proj1 (quoted_right [] [] u v a b Ha Hb _ E)); intros Eab; rewrite Eab in E1; congruence.
Qed.

Theorem C56_show_chars : forall a b, Forall byte a -> Forall byte b ->
  (show_chars a = show_chars b -> a = b) /\ (show_cstr a = show_cstr b -> a = b).
Proof.
  intros a b Ha Hb. split; intros E.
  - unfold show_chars in E. refine (proj1 (quoted_right [] [] _ _ a b Ha Hb _ E)). intros ->. auto.
  - unfold show_cstr in E. rewrite !app_assoc in E. apply app_inv_tail in E. apply app_inv_head in E.
    apply C56_dump_injective; auto.
Qed.

Example C56_show_ex : show_utf8 [0x41; 0xc3; 0xa9] = Ok (lit """A\u00e9"" (41 c3 a9)") /\ show_utf16be [0; 0x41] = Ok (lit """A"" (00 41)") /\
  show_chars [0x41; 7] = lit """A\x07"" (41 07)" /\ show_cstr [0x41; 0x42] = lit "(41 42)" /\ show_utf8 [] = Ok (lit """"" ()").
Proof. repeat split; vm_compute; reflexivity. Qed.

(** ** C60: numbers and containers *)

(** The decimal text of an integer stands for that integer. *)
Theorem C60_decimal : forall n, read_dec (dec n) = n.
Proof. exact dec_read. Qed.

Example C60_decimal_ex : dec (-9223372036854775808) = lit "-9223372036854775808" /\ dec 0 = lit "0" /\ dec 255 = lit "255".
Proof. repeat split; vm_compute; reflexivity. Qed.

(** Every value of a type built from booleans, integers, strings, pairs, tuples, vectors, lists, sets of integers, maps,
    shared_ptr and Nullable is printed without undefined behaviour. *)
Theorem C60_total : forall t a, good t a -> exists x, show t a = Ok x.
Proof. exact (proj1 show_total). Qed.

(** ... and the text determines the value, if no pointer type points to a pointer type. *)
Theorem C60_injective : forall t a b x, plain t -> good t a -> good t b -> show t a = Ok x -> show t b = Ok x -> a = b.
Proof.
  intros t a b x P Ga Gb Ea Eb. destruct (proj1 show_right t P) as [[_ RI] _].
  apply (RI a b x x [] [] (conj Ga Ea) (conj Gb Eb)); auto; left; auto.
Qed.

(** Two printed values side by side, as in the arguments reported for a failure, are told apart as well. *)
Theorem C60_arguments : forall t u a b a' b' x, plain t -> plain u -> good t a -> good t a' -> good u b -> good u b' ->
  show (TTuple t (TCons u TNil)) (a, (b, tt)) = Ok x -> show (TTuple t (TCons u TNil)) (a', (b', tt)) = Ok x -> a = a' /\ b = b'.
Proof.
  intros t u a b a' b' x P Q G1 G2 G3 G4 E1 E2.
  pose proof (C60_injective (TTuple t (TCons u TNil)) (a, (b, tt)) (a', (b', tt)) x) as X. cbn in X.
  specialize (X (conj P (conj Q I)) (conj G1 (conj G3 I)) (conj G2 (conj G4 I)) E1 E2). injection X. auto.
Qed.

Example C60_ex : let t := TTuple (TSeq TInt) (TCons (TMap TInt TStr) (TCons (TPtr (TPair TBool TInt)) TNil)) in
  plain t /\ exists a, good t a /\
    show t a = Ok (lit "{ [ 1, -20 ], { ( 3, ""a"" (61) ), ( 4, """" () ) }, (null) }").
Proof.
  cbv zeta. split; [cbn; tauto|]. refine (ex_intro _ (([1; -20], ([(3, [97]); (4, [])], (@None (bool * Z), tt))) : list Z * (list (Z * list Z) * (option (bool * Z) * unit))) _). split.
  - cbn. assert (byte 97) by (unfold byte; lia). repeat (assumption || split || constructor).
  - vm_compute. reflexivity.
Qed.

Example C60_empty_ex : show (TSeq TInt) [] = Ok (lit "[  ]") /\ show (TPtr (TPair TBool TInt)) (Some (true, 5)) = Ok (lit "( true, 5 )") /\
  show TSetInt [1; 2; 3] = Ok (lit "{ 1, 2, 3 }").
Proof. repeat split; vm_compute; reflexivity. Qed.

(** A pointer to a null pointer and a null pointer are printed alike. *)
Theorem C60_nested_null_refuted : exists a b, a <> b /\ show (TPtr (TPtr TInt)) a = show (TPtr (TPtr TInt)) b.
Proof. refine (ex_intro _ (@None (option Z)) (ex_intro _ (Some (@None Z)) _)). split; [discriminate|reflexivity]. Qed.

(** A set of strings prints its elements raw (printing.hpp:219-225 uses [os <<] and not show), so the text does not
    determine the set. *)
Theorem C60_string_set_refuted : exists a b : list (list Z), a <> b /\ Forall (Forall byte) a /\ Forall (Forall byte) b /\
  NoDup a /\ NoDup b /\ show_braced a = show_braced b.
Proof.
  exists [lit "a, b"], [lit "a"; lit "b"]. split; [discriminate|].
  split; [repeat (constructor; [repeat (constructor; [unfold byte; cbn; lia|]); constructor|]); constructor|].
  split; [repeat (constructor; [repeat (constructor; [unfold byte; cbn; lia|]); constructor|]); constructor|].
  split; [repeat constructor; cbn; tauto|]. split; [repeat constructor; cbn; intuition discriminate|reflexivity].
Qed.

Print Assumptions C56_dump.
Print Assumptions C56_dump_injective.
Print Assumptions C56_utf8_text.
Print Assumptions C56_cesu8_text.
Print Assumptions C56_utf16be_text.
Print Assumptions C56_utf16le_text.
Print Assumptions C56_utf8_total.
Print Assumptions C56_cesu8_total.
Print Assumptions C56_utf8_injective.
Print Assumptions C56_cesu8_injective.
Print Assumptions C56_utf16be_defined.
Print Assumptions C56_utf16le_defined.
Print Assumptions C56_utf16_odd_refuted.
Print Assumptions C56_utf16_text_refuted.
Print Assumptions C56_show_utf8.
Print Assumptions C56_show_cesu8.
Print Assumptions C56_show_utf16.
Print Assumptions C56_show_chars.
Print Assumptions C60_decimal.
Print Assumptions C60_total.
Print Assumptions C60_injective.
Print Assumptions C60_arguments.
Print Assumptions C60_nested_null_refuted.
Print Assumptions C60_string_set_refuted.
