From Coq Require Import List ZArith Lia Bool Arith.
From Verif Require Import Base TreeModel BinSearchProof Utf8Model Cesu8Model Utf16Model UtfSpec UtfProof.
Import ListNotations.
Local Open Scope Z_scope.

(** ** CESU-8 *)

Definition leadc (l : list Z) : option (Z * nat) :=
  match l with
  | [] => None
  | c :: r =>
    if c <=? 0x7f then Some (c, 1%nat) else
    match r with
    | [] => None
    | c1 :: r1 =>
      if ib 0xc2 c 0xdf then if ib 0x80 c1 0xbf then Some (0x80 + (c - 0xc2) * 64 + (c1 - 0x80), 2%nat) else None else
      match r1 with
      | [] => None
      | c2 :: r2 =>
        if 0xe0 =? c then
          if ib 0xa0 c1 0xbf && ib 0x80 c2 0xbf then Some (0x800 + (c1 - 0xa0) * 64 + (c2 - 0x80), 3%nat) else None
        else if ib 0xe1 c 0xec then
          if ib 0x80 c1 0xbf && ib 0x80 c2 0xbf
          then Some (0x1000 + (c - 0xe1) * 4096 + (c1 - 0x80) * 64 + (c2 - 0x80), 3%nat) else None
        else if 0xed =? c then
          if ib 0x80 c1 0x9f && ib 0x80 c2 0xbf then Some (0xD000 + (c1 - 0x80) * 64 + (c2 - 0x80), 3%nat)
          else match r2 with
               | c3 :: c4 :: c5 :: _ =>
                 if ib 0xa0 c1 0xaf && (ib 0x80 c2 0xbf && (ib 0xed c3 0xed && (ib 0xb0 c4 0xbf && ib 0x80 c5 0xbf)))
                 then Some (0x10000 + ((c1 - 0xa0) * 64 + (c2 - 0x80)) * 1024 + ((c4 - 0xb0) * 64 + (c5 - 0x80)), 6%nat)
                 else None
               | _ => None
               end
        else if ib 0xee c 0xef then
          if ib 0x80 c1 0xbf && ib 0x80 c2 0xbf
          then Some (0xE000 + (c - 0xee) * 4096 + (c1 - 0x80) * 64 + (c2 - 0x80), 3%nat) else None
        else None
      end
    end
  end.

Lemma cesu8_bmp : forall c, c < 0x10000 -> cesu8 c = utf8 c.
Proof.
  intros. unfold cesu8, utf16_units. destruct (Z.ltb_spec c 0x10000); [|lia]. cbn [flat_map]. apply app_nil_r.
Qed.

Lemma cesu8_pair : forall a b c d, 0 <= a < 16 -> 0 <= b < 64 -> 0 <= c < 16 -> 0 <= d < 64 ->
  cesu8 (0x10000 + (a * 64 + b) * 1024 + (c * 64 + d)) = [237; 160 + a; 128 + b; 237; 176 + c; 128 + d].
Proof.
  intros. set (x := 0x10000 + (a * 64 + b) * 1024 + (c * 64 + d)).
  assert (Ex : x = 0x10000 + (a * 64 + b) * 1024 + (c * 64 + d)) by reflexivity.
  unfold cesu8, utf16_units. destruct (Z.ltb_spec x 0x10000); [lia|]. cbn [flat_map].
  rewrite (div_is _ 1024 (a * 64 + b) (c * 64 + d)), (mod_is _ 1024 (a * 64 + b) (c * 64 + d)) by lia.
  replace (0xD800 + (a * 64 + b)) with ((13 * 64 + (32 + a)) * 64 + b) by lia.
  replace (0xDC00 + (c * 64 + d)) with ((13 * 64 + (48 + c)) * 64 + d) by lia.
  rewrite !utf8_3 by lia. cbn [app]. repeat (apply cons_eq; [lia|]). auto.
Qed.

Lemma supp_digits : forall c, 0x10000 <= c <= 0x10FFFF -> exists a b d e, 0 <= a < 16 /\ 0 <= b < 64 /\ 0 <= d < 16 /\ 0 <= e < 64 /\
  c = 0x10000 + (a * 64 + b) * 1024 + (d * 64 + e).
Proof.
  intros c H. exists ((c - 0x10000) / 65536), ((c - 0x10000) / 1024 mod 64), ((c - 0x10000) mod 1024 / 64), ((c - 0x10000) mod 64).
  Z.div_mod_to_equations. lia.
Qed.

Lemma cesu8_lead : forall c rest, scalar c -> leadc (cesu8 c ++ rest) = Some (c, length (cesu8 c)).
Proof.
  intros c rest H. destruct (Z_lt_le_dec c 0x10000) as [L|L].
  - rewrite !cesu8_bmp by auto. unfold scalar in H. assert (H0 : 0 <= c) by lia.
    destruct (digits64 c H0) as [e [d [b [a [Ec [Ha [Hb [Hd [He [E1 [E2 [E3 [E4 [E5 E6]]]]]]]]]]]]]].
    unfold utf8, trail. rewrite E1, E2, E3, E4. assert (e = 0) by lia. subst e.
    destruct (Z.ltb_spec c 0x80); [|destruct (Z.ltb_spec c 0x800); [|destruct (Z.ltb_spec c 0x10000); [|lia]]]; cbn [app length leadc].
    + repeat decide_ib. auto.
    + rewrite E5. assert (d = 0) by lia. subst d. repeat decide_ib. f_equal. f_equal. lia.
    + rewrite E6. repeat decide_ib; f_equal; f_equal; lia.
  - unfold scalar in H. destruct (supp_digits c ltac:(lia)) as [a [b [d [e [Ha [Hb [Hd [He Ec]]]]]]]].
    rewrite Ec, cesu8_pair by auto. cbn [app length leadc]. repeat decide_ib. f_equal. f_equal. lia.
Qed.

Ltac finish3c c0 c1 c2 :=
  split; [unfold scalar; lia|]; replace 3%nat with (length [c0; c1; c2]) by reflexivity;
  match goal with |- context [cesu8 ?x] =>
    rewrite (cesu8_bmp x) by lia;
    replace (utf8 x) with [c0; c1; c2];
      [split; [auto|eexists; reflexivity]
      |replace x with (((c0 - 224) * 64 + (c1 - 128)) * 64 + (c2 - 128)) by lia; rewrite utf8_3 by lia;
       repeat f_equal; lia]
  end.

Lemma lead_cesu8 : forall l c n, Forall byte l -> leadc l = Some (c, n) ->
  scalar c /\ n = length (cesu8 c) /\ exists rest, l = cesu8 c ++ rest.
Proof.
  intros l c n Hb. destruct l as [|c0 l]; [discriminate|]. inversion Hb as [|? ? B0 Hb1]; subst. unfold byte in B0.
  cbn [leadc]. destruct (Z.leb_spec c0 0x7f).
  - intros E. apply some_pair in E; destruct E as [<- <-]. split; [unfold scalar; lia|]. rewrite cesu8_bmp, utf8_1 by lia.
    split; auto. exists l. auto.
  - destruct l as [|c1 l]; [discriminate|]. inversion Hb1 as [|? ? B1 Hb2]; subst. unfold byte in B1.
    destruct (ib_spec 0xc2 c0 0xdf).
    + destruct (ib_spec 0x80 c1 0xbf); [|discriminate]. intros E. apply some_pair in E; destruct E as [<- <-].
      split; [unfold scalar; lia|]. replace (0x80 + (c0 - 0xc2) * 64 + (c1 - 0x80)) with ((c0 - 192) * 64 + (c1 - 128)) by lia.
      rewrite cesu8_bmp, utf8_2 by lia. split; auto. exists l. cbn [app]. repeat f_equal; lia.
    + destruct l as [|c2 l]; [discriminate|]. inversion Hb2 as [|? ? B2 Hb3]; subst. unfold byte in B2.
      destruct (Z.eqb_spec 0xe0 c0).
      { destruct (ib_spec 0xa0 c1 0xbf), (ib_spec 0x80 c2 0xbf); cbn [andb]; try discriminate.
        intros E. apply some_pair in E; destruct E as [<- <-]. finish3c c0 c1 c2. }
      destruct (ib_spec 0xe1 c0 0xec).
      { destruct (ib_spec 0x80 c1 0xbf), (ib_spec 0x80 c2 0xbf); cbn [andb]; try discriminate.
        intros E. apply some_pair in E; destruct E as [<- <-]. finish3c c0 c1 c2. }
      destruct (Z.eqb_spec 0xed c0).
      { destruct (ib 0x80 c1 0x9f && ib 0x80 c2 0xbf) eqn:Eb.
        - apply andb_true_iff in Eb. destruct Eb as [Eb1 Eb2].
          destruct (ib_spec 0x80 c1 0x9f); [|discriminate]. destruct (ib_spec 0x80 c2 0xbf); [|discriminate].
          intros E. apply some_pair in E; destruct E as [<- <-]. finish3c c0 c1 c2.
        - clear Eb. destruct l as [|c3 [|c4 [|c5 l]]]; try discriminate.
          destruct (ib_spec 0xa0 c1 0xaf), (ib_spec 0x80 c2 0xbf), (ib_spec 0xed c3 0xed), (ib_spec 0xb0 c4 0xbf),
            (ib_spec 0x80 c5 0xbf); cbn [andb]; try discriminate.
          intros E. apply some_pair in E; destruct E as [<- <-]. split; [unfold scalar; lia|].
          rewrite cesu8_pair by lia. split; auto. exists l. cbn [app]. repeat (apply cons_eq; [lia|]). auto. }
      destruct (ib_spec 0xee c0 0xef); [|discriminate].
      destruct (ib_spec 0x80 c1 0xbf), (ib_spec 0x80 c2 0xbf); cbn [andb]; try discriminate.
      intros E. apply some_pair in E; destruct E as [<- <-]. finish3c c0 c1 c2.
Qed.

Lemma cesu8_exact : exact_lead cesu8 leadc.
Proof.
  split.
  - apply cesu8_lead.
  - apply lead_cesu8.
  - intros c _. unfold cesu8, utf16_units. destruct (_ <? _); cbn [flat_map]; unfold utf8; repeat destruct (_ <? _); discriminate.
  - auto.
Qed.

Lemma inb_4 : forall lo c c1 c2 c3 c4 r hi, inb lo (c :: c1 :: c2 :: c3 :: c4 :: r) 4 hi = Ok (ib lo c4 hi).
Proof. auto. Qed.
Lemma inb_5 : forall lo c c1 c2 c3 c4 c5 r hi, inb lo (c :: c1 :: c2 :: c3 :: c4 :: c5 :: r) 5 hi = Ok (ib lo c5 hi).
Proof. auto. Qed.

Lemma pairAt_app : forall pre suf, surrogatePairAt (pre ++ suf) (bsize pre) = surrogatePairAt suf 0.
Proof. intros. unfold surrogatePairAt. rewrite !inb_app by lia. auto. Qed.

Lemma pairAt_ok : forall c c1 c2 c3 c4 c5 r, surrogatePairAt (c :: c1 :: c2 :: c3 :: c4 :: c5 :: r) 0 =
  Ok (ib 0xa0 c1 0xaf && (ib 0x80 c2 0xbf && (ib 0xed c3 0xed && (ib 0xb0 c4 0xbf && ib 0x80 c5 0xbf)))).
Proof.
  intros. unfold surrogatePairAt. cbn [Z.add]. rewrite inb_1, inb_2, inb_3, inb_4, inb_5, !band_ok. auto.
Qed.

Lemma stepc_follows : step_follows isValidCESU8Step leadc.
Proof.
  intros pre suf Hs. destruct suf as [|c suf]; [congruence|]. clear Hs. unfold isValidCESU8Step.
  rewrite pairAt_app, idx_app0, !bsize_app, !gtb_shift, !inb_app by lia. change (idx (c :: suf) 0) with (Ok c). cbn [bind leadc].
  destruct (c <=? 0x7f); [f_equal; f_equal; lia|].
  destruct suf as [|c1 suf]; [auto|]. pose proof (bsize_nonneg suf) as N.
  rewrite (gtb_false 2) by (sizes; lia). rewrite !inb_1. cbn [bind].
  fold (ib 0xc2 c 0xdf). destruct (ib 0xc2 c 0xdf).
  { destruct (ib 0x80 c1 0xbf); auto. f_equal. f_equal. lia. }
  destruct suf as [|c2 suf]; [auto|]. pose proof (bsize_nonneg suf) as N2.
  rewrite (gtb_false 3) by (sizes; lia). rewrite !inb_2, !band_ok. cbn [bind].
  destruct (0xe0 =? c). { destruct (_ && _); auto. f_equal. f_equal. lia. }
  fold (ib 0xe1 c 0xec). destruct (ib 0xe1 c 0xec). { destruct (_ && _); auto. f_equal. f_equal. lia. }
  destruct (0xed =? c).
  { destruct (_ && _). f_equal. f_equal. lia.
    destruct suf as [|c3 [|c4 [|c5 suf]]]; try (rewrite gtb_true by (sizes; lia); reflexivity).
    pose proof (bsize_nonneg suf) as N3. rewrite (gtb_false 6) by (sizes; lia). rewrite pairAt_ok. cbn [bind].
    destruct (_ && (_ && _)); auto. f_equal. f_equal. lia. }
  fold (ib 0xee c 0xef). destruct (ib 0xee c 0xef); auto. destruct (_ && _); auto. f_equal. f_equal. lia.
Qed.

Lemma land_3ff : forall c, Z.land c 0x3ff = c mod 1024.
Proof. intros. change 0x3ff with (Z.ones 10). rewrite Z.land_ones by lia. auto. Qed.
Lemma land_ff : forall c, Z.land c 0xff = c mod 256.
Proof. intros. change 0xff with (Z.ones 8). rewrite Z.land_ones by lia. auto. Qed.
Lemma shr8 : forall c, Z.shiftr c 8 = c / 256.
Proof. intros. rewrite Z.shiftr_div_pow2 by lia. auto. Qed.
Lemma shr10 : forall c, Z.shiftr c 10 = c / 1024.
Proof. intros. rewrite Z.shiftr_div_pow2 by lia. auto. Qed.
Lemma shl8 : forall c, Z.shiftl c 8 = c * 256.
Proof. intros. rewrite Z.shiftl_mul_pow2 by lia. auto. Qed.
Lemma shl10 : forall c, Z.shiftl c 10 = c * 1024.
Proof. intros. rewrite Z.shiftl_mul_pow2 by lia. auto. Qed.

Lemma pairCode_ok : forall c1 c2 c4 c5, 0xa0 <= c1 <= 0xaf -> 0x80 <= c2 <= 0xbf -> 0xb0 <= c4 <= 0xbf -> 0x80 <= c5 <= 0xbf ->
  pairCode 0xed c1 c2 0xed c4 c5 = 0x10000 + ((c1 - 0xa0) * 64 + (c2 - 0x80)) * 1024 + ((c4 - 0xb0) * 64 + (c5 - 0x80)).
Proof.
  intros. unfold pairCode. rewrite !land_3ff, shl10.
  set (h := 0xD800 + _ + _ + _). set (l := 0xDC00 + _ + _ + _).
  assert (Eh : h = 0xD800 + ((c1 - 0xa0) * 64 + (c2 - 0x80))) by (unfold h; lia).
  assert (El : l = 0xDC00 + ((c4 - 0xb0) * 64 + (c5 - 0x80))) by (unfold l; lia).
  rewrite (wrapU_small 16 h), (wrapU_small 16 l) by lia.
  rewrite (mod_is h 1024 54 ((c1 - 0xa0) * 64 + (c2 - 0x80))), (mod_is l 1024 55 ((c4 - 0xb0) * 64 + (c5 - 0x80))) by lia.
  apply wrapU_small. lia.
Qed.

Lemma decodeCESU8_lead : forall l, Forall byte l ->
  decodeCESU8 l = match leadc l with Some (c, _) => Ok c | None => Throw ERuntime end.
Proof.
  intros l Hb. assert (W : forall c n, leadc l = Some (c, n) -> wrapU 32 c = c).
  { intros c n E. apply lead_cesu8 in E; auto. destruct E as [E _]. unfold scalar in E. apply wrapU_small. lia. }
  destruct l as [|c l]; [auto|]. unfold decodeCESU8. pose proof (bsize_nonneg l) as N.
  destruct (Z.ltb_spec 0 (bsize (c :: l))); [|sizes; lia].
  change (idx (c :: l) 0) with (Ok c). cbn [bind]. cbn [leadc] in *.
  destruct (c <=? 0x7f). { rewrite (W _ _ eq_refl). auto. }
  destruct l as [|c1 l]; [auto|]. pose proof (bsize_nonneg l) as N1.
  rewrite (gtb_false 2) by (sizes; lia). rewrite !inb_1. change (idx (c :: c1 :: l) 1) with (Ok c1). cbn [bind].
  fold (ib 0xc2 c 0xdf). destruct (ib 0xc2 c 0xdf).
  { destruct (ib 0x80 c1 0xbf); auto. f_equal. rewrite <- (W _ _ eq_refl). f_equal; lia. }
  destruct l as [|c2 l]; [auto|]. pose proof (bsize_nonneg l) as N2.
  rewrite (gtb_false 3) by (sizes; lia). rewrite !inb_2, !band_ok. change (idx (c :: c1 :: c2 :: l) 2) with (Ok c2). cbn [bind].
  destruct (Z.eqb_spec 0xe0 c). { destruct (_ && _); auto. f_equal. rewrite <- (W _ _ eq_refl). f_equal; lia. }
  fold (ib 0xe1 c 0xec). destruct (ib 0xe1 c 0xec). { destruct (_ && _); auto. f_equal. rewrite <- (W _ _ eq_refl). f_equal; lia. }
  destruct (Z.eqb_spec 0xed c).
  { destruct (ib 0x80 c1 0x9f && ib 0x80 c2 0xbf). { f_equal. rewrite <- (W _ _ eq_refl). f_equal; lia. }
    destruct l as [|c3 [|c4 [|c5 l]]]; try (rewrite gtb_true by (sizes; lia); reflexivity).
    pose proof (bsize_nonneg l) as N3. rewrite (gtb_false 6) by (sizes; lia). rewrite pairAt_ok. cbn [bind].
    destruct (ib_spec 0xa0 c1 0xaf), (ib_spec 0x80 c2 0xbf), (ib_spec 0xed c3 0xed), (ib_spec 0xb0 c4 0xbf),
            (ib_spec 0x80 c5 0xbf); cbn [andb]; try reflexivity.
    subst c. assert (c3 = 0xed) by lia. subst c3.
    change (idx (0xed :: c1 :: c2 :: 0xed :: c4 :: c5 :: l) 3) with (@Ok Z 0xed).
    change (idx (0xed :: c1 :: c2 :: 0xed :: c4 :: c5 :: l) 4) with (Ok c4).
    change (idx (0xed :: c1 :: c2 :: 0xed :: c4 :: c5 :: l) 5) with (Ok c5). cbn [bind].
    rewrite pairCode_ok by auto. auto. }
  fold (ib 0xee c 0xef). destruct (ib 0xee c 0xef); auto. destruct (_ && _); auto. f_equal. rewrite <- (W _ _ eq_refl). f_equal; lia.
Qed.

Lemma encodeCESU8_ok : forall c chars, scalar c -> encodeCESU8 c chars = Ok (chars ++ cesu8 c).
Proof.
  intros c chars H. destruct (Z_lt_le_dec c 0x10000) as [L|L].
  - rewrite cesu8_bmp by auto. rewrite <- encodeUTF8_ok by auto. unfold scalar in H. unfold encodeCESU8, encodeUTF8.
    repeat (match goal with |- context [if ?a <=? ?b then _ else _] => destruct (Z.leb_spec a b); try lia; try reflexivity end).
  - unfold scalar in H. destruct (supp_digits c ltac:(lia)) as [a [b [d [e [Ha [Hb [Hd [He Ec]]]]]]]].
    rewrite Ec at 2. rewrite cesu8_pair by auto. unfold encodeCESU8, surrogateBytes.
    repeat (match goal with |- context [if ?a <=? ?b then _ else _] => destruct (Z.leb_spec a b); try lia end).
    apply (f_equal (@Ok (list Z))); apply (f_equal (app chars)).
    rewrite !land_3f, !shr6, !land_3ff, !shr10. rewrite (wrapU_small 32 (c - 0x10000)) by lia.
    rewrite (div_is (c - 0x10000) 1024 (a * 64 + b) (d * 64 + e)), (mod_is (c - 0x10000) 1024 (a * 64 + b) (d * 64 + e)) by lia.
    rewrite (wrapU_small 16 (0xD800 + _)), (wrapU_small 16 (0xDC00 + _)) by lia.
    replace (0xD800 + (a * 64 + b) - 0xd800) with (a * 64 + b) by lia.
    replace (0xDC00 + (d * 64 + e) - 0xdc00) with (d * 64 + e) by lia.
    rewrite (wrapU_small 32 (a * 64 + b)), (wrapU_small 32 (d * 64 + e)) by lia.
    rewrite (div_is (a * 64 + b) 64 a b), (mod_is (a * 64 + b) 64 a b), (div_is (d * 64 + e) 64 d e), (mod_is (d * 64 + e) 64 d e) by lia.
    rewrite !Z.mod_small by lia. rewrite !wrapU_small by lia. cbn [app]. repeat (apply cons_eq; [lia|]). auto.
Qed.

Lemma encodeCESU8_rejects : forall c chars, 0 <= c -> ~ scalar c -> encodeCESU8 c chars = Throw ERuntime.
Proof.
  intros c chars H0 H. unfold scalar in H. unfold encodeCESU8.
  repeat (match goal with |- context [if ?a <=? ?b then _ else _] => destruct (Z.leb_spec a b); try lia end); auto.
Qed.

(** ** UTF-16 *)

Definition lead_be (l : list Z) : option (Z * nat) :=
  match l with
  | a :: b :: r =>
      if ib 0xD8 a 0xDF then
        match r with
        | c :: d :: _ => if ib 0xD8 a 0xDB && ib 0xDC c 0xDF
                         then Some (0x10000 + ((a - 0xD8) * 256 + b) * 1024 + ((c - 0xDC) * 256 + d), 4%nat) else None
        | _ => None
        end
      else Some (a * 256 + b, 2%nat)
  | _ => None
  end.

Definition lead_le (l : list Z) : option (Z * nat) :=
  match l with
  | b :: a :: r =>
      if ib 0xD8 a 0xDF then
        match r with
        | d :: c :: _ => if ib 0xD8 a 0xDB && ib 0xDC c 0xDF
                         then Some (0x10000 + ((a - 0xD8) * 256 + b) * 1024 + ((c - 0xDC) * 256 + d), 4%nat) else None
        | _ => None
        end
      else Some (a * 256 + b, 2%nat)
  | _ => None
  end.

Lemma units_bmp : forall c, c < 0x10000 -> utf16_units c = [c].
Proof. intros. unfold utf16_units. destruct (Z.ltb_spec c 0x10000); auto. lia. Qed.

Lemma utf16_bmp : forall a b, 0 <= a < 256 -> 0 <= b < 256 ->
  utf16be (a * 256 + b) = [a; b] /\ utf16le (a * 256 + b) = [b; a].
Proof.
  intros. unfold utf16be, utf16le. rewrite units_bmp by lia. cbn [flat_map app].
  rewrite (div_is _ 256 a b), (mod_is _ 256 a b) by lia. auto.
Qed.

Lemma utf16_pair : forall a b c d, 0 <= a < 4 -> 0 <= b < 256 -> 0 <= c < 4 -> 0 <= d < 256 ->
  let x := 0x10000 + (a * 256 + b) * 1024 + (c * 256 + d) in
  utf16be x = [0xD8 + a; b; 0xDC + c; d] /\ utf16le x = [b; 0xD8 + a; d; 0xDC + c].
Proof.
  intros. unfold utf16be, utf16le, utf16_units. destruct (Z.ltb_spec x 0x10000); [lia|].
  assert (Ex : x = 0x10000 + (a * 256 + b) * 1024 + (c * 256 + d)) by reflexivity.
  rewrite (div_is (x - 0x10000) 1024 (a * 256 + b) (c * 256 + d)), (mod_is (x - 0x10000) 1024 (a * 256 + b) (c * 256 + d)) by lia.
  cbn [flat_map app].
  rewrite (div_is (0xD800 + (a * 256 + b)) 256 (0xD8 + a) b), (mod_is (0xD800 + (a * 256 + b)) 256 (0xD8 + a) b),
    (div_is (0xDC00 + (c * 256 + d)) 256 (0xDC + c) d), (mod_is (0xDC00 + (c * 256 + d)) 256 (0xDC + c) d) by lia. auto.
Qed.

Lemma supp_digits16 : forall c, 0x10000 <= c <= 0x10FFFF -> exists a b d e, 0 <= a < 4 /\ 0 <= b < 256 /\ 0 <= d < 4 /\ 0 <= e < 256 /\
  c = 0x10000 + (a * 256 + b) * 1024 + (d * 256 + e).
Proof.
  intros c H. exists ((c - 0x10000) / 262144), ((c - 0x10000) / 1024 mod 256), ((c - 0x10000) mod 1024 / 256), ((c - 0x10000) mod 256).
  Z.div_mod_to_equations. lia.
Qed.

Lemma bmp_digits16 : forall c, 0 <= c < 0x10000 -> exists a b, 0 <= a < 256 /\ 0 <= b < 256 /\ c = a * 256 + b.
Proof. intros c H. exists (c / 256), (c mod 256). Z.div_mod_to_equations. lia. Qed.

Lemma utf16_lead : forall c rest, scalar c ->
  lead_be (utf16be c ++ rest) = Some (c, length (utf16be c)) /\ lead_le (utf16le c ++ rest) = Some (c, length (utf16le c)).
Proof.
  intros c rest H. unfold scalar in H. destruct (Z_lt_le_dec c 0x10000) as [L|L].
  - destruct (bmp_digits16 c ltac:(lia)) as [a [b [Ha [Hb Ec]]]].
    destruct (utf16_bmp a b Ha Hb) as [E1 E2]. rewrite Ec, E1, E2. cbn [app length lead_be lead_le].
    destruct (ib_spec 0xD8 a 0xDF); [lia|]. auto.
  - destruct (supp_digits16 c ltac:(lia)) as [a [b [d [e [Ha [Hb [Hd [He Ec]]]]]]]].
    destruct (utf16_pair a b d e Ha Hb Hd He) as [E1 E2]. rewrite Ec, E1, E2. cbn [app length lead_be lead_le].
    repeat decide_ib. split; f_equal; f_equal; lia.
Qed.

Lemma lead_utf16 : forall c0 c1 c2 c3, byte c0 -> byte c1 -> byte c2 -> byte c3 -> 0xD8 <= c0 <= 0xDB -> 0xDC <= c2 <= 0xDF ->
  let x := 0x10000 + ((c0 - 0xD8) * 256 + c1) * 1024 + ((c2 - 0xDC) * 256 + c3) in
  scalar x /\ utf16be x = [c0; c1; c2; c3] /\ utf16le x = [c1; c0; c3; c2].
Proof.
  intros. unfold byte, x in *. split; [unfold scalar; lia|].
  destruct (utf16_pair (c0 - 0xD8) c1 (c2 - 0xDC) c3) as [E1 E2]; try lia. rewrite E1, E2. split; repeat (apply cons_eq; [lia|]); auto.
Qed.

Lemma utf16be_exact : exact_lead utf16be lead_be.
Proof.
  split.
  - intros. apply utf16_lead; auto.
  - intros l c n Hb. destruct l as [|a [|b l]]; try discriminate. inversion Hb as [|? ? Ba Hb1]; subst. inversion Hb1 as [|? ? Bb Hb2]; subst.
    cbn [lead_be]. destruct (ib_spec 0xD8 a 0xDF).
    + destruct l as [|c2 [|c3 l]]; try discriminate. inversion Hb2 as [|? ? B2 Hb3]; subst. inversion Hb3 as [|? ? B3 Hb4]; subst.
      destruct (ib_spec 0xD8 a 0xDB), (ib_spec 0xDC c2 0xDF); cbn [andb]; try discriminate.
      intros E. apply some_pair in E; destruct E as [<- <-].
      destruct (lead_utf16 a b c2 c3) as [S [E1 E2]]; auto. split; [auto|]. rewrite E1. split; [auto|]. exists l. auto.
    + intros E. apply some_pair in E; destruct E as [<- <-]. unfold byte in *. split; [unfold scalar; lia|].
      destruct (utf16_bmp a b) as [E1 _]; try lia. rewrite E1. split; auto. exists l. auto.
  - intros c _. unfold utf16be, utf16_units. destruct (_ <? _); discriminate.
  - auto.
Qed.

Lemma utf16le_exact : exact_lead utf16le lead_le.
Proof.
  split.
  - intros. apply utf16_lead; auto.
  - intros l c n Hb. destruct l as [|b [|a l]]; try discriminate. inversion Hb as [|? ? Bb Hb1]; subst. inversion Hb1 as [|? ? Ba Hb2]; subst.
    cbn [lead_le]. destruct (ib_spec 0xD8 a 0xDF).
    + destruct l as [|c3 [|c2 l]]; try discriminate. inversion Hb2 as [|? ? B3 Hb3]; subst. inversion Hb3 as [|? ? B2 Hb4]; subst.
      destruct (ib_spec 0xD8 a 0xDB), (ib_spec 0xDC c2 0xDF); cbn [andb]; try discriminate.
      intros E. apply some_pair in E; destruct E as [<- <-].
      destruct (lead_utf16 a b c2 c3) as [S [E1 E2]]; auto. split; [auto|]. rewrite E2. split; [auto|]. exists l. auto.
    + intros E. apply some_pair in E; destruct E as [<- <-]. unfold byte in *. split; [unfold scalar; lia|].
      destruct (utf16_bmp a b) as [_ E1]; try lia. rewrite E1. split; auto. exists l. auto.
  - intros c _. unfold utf16le, utf16_units. destruct (_ <? _); discriminate.
  - auto.
Qed.

Lemma not_surrogate : forall c, (c <=? 0xD7) || (0xE0 <=? c) = negb (ib 0xD8 c 0xDF).
Proof. intros. unfold ib. destruct (Z.leb_spec c 0xD7), (Z.leb_spec 0xE0 c), (Z.leb_spec 0xD8 c), (Z.leb_spec c 0xDF); auto; lia. Qed.

Lemma step_be_follows : step_follows isValidUTF16BEStep lead_be.
Proof.
  intros pre suf Hs. destruct suf as [|c suf]; [congruence|]. clear Hs. unfold isValidUTF16BEStep.
  assert (E0 : forall lo hi, inb lo (pre ++ c :: suf) (bsize pre) hi = Ok (ib lo c hi)).
  { intros. unfold inb. rewrite idx_app0. auto. }
  rewrite E0, idx_app0, !bsize_app, !gtb_shift, !inb_app by lia. change (idx (c :: suf) 0) with (Ok c). cbn [bind].
  destruct suf as [|c1 suf]; [auto|]. pose proof (bsize_nonneg suf) as N.
  rewrite (gtb_false 2) by (sizes; lia). cbn [lead_be]. rewrite not_surrogate.
  destruct (ib 0xD8 c 0xDF); cbn [negb]; [|f_equal; f_equal; lia].
  destruct suf as [|c2 [|c3 suf]]; try (rewrite gtb_true by (sizes; lia); reflexivity). pose proof (bsize_nonneg suf) as N2.
  rewrite (gtb_false 4) by (sizes; lia). rewrite !inb_2, !band_ok. cbn [bind].
  destruct (_ && _); auto. f_equal. f_equal. lia.
Qed.

Lemma step_le_follows : step_follows isValidUTF16LEStep lead_le.
Proof.
  intros pre suf Hs. destruct suf as [|c suf]; [congruence|]. clear Hs. unfold isValidUTF16LEStep.
  rewrite idx_app, !bsize_app, !gtb_shift, !inb_app by lia.
  destruct suf as [|c1 suf]; [auto|]. pose proof (bsize_nonneg suf) as N.
  rewrite (gtb_false 2) by (sizes; lia). change (idx (c :: c1 :: suf) 1) with (Ok c1). cbn [bind lead_le]. rewrite not_surrogate.
  destruct (ib 0xD8 c1 0xDF); cbn [negb]; [|f_equal; f_equal; lia].
  destruct suf as [|c2 [|c3 suf]]; try (rewrite gtb_true by (sizes; lia); reflexivity). pose proof (bsize_nonneg suf) as N2.
  rewrite (gtb_false 4) by (sizes; lia). rewrite inb_1, inb_3, !band_ok. cbn [bind].
  destruct (_ && _); auto. f_equal. f_equal. lia.
Qed.

Lemma unit16_ok : forall a b, byte a -> byte b -> unit16 a b = a * 256 + b.
Proof. intros a b Ha Hb. unfold byte in *. unfold unit16. rewrite shl8. apply wrapU_small. lia. Qed.

Lemma unitsCode_ok : forall a b c d, byte a -> byte b -> byte c -> byte d -> 0xD8 <= a <= 0xDB -> 0xDC <= c <= 0xDF ->
  unitsCode (a * 256 + b) (c * 256 + d) = 0x10000 + ((a - 0xD8) * 256 + b) * 1024 + ((c - 0xDC) * 256 + d).
Proof.
  intros. unfold byte in *. unfold unitsCode. rewrite shl10. rewrite (wrapU_small 32 ((a * 256 + b - 0xD800) * 1024)) by lia.
  rewrite (wrapU_small 32 (c * 256 + d - 0xDC00)) by lia. rewrite wrapU_small by lia. lia.
Qed.

(* the decoder agrees with the standard wherever there is a character *)
Lemma decodeUTF16_lead : forall l c n, Forall byte l ->
  (lead_be l = Some (c, n) -> decodeUTF16BE l = Ok c) /\ (lead_le l = Some (c, n) -> decodeUTF16LE l = Ok c).
Proof.
  intros l c n Hb. destruct l as [|a [|b l]]; try (split; discriminate).
  inversion Hb as [|? ? Ba Hb1]; subst. inversion Hb1 as [|? ? Bb Hb2]; subst. pose proof (bsize_nonneg l) as N.
  unfold decodeUTF16BE, decodeUTF16LE. rewrite (gtb_false 2) by (sizes; lia).
  change (idx (a :: b :: l) 0) with (Ok a). change (idx (a :: b :: l) 1) with (Ok b). cbn [bind lead_be lead_le].
  rewrite !not_surrogate, !shl8. unfold byte in *. split.
  - destruct (ib_spec 0xD8 a 0xDF) as [I|I].
    + destruct (Z.eqb_spec a 0); [lia|]. cbn [andb negb]. destruct l as [|c2 [|c3 l]]; try discriminate.
      inversion Hb2 as [|? ? B2 Hb3]; subst. inversion Hb3 as [|? ? B3 Hb4]; subst. pose proof (bsize_nonneg l).
      rewrite (gtb_false 4) by (sizes; lia). change (idx (a :: b :: c2 :: c3 :: l) 2) with (Ok c2).
      change (idx (a :: b :: c2 :: c3 :: l) 3) with (Ok c3). cbn [bind].
      destruct (ib_spec 0xD8 a 0xDB), (ib_spec 0xDC c2 0xDF); cbn [andb]; try discriminate.
      intros E. apply some_pair in E; destruct E as [<- <-]. rewrite !unit16_ok, unitsCode_ok; unfold byte; auto; lia.
    + intros E. apply some_pair in E; destruct E as [<- <-]. cbn [negb].
      destruct (Z.eqb_spec a 0), (Z.leb_spec b 0x7f); cbn [andb]; f_equal; rewrite wrapU_small by lia; lia.
  - destruct (ib_spec 0xD8 b 0xDF) as [I|I].
    + destruct (Z.eqb_spec b 0); [lia|]. cbn [andb negb]. destruct l as [|c2 [|c3 l]]; try discriminate.
      inversion Hb2 as [|? ? B2 Hb3]; subst. inversion Hb3 as [|? ? B3 Hb4]; subst. pose proof (bsize_nonneg l).
      rewrite (gtb_false 4) by (sizes; lia). change (idx (a :: b :: c2 :: c3 :: l) 2) with (Ok c2).
      change (idx (a :: b :: c2 :: c3 :: l) 3) with (Ok c3). cbn [bind].
      destruct (ib_spec 0xD8 b 0xDB), (ib_spec 0xDC c3 0xDF); cbn [andb]; try discriminate.
      intros E. apply some_pair in E; destruct E as [<- <-]. rewrite !unit16_ok, unitsCode_ok; unfold byte; auto; lia.
    + intros E. apply some_pair in E; destruct E as [<- <-]. cbn [negb].
      destruct (Z.eqb_spec b 0), (Z.leb_spec a 0x7f); cbn [andb]; f_equal; rewrite wrapU_small by lia; lia.
Qed.

(* when the decoder throws *)
Lemma decodeUTF16_total : forall l,
  (exists c, decodeUTF16BE l = Ok c) \/ decodeUTF16BE l = Throw ERuntime.
Proof.
  intros l. unfold decodeUTF16BE. destruct (2 >? bsize l) eqn:E; auto. destruct l as [|a [|b l]]; try discriminate.
  change (idx (a :: b :: l) 0) with (Ok a). change (idx (a :: b :: l) 1) with (Ok b). cbn [bind].
  destruct (_ && _); eauto. destruct (_ || _); eauto. destruct (4 >? _) eqn:E4; auto.
  destruct l as [|c [|d l]]; try discriminate. left. eexists. reflexivity.
Qed.
Lemma decodeUTF16LE_total : forall l,
  (exists c, decodeUTF16LE l = Ok c) \/ decodeUTF16LE l = Throw ERuntime.
Proof.
  intros l. unfold decodeUTF16LE. destruct (2 >? bsize l) eqn:E; auto. destruct l as [|a [|b l]]; try discriminate.
  change (idx (a :: b :: l) 0) with (Ok a). change (idx (a :: b :: l) 1) with (Ok b). cbn [bind].
  destruct (_ && _); eauto. destruct (_ || _); eauto. destruct (4 >? _) eqn:E4; auto.
  destruct l as [|c [|d l]]; try discriminate. left. eexists. reflexivity.
Qed.

(** What the encoders do with any 32-bit value beyond the basic plane: only the value modulo 2^26 matters. *)
Lemma surrogatesOf_ok : forall code, 0 <= code < 2 ^ 32 ->
  let x := (code - 0x10000) mod 2 ^ 26 in
  surrogatesOf code = if x <? 2 ^ 20
    then Ok (0xD8 + x / 262144, x / 1024 mod 256, 0xDC + x mod 1024 / 256, x mod 256)
    else Throw ERuntime.
Proof.
  intros code H x. unfold surrogatesOf. rewrite !shr8, !shr10, !land_3ff, !land_ff.
  set (y := wrapU 32 (code - 0x10000)).
  assert (Hy : 0 <= y < 2 ^ 32) by (apply Z.mod_pos_bound; lia).
  assert (Exy : x = y mod 2 ^ 26).
  { unfold x, y, wrapU. apply Znumtheory.Zmod_div_mod; try lia. exists 64. reflexivity. }
  assert (exists k h l, y = (k * 65536 + h) * 1024 + l /\ 0 <= l < 1024 /\ 0 <= h < 65536 /\ 0 <= k < 64) as [k [h [l [Ey [Hl [Hh Hk]]]]]].
  { exists (y / 67108864), ((y / 1024) mod 65536), (y mod 1024). Z.div_mod_to_equations. lia. }
  assert (Ex : x = h * 1024 + l). { rewrite Exy. apply (mod_is y (2 ^ 26) k). lia. lia. }
  rewrite (div_is y 1024 (k * 65536 + h) l), (mod_is y 1024 (k * 65536 + h) l) by lia.
  rewrite (wrapU_small 16 (0xDC00 + l)) by lia.
  assert (exists u v, 0 <= u < 4 /\ 0 <= v < 256 /\ l = u * 256 + v) as [u [v [Hu [Hv El]]]].
  { exists (l / 256), (l mod 256). Z.div_mod_to_equations. lia. }
  rewrite (div_is (0xDC00 + l) 256 (0xDC + u) v), (mod_is (0xDC00 + l) 256 (0xDC + u) v) by lia.
  rewrite (wrapU_small 8 (0xDC + u)), (wrapU_small 8 v) by lia.
  destruct (Z.leb_spec 0xDC (0xDC + u)); [|lia]. destruct (Z.leb_spec (0xDC + u) 0xDF); [|lia].
  change (2 ^ 20) with (1024 * 1024). destruct (Z.ltb_spec x (1024 * 1024)) as [Hx|Hx].
  - assert (h < 1024) by lia.
    assert (Es : wrapU 16 (0xD800 + (k * 65536 + h)) = 0xD800 + h). { unfold wrapU. apply (mod_is _ (2 ^ 16) k); lia. }
    rewrite Es.
    assert (exists p q, 0 <= p < 4 /\ 0 <= q < 256 /\ h = p * 256 + q) as [p [q [Hp [Hq Eh]]]].
    { exists (h / 256), (h mod 256). Z.div_mod_to_equations. lia. }
    rewrite (div_is (0xD800 + h) 256 (0xD8 + p) q), (mod_is (0xD800 + h) 256 (0xD8 + p) q) by lia.
    rewrite (wrapU_small 8 (0xD8 + p)), (wrapU_small 8 q) by lia.
    destruct (Z.leb_spec 0xD8 (0xD8 + p)); [|lia]. destruct (Z.leb_spec (0xD8 + p) 0xDB); [|lia]. cbn [andb negb].
    rewrite (div_is x 262144 p (q * 1024 + l)), (div_is x 1024 h l), (mod_is x 1024 h l), (mod_is h 256 p q),
      (div_is l 256 u v), (mod_is x 256 (h * 4 + u) v) by lia. auto.
  - assert (1024 <= h) by lia.
    set (s := wrapU 16 (0xD800 + (k * 65536 + h))).
    assert (Hs : s < 0xD800 \/ 0xDC00 <= s < 65536).
    { destruct (Z_lt_le_dec h 0x2800).
      - right. assert (s = 0xD800 + h) by (unfold s, wrapU; apply (mod_is _ (2 ^ 16) k); lia). lia.
      - left. assert (s = h - 0x2800) by (unfold s, wrapU; apply (mod_is _ (2 ^ 16) (k + 1)); lia). lia. }
    assert (0 <= s) by (apply Z.mod_pos_bound; lia).
    rewrite (wrapU_small 8 (s / 256)) by (Z.div_mod_to_equations; lia).
    destruct (Z.leb_spec 0xD8 (s / 256)), (Z.leb_spec (s / 256) 0xDB); cbn [andb negb]; auto.
    exfalso. Z.div_mod_to_equations. lia.
Qed.

Definition bmp (c : Z) : bool := (c <=? 0xD7FF) || ((0xE000 <=? c) && (c <=? 0xFFFF)).

Lemma encode16_bmp : forall c chars, 0 <= c -> bmp c = true ->
  encodeUTF16BE c chars = Ok (chars ++ utf16be c) /\ encodeUTF16LE c chars = Ok (chars ++ utf16le c).
Proof.
  intros c chars H0 H. unfold encodeUTF16BE, encodeUTF16LE. unfold bmp in H. rewrite H. rewrite shr8, land_ff.
  assert (c < 0x10000).
  { apply orb_true_iff in H. rewrite andb_true_iff, !Z.leb_le in H. lia. }
  unfold utf16be, utf16le. rewrite units_bmp by auto. cbn [flat_map app].
  rewrite !wrapU_small by (Z.div_mod_to_equations; lia). auto.
Qed.

Lemma encode16_other : forall c chars, 0 <= c < 2 ^ 32 -> bmp c = false ->
  let x := (c - 0x10000) mod 2 ^ 26 in
  encodeUTF16BE c chars = (if x <? 2 ^ 20 then Ok (chars ++ utf16be (0x10000 + x)) else Throw ERuntime) /\
  encodeUTF16LE c chars = (if x <? 2 ^ 20 then Ok (chars ++ utf16le (0x10000 + x)) else Throw ERuntime).
Proof.
  intros c chars H0 H x. unfold encodeUTF16BE, encodeUTF16LE. unfold bmp in H. rewrite H.
  rewrite surrogatesOf_ok by auto. cbv zeta. fold x.
  assert (Hx : 0 <= x) by (apply Z.mod_pos_bound; lia).
  destruct (Z.ltb_spec x (2 ^ 20)) as [L|L]; cbn [bind]; auto.
  assert (R : 0 <= x < 1048576) by (change (2 ^ 20) with 1048576 in L; lia).
  assert (exists a b d e, 0 <= a < 4 /\ 0 <= b < 256 /\ 0 <= d < 4 /\ 0 <= e < 256 /\ x = (a * 256 + b) * 1024 + (d * 256 + e)) as
    [a [b [d [e [Ha [Hb [Hd [He Ex]]]]]]]].
  { destruct (supp_digits16 (0x10000 + x) ltac:(lia)) as [a [b [d [e [Ha [Hb [Hd [He Ec]]]]]]]]. exists a, b, d, e. lia. }
  destruct (utf16_pair a b d e Ha Hb Hd He) as [E1 E2].
  replace (0x10000 + x) with (0x10000 + (a * 256 + b) * 1024 + (d * 256 + e)) by lia. rewrite E1, E2.
  rewrite (div_is x 262144 a (b * 1024 + (d * 256 + e))), (div_is x 1024 (a * 256 + b) (d * 256 + e)),
    (mod_is x 1024 (a * 256 + b) (d * 256 + e)), (mod_is (a * 256 + b) 256 a b), (div_is (d * 256 + e) 256 d e),
    (mod_is x 256 ((a * 256 + b) * 4 + d) e) by lia. auto.
Qed.

(** ** Encoded characters are bytes *)

Lemma utf8_bytes : forall c, scalar c -> Forall byte (utf8 c).
Proof.
  intros c Hc. assert (H0 : 0 <= c <= 0x10FFFF) by (destruct Hc; lia). unfold utf8, trail.
  pose proof (Z.mod_pos_bound c 64 ltac:(lia)). pose proof (Z.mod_pos_bound (c / 64) 64 ltac:(lia)).
  pose proof (Z.mod_pos_bound (c / 4096) 64 ltac:(lia)).
  destruct (Z.ltb_spec c 0x80); [repeat constructor; lia|].
  destruct (Z.ltb_spec c 0x800).
  { assert (0 <= c / 64 < 32) by (split; [apply Z.div_pos; lia|apply Z.div_lt_upper_bound; lia]).
    repeat constructor; lia. }
  destruct (Z.ltb_spec c 0x10000).
  { assert (0 <= c / 4096 < 16) by (split; [apply Z.div_pos; lia|apply Z.div_lt_upper_bound; lia]).
    repeat constructor; lia. }
  assert (0 <= c / 262144 < 5) by (split; [apply Z.div_pos; lia|apply Z.div_lt_upper_bound; lia]).
  repeat constructor; lia.
Qed.

Lemma cesu8_bytes : forall c, scalar c -> Forall byte (cesu8 c).
Proof.
  intros c Hc. destruct (Z.ltb_spec c 0x10000).
  - rewrite cesu8_bmp by auto. apply utf8_bytes. auto.
  - destruct (supp_digits c) as [a [b [d [e [H1 [H2 [H3 [H4 ->]]]]]]]]; [destruct Hc; lia|].
    rewrite cesu8_pair by auto. repeat constructor; lia.
Qed.

Lemma utf16_bytes : forall c, scalar c -> Forall byte (utf16be c) /\ Forall byte (utf16le c).
Proof.
  intros c Hc. destruct (Z.ltb_spec c 0x10000).
  - destruct (bmp_digits16 c) as [a [b [H1 [H2 ->]]]]; [destruct Hc; lia|].
    destruct (utf16_bmp a b H1 H2) as [-> ->]. split; repeat constructor; lia.
  - destruct (supp_digits16 c) as [a [b [d [e [H1 [H2 [H3 [H4 ->]]]]]]]]; [destruct Hc; lia|].
    destruct (utf16_pair a b d e H1 H2 H3 H4) as [-> ->]. split; repeat constructor; lia.
Qed.
