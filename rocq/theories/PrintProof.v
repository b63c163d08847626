(** Lemmas on printing. *)
From Coq Require Import String Ascii List ZArith Bool Lia.
From Verif Require Import Base TreeModel BinSearchProof Utf8Model Cesu8Model Utf16Model PrintModel UtfSpec UtfProof Utf16Proof PrintSpec.
Import ListNotations.
Local Open Scope Z_scope.

(** ** Hexadecimal digits *)

Lemma H_digitChar : forall d, 0 <= d < 16 -> digitChar d = H d.
Proof.
  intros d Hd. replace d with (Z.of_nat (Z.to_nat d)) by lia. assert (N : (Z.to_nat d < 16)%nat) by lia.
  revert N. generalize (Z.to_nat d). clear. intros n N. do 16 (destruct n as [|n]; [reflexivity|]). lia.
Qed.

Lemma H_inj : forall d e, 0 <= d < 16 -> 0 <= e < 16 -> H d = H e -> d = e.
Proof. intros d e Hd He. rewrite <- !H_digitChar by auto. unfold digitChar. destruct (Z.ltb_spec d 10), (Z.ltb_spec e 10); lia. Qed.

Lemma H_range : forall d, 0 <= d < 16 -> 48 <= H d <= 57 \/ 97 <= H d <= 102.
Proof. intros d Hd. rewrite <- H_digitChar by auto. unfold digitChar. destruct (Z.ltb_spec d 10); lia. Qed.

Lemma byte_digits : forall b, byte b -> 0 <= b / 16 < 16 /\ 0 <= b mod 16 < 16 /\ b = b / 16 * 16 + b mod 16.
Proof. unfold byte. intros b Hb. pose proof (Z.div_mod b 16). pose proof (Z.mod_pos_bound b 16). lia. Qed.

Lemma HH_inj : forall a b, byte a -> byte b -> HH a = HH b -> a = b.
Proof.
  intros a b Ha Hb E. injection E as E1 E2. destruct (byte_digits a Ha) as [A1 [A2 A3]], (byte_digits b Hb) as [B1 [B2 B3]].
  apply H_inj in E1; auto. apply H_inj in E2; auto. lia.
Qed.

Lemma HH_app_inj : forall a b k k', byte a -> byte b -> HH a ++ k = HH b ++ k' -> a = b /\ k = k'.
Proof.
  intros a b k k' Ha Hb E. unfold HH in E. cbn [app] in E. injection E as E1 E2 E3. split; auto.
  apply HH_inj; auto. unfold HH. congruence.
Qed.

Lemma hex2_ok : forall b, byte b -> hex 2 b = HH b.
Proof.
  intros b Hb. destruct (byte_digits b Hb) as [D1 [D2 D3]]. unfold byte in Hb. unfold hex, numeral, HH.
  rewrite <- !H_digitChar by auto. cbn [digits].
  destruct (Z.ltb_spec b 16).
  - unfold pad. cbn [length Nat.sub repeat app]. replace (b / 16) with 0 by (symmetry; apply Z.div_small; lia).
    rewrite Z.mod_small by lia. auto.
  - assert (L : 4 <= Z.log2 b) by (apply (proj1 (Z.log2_le_pow2 b 4 ltac:(lia))); change (2 ^ 4) with 16; lia).
    replace (Z.to_nat (Z.log2 b)) with (S (pred (Z.to_nat (Z.log2 b)))) by lia. cbn [digits].
    destruct (Z.ltb_spec (b / 16) 16); [reflexivity|lia].
Qed.

Lemma hex4_ok : forall b, byte b -> hex 4 b = HH 0 ++ HH b.
Proof.
  intros b Hb. rewrite <- (hex2_ok b Hb). unfold hex.
  assert (N : (1 <= length (numeral 16 b) <= 2)%nat).
  { pose proof (hex2_ok b Hb) as E. apply (f_equal (@length Z)) in E. unfold hex, pad in E.
    rewrite app_length, repeat_length in E. change (length (HH b)) with 2%nat in E.
    assert (length (numeral 16 b) <> 0)%nat; [|lia]. unfold numeral. cbn [digits].
    destruct (b <? 16); cbn; try lia. rewrite app_length. cbn. lia. }
  unfold pad. destruct (numeral 16 b) as [|x [|y [|z r]]]; cbn in N; try lia; reflexivity.
Qed.

Lemma charAsHex_ok : forall b, byte b -> charAsHex b = esc_x b.
Proof. intros. unfold charAsHex, esc_x. rewrite hex2_ok; auto. Qed.

Lemma land_ff00 : forall c, Z.shiftr (Z.land c 0xff00) 8 = c / 256 mod 256.
Proof.
  intros c. rewrite Z.shiftr_land. change (Z.shiftr 0xff00 8) with 0xff. rewrite Z.shiftr_div_pow2 by lia.
  change 0xff with (Z.ones 8). rewrite Z.land_ones by lia. reflexivity.
Qed.

Lemma land_ff0000 : forall c, Z.shiftr (Z.land c 0xff0000) 16 = c / 65536 mod 256.
Proof.
  intros c. rewrite Z.shiftr_land. change (Z.shiftr 0xff0000 16) with 0xff. rewrite Z.shiftr_div_pow2 by lia.
  change 0xff with (Z.ones 8). rewrite Z.land_ones by lia. reflexivity.
Qed.

Lemma byte_mod : forall x, byte (x mod 256).
Proof. intros. unfold byte. pose proof (Z.mod_pos_bound x 256). lia. Qed.

Lemma codepage_ok : forall c, 0 <= c < 2 ^ 24 -> codepage c = if c <? 0x10000 then esc_u c else esc_U c.
Proof.
  intros c Hc. unfold codepage, esc_u, esc_U. rewrite land_ff00, land_ff0000, land_ff, !hex2_ok by apply byte_mod.
  destruct (Z.ltb_spec c 0x10000).
  - rewrite (Z.mod_small (c / 256)); auto. split; [apply Z.div_pos; lia|apply Z.div_lt_upper_bound; lia].
  - rewrite (Z.mod_small (c / 65536)); auto. split; [apply Z.div_pos; lia|apply Z.div_lt_upper_bound; lia].
Qed.

Definition mesc (c : Z) : text := if c <=? 0x7f then validChar c else codepage c.

Lemma mesc_ok : forall c, scalar c -> mesc c = esc8 c.
Proof.
  intros c Hc. unfold mesc, esc8, validChar, control. unfold scalar in Hc.
  destruct (Z.leb_spec c 0x7f).
  - destruct (Z.eqb_spec c 92); auto. destruct (_ || _).
    + rewrite hex2_ok by (unfold byte; lia). auto.
    + destruct (Z.ltb_spec c 128); auto. lia.
  - rewrite codepage_ok by lia. destruct (Z.eqb_spec c 92); [lia|]. destruct (Z.ltb_spec c 32), (Z.eqb_spec c 127); try lia.
    cbn [orb]. destruct (Z.ltb_spec c 128); auto. lia.
Qed.

(** ** One round of the loops *)

Definition print_follows (step : list Z -> Z -> res (text * option Z)) (lead : list Z -> option (Z * nat)) : Prop :=
  forall pre c suf, Forall byte (c :: suf) ->
    step (pre ++ c :: suf) (bsize pre) =
    Ok (match lead (c :: suf) with
        | Some (x, n) => (esc8 x, Some (bsize pre + Z.of_nat n - 1))
        | None => (esc_x c, Some (bsize pre))
        end).

Lemma wrap_scalar : forall c, scalar c -> wrapU 32 c = c.
Proof. intros c Hc. apply wrapU_small. unfold scalar in Hc. lia. Qed.

Ltac coded W :=
  unfold code_at; f_equal; f_equal;
  [ match goal with |- codepage (wrapU 32 ?e) = esc8 ?x => replace e with x by lia end;
    let S := fresh in let B := fresh in
    destruct (W _ _ eq_refl) as [S B]; rewrite wrap_scalar by exact S; rewrite <- mesc_ok by exact S; unfold mesc;
    match goal with |- _ = if ?x <=? 0x7f then _ else _ => destruct (Z.leb_spec x 0x7f); [exfalso; lia|reflexivity] end
  | f_equal; lia ].

Lemma print8_follows : print_follows printUTF8Step lead8.
Proof.
  intros pre c suf Hb. pose proof Hb as Hb0. inversion Hb0 as [|? ? B0 Hb1]; subst. clear Hb0.
  assert (W : forall x n, lead8 (c :: suf) = Some (x, n) -> scalar x /\ True).
  { intros x n E. apply lead_utf8 in E; auto. destruct E as [E _]. auto. }
  unfold printUTF8Step, hex_at.
  rewrite idx_app0, !idx_app, !bsize_app, !gtb_shift, !inb_app by lia. change (idx (c :: suf) 0) with (Ok c).
  cbn [bind]. rewrite charAsHex_ok by auto. cbn [lead8] in *. unfold byte in B0.
  destruct (Z.leb_spec c 0x7f).
  { f_equal. f_equal; [|f_equal; lia]. rewrite <- mesc_ok by (unfold scalar; lia). unfold mesc. destruct (Z.leb_spec c 0x7f); auto; lia. }
  destruct suf as [|c1 suf]; [auto|]. inversion Hb1 as [|? ? B1 Hb2]; subst. unfold byte in B1.
  pose proof (bsize_nonneg suf) as N.
  rewrite (gtb_false 2) by (sizes; lia). rewrite !inb_1. change (idx (c :: c1 :: suf) 1) with (Ok c1). cbn [bind].
  fold (ib 0xc2 c 0xdf). destruct (ib_spec 0xc2 c 0xdf).
  { destruct (ib_spec 0x80 c1 0xbf); auto. coded W. }
  destruct suf as [|c2 suf]; [auto|]. inversion Hb2 as [|? ? B2 Hb3]; subst. unfold byte in B2.
  pose proof (bsize_nonneg suf) as N2.
  rewrite (gtb_false 3) by (sizes; lia). rewrite !inb_2, !band_ok. change (idx (c :: c1 :: c2 :: suf) 2) with (Ok c2). cbn [bind].
  destruct (Z.eqb_spec 0xe0 c).
  { destruct (ib_spec 0xa0 c1 0xbf), (ib_spec 0x80 c2 0xbf); cbn [andb] in *; auto. coded W. }
  fold (ib 0xe1 c 0xec). destruct (ib_spec 0xe1 c 0xec).
  { destruct (ib_spec 0x80 c1 0xbf), (ib_spec 0x80 c2 0xbf); cbn [andb] in *; auto. coded W. }
  destruct (Z.eqb_spec 0xed c).
  { destruct (ib_spec 0x80 c1 0x9f), (ib_spec 0x80 c2 0xbf); cbn [andb] in *; auto. coded W. }
  fold (ib 0xee c 0xef). destruct (ib_spec 0xee c 0xef).
  { destruct (ib_spec 0x80 c1 0xbf), (ib_spec 0x80 c2 0xbf); cbn [andb] in *; auto. coded W. }
  destruct suf as [|c3 suf]; [auto|]. inversion Hb3 as [|? ? B3 Hb4]; subst. unfold byte in B3.
  pose proof (bsize_nonneg suf) as N3.
  rewrite (gtb_false 4) by (sizes; lia). rewrite !inb_3, !band_ok. change (idx (c :: c1 :: c2 :: c3 :: suf) 3) with (Ok c3). cbn [bind].
  destruct (Z.eqb_spec 0xf0 c).
  { destruct (ib_spec 0x90 c1 0xbf), (ib_spec 0x80 c2 0xbf), (ib_spec 0x80 c3 0xbf); cbn [andb] in *; auto. coded W. }
  fold (ib 0xf1 c 0xf3). destruct (ib_spec 0xf1 c 0xf3).
  { destruct (ib_spec 0x80 c1 0xbf), (ib_spec 0x80 c2 0xbf), (ib_spec 0x80 c3 0xbf); cbn [andb] in *; auto. coded W. }
  destruct (Z.eqb_spec 0xf4 c); auto.
  destruct (ib_spec 0x80 c1 0x8f), (ib_spec 0x80 c2 0xbf), (ib_spec 0x80 c3 0xbf); cbn [andb] in *; auto. coded W.
Qed.

Lemma printc_follows : print_follows printCESU8Step leadc.
Proof.
  intros pre c suf Hb. pose proof Hb as Hb0. inversion Hb0 as [|? ? B0 Hb1]; subst. clear Hb0.
  assert (W : forall x n, leadc (c :: suf) = Some (x, n) -> scalar x /\ True).
  { intros x n E. apply lead_cesu8 in E; auto. destruct E as [E _]. auto. }
  unfold printCESU8Step, hex_at.
  rewrite pairAt_app, idx_app0, !idx_app, !bsize_app, !gtb_shift, !inb_app by lia. change (idx (c :: suf) 0) with (Ok c).
  cbn [bind]. rewrite charAsHex_ok by auto. cbn [leadc] in *. unfold byte in B0.
  destruct (Z.leb_spec c 0x7f).
  { f_equal. f_equal; [|f_equal; lia]. rewrite <- mesc_ok by (unfold scalar; lia). unfold mesc. destruct (Z.leb_spec c 0x7f); auto; lia. }
  destruct suf as [|c1 suf]; [auto|]. inversion Hb1 as [|? ? B1 Hb2]; subst. unfold byte in B1.
  pose proof (bsize_nonneg suf) as N.
  rewrite (gtb_false 2) by (sizes; lia). rewrite !inb_1. change (idx (c :: c1 :: suf) 1) with (Ok c1). cbn [bind].
  fold (ib 0xc2 c 0xdf). destruct (ib_spec 0xc2 c 0xdf).
  { destruct (ib_spec 0x80 c1 0xbf); auto. coded W. }
  destruct suf as [|c2 suf]; [auto|]. inversion Hb2 as [|? ? B2 Hb3]; subst. unfold byte in B2.
  pose proof (bsize_nonneg suf) as N2.
  rewrite (gtb_false 3) by (sizes; lia). rewrite !inb_2, !band_ok. change (idx (c :: c1 :: c2 :: suf) 2) with (Ok c2). cbn [bind].
  destruct (Z.eqb_spec 0xe0 c).
  { destruct (ib_spec 0xa0 c1 0xbf), (ib_spec 0x80 c2 0xbf); cbn [andb] in *; auto. coded W. }
  fold (ib 0xe1 c 0xec). destruct (ib_spec 0xe1 c 0xec).
  { destruct (ib_spec 0x80 c1 0xbf), (ib_spec 0x80 c2 0xbf); cbn [andb] in *; auto. coded W. }
  destruct (Z.eqb_spec 0xed c).
  { destruct (ib 0x80 c1 0x9f && ib 0x80 c2 0xbf) eqn:T.
    { apply andb_true_iff in T. destruct T as [T1 T2]. unfold ib in T1, T2. bools. coded W. }
    destruct suf as [|c3 [|c4 [|c5 suf]]]; try (rewrite gtb_true by (sizes; lia); reflexivity).
    pose proof (bsize_nonneg suf) as N3. rewrite (gtb_false 6) by (sizes; lia). rewrite pairAt_ok. cbn [bind].
    destruct (ib_spec 0xa0 c1 0xaf), (ib_spec 0x80 c2 0xbf), (ib_spec 0xed c3 0xed), (ib_spec 0xb0 c4 0xbf),
            (ib_spec 0x80 c5 0xbf); cbn [andb] in *; try reflexivity.
    subst c. assert (c3 = 0xed) by lia. subst c3.
    change (idx (0xed :: c1 :: c2 :: 0xed :: c4 :: c5 :: suf) 3) with (@Ok Z 0xed).
    change (idx (0xed :: c1 :: c2 :: 0xed :: c4 :: c5 :: suf) 4) with (Ok c4).
    change (idx (0xed :: c1 :: c2 :: 0xed :: c4 :: c5 :: suf) 5) with (Ok c5). cbn [bind].
    rewrite pairCode_ok by auto. f_equal. f_equal; [|f_equal; lia].
    destruct (W _ _ eq_refl) as [S _]. rewrite <- mesc_ok by exact S. unfold mesc.
    match goal with |- _ = if ?x <=? 0x7f then _ else _ => destruct (Z.leb_spec x 0x7f); [exfalso; lia|reflexivity] end. }
  fold (ib 0xee c 0xef). destruct (ib_spec 0xee c 0xef); auto.
  destruct (ib_spec 0x80 c1 0xbf), (ib_spec 0x80 c2 0xbf); cbn [andb] in *; auto. coded W.
Qed.

(** ** Tokens: a character, or a byte that starts none *)

Inductive token := TC (c : Z) | TB (b : Z).
Definition tok_ok (t : token) : Prop := match t with TC c => scalar c | TB b => 128 <= b <= 255 end.
Definition tok_text (t : token) : text := match t with TC c => esc8 c | TB b => esc_x b end.
Definition tok_bytes (enc : Z -> list Z) (t : token) : list Z := match t with TC c => enc c | TB b => [b] end.

Lemma esc8_first : forall c, scalar c ->
  (c = 92 /\ esc8 c = [92; 92]) \/
  (0 <= c <= 127 /\ c <> 92 /\ esc8 c = [92; 120; H (c / 16); H (c mod 16)]) \/
  (c <> 92 /\ 32 <= c < 128 /\ esc8 c = [c]) \/
  (128 <= c < 0x10000 /\ esc8 c = [92; 117] ++ HH (c / 256) ++ HH (c mod 256)) \/
  (0x10000 <= c <= 0x10FFFF /\ esc8 c = [92; 85] ++ HH (c / 65536) ++ HH (c / 256 mod 256) ++ HH (c mod 256)).
Proof.
  intros c Hc. unfold scalar in Hc. unfold esc8, control. destruct (Z.eqb_spec c 92); [auto|].
  destruct (Z.ltb_spec c 32), (Z.eqb_spec c 127); cbn [orb]; try lia; try (right; left; split; [lia|split; auto; fail]).
  destruct (Z.ltb_spec c 128). { right; right; left. repeat split; auto; lia. }
  destruct (Z.ltb_spec c 0x10000); do 3 right; [left|right]; split; auto; lia.
Qed.

Lemma byte_div : forall c k n, 0 <= c < 256 * n -> 0 < n -> k = n -> byte (c / k).
Proof. intros c k n Hc Hn ->. unfold byte. split; [apply Z.div_pos; lia|]. assert (c / n < 256) by (apply Z.div_lt_upper_bound; lia). lia. Qed.

Lemma tok_inj : forall t t' k k', tok_ok t -> tok_ok t' -> tok_text t ++ k = tok_text t' ++ k' -> t = t' /\ k = k'.
Proof.
  assert (X : forall c b k k', scalar c -> 128 <= b <= 255 -> esc8 c ++ k = esc_x b ++ k' -> False).
  { intros c b k k' Hc Hb E. unfold esc_x, HH in E. cbn [app] in E.
    destruct (byte_digits b ltac:(unfold byte; lia)) as [D1 [D2 D3]].
    destruct (esc8_first c Hc) as [[-> F]|[[R [N F]]|[[N [R F]]|[[R F]|[R F]]]]]; rewrite F in E; cbn [app] in E; try discriminate.
    - injection E as E1 E2 _. destruct (byte_digits c ltac:(unfold byte; lia)) as [C1 [C2 C3]].
      apply H_inj in E1; auto. apply H_inj in E2; auto. lia.
    - injection E as E1 _. lia. }
  intros [c|b] [c'|b'] k k' Ht Ht' E; cbn [tok_ok tok_text] in *.
  - enough (c = c' /\ k = k') by (destruct H; subst; auto).
    destruct (esc8_first c Ht) as [[Ec F]|[[R [N F]]|[[N [R F]]|[[R F]|[R F]]]]],
             (esc8_first c' Ht') as [[Ec' F']|[[R' [N' F']]|[[N' [R' F']]|[[R' F']|[R' F']]]]];
      rewrite F, F' in E; cbn [app] in E; try discriminate; try (injection E as E0; exfalso; lia).
    + injection E as ->. split; congruence.
    + injection E as E1 E2 E3. split; auto. destruct (byte_digits c ltac:(unfold byte; lia)) as [C1 [C2 C3]].
      destruct (byte_digits c' ltac:(unfold byte; lia)) as [C1' [C2' C3']].
      apply H_inj in E1; auto. apply H_inj in E2; auto. lia.
    + injection E as E1 E2. auto.
    + apply (f_equal (@tl Z)) in E. cbn [tl] in E. apply (f_equal (@tl Z)) in E. cbn [tl] in E.
      rewrite <- !app_assoc in E.
      apply HH_app_inj in E; try (apply (byte_div _ 256 256); lia).
      destruct E as [E1 E]. apply HH_app_inj in E; try apply byte_mod. destruct E as [E2 E]. split; auto.
      rewrite (Z.div_mod c 256), (Z.div_mod c' 256) by lia. congruence.
    + apply (f_equal (@tl Z)) in E. cbn [tl] in E. apply (f_equal (@tl Z)) in E. cbn [tl] in E.
      rewrite <- !app_assoc in E.
      apply HH_app_inj in E; try (apply (byte_div _ 65536 65536); lia).
      destruct E as [E1 E]. apply HH_app_inj in E; try apply byte_mod. destruct E as [E2 E].
      apply HH_app_inj in E; try apply byte_mod. destruct E as [E3 E]. split; auto.
      rewrite (Z.div_mod c 256), (Z.div_mod c' 256) by lia. rewrite E3. f_equal. f_equal.
      rewrite (Z.div_mod (c / 256) 256), (Z.div_mod (c' / 256) 256) by lia. rewrite !Z.div_div, E2 by lia.
      change (256 * 256) with 65536. congruence.
  - exfalso. eauto.
  - exfalso. symmetry in E. eauto.
  - unfold esc_x in E. rewrite <- !app_assoc in E. apply app_inv_head in E.
    apply HH_app_inj in E; try (unfold byte; lia). destruct E. subst. auto.
Qed.

Lemma toks_inj : forall ts ts', Forall tok_ok ts -> Forall tok_ok ts' -> flat_map tok_text ts = flat_map tok_text ts' -> ts = ts'.
Proof.
  assert (N : forall t, tok_ok t -> tok_text t <> []).
  { intros [c|b] Ht; cbn; [|discriminate].
    destruct (esc8_first c Ht) as [[_ F]|[[_ [_ F]]|[[_ [_ F]]|[[_ F]|[_ F]]]]]; rewrite F; discriminate. }
  induction ts as [|t ts IH]; intros [|t' ts'] Hs Hs' E; auto; cbn in E.
  - inversion Hs'; subst. pose proof (N t' H1) as X. destruct (tok_text t'); [congruence|discriminate].
  - inversion Hs; subst. pose proof (N t H1) as X. destruct (tok_text t); [congruence|discriminate].
  - inversion Hs; inversion Hs'; subst. apply tok_inj in E; auto. destruct E as [-> E]. f_equal. auto.
Qed.

(** The printing loop writes the tokens of the bytes. *)
Lemma printLoop_tokens : forall enc lead step, exact_lead enc lead -> print_follows step lead ->
  (forall b r, lead (b :: r) = None -> byte b -> 128 <= b) ->
  forall fuel pre suf, (length suf <= fuel)%nat -> Forall byte suf ->
  exists ts, Forall tok_ok ts /\ suf = flat_map (tok_bytes enc) ts /\
    printLoop step fuel (pre ++ suf) (bsize pre) = Ok (flat_map tok_text ts) /\
    (forall cs, encodes enc cs suf -> ts = map TC cs).
Proof.
  intros enc lead step L P N8. induction fuel as [|fuel IH]; intros pre suf Hf Hb.
  - destruct suf; [|cbn in Hf; lia]. exists []. repeat split; auto.
    + cbn [printLoop]. rewrite app_nil_r, Z.ltb_irrefl. auto.
    + intros [|c cs] [Hc E]; auto. inversion Hc; subst. pose proof (enc_cons _ _ L c H1). cbn in E. destruct (enc c); [congruence|discriminate].
  - destruct suf as [|b suf].
    + exists []. repeat split; auto.
      * cbn [printLoop]. rewrite app_nil_r, Z.ltb_irrefl. auto.
      * intros [|c cs] [Hc E]; auto. inversion Hc; subst. pose proof (enc_cons _ _ L c H1). cbn in E. destruct (enc c); [congruence|discriminate].
    + cbn [printLoop]. rewrite bsize_app, bsize_cons. pose proof (bsize_nonneg suf).
      destruct (Z.ltb_spec (bsize pre) (bsize pre + (bsize suf + 1))); [|lia].
      rewrite P by auto. cbn [bind]. destruct (lead (b :: suf)) as [[c n]|] eqn:El.
      * destruct (enc_lead _ _ L _ _ _ Hb El) as [Hc [Hn [rest Er]]]. subst n. cbn [fst snd].
        assert (Nc : (1 <= length (enc c))%nat) by (pose proof (enc_cons _ _ L c Hc); destruct (enc c); [congruence|cbn; lia]).
        assert (Hl : (length rest <= fuel)%nat).
        { apply (f_equal (@length Z)) in Er. rewrite app_length in Er. cbn in Er, Hf. lia. }
        rewrite Er in Hb. apply Forall_app in Hb. destruct Hb as [_ Hb].
        destruct (IH (pre ++ enc c) rest Hl Hb) as [ts [Ht [Es [Ep Eu]]]].
        exists (TC c :: ts). split; [constructor; auto|]. split; [cbn; rewrite <- Es; auto|]. split.
        -- rewrite Er. replace (bsize pre + Z.of_nat (length (enc c)) - 1 + 1) with (bsize (pre ++ enc c)) by (rewrite bsize_app; unfold bsize; lia).
           rewrite app_assoc, Ep. cbn. auto.
        -- intros cs Hcs. destruct (encodes_inv _ _ L cs (b :: suf)) as [c1 [cs1 [rest1 [E1 [S1 [F1 [G1 L1]]]]]]]; [discriminate|auto|].
           rewrite El in L1. injection L1 as <- _. subst cs. cbn. f_equal. apply Eu. rewrite Er in F1. apply app_inv_head in F1. subst. auto.
      * inversion Hb; subst. destruct (IH (pre ++ [b]) suf ltac:(cbn in Hf; lia) H4) as [ts [Ht [Es [Ep Eu]]]].
        exists (TB b :: ts). split; [constructor; auto; cbn; specialize (N8 _ _ El H3); unfold byte in H3; lia|].
        split; [cbn; rewrite <- Es; auto|]. cbn [fst snd]. split.
        -- replace (bsize pre + 1) with (bsize (pre ++ [b])) by (rewrite bsize_app; unfold bsize; cbn; lia).
           replace (pre ++ b :: suf) with ((pre ++ [b]) ++ suf) by (rewrite <- app_assoc; auto). rewrite Ep. cbn. auto.
        -- intros cs Hcs. exfalso. destruct (encodes_inv _ _ L cs (b :: suf)) as [c1 [cs1 [rest1 [E1 [S1 [F1 [G1 L1]]]]]]]; [discriminate|auto|].
           congruence.
Qed.

Lemma lead8_none : forall b r, lead8 (b :: r) = None -> byte b -> 128 <= b.
Proof. intros b r E Hb. cbn [lead8] in E. destruct (Z.leb_spec b 0x7f); [discriminate|lia]. Qed.
Lemma leadc_none : forall b r, leadc (b :: r) = None -> byte b -> 128 <= b.
Proof. intros b r E Hb. cbn [leadc] in E. destruct (Z.leb_spec b 0x7f); [discriminate|lia]. Qed.

Lemma printUTF8_tokens : forall l, Forall byte l ->
  exists ts, Forall tok_ok ts /\ l = flat_map (tok_bytes utf8) ts /\ printUTF8 l = Ok (flat_map tok_text ts) /\
    (forall cs, encodes utf8 cs l -> ts = map TC cs).
Proof. intros l Hb. apply (printLoop_tokens utf8 lead8 _ utf8_exact print8_follows lead8_none (length l) [] l); auto. Qed.

Lemma printCESU8_tokens : forall l, Forall byte l ->
  exists ts, Forall tok_ok ts /\ l = flat_map (tok_bytes cesu8) ts /\ printCESU8 l = Ok (flat_map tok_text ts) /\
    (forall cs, encodes cesu8 cs l -> ts = map TC cs).
Proof. intros l Hb. apply (printLoop_tokens cesu8 leadc _ cesu8_exact printc_follows leadc_none (length l) [] l); auto. Qed.

(** ** The hexadecimal dump *)

Lemma stringAsHex_ok : forall l, Forall byte l -> stringAsHex l = dump l.
Proof.
  intros [|c l] Hb; auto. inversion Hb as [|? ? B Hl]; subst. cbn [stringAsHex]. rewrite hex2_ok by auto. clear Hb B. revert c Hl.
  induction l as [|d l IH]; intros c Hl.
  - cbn. auto.
  - inversion Hl; subst. cbn [flat_map dump]. rewrite hex2_ok by auto. rewrite <- app_assoc. rewrite (IH d H2).
    change (lit " ") with [32]. auto.
Qed.

Lemma dump_inj : forall a b, Forall byte a -> Forall byte b -> dump a = dump b -> a = b.
Proof.
  assert (F : forall x, byte x -> exists h l, HH x = [h; l] /\ h <> 32 /\ l <> 32).
  { intros x Hx. destruct (byte_digits x Hx) as [D1 [D2 _]]. exists (H (x / 16)), (H (x mod 16)).
    pose proof (H_range _ D1). pose proof (H_range _ D2). repeat split; auto; lia. }
  induction a as [|x a IH]; intros [|y b] Ha Hb E; auto.
  - inversion Hb; subst. destruct b; cbn in E; discriminate.
  - inversion Ha; subst. destruct a; cbn in E; discriminate.
  - inversion Ha as [|? ? X Ha']; inversion Hb as [|? ? Y Hb']; subst.
    destruct a as [|x' a], b as [|y' b]; cbn [dump] in E.
    + apply HH_inj in E; auto. congruence.
    + exfalso. destruct (F x X) as [? [? [E1 _]]], (F y Y) as [? [? [E2 _]]]. rewrite E1, E2 in E. discriminate.
    + exfalso. destruct (F x X) as [? [? [E1 _]]], (F y Y) as [? [? [E2 _]]]. rewrite E1, E2 in E. discriminate.
    + apply HH_app_inj in E; auto. destruct E as [-> E]. f_equal. apply IH; auto. cbn [app] in E. injection E as E. exact E.
Qed.

Lemma dump_chars : forall a c, Forall byte a -> In c (dump a) -> c = 32 \/ 48 <= c <= 57 \/ 97 <= c <= 102.
Proof.
  assert (F : forall x c, byte x -> In c (HH x) -> 48 <= c <= 57 \/ 97 <= c <= 102).
  { intros x c Hx [<-|[<-|[]]]; apply H_range; apply (byte_digits x Hx). }
  induction a as [|x a IH]; intros c Ha Hc; [destruct Hc|].
  inversion Ha as [|? ? X Ha']; subst. destruct a as [|y a].
  - right. eapply F; eauto.
  - cbn [dump] in Hc. rewrite !in_app_iff in Hc. destruct Hc as [Hc|[[<-|[]]|Hc]]; auto. right. eapply F; eauto.
Qed.

(** ** Parsing from the right *)

Lemma last_split : forall (c : Z) a b X Y, ~ In c a -> ~ In c b -> X ++ c :: a = Y ++ c :: b -> X = Y /\ a = b.
Proof.
  intros c a. induction a as [|x a IH] using rev_ind; intros b X Y Ha Hb E.
  - destruct b as [|y b _] using rev_ind; [apply app_inj_tail in E; tauto|].
    exfalso. rewrite app_comm_cons, app_assoc in E. apply app_inj_tail in E. destruct E as [_ <-]. apply Hb. apply in_app_iff. cbn. auto.
  - destruct b as [|y b _] using rev_ind.
    + exfalso. rewrite app_comm_cons, app_assoc in E. apply app_inj_tail in E. destruct E as [_ ->]. apply Ha. apply in_app_iff. cbn. auto.
    + rewrite !app_comm_cons, !app_assoc in E. apply app_inj_tail in E. destruct E as [E ->].
      apply IH in E; [destruct E; subst; auto| |]; intros I; [apply Ha|apply Hb]; apply in_app_iff; auto.
Qed.

Lemma quoted_right : forall k k' t t' a b, Forall byte a -> Forall byte b -> (a = b -> t = t') ->
  k ++ quoted t a = k' ++ quoted t' b -> a = b /\ k = k'.
Proof.
  intros k k' t t' a b Ha Hb Ht E. unfold quoted in E. rewrite !stringAsHex_ok in E by auto.
  change (lit """") with [34] in E. change (lit """ (") with ([34; 32] ++ [40]) in E. change (lit ")") with [41] in E.
  assert (E' : (k ++ [34] ++ t ++ [34; 32]) ++ 40 :: (dump a ++ [41]) = (k' ++ [34] ++ t' ++ [34; 32]) ++ 40 :: (dump b ++ [41])).
  { revert E. rewrite <- !app_assoc. cbn [app]. auto. }
  assert (N : forall x, Forall byte x -> ~ In 40 (dump x ++ [41])).
  { intros x Hx I. apply in_app_iff in I. destruct I as [I|[I|[]]]; [|discriminate]. apply dump_chars in I; auto. lia. }
  apply last_split in E'; auto. destruct E' as [E1 E2]. apply app_inj_tail in E2. destruct E2 as [E2 _].
  apply dump_inj in E2; auto. split; auto. specialize (Ht E2). subst t'. apply app_inv_tail in E1. auto.
Qed.

(** Ends with a space, or is empty. *)
Definition spaced (k : text) : Prop := k = [] \/ exists k0, k = k0 ++ [32].
(** Is not empty and does not end with a space. *)
Definition solid (x : text) : Prop := exists x0 c, x = x0 ++ [c] /\ c <> 32.

Lemma solid_spaced : forall k k' x o, solid x -> (exists o0, o = o0 ++ [32]) -> k ++ o = k' ++ x -> False.
Proof.
  intros k k' x o [x0 [c [-> Hc]]] [o0 ->] E. rewrite !app_assoc in E. apply app_inj_tail in E. destruct E. congruence.
Qed.

Lemma spaced_app : forall k o, (exists o0, o = o0 ++ [32]) -> spaced (k ++ o).
Proof. intros k o [o0 ->]. right. exists (k ++ o0). rewrite app_assoc. auto. Qed.

Lemma spaceless_right : forall x y k k', ~ In 32 x -> ~ In 32 y -> spaced k -> spaced k' -> k ++ x = k' ++ y -> k = k' /\ x = y.
Proof.
  intros x y k k' Hx Hy [->|[k0 ->]] [->|[k0' ->]] E; cbn [app] in E; auto.
  - exfalso. apply Hx. rewrite E, <- app_assoc. apply in_app_iff. cbn. auto.
  - exfalso. apply Hy. rewrite <- E, <- app_assoc. apply in_app_iff. cbn. auto.
  - rewrite <- !app_assoc in E. cbn [app] in E. apply last_split in E; auto. destruct E. subst. auto.
Qed.

(** ** Decimal numbers *)

Definition digit_char (c : Z) : Prop := 48 <= c <= 57.

Lemma digits_ok : forall fuel n, 0 <= n -> (Z.to_nat (Z.log2 n) < fuel)%nat ->
  Forall digit_char (digits 10 fuel n) /\ digits 10 fuel n <> [] /\ read_digits (digits 10 fuel n) = n.
Proof.
  induction fuel as [|fuel IH]; intros n Hn Hf; [lia|]. cbn [digits]. destruct (Z.ltb_spec n 10).
  - unfold digitChar. destruct (Z.ltb_spec n 10); [|lia]. split; [constructor; auto; unfold digit_char; lia|]. split; [discriminate|].
    unfold read_digits. cbn [fold_left]. lia.
  - pose proof (Z.div_mod n 10 ltac:(lia)). pose proof (Z.mod_pos_bound n 10 ltac:(lia)).
    assert (0 < n / 10) by lia.
    assert (L : Z.log2 (n / 10) < Z.log2 n).
    { assert (Z.log2 (2 * (n / 10)) <= Z.log2 n) by (apply Z.log2_le_mono; lia). rewrite Z.log2_double in H3 by lia. lia. }
    pose proof (Z.log2_nonneg (n / 10)).
    destruct (IH (n / 10) ltac:(lia) ltac:(lia)) as [F [_ R]].
    unfold digitChar. destruct (Z.ltb_spec (n mod 10) 10); [|lia].
    split; [apply Forall_app; split; auto; constructor; auto; unfold digit_char; lia|].
    split; [destruct (digits 10 fuel (n / 10)); discriminate|].
    unfold read_digits in *. rewrite fold_left_app, R. cbn [fold_left]. lia.
Qed.

Lemma numeral_ok : forall n, 0 <= n ->
  Forall digit_char (numeral 10 n) /\ numeral 10 n <> [] /\ read_digits (numeral 10 n) = n.
Proof. intros. apply digits_ok; auto. Qed.

Lemma dec_read : forall n, read_dec (dec n) = n.
Proof.
  intros n. unfold dec. destruct (Z.ltb_spec n 0).
  - cbn [read_dec]. destruct (numeral_ok (- n) ltac:(lia)) as [_ [_ E]]. rewrite E. lia.
  - destruct (numeral_ok n ltac:(lia)) as [F [N E]]. destruct (numeral 10 n) as [|c r]; [congruence|].
    inversion F; subst. unfold digit_char in H2. unfold read_dec. destruct c as [|p|p]; try lia.
    destruct (Z.eqb_spec (Z.pos p) 45); [lia|].
    assert (X : forall (q : positive) (a b : Z), q <> 45%positive -> match q with 45%positive => a | _ => b end = b).
    { intros q a b Hq. do 6 (destruct q as [q|q|]; try reflexivity; try congruence). }
    apply X. congruence.
Qed.

Lemma dec_inj : forall a b, dec a = dec b -> a = b.
Proof. intros a b E. rewrite <- (dec_read a), <- (dec_read b). congruence. Qed.

Lemma dec_chars : forall n c, In c (dec n) -> c = 45 \/ 48 <= c <= 57.
Proof.
  intros n c. unfold dec. destruct (Z.ltb_spec n 0).
  - intros [<-|I]; auto. right. destruct (numeral_ok (- n) ltac:(lia)) as [F _]. rewrite Forall_forall in F. apply F. auto.
  - intros I. right. destruct (numeral_ok n ltac:(lia)) as [F _]. rewrite Forall_forall in F. apply F. auto.
Qed.

Lemma dec_solid : forall n, exists x c, dec n = x ++ [c] /\ 48 <= c <= 57.
Proof.
  assert (X : forall n, 0 <= n -> exists x c, numeral 10 n = x ++ [c] /\ 48 <= c <= 57).
  { intros n Hn. destruct (numeral_ok n Hn) as [F [N _]]. destruct (exists_last N) as [x [c E]]. exists x, c. split; auto.
    rewrite E in F. apply Forall_app in F. destruct F as [_ F]. inversion F; auto. }
  intros n. unfold dec. destruct (Z.ltb_spec n 0).
  - destruct (X (- n) ltac:(lia)) as [x [c [-> Hc]]]. exists (45 :: x), c. auto.
  - apply X. lia.
Qed.

(** ** Sequences *)

Lemma commas_snoc : forall ts t, ts <> [] -> commas (ts ++ [t]) = commas ts ++ lit ", " ++ t.
Proof.
  intros [|a ts] t N; [congruence|]. cbn [app commas]. rewrite flat_map_app. cbn [flat_map]. rewrite app_nil_r, <- app_assoc. auto.
Qed.

(** Texts of values whose printing can be parsed from the right. *)
Definition right_inj {A} (R : A -> text -> Prop) : Prop :=
  (forall a x, R a x -> solid x) /\
  (forall a b x y k k', R a x -> R b y -> spaced k -> spaced k' -> k ++ x = k' ++ y -> a = b /\ k = k').

Lemma commas_inj : forall A (R : A -> text -> Prop) p, right_inj R -> p <> 44 ->
  forall l l' ts ts' k k', Forall2 R l ts -> Forall2 R l' ts' ->
  k ++ [p; 32] ++ commas ts = k' ++ [p; 32] ++ commas ts' -> l = l' /\ k = k'.
Proof.
  intros A R p [RS RI] Hp. assert (Snoc : forall l ts, Forall2 R l ts ->
    (l = [] /\ ts = []) \/ exists l0 a ts0 t, l = l0 ++ [a] /\ ts = ts0 ++ [t] /\ Forall2 R l0 ts0 /\ R a t).
  { intros l ts F. destruct l as [|a l _] using rev_ind; [inversion F; auto|]. right.
    apply Forall2_app_inv_l in F. destruct F as [t0 [t1 [F0 [F1 ->]]]]. inversion F1 as [|? y ? l' Hy Hl]; subst. inversion Hl; subst.
    exists l, a, t0, y. auto. }
  assert (Pre : forall ts0 t k, (ts0 = [] /\ k ++ [p; 32] ++ commas (ts0 ++ [t]) = (k ++ [p; 32]) ++ t) \/
    (ts0 <> [] /\ k ++ [p; 32] ++ commas (ts0 ++ [t]) = ((k ++ [p; 32] ++ commas ts0) ++ [44; 32]) ++ t)).
  { intros [|u ts0] t k; [left|right]; split; auto; try discriminate.
    - cbn [app commas flat_map]. rewrite app_nil_r, <- app_assoc. auto.
    - rewrite commas_snoc by discriminate. change (lit ", ") with [44; 32]. rewrite <- !app_assoc. auto. }
  induction l as [|a l IH] using rev_ind; intros l' ts ts' k k' F F' E.
  - inversion F; subst. destruct (Snoc _ _ F') as [[-> ->]|[l0 [b [ts0 [t [-> [-> [F0 Hb]]]]]]]].
    + split; auto. apply app_inv_tail in E. auto.
    + exfalso. cbn [commas] in E. rewrite app_nil_r in E.
      destruct (Pre ts0 t k') as [[_ X]|[_ X]]; rewrite X in E; eapply solid_spaced; [eapply RS; eauto| |exact E| eapply RS; eauto| |exact E];
        exists [p]; auto.
  - destruct (Snoc _ _ F) as [[Z _]|[l0 [a0 [ts0 [t [El [-> [F0 Ha]]]]]]]]; [destruct l; discriminate|].
    apply app_inj_tail in El. destruct El as [<- <-].
    destruct (Snoc _ _ F') as [[-> ->]|[l0' [b [ts0' [t' [-> [-> [F0' Hb]]]]]]]].
    + exfalso. cbn [commas] in E. rewrite app_nil_r in E. symmetry in E.
      destruct (Pre ts0 t k) as [[_ X]|[_ X]]; rewrite X in E; eapply solid_spaced; [eapply RS; eauto| |exact E| eapply RS; eauto| |exact E];
        exists [p]; auto.
    + assert (S1 : forall k, spaced (k ++ [p; 32])) by (intros; apply spaced_app; exists [p]; auto).
      assert (S2 : forall k, spaced (k ++ [44; 32])) by (intros; apply spaced_app; exists [44]; auto).
      destruct (Pre ts0 t k) as [[T0 X]|[T0 X]], (Pre ts0' t' k') as [[T0' X']|[T0' X']]; rewrite X, X' in E;
        pose proof (fun s1 s2 => RI _ _ _ _ _ _ Ha Hb s1 s2 E) as Q; (destruct Q as [<- E0]; [solve [auto]|solve [auto]|]).
      * subst. inversion F0; inversion F0'; subst. apply app_inv_tail in E0. auto.
      * exfalso. rewrite app_assoc in E0. change [p; 32] with ([p] ++ [32]) in E0. change [44; 32] with ([44] ++ [32]) in E0.
        rewrite !app_assoc in E0. apply app_inj_tail in E0. destruct E0 as [E0 _]. apply app_inj_tail in E0. destruct E0; congruence.
      * exfalso. rewrite app_assoc in E0. change [p; 32] with ([p] ++ [32]) in E0. change [44; 32] with ([44] ++ [32]) in E0.
        rewrite !app_assoc in E0. apply app_inj_tail in E0. destruct E0 as [E0 _]. apply app_inj_tail in E0. destruct E0; congruence.
      * apply app_inv_tail in E0. destruct (IH _ _ _ _ _ F0 F0' E0). subst. auto.
Qed.
