(** C90: how likely each generated character and text is. *)
From Coq Require Import List ZArith QArith Qabs Lia Lqa Bool SpecFloat.
From Verif Require Import Base TreeModel IntegralModel IntegralSpec IntegralProof RandomModel ListModel ContainerModel GenModel UtfSpec UtfProof Utf16Proof UnicodeGenModel UnicodeGenProof PropUnicode.
From Verif Require Import ChanceSpec ChanceProof ChanceLawProof ChanceCombProof EndingProof BugChanceSpec BugChanceProof PropChance UnicodeChanceProof.
Import ListNotations.
Local Open Scope Q_scope.

(** How often the characters before and after the surrogates are chosen, and how often a round of oneOf chooses nothing. *)
Definition oftenFront : Q := 917225654981569921 # 18446744073709550978.
Definition oftenRear : Q := 17529518418727981057 # 18446744073709550978.
Definition oftenNone : Q := 18446744073709552254 # 36893488147419103232.

Lemma coins : Forall2 coin [w_front; w_rear] [odds 917225654981569920; odds 17529518418727981056].
Proof.
  constructor; [|constructor; [|constructor]].
  - apply (coin_proper w_front 7165825429543515 (-57)). split; [reflexivity|]. split; [vm_compute; reflexivity|]. split; lia.
  - apply (coin_proper w_rear 8559335165394522 (-53)). split; [reflexivity|]. split; [vm_compute; reflexivity|]. split; lia.
Qed.
Lemma power_eq : forall a b k, a == b -> power a k == power b k.
Proof. intros a b k H. induction k as [|k IH]; cbn [power]; [reflexivity|apply Qmult_comp; assumption]. Qed.

(** The generator of characters, with at most [m] + 1 rounds of oneOf: one of the two ranges, nearly as often as its size asks for, and in it every character equally likely. *)
Theorem C90_characters : forall ev m,
  likely (fun E => unicodeGen (S m)) ev ((1 - power oftenNone m) * (oftenFront * average 0x1 0xD7FF (tells ev) + oftenRear * average 0xE000 0x10FFFF (tells ev))).
Proof.
  intros ev m.
  destruct (oneOf_likely Z [(fun E => interval TU32 0x1 0xD7FF, w_front); (fun E => interval TU32 0xE000 0x10FFFF, w_rear)] [w_front; w_rear] [odds 917225654981569920; odds 17529518418727981056] ev
    [average 0x1 0xD7FF (tells ev); average 0xE000 0x10FFFF (tells ev)] ltac:(cbn; lia) ltac:(cbn; unfold UINT32_MAX; lia) eq_refl coins) with (m := m) as (p & L & Q).
  - vm_compute. discriminate.
  - constructor; [|constructor; [|constructor]]; cbn [fst]; apply C78_integer; cbn; try lia; unfold reversed_char; intros [X _]; discriminate.
  - exists p. split.
    + intros E r. rewrite unicodeGen_eq. exact (L E r).
    + rewrite Q. cbn [length dot total fold_right]. apply Qmult_comp.
      * unfold Qminus. apply Qplus_comp; [reflexivity|]. apply Qopp_comp, power_eq. vm_compute. reflexivity.
      * set (a := average 0x1 0xD7FF (tells ev)). set (b := average 0xE000 0x10FFFF (tells ev)).
        assert (F : odds 917225654981569920 / (odds 917225654981569920 + (odds 17529518418727981056 + 0)) == oftenFront) by (vm_compute; reflexivity).
        assert (R : odds 17529518418727981056 / (odds 917225654981569920 + (odds 17529518418727981056 + 0)) == oftenRear) by (vm_compute; reflexivity).
        rewrite <- F, <- R. unfold Qdiv. ring.
Qed.
(** A character between 1 and 127. *)
Definition ascii (c : Z) : bool := (c <? 128)%Z.
Lemma ascii_average : average 0x1 0xD7FF (tells ascii) == 127 # 55295 /\ average 0xE000 0x10FFFF (tells ascii) == 0.
Proof.
  split.
  - refine (Qeq_trans _ _ _ (average_shift 0 0xD7FE 1 (tells ascii)) _).
    refine (Qeq_trans _ _ _ (average_ext 0 0xD7FE _ (fun z => if (z <=? 126)%Z then 1 else 0) _) _).
    + intros z Hz. unfold tells, ascii. destruct (Z.ltb_spec (z + 1) 128), (Z.leb_spec z 126); try lia; reflexivity.
    + rewrite average_below by lia. vm_compute. reflexivity.
  - apply average_none; [lia|]. intros z Hz. unfold tells, ascii. destruct (Z.ltb_spec z 128); [lia|reflexivity].
Qed.
Example C90_characters_ex : forall m, likely (fun E => unicodeGen (S m)) ascii ((1 - power oftenNone m) * (oftenFront * (127 # 55295))) /\ oftenFront * (127 # 55295) < 1 # 8700.
Proof.
  intros m. split; [|vm_compute; reflexivity]. destruct (C90_characters ascii m) as (p & L & Q). exists p. split; [exact L|]. rewrite Q. destruct ascii_average as [-> ->]. ring.
Qed.

(** With enough rounds a character is returned with probability as near to 1 as wanted. *)
Theorem C90_returns : forall m, likely (fun E => unicodeGen (S m)) (fun _ => true) (1 - power oftenNone m) /\ power oftenNone m <= power (501 # 1000) m.
Proof.
  intros m. split.
  - destruct (C90_characters (fun _ => true) m) as (p & L & Q). exists p. split; [exact L|]. rewrite Q. unfold tells. rewrite !average_const by lia.
    assert (T : oftenFront * 1 + oftenRear * 1 == 1) by (vm_compute; reflexivity). rewrite T. ring.
  - assert (N : 0 <= oftenNone <= 501 # 1000) by (split; vm_compute; discriminate). induction m as [|m IH]; cbn [power]; [lra|].
    assert (P : 0 <= power oftenNone m) by (clear IH; induction m as [|m IH]; cbn [power]; [lra|apply Qmult_le_0_compat; lra]).
    set (x := power oftenNone m) in *. set (y := power (501 # 1000) m) in *. nra.
Qed.
Example C90_returns_ex : power (501 # 1000) 20 < 1 # 900000. Proof. vm_compute. reflexivity. Qed.

(** Every character but NUL is as likely as every other, up to rounding: the weights are doubles. *)
Theorem C90_character : forall c m, scalar c -> c <> 0%Z -> exists q, likely (fun E => unicodeGen (S m)) (Z.eqb c) q /\
  Qabs (q * inject_Z 1112063 - (1 - power oftenNone m)) <= 1 # 18014398509481984.
Proof.
  intros c m Hc H0. set (w := 1 - power oftenNone m).
  assert (W : 0 <= w <= 1). { destruct (C90_returns m) as [H _]. exact (proj2 (C78_unique _ _ _ _ _ H H)). }
  assert (A : forall lo hi, (lo <= hi)%Z -> average lo hi (tells (Z.eqb c)) == if (lo <=? c)%Z && (c <=? hi)%Z then 1 / inject_Z (hi - lo + 1) else 0).
  { intros lo hi H. unfold tells. refine (Qeq_trans _ _ _ (average_ext lo hi _ (fun z => if (z =? c)%Z then 1 else 0) _) _); [intros z _; rewrite Z.eqb_sym; reflexivity|].
    destruct (Z.leb_spec lo c), (Z.leb_spec c hi); cbn [andb]; try (apply average_none; [lia|]; intros z Hz; destruct (Z.eqb_spec z c); [lia|reflexivity]). apply average_single. lia. }
  assert (K : exists k, likely (fun E => unicodeGen (S m)) (Z.eqb c) (w * k) /\ Qabs (k * inject_Z 1112063 - 1) <= 1 # 18014398509481984).
  { destruct Hc as [Hc|Hc].
    - exists (oftenFront * (1 # 55295)). split; [|vm_compute; discriminate]. destruct (C90_characters (Z.eqb c) m) as (p & L & Q). exists p. split; [exact L|]. rewrite Q, !A by lia.
      destruct (Z.leb_spec 1 c), (Z.leb_spec c 0xD7FF), (Z.leb_spec 0xE000 c); try lia. cbn [andb]. unfold w. change (1 / inject_Z (0xD7FF - 1 + 1)) with (1 # 55295). ring.
    - exists (oftenRear * (1 # 1056768)). split; [|vm_compute; discriminate]. destruct (C90_characters (Z.eqb c) m) as (p & L & Q). exists p. split; [exact L|]. rewrite Q, !A by lia.
      destruct (Z.leb_spec c 0x10FFFF), (Z.leb_spec c 0xD7FF), (Z.leb_spec 0xE000 c); try lia. rewrite andb_false_r. cbn [andb]. unfold w. change (1 / inject_Z (0x10FFFF - 0xE000 + 1)) with (1 # 1056768). ring. }
  destruct K as (k & L & B). exists (w * k). split; [exact L|]. assert (E : w * k * inject_Z 1112063 - w == w * (k * inject_Z 1112063 - 1)) by ring. rewrite E, Qabs_Qmult, (Qabs_pos w) by lra.
  set (d := Qabs (k * inject_Z 1112063 - 1)) in *. assert (0 <= d) by apply Qabs_nonneg. nra.
Qed.
Example C90_character_ex : scalar 65 /\ scalar 0x1F600 /\ (1112063 = 0xD7FF + (0x10FFFF - 0xE000 + 1))%Z. Proof. unfold scalar. split; [lia|]. split; [lia|reflexivity]. Qed.

(** ** Texts *)

(** Whatever the element generator, as long as its characters are Unicode scalar values: all characters of a string have a property with the probability of one character to the
    power of the length, all lengths being equally likely. *)
Theorem C90_texts : forall co enc, In (co, enc) forms -> forall (g : forall E, gen E Z) mn mx ev b q, (forall E r t r', g E r = Ok (t, r') -> scalar (root t)) -> (0 <= mn)%Z -> (mn <= mx)%Z -> (6 * mx + 2 < 2 ^ 31)%Z ->
  likely g ev q -> (forall codes, Forall scalar codes -> b (flat_map enc codes) = forallb ev codes) ->
  likely (fun E => arbi_encoded co (g E) {| minSize := mn; maxSize := mx |}) b (average mn mx (fun k => power q (Z.to_nat k))).
Proof.
  intros co enc Hco g mn mx ev b q Hg H0 H1 H2 (p & L & Q) Hb. exists (pmap (flat_map enc) (list_plan mn mx p)). split; [apply encoded_law; auto|].
  rewrite (encoded_prob enc p mn mx b (forallb ev) (law_leaves _ g _ p L Hg) Hb), list_all by exact H1. apply average_ext. intros z _. apply power_eq, Q.
Qed.
Lemma unicode_scalar : forall fuel E r t r', unicodeGen (E := E) fuel r = Ok (t, r') -> scalar (root t).
Proof. intros fuel E r t r' H. unfold scalar. destruct (C55_unicode E fuel r t r' H) as [G|G]; destruct G as [G _ _ _]; lia. Qed.

(** An element generator other than the default one. *)
Example C90_texts_ex : In (utf16be_coding, utf16be) forms /\ (forall E (r : rst E) t r', interval TU32 65 66 r = Ok (t, r') -> scalar (root t)) /\ likely (fun E => interval TU32 65 66) (Z.eqb 65) (1 # 2).
Proof.
  split; [right; right; left; reflexivity|]. split.
  - intros E r t r' H. destruct (generateInteger_ok E TU32 65 66 r) as (t0 & r0 & E0 & G); try (cbn; lia); [unfold reversed_char; intros [X _]; discriminate|]. unfold interval in H. rewrite E0 in H. inversion H; subst. destruct G as [G _ _ _]. unfold scalar. lia.
  - destruct (C78_integer_uniform TU32 65 66 65) as (p & L & Q); try (cbn; lia); [unfold reversed_char; intros [X _]; discriminate|]. exists p. split; [exact L|]. refine (Qeq_trans _ _ _ (prob_ext _ p _ _ _) Q). intros a. apply Z.eqb_sym.
Qed.

(** A UTF-8 string of the default generator is plain ASCII about as often as it is empty. *)
Lemma utf8_ascii : forall codes, Forall scalar codes -> forallb (fun b => (b <? 128)%Z) (flat_map utf8 codes) = forallb ascii codes.
Proof.
  intros codes H. induction H as [|c codes Hc _ IH]; [reflexivity|]. cbn [flat_map forallb]. rewrite forallb_app, IH. f_equal. unfold utf8, ascii.
  destruct (Z.ltb_spec c 0x80) as [L|L]; cbn [forallb]; [destruct (Z.ltb_spec c 128); [reflexivity|lia]|]. unfold scalar in Hc. destruct (Z.ltb_spec c 128); [lia|].
  destruct (c <? 0x800)%Z; [|destruct (c <? 0x10000)%Z]; cbn [forallb];
    match goal with |- ((?a <? 128)%Z && _)%bool = _ => destruct (Z.ltb_spec a 128) as [X|X]; [|reflexivity]; exfalso end.
  - assert (0 <= c / 64)%Z by (apply Z.div_pos; lia). lia.
  - assert (0 <= c / 4096)%Z by (apply Z.div_pos; lia). lia.
  - assert (0 <= c / 262144)%Z by (apply Z.div_pos; lia). lia.
Qed.
Theorem C90_ascii : forall m mn mx, (0 <= mn)%Z -> (mn <= mx)%Z -> (6 * mx + 2 < 2 ^ 31)%Z -> exists q, 0 <= q < 1 # 8700 /\
  likely (fun E => arbi_encoded utf8_coding (unicodeGen (S m)) {| minSize := mn; maxSize := mx |}) (forallb (fun b => (b <? 128)%Z)) (average mn mx (fun k => power q (Z.to_nat k))).
Proof.
  intros m mn mx H0 H1 H2. destruct (C90_characters_ex m) as [L B]. exists ((1 - power oftenNone m) * (oftenFront * (127 # 55295))). split.
  - assert (W : 0 <= 1 - power oftenNone m <= 1). { destruct (C90_returns m) as [H _]. exact (proj2 (C78_unique _ _ _ _ _ H H)). }
    assert (P : 0 <= oftenFront * (127 # 55295)) by (vm_compute; discriminate). set (x := oftenFront * (127 # 55295)) in *. set (w := 1 - power oftenNone m) in *. split; [apply Qmult_le_0_compat; lra|nra].
  - apply (C90_texts utf8_coding utf8 ltac:(left; reflexivity) (fun E => unicodeGen (S m)) mn mx ascii); auto; [apply unicode_scalar|apply utf8_ascii].
Qed.
(** With the default sizes, less than once in 196 times. *)
Theorem C90_ascii_default : forall m, exists q, q < 1 # 196 /\
  likely (fun E => arbi_encoded utf8_coding (unicodeGen (S m)) {| minSize := 0; maxSize := 200 |}) (forallb (fun b => (b <? 128)%Z)) q.
Proof.
  intros m. destruct (C90_ascii m 0 200 ltac:(lia) ltac:(lia) ltac:(lia)) as (q & B & L). exists (average 0 200 (fun k => power q (Z.to_nat k))). split; [|exact L].
  assert (P0 : forall k, 0 <= power q k <= 1). { induction k as [|k IH]; cbn [power]; [lra|]. split; [apply Qmult_le_0_compat; lra|]. set (x := power q k) in *. nra. }
  refine (Qle_lt_trans _ _ _ (average_le 0 200 _ (fun z => if (z <=? 0)%Z then 1 else q) _ _) _); [lia| |].
  - intros z Hz. destruct (Z.leb_spec z 0) as [Z0|Z0]; [apply P0|]. destruct (Z.to_nat z) as [|k] eqn:Ek; [lia|]. cbn [power]. specialize (P0 k). set (x := power q k) in *. nra.
  - rewrite average_below by lia. change (inject_Z (0 + 1) / inject_Z (200 + 1)) with (1 # 201). lra.
Qed.
Example C90_ascii_ex : forallb (fun b => (b <? 128)%Z) (flat_map utf8 [72; 105]%Z) = true /\ forallb (fun b => (b <? 128)%Z) (flat_map utf8 [72; 228]%Z) = false. Proof. split; reflexivity. Qed.

(** One particular text: the probabilities of its characters multiplied, divided by the number of lengths. *)
Lemma forms_unique : forall co enc, In (co, enc) forms -> forall cs cs', Forall scalar cs -> Forall scalar cs' -> flat_map enc cs = flat_map enc cs' -> cs = cs'.
Proof.
  intros co enc H cs cs' H1 H2 E. assert (X : exists lead, exact_lead enc lead).
  { cbn in H. destruct H as [H|[H|[H|[H|[]]]]]; injection H as <- <-; [exists lead8; apply utf8_exact|exists leadc; apply cesu8_exact|exists lead_be; apply utf16be_exact|exists lead_le; apply utf16le_exact]. }
  destruct X as [lead X]. apply (encodes_unique enc lead X cs cs' (flat_map enc cs)); split; auto.
Qed.
Fixpoint sameBytes (a b : list Z) : bool := match a, b with [], [] => true | x :: a', y :: b' => Z.eqb x y && sameBytes a' b' | _, _ => false end.
Lemma sameBytes_eq : forall a b, sameBytes a b = true <-> a = b.
Proof.
  induction a as [|x a IH]; intros [|y b]; cbn [sameBytes]; split; intros H; try congruence; auto.
  - apply andb_true_iff in H. destruct H as [H1 H2]. apply Z.eqb_eq in H1. apply IH in H2. congruence.
  - injection H as -> ->. rewrite Z.eqb_refl. apply IH. reflexivity.
Qed.
Lemma each_same : forall cs l, each (map Z.eqb cs) l = sameBytes cs l.
Proof. induction cs as [|c cs IH]; intros [|x l]; cbn [map each sameBytes]; auto. rewrite IH. reflexivity. Qed.
Theorem C90_text : forall co enc, In (co, enc) forms -> forall (g : forall E, gen E Z) mn mx codes qs, lawful g -> (forall E r t r', g E r = Ok (t, r') -> scalar (root t)) -> (0 <= mn)%Z -> (6 * mx + 2 < 2 ^ 31)%Z ->
  (mn <= Z.of_nat (length codes) <= mx)%Z -> Forall scalar codes -> Forall2 (fun c q => likely g (Z.eqb c) q) codes qs ->
  likely (fun E => arbi_encoded co (g E) {| minSize := mn; maxSize := mx |}) (sameBytes (flat_map enc codes)) (product qs / inject_Z (mx - mn + 1)).
Proof.
  intros co enc Hco g mn mx codes qs (p & L) Hg H0 H2 Hl Hs HF. exists (pmap (flat_map enc) (list_plan mn mx p)). split; [apply encoded_law; auto; lia|].
  rewrite (encoded_prob enc p mn mx _ (each (map Z.eqb codes)) (law_leaves _ g _ p L Hg)).
  - rewrite list_prob by (rewrite ?map_length; auto). rewrite map_map.
    assert (P : product (map (fun c => prob p (Z.eqb c)) codes) == product qs).
    { clear - HF L. unfold product. induction HF as [|c q codes qs H _ IH]; cbn [map fold_right]; [reflexivity|]. rewrite IH, (likely_at _ g p _ q L H). reflexivity. }
    rewrite P. reflexivity.
  - intros l Hsl. rewrite each_same. apply Bool.eq_true_iff_eq. rewrite !sameBytes_eq. split; [|congruence]. apply (forms_unique co enc Hco); auto.
Qed.
(** The text of one smiley. *)
Example C90_text_ex : forall m, exists q, likely (fun E => arbi_encoded utf8_coding (unicodeGen (S m)) {| minSize := 0; maxSize := 200 |}) (sameBytes [240; 159; 152; 128]%Z) (q / inject_Z 201) /\
  Qabs (q * inject_Z 1112063 - (1 - power oftenNone m)) <= 1 # 18014398509481984.
Proof.
  intros m. destruct (C90_character 0x1F600 m ltac:(unfold scalar; lia) ltac:(lia)) as (q & L & B). exists q. split; [|exact B].
  destruct (C90_text utf8_coding utf8 ltac:(left; reflexivity) (fun E => unicodeGen (S m)) 0 200 [0x1F600]%Z [q]) as (p & Lp & Q).
  - destruct L as (p & L & _). exists p. exact L.
  - apply unicode_scalar.
  - lia.
  - lia.
  - cbn. lia.
  - constructor; [unfold scalar; lia|constructor].
  - constructor; [exact L|constructor].
  - exists p. split; [exact Lp|]. refine (Qeq_trans _ _ _ Q _). cbn [product fold_right]. change (inject_Z (200 - 0 + 1)) with (inject_Z 201). unfold Qdiv. ring.
Qed.

Print Assumptions C90_characters.
Print Assumptions C90_returns.
Print Assumptions C90_character.
Print Assumptions C90_texts.
Print Assumptions C90_ascii.
Print Assumptions C90_ascii_default.
Print Assumptions C90_text.
