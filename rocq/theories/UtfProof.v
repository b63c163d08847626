From Coq Require Import List ZArith Lia Bool Arith.
From Verif Require Import Base TreeModel BinSearchProof Utf8Model UtfSpec.
Import ListNotations.
Local Open Scope Z_scope.

(** ** Reading a vector from some position on *)

Lemma idx_app : forall (pre suf : list Z) k, 0 <= k -> idx (pre ++ suf) (bsize pre + k) = idx suf k.
Proof.
  intros pre suf k H. unfold idx, bsize. destruct (Z.ltb_spec (Z.of_nat (length pre) + k) 0); [lia|].
  destruct (Z.ltb_spec k 0); [lia|]. rewrite nth_error_app2 by lia.
  replace (Z.to_nat (Z.of_nat (length pre) + k) - length pre)%nat with (Z.to_nat k) by lia. auto.
Qed.

Lemma idx_app0 : forall (pre suf : list Z), idx (pre ++ suf) (bsize pre) = idx suf 0.
Proof. intros. rewrite <- (idx_app pre suf 0) by lia. f_equal. lia. Qed.

Lemma inb_app : forall lo pre suf k hi, 0 <= k -> inb lo (pre ++ suf) (bsize pre + k) hi = inb lo suf k hi.
Proof. intros. unfold inb. rewrite idx_app by auto. auto. Qed.

Lemma bsize_app : forall a b, bsize (a ++ b) = bsize a + bsize b.
Proof. intros. unfold bsize. rewrite app_length. lia. Qed.

Lemma gtb_shift : forall p a b, (p + a >? p + b) = (a >? b).
Proof. intros. rewrite !Z.gtb_ltb. destruct (Z.ltb_spec (p + b) (p + a)), (Z.ltb_spec b a); auto; lia. Qed.

Lemma bsize_nonneg : forall l, 0 <= bsize l.
Proof. intros. unfold bsize. lia. Qed.

Lemma bsize_cons : forall x l, bsize (x :: l) = bsize l + 1.
Proof. intros. unfold bsize. cbn [length]. lia. Qed.

Lemma bsize_nil : bsize [] = 0.
Proof. auto. Qed.

(** ** Decoders of one leading character *)

Definition ib (lo x hi : Z) : bool := (lo <=? x) && (x <=? hi).

Record exact_lead (enc : Z -> list Z) (lead : list Z -> option (Z * nat)) : Prop := {
  lead_enc : forall c rest, scalar c -> lead (enc c ++ rest) = Some (c, length (enc c));
  enc_lead : forall l c n, Forall byte l -> lead l = Some (c, n) ->
    scalar c /\ n = length (enc c) /\ exists rest, l = enc c ++ rest;
  enc_cons : forall c, scalar c -> enc c <> [];
  lead_nil : lead [] = None }.

(** The body of the validation loop follows [lead]. *)
Definition step_follows (step : list Z -> Z -> res (option Z)) (lead : list Z -> option (Z * nat)) : Prop :=
  forall pre suf, suf <> [] ->
    step (pre ++ suf) (bsize pre) =
    Ok (match lead suf with Some (_, n) => Some (bsize pre + Z.of_nat n - 1) | None => None end).

Lemma encodes_inv : forall enc lead, exact_lead enc lead -> forall cs suf, suf <> [] -> encodes enc cs suf ->
  exists c cs' rest, cs = c :: cs' /\ scalar c /\ suf = enc c ++ rest /\ encodes enc cs' rest /\
                     lead suf = Some (c, length (enc c)).
Proof.
  intros enc lead L [|c cs] suf Hs [Hc E]; cbn in E; [congruence|].
  inversion Hc; subst. exists c, cs, (flat_map enc cs). repeat split; auto. apply (lead_enc _ _ L); auto.
Qed.

Lemma encodes_unique : forall enc lead, exact_lead enc lead ->
  forall cs cs' suf, encodes enc cs suf -> encodes enc cs' suf -> cs = cs'.
Proof.
  intros enc lead L. induction cs as [|c cs IH]; intros cs' suf H H'.
  - destruct H as [_ ->]. cbn in H'. destruct cs' as [|c' cs']; auto. destruct H' as [Hc E]. cbn in E.
    inversion Hc; subst. pose proof (enc_cons _ _ L c' H1) as N. destruct (enc c'); [congruence|discriminate].
  - assert (N : suf <> []).
    { destruct H as [Hc ->]. inversion Hc; subst. cbn. pose proof (enc_cons _ _ L c H1).
      destruct (enc c); [congruence|discriminate]. }
    destruct (encodes_inv _ _ L _ _ N H) as [c1 [cs1 [rest [E1 [S1 [F1 [G1 L1]]]]]]].
    destruct (encodes_inv _ _ L _ _ N H') as [c2 [cs2 [rest2 [E2 [S2 [F2 [G2 L2]]]]]]].
    injection E1 as <- <-. subst cs'. rewrite L1 in L2. injection L2 as <- _. f_equal.
    subst suf. apply app_inv_head in F2. subst rest2. eapply IH; eauto.
Qed.

Lemma inc32_ok : forall n, n < 2 ^ 31 - 1 -> inc32 n = Ok (n + 1).
Proof. intros n H. unfold inc32. destruct (Z.ltb_spec n (2 ^ 31 - 1)); auto. lia. Qed.

Lemma isValidLoop_ok : forall enc lead step, exact_lead enc lead -> step_follows step lead ->
  forall fuel pre suf n, (length suf <= fuel)%nat -> Forall byte suf -> 0 <= n -> n + bsize suf < 2 ^ 31 ->
  (exists cs, encodes enc cs suf /\
     isValidLoop step fuel (pre ++ suf) (bsize pre) n = Ok (true, n + Z.of_nat (length cs))) \/
  ((forall cs, ~ encodes enc cs suf) /\ exists k, isValidLoop step fuel (pre ++ suf) (bsize pre) n = Ok (false, k)).
Proof.
  intros enc lead step L S. induction fuel as [|fuel IH]; intros pre suf n Hf Hb Hn Hmax.
  - destruct suf; [|cbn in Hf; lia]. left. exists []. split; [split; auto|]. rewrite app_nil_r. cbn [isValidLoop].
    rewrite Z.ltb_irrefl. f_equal. f_equal. cbn. lia.
  - destruct suf as [|b suf].
    + left. exists []. split; [split; auto|]. rewrite app_nil_r. cbn [isValidLoop]. rewrite Z.ltb_irrefl.
      f_equal. f_equal. cbn. lia.
    + cbn [isValidLoop]. rewrite bsize_app, bsize_cons. pose proof (bsize_nonneg suf) as N.
      destruct (Z.ltb_spec (bsize pre) (bsize pre + (bsize suf + 1))); [|lia].
      rewrite S by discriminate. cbn [bind]. destruct (lead (b :: suf)) as [[c k]|] eqn:E.
      * destruct (enc_lead _ _ L _ _ _ Hb E) as [Hc [-> [rest Er]]].
        pose proof (enc_cons _ _ L c Hc) as Ne.
        assert (Hl : (length (b :: suf) = length (enc c) + length rest)%nat) by (rewrite Er, app_length; auto).
        assert (1 <= length (enc c))%nat by (destruct (enc c); [congruence|cbn; lia]).
        assert (Hbs : bsize (b :: suf) = Z.of_nat (length (enc c)) + bsize rest) by (unfold bsize; lia).
        rewrite inc32_ok by (pose proof (bsize_nonneg rest); lia). cbn [bind].
        replace (bsize pre + Z.of_nat (length (enc c)) - 1 + 1) with (bsize (pre ++ enc c)) by (rewrite bsize_app; unfold bsize; lia).
        rewrite Er, app_assoc.
        destruct (IH (pre ++ enc c) rest (n + 1)) as [[cs [He Hl']]|[Hno [kk Hl']]].
        -- rewrite Er, app_length in Hf. lia.
        -- rewrite Er in Hb. apply Forall_app in Hb. tauto.
        -- lia.
        -- lia.
        -- left. exists (c :: cs). split.
           ++ destruct He as [He1 ->]. split; [constructor; auto|]. auto.
           ++ rewrite Hl'. f_equal. f_equal. cbn [length]. lia.
        -- right. split.
           ++ intros cs Hcs. rewrite <- Er in Hcs. destruct (encodes_inv _ _ L cs (b :: suf) ltac:(discriminate) Hcs) as [c2 [cs2 [r2 [-> [_ [F [G L2]]]]]]].
              rewrite E in L2. injection L2 as <- _. rewrite Er in F. apply app_inv_head in F. subst r2. apply (Hno cs2). auto.
           ++ eauto.
      * right. split; [|eauto]. intros cs Hcs.
        destruct (encodes_inv _ _ L cs (b :: suf) ltac:(discriminate) Hcs) as [c2 [cs2 [r2 [-> [_ [F [G L2]]]]]]]. congruence.
Qed.

(* whole-vector form *)
Lemma isValid_exact : forall enc lead step, exact_lead enc lead -> step_follows step lead ->
  forall bs, Forall byte bs -> bsize bs < 2 ^ 31 ->
  (exists cs, encodes enc cs bs /\ isValidLoop step (length bs) bs 0 0 = Ok (true, Z.of_nat (length cs))) \/
  ((forall cs, ~ encodes enc cs bs) /\ exists k, isValidLoop step (length bs) bs 0 0 = Ok (false, k)).
Proof.
  intros enc lead step L S bs Hb Hs. apply (isValidLoop_ok enc lead step L S (length bs) [] bs 0); auto. lia.
Qed.

Lemma encodes_valid : forall enc lead step, exact_lead enc lead -> step_follows step lead ->
  forall cs, Forall scalar cs -> Forall byte (flat_map enc cs) -> bsize (flat_map enc cs) < 2 ^ 31 ->
  isValidLoop step (length (flat_map enc cs)) (flat_map enc cs) 0 0 = Ok (true, Z.of_nat (length cs)).
Proof.
  intros enc lead step L S cs Hc Hb Hs.
  destruct (isValid_exact enc lead step L S _ Hb Hs) as [[cs' [E V]]|[No _]].
  - replace cs with cs' at 3; auto. eapply encodes_unique; eauto. split; auto.
  - exfalso. apply (No cs). split; auto.
Qed.

(** ** UTF-8 *)

Definition lead8 (l : list Z) : option (Z * nat) :=
  match l with
  | [] => None
  | c :: r =>
    if c <=? 0x7f then Some (c, 1%nat) else
    match r with
    | [] => None
    | c1 :: r1 =>
      if ib 0xc2 c 0xdf then if ib 0x80 c1 0xbf then Some (0x80 + (c - 0xc2) * 64 + (c1 - 0x80), 2%nat) else None else
      match r1 with
      | [] => None
      | c2 :: r2 =>
        if 0xe0 =? c then
          if ib 0xa0 c1 0xbf && ib 0x80 c2 0xbf then Some (0x800 + (c1 - 0xa0) * 64 + (c2 - 0x80), 3%nat) else None
        else if ib 0xe1 c 0xec then
          if ib 0x80 c1 0xbf && ib 0x80 c2 0xbf
          then Some (0x1000 + (c - 0xe1) * 4096 + (c1 - 0x80) * 64 + (c2 - 0x80), 3%nat) else None
        else if 0xed =? c then
          if ib 0x80 c1 0x9f && ib 0x80 c2 0xbf then Some (0xD000 + (c1 - 0x80) * 64 + (c2 - 0x80), 3%nat) else None
        else if ib 0xee c 0xef then
          if ib 0x80 c1 0xbf && ib 0x80 c2 0xbf
          then Some (0xE000 + (c - 0xee) * 4096 + (c1 - 0x80) * 64 + (c2 - 0x80), 3%nat) else None
        else
        match r2 with
        | [] => None
        | c3 :: _ =>
          if 0xf0 =? c then
            if ib 0x90 c1 0xbf && (ib 0x80 c2 0xbf && ib 0x80 c3 0xbf)
            then Some (0x10000 + (c1 - 0x90) * 4096 + (c2 - 0x80) * 64 + (c3 - 0x80), 4%nat) else None
          else if ib 0xf1 c 0xf3 then
            if ib 0x80 c1 0xbf && (ib 0x80 c2 0xbf && ib 0x80 c3 0xbf)
            then Some (0x40000 + (c - 0xf1) * 262144 + (c1 - 0x80) * 4096 + (c2 - 0x80) * 64 + (c3 - 0x80), 4%nat) else None
          else if 0xf4 =? c then
            if ib 0x80 c1 0x8f && (ib 0x80 c2 0xbf && ib 0x80 c3 0xbf)
            then Some (0x100000 + (c1 - 0x80) * 4096 + (c2 - 0x80) * 64 + (c3 - 0x80), 4%nat) else None
          else None
        end
      end
    end
  end.

Ltac bools :=
  repeat match goal with
  | H : (_ && _) = true |- _ => apply andb_true_iff in H; destruct H
  | H : (_ <=? _) = true |- _ => apply Z.leb_le in H
  | H : (_ <=? _) = false |- _ => apply Z.leb_gt in H
  | H : (_ =? _) = true |- _ => apply Z.eqb_eq in H
  | H : (_ =? _) = false |- _ => apply Z.eqb_neq in H
  end.

Lemma ib_spec : forall lo x hi, BoolSpec (lo <= x <= hi) (x < lo \/ hi < x) (ib lo x hi).
Proof.
  intros. unfold ib. destruct (Z.leb_spec lo x), (Z.leb_spec x hi); cbn; constructor; lia.
Qed.

(* decide the conditionals of the goal, keeping only the possible branches *)
Ltac decide_ib :=
  match goal with
  | |- context [ib ?a ?b ?c] => destruct (ib_spec a b c); try (exfalso; lia); cbn [andb]
  | |- context [?a <=? ?b] => destruct (Z.leb_spec a b); try (exfalso; lia); cbn [andb]
  | |- context [?a =? ?b] => destruct (Z.eqb_spec a b); try (exfalso; lia); cbn [andb]
  end.

Lemma digits64 : forall c, 0 <= c -> exists e d b a, c = ((e * 64 + d) * 64 + b) * 64 + a /\
  0 <= a < 64 /\ 0 <= b < 64 /\ 0 <= d < 64 /\ 0 <= e /\
  c mod 64 = a /\ (c / 64) mod 64 = b /\ (c / 4096) mod 64 = d /\ c / 262144 = e /\
  c / 64 = (e * 64 + d) * 64 + b /\ c / 4096 = e * 64 + d.
Proof.
  intros c H. exists (c / 262144), ((c / 4096) mod 64), ((c / 64) mod 64), (c mod 64).
  Z.div_mod_to_equations. lia.
Qed.

Lemma utf8_lead : forall c rest, scalar c -> lead8 (utf8 c ++ rest) = Some (c, length (utf8 c)).
Proof.
  intros c rest H. unfold scalar in H. assert (H0 : 0 <= c) by lia.
  destruct (digits64 c H0) as [e [d [b [a [Ec [Ha [Hb [Hd [He [E1 [E2 [E3 [E4 [E5 E6]]]]]]]]]]]]]].
  unfold utf8, trail. rewrite E1, E2, E3, E4.
  destruct (Z.ltb_spec c 0x80); [|destruct (Z.ltb_spec c 0x800); [|destruct (Z.ltb_spec c 0x10000)]]; cbn [app length lead8].
  - repeat decide_ib. auto.
  - rewrite E5. assert (e = 0) by lia. assert (d = 0) by lia. subst e d.
    repeat decide_ib. f_equal. f_equal. lia.
  - rewrite E6. assert (e = 0) by lia. subst e.
    repeat decide_ib; f_equal; f_equal; lia.
  - repeat decide_ib; f_equal; f_equal; lia.
Qed.

Lemma div_is : forall a b q r, a = b * q + r -> 0 <= r < b -> a / b = q.
Proof. intros. symmetry. apply (Z.div_unique _ _ _ r); lia. Qed.
Lemma mod_is : forall a b q r, a = b * q + r -> 0 <= r < b -> a mod b = r.
Proof. intros. symmetry. apply (Z.mod_unique _ _ q r); lia. Qed.

Lemma utf8_2 : forall h a, 2 <= h < 32 -> 0 <= a < 64 -> utf8 (h * 64 + a) = [192 + h; 128 + a].
Proof.
  intros. unfold utf8, trail. destruct (Z.ltb_spec (h * 64 + a) 0x80); [lia|].
  destruct (Z.ltb_spec (h * 64 + a) 0x800); [|lia].
  rewrite (div_is _ 64 h a), (mod_is _ 64 h a) by lia. auto.
Qed.

Lemma utf8_3 : forall h b a, 0 <= h < 16 -> 0 <= b < 64 -> 0 <= a < 64 -> 32 <= h * 64 + b ->
  utf8 ((h * 64 + b) * 64 + a) = [224 + h; 128 + b; 128 + a].
Proof.
  intros. unfold utf8, trail. set (c := (h * 64 + b) * 64 + a). assert (c = (h * 64 + b) * 64 + a) by reflexivity.
  destruct (Z.ltb_spec c 0x80); [lia|]. destruct (Z.ltb_spec c 0x800); [lia|]. destruct (Z.ltb_spec c 0x10000); [|lia].
  rewrite (div_is c 4096 h (b * 64 + a)), (div_is c 64 (h * 64 + b) a), (mod_is c 64 (h * 64 + b) a), (mod_is _ 64 h b) by lia.
  auto.
Qed.

Lemma utf8_4 : forall e d b a, 0 <= e < 8 -> 0 <= d < 64 -> 0 <= b < 64 -> 0 <= a < 64 -> 16 <= e * 64 + d ->
  utf8 (((e * 64 + d) * 64 + b) * 64 + a) = [240 + e; 128 + d; 128 + b; 128 + a].
Proof.
  intros. unfold utf8, trail. set (c := ((e * 64 + d) * 64 + b) * 64 + a).
  assert (c = ((e * 64 + d) * 64 + b) * 64 + a) by reflexivity.
  destruct (Z.ltb_spec c 0x80); [lia|]. destruct (Z.ltb_spec c 0x800); [lia|]. destruct (Z.ltb_spec c 0x10000); [lia|].
  rewrite (div_is c 262144 e ((d * 64 + b) * 64 + a)), (div_is c 4096 (e * 64 + d) (b * 64 + a)),
    (div_is c 64 ((e * 64 + d) * 64 + b) a), (mod_is c 64 ((e * 64 + d) * 64 + b) a),
    (mod_is ((e * 64 + d) * 64 + b) 64 (e * 64 + d) b), (mod_is (e * 64 + d) 64 e d) by lia. auto.
Qed.

Lemma utf8_1 : forall c, 0 <= c < 128 -> utf8 c = [c].
Proof. intros. unfold utf8. destruct (Z.ltb_spec c 0x80); auto. lia. Qed.

(* put a code given by branch arithmetic into base-64 digits *)
Ltac as2 h a := match goal with |- context [utf8 ?x] => replace x with (h * 64 + a) by lia end.

Ltac finish3 c0 c1 c2 :=
  split; [unfold scalar; lia|]; replace 3%nat with (length [c0; c1; c2]) by reflexivity;
  match goal with |- context [utf8 ?x] =>
    replace (utf8 x) with [c0; c1; c2];
      [split; [auto|eexists; reflexivity]
      |replace x with (((c0 - 224) * 64 + (c1 - 128)) * 64 + (c2 - 128)) by lia; rewrite utf8_3 by lia;
       repeat f_equal; lia]
  end.
Ltac finish4 c0 c1 c2 c3 :=
  split; [unfold scalar; lia|]; replace 4%nat with (length [c0; c1; c2; c3]) by reflexivity;
  match goal with |- context [utf8 ?x] =>
    replace (utf8 x) with [c0; c1; c2; c3];
      [split; [auto|eexists; reflexivity]
      |replace x with ((((c0 - 240) * 64 + (c1 - 128)) * 64 + (c2 - 128)) * 64 + (c3 - 128)) by lia; rewrite utf8_4 by lia;
       repeat f_equal; lia]
  end.

Lemma some_pair : forall A B (a c : A) (b d : B), Some (a, b) = Some (c, d) -> a = c /\ b = d.
Proof. intros. split; congruence. Qed.

Lemma lead_utf8 : forall l c n, Forall byte l -> lead8 l = Some (c, n) ->
  scalar c /\ n = length (utf8 c) /\ exists rest, l = utf8 c ++ rest.
Proof.
  intros l c n Hb. destruct l as [|c0 l]; [discriminate|]. inversion Hb as [|? ? B0 Hb1]; subst. unfold byte in B0.
  cbn [lead8]. destruct (Z.leb_spec c0 0x7f).
  - intros E. apply some_pair in E; destruct E as [<- <-]. split; [unfold scalar; lia|]. rewrite utf8_1 by lia. split; auto. exists l. auto.
  - destruct l as [|c1 l]; [discriminate|]. inversion Hb1 as [|? ? B1 Hb2]; subst. unfold byte in B1.
    destruct (ib_spec 0xc2 c0 0xdf).
    + destruct (ib_spec 0x80 c1 0xbf); [|discriminate]. intros E. apply some_pair in E; destruct E as [<- <-].
      split; [unfold scalar; lia|]. replace (0x80 + (c0 - 0xc2) * 64 + (c1 - 0x80)) with ((c0 - 192) * 64 + (c1 - 128)) by lia.
      rewrite utf8_2 by lia. split; auto. exists l. cbn [app]. repeat f_equal; lia.
    + destruct l as [|c2 l]; [discriminate|]. inversion Hb2 as [|? ? B2 Hb3]; subst. unfold byte in B2.
      destruct (Z.eqb_spec 0xe0 c0).
      { destruct (ib_spec 0xa0 c1 0xbf), (ib_spec 0x80 c2 0xbf); cbn [andb]; try discriminate.
        intros E. apply some_pair in E; destruct E as [<- <-]. finish3 c0 c1 c2. }
      destruct (ib_spec 0xe1 c0 0xec).
      { destruct (ib_spec 0x80 c1 0xbf), (ib_spec 0x80 c2 0xbf); cbn [andb]; try discriminate.
        intros E. apply some_pair in E; destruct E as [<- <-]. finish3 c0 c1 c2. }
      destruct (Z.eqb_spec 0xed c0).
      { destruct (ib_spec 0x80 c1 0x9f), (ib_spec 0x80 c2 0xbf); cbn [andb]; try discriminate.
        intros E. apply some_pair in E; destruct E as [<- <-]. finish3 c0 c1 c2. }
      destruct (ib_spec 0xee c0 0xef).
      { destruct (ib_spec 0x80 c1 0xbf), (ib_spec 0x80 c2 0xbf); cbn [andb]; try discriminate.
        intros E. apply some_pair in E; destruct E as [<- <-]. finish3 c0 c1 c2. }
      destruct l as [|c3 l]; [discriminate|]. inversion Hb3 as [|? ? B3 Hb4]; subst. unfold byte in B3.
      destruct (Z.eqb_spec 0xf0 c0).
      { destruct (ib_spec 0x90 c1 0xbf), (ib_spec 0x80 c2 0xbf), (ib_spec 0x80 c3 0xbf); cbn [andb]; try discriminate.
        intros E. apply some_pair in E; destruct E as [<- <-]. finish4 c0 c1 c2 c3. }
      destruct (ib_spec 0xf1 c0 0xf3).
      { destruct (ib_spec 0x80 c1 0xbf), (ib_spec 0x80 c2 0xbf), (ib_spec 0x80 c3 0xbf); cbn [andb]; try discriminate.
        intros E. apply some_pair in E; destruct E as [<- <-]. finish4 c0 c1 c2 c3. }
      destruct (Z.eqb_spec 0xf4 c0); [|discriminate].
      destruct (ib_spec 0x80 c1 0x8f), (ib_spec 0x80 c2 0xbf), (ib_spec 0x80 c3 0xbf); cbn [andb]; try discriminate.
      intros E. apply some_pair in E; destruct E as [<- <-]. finish4 c0 c1 c2 c3.
Qed.

Lemma utf8_exact : exact_lead utf8 lead8.
Proof.
  split.
  - apply utf8_lead.
  - apply lead_utf8.
  - intros c _. unfold utf8. repeat destruct (_ <? _); discriminate.
  - auto.
Qed.

Lemma inb_0 : forall lo c r hi, inb lo (c :: r) 0 hi = Ok (ib lo c hi).
Proof. auto. Qed.
Lemma inb_1 : forall lo c c1 r hi, inb lo (c :: c1 :: r) 1 hi = Ok (ib lo c1 hi).
Proof. auto. Qed.
Lemma inb_2 : forall lo c c1 c2 r hi, inb lo (c :: c1 :: c2 :: r) 2 hi = Ok (ib lo c2 hi).
Proof. auto. Qed.
Lemma inb_3 : forall lo c c1 c2 c3 r hi, inb lo (c :: c1 :: c2 :: c3 :: r) 3 hi = Ok (ib lo c3 hi).
Proof. auto. Qed.
Lemma band_ok : forall a b, band (Ok a) (Ok b) = Ok (a && b).
Proof. intros [] b; auto. Qed.
Lemma gtb_false : forall a b, a <= b -> (a >? b) = false.
Proof. intros. rewrite Z.gtb_ltb. apply Z.ltb_ge. auto. Qed.
Lemma gtb_true : forall a b, b < a -> (a >? b) = true.
Proof. intros. rewrite Z.gtb_ltb. apply Z.ltb_lt. auto. Qed.

Ltac sizes := repeat rewrite bsize_cons in *; rewrite ?bsize_nil in *.
Ltac size_tests :=
  repeat match goal with
  | |- context [?a >? ?b] => first [rewrite (gtb_false a b) by (sizes; lia) | rewrite (gtb_true a b) by (sizes; lia)]
  end.

Lemma step8_follows : step_follows isValidUTF8Step lead8.
Proof.
  intros pre suf Hs. destruct suf as [|c suf]; [congruence|]. clear Hs. unfold isValidUTF8Step.
  rewrite idx_app0, !bsize_app, !gtb_shift, !inb_app by lia. change (idx (c :: suf) 0) with (Ok c). cbn [bind lead8].
  destruct (c <=? 0x7f); [f_equal; f_equal; lia|].
  destruct suf as [|c1 suf]; [auto|]. pose proof (bsize_nonneg suf) as N.
  rewrite (gtb_false 2) by (sizes; lia). rewrite !inb_1. cbn [bind].
  fold (ib 0xc2 c 0xdf). destruct (ib 0xc2 c 0xdf).
  { destruct (ib 0x80 c1 0xbf); auto. f_equal. f_equal. lia. }
  destruct suf as [|c2 suf]; [auto|]. pose proof (bsize_nonneg suf) as N2.
  rewrite (gtb_false 3) by (sizes; lia). rewrite !inb_2, !band_ok. cbn [bind].
  destruct (0xe0 =? c). { destruct (_ && _); auto. f_equal. f_equal. lia. }
  fold (ib 0xe1 c 0xec). destruct (ib 0xe1 c 0xec). { destruct (_ && _); auto. f_equal. f_equal. lia. }
  destruct (0xed =? c). { destruct (_ && _); auto. f_equal. f_equal. lia. }
  fold (ib 0xee c 0xef). destruct (ib 0xee c 0xef). { destruct (_ && _); auto. f_equal. f_equal. lia. }
  destruct suf as [|c3 suf]; [auto|]. pose proof (bsize_nonneg suf) as N3.
  rewrite (gtb_false 4) by (sizes; lia). rewrite !inb_3, !band_ok. cbn [bind].
  destruct (0xf0 =? c). { destruct (_ && (_ && _)); auto. f_equal. f_equal. lia. }
  fold (ib 0xf1 c 0xf3). destruct (ib 0xf1 c 0xf3). { destruct (_ && (_ && _)); auto. f_equal. f_equal. lia. }
  destruct (0xf4 =? c); auto. destruct (_ && (_ && _)); auto. f_equal. f_equal. lia.
Qed.

Lemma decodeUTF8_lead : forall l, Forall byte l ->
  decodeUTF8 l = match lead8 l with Some (c, _) => Ok c | None => Throw ERuntime end.
Proof.
  intros l Hb. assert (W : forall c n, lead8 l = Some (c, n) -> wrapU 32 c = c).
  { intros c n E. apply lead_utf8 in E; auto. destruct E as [E _]. unfold scalar in E. apply wrapU_small. lia. }
  destruct l as [|c l]; [auto|]. unfold decodeUTF8. pose proof (bsize_nonneg l) as N.
  destruct (Z.ltb_spec 0 (bsize (c :: l))); [|sizes; lia].
  change (idx (c :: l) 0) with (Ok c). cbn [bind]. cbn [lead8] in *.
  destruct (c <=? 0x7f). { rewrite (W _ _ eq_refl). auto. }
  destruct l as [|c1 l]; [auto|]. pose proof (bsize_nonneg l) as N1.
  rewrite (gtb_false 2) by (sizes; lia). rewrite !inb_1. change (idx (c :: c1 :: l) 1) with (Ok c1). cbn [bind].
  fold (ib 0xc2 c 0xdf). destruct (ib 0xc2 c 0xdf).
  { destruct (ib 0x80 c1 0xbf); auto. f_equal. rewrite <- (W _ _ eq_refl). f_equal; lia. }
  destruct l as [|c2 l]; [auto|]. pose proof (bsize_nonneg l) as N2.
  rewrite (gtb_false 3) by (sizes; lia). rewrite !inb_2, !band_ok. change (idx (c :: c1 :: c2 :: l) 2) with (Ok c2). cbn [bind].
  destruct (Z.eqb_spec 0xe0 c). { destruct (_ && _); auto. f_equal. rewrite <- (W _ _ eq_refl). f_equal; lia. }
  fold (ib 0xe1 c 0xec). destruct (ib 0xe1 c 0xec). { destruct (_ && _); auto. f_equal. rewrite <- (W _ _ eq_refl). f_equal; lia. }
  destruct (Z.eqb_spec 0xed c). { destruct (_ && _); auto. f_equal. rewrite <- (W _ _ eq_refl). f_equal; lia. }
  fold (ib 0xee c 0xef). destruct (ib 0xee c 0xef). { destruct (_ && _); auto. f_equal. rewrite <- (W _ _ eq_refl). f_equal; lia. }
  destruct l as [|c3 l]; [auto|]. pose proof (bsize_nonneg l) as N3.
  rewrite (gtb_false 4) by (sizes; lia). rewrite !inb_3, !band_ok. change (idx (c :: c1 :: c2 :: c3 :: l) 3) with (Ok c3). cbn [bind].
  destruct (Z.eqb_spec 0xf0 c). { destruct (_ && (_ && _)); auto. f_equal. rewrite <- (W _ _ eq_refl). f_equal; lia. }
  fold (ib 0xf1 c 0xf3). destruct (ib 0xf1 c 0xf3).
  { destruct (_ && (_ && _)); auto. f_equal. rewrite <- (W _ _ eq_refl). f_equal; lia. }
  destruct (Z.eqb_spec 0xf4 c); auto. destruct (_ && (_ && _)); auto. f_equal. rewrite <- (W _ _ eq_refl). f_equal; lia.
Qed.

(** ** Encoding *)

Lemma land_3f : forall c, Z.land c 0x3f = c mod 64.
Proof. intros. change 0x3f with (Z.ones 6). rewrite Z.land_ones by lia. auto. Qed.
Lemma shr6 : forall c, Z.shiftr c 6 = c / 64.
Proof. intros. rewrite Z.shiftr_div_pow2 by lia. auto. Qed.
Lemma shr12 : forall c, Z.shiftr c 12 = c / 4096.
Proof. intros. rewrite Z.shiftr_div_pow2 by lia. auto. Qed.
Lemma shr18 : forall c, Z.shiftr c 18 = c / 262144.
Proof. intros. rewrite Z.shiftr_div_pow2 by lia. auto. Qed.

Lemma cons_eq : forall (x y : Z) l l', x = y -> l = l' -> x :: l = y :: l'.
Proof. congruence. Qed.

Lemma encodeUTF8_ok : forall c chars, scalar c -> encodeUTF8 c chars = Ok (chars ++ utf8 c).
Proof.
  intros c chars H. unfold scalar in H. unfold encodeUTF8, utf8, trail. rewrite !land_3f, !shr6, !shr12, !shr18.
  repeat (match goal with |- context [if ?a <=? ?b then _ else _] => destruct (Z.leb_spec a b); try lia end);
  repeat (match goal with |- context [if ?a <? ?b then _ else _] => destruct (Z.ltb_spec a b); try lia end);
  apply (f_equal (@Ok (list Z))); apply (f_equal (app chars));
  repeat (apply cons_eq; [unfold wrapU; Z.div_mod_to_equations; lia|]); reflexivity.
Qed.

Lemma encodeUTF8_rejects : forall c chars, 0 <= c -> ~ scalar c -> encodeUTF8 c chars = Throw ERuntime.
Proof.
  intros c chars H0 H. unfold scalar in H. unfold encodeUTF8.
  repeat (match goal with |- context [if ?a <=? ?b then _ else _] => destruct (Z.leb_spec a b); try lia end); auto.
Qed.

(** ** Consequences shared by the encodings *)

Lemma encode_bytes : forall (enc : Z -> list Z) cs, (forall c, scalar c -> Forall byte (enc c)) -> Forall scalar cs ->
  Forall byte (flat_map enc cs).
Proof. intros enc cs H. induction 1; cbn; [constructor|]. apply Forall_app. auto. Qed.

(* more characters than an int can count *)
Lemma isValidLoop_long : forall enc lead step, exact_lead enc lead -> step_follows step lead ->
  forall cs fuel pre n, Forall scalar cs -> (length (flat_map enc cs) <= fuel)%nat -> n < 2 ^ 31 ->
  2 ^ 31 <= n + Z.of_nat (length cs) ->
  isValidLoop step fuel (pre ++ flat_map enc cs) (bsize pre) n = UB.
Proof.
  intros enc lead step L S. induction cs as [|c cs IH]; intros fuel pre n Hc Hf Hn Hl; [cbn in Hl; lia|].
  inversion Hc; subst. pose proof (enc_cons _ _ L c H1) as Ne.
  assert (Hs : flat_map enc (c :: cs) <> []) by (cbn; destruct (enc c); [congruence|discriminate]).
  assert (1 <= length (enc c))%nat by (destruct (enc c); [congruence|cbn; lia]).
  cbn [flat_map] in Hf. rewrite app_length in Hf.
  destruct fuel as [|fuel]; [lia|]. cbn [isValidLoop].
  rewrite bsize_app. destruct (Z.ltb_spec (bsize pre) (bsize pre + bsize (flat_map enc (c :: cs)))).
  2:{ cbn [flat_map] in *. rewrite bsize_app in *. unfold bsize in *. lia. }
  rewrite S by auto. cbn [flat_map]. rewrite (lead_enc _ _ L) by auto. cbn [bind].
  unfold inc32. destruct (Z.ltb_spec n (2 ^ 31 - 1)); [|reflexivity]. cbn [bind].
  replace (bsize pre + Z.of_nat (length (enc c)) - 1 + 1) with (bsize (pre ++ enc c)) by (rewrite bsize_app; unfold bsize; lia).
  rewrite app_assoc. apply IH; auto; [lia|lia|cbn [length] in Hl; lia].
Qed.

Lemma isValid_iff : forall enc lead step, exact_lead enc lead -> step_follows step lead ->
  forall bs, Forall byte bs -> bsize bs < 2 ^ 31 ->
  exists valid numChars, isValidLoop step (length bs) bs 0 0 = Ok (valid, numChars) /\
    (valid = true <-> exists cs, encodes enc cs bs) /\
    (forall cs, encodes enc cs bs -> numChars = Z.of_nat (length cs)).
Proof.
  intros enc lead step L S bs Hb Hs. destruct (isValid_exact _ _ _ L S bs Hb Hs) as [[cs [He V]]|[Hno [k V]]].
  - exists true, (Z.of_nat (length cs)). repeat split; eauto. intros cs' He'.
    rewrite (encodes_unique _ _ L _ _ _ He He'). auto.
  - exists false, k. repeat split; auto; try discriminate.
    + intros [cs He]. destruct (Hno cs He).
    + intros cs He. destruct (Hno cs He).
Qed.

Lemma charsize_iff : forall enc lead step (charsize : list Z -> res Z), exact_lead enc lead -> step_follows step lead ->
  (forall bs, charsize bs = do s <- (do r <- isValidLoop step (length bs) bs 0 0; if fst r then Ok (snd r) else Ok (-1));
                            if s <? 0 then Throw ERuntime else Ok (wrapU 64 s)) ->
  forall bs, Forall byte bs -> bsize bs < 2 ^ 31 ->
  (forall cs, encodes enc cs bs -> charsize bs = Ok (Z.of_nat (length cs))) /\
  ((forall cs, ~ encodes enc cs bs) -> charsize bs = Throw ERuntime).
Proof.
  intros enc lead step charsize L S C bs Hb Hs. split.
  - intros cs He. rewrite C. destruct He as [Hc ->].
    rewrite (encodes_valid _ _ _ L S) by auto. cbn [bind fst snd].
    destruct (Z.ltb_spec (Z.of_nat (length cs)) 0); [lia|]. rewrite wrapU_small; auto.
    assert (length cs <= length (flat_map enc cs))%nat.
    { clear -L Hc. induction Hc; cbn; auto. rewrite app_length. pose proof (enc_cons _ _ L x H).
      destruct (enc x); [congruence|cbn; lia]. }
    unfold bsize in Hs. lia.
  - intros Hno. destruct (isValid_exact _ _ _ L S bs Hb Hs) as [[cs [He V]]|[_ [k V]]]; [destruct (Hno cs He)|].
    rewrite C, V. reflexivity.
Qed.

Lemma scalar_dec : forall c, scalar c \/ ~ scalar c.
Proof. intros. unfold scalar. lia. Qed.

(* a decoder that follows [lead] *)
Lemma decode_iff : forall enc lead (decode : list Z -> res Z), exact_lead enc lead ->
  (forall l, Forall byte l -> decode l = match lead l with Some (c, _) => Ok c | None => Throw ERuntime end) ->
  forall l, Forall byte l ->
  (forall c, decode l = Ok c <-> scalar c /\ exists rest, l = enc c ++ rest) /\
  ((forall c rest, scalar c -> l <> enc c ++ rest) -> decode l = Throw ERuntime).
Proof.
  intros enc lead decode L D l Hb. split.
  - intros c. rewrite D by auto. split.
    + destruct (lead l) as [[c' n]|] eqn:E; [|discriminate]. intros H. injection H as <-.
      destruct (enc_lead _ _ L _ _ _ Hb E) as [H1 [_ H2]]. auto.
    + intros [Hc [rest ->]]. rewrite (lead_enc _ _ L) by auto. auto.
  - intros H. rewrite D by auto. destruct (lead l) as [[c n]|] eqn:E; auto.
    destruct (enc_lead _ _ L _ _ _ Hb E) as [H1 [_ [rest H2]]]. destruct (H c rest H1 H2).
Qed.
