From Coq Require Import List ZArith Lia Bool SpecFloat Zpower.
From Verif Require Import Base TreeModel TreeSpec TreeProof RandomModel BoolModel IntegralSpec IntegralProof.
Import ListNotations.
Local Open Scope Z_scope.

Lemma digits2_bound : forall p, 2 ^ (Zpos (digits2_pos p) - 1) <= Zpos p < 2 ^ Zpos (digits2_pos p).
Proof.
  induction p; cbn [digits2_pos]; rewrite ?Pos2Z.inj_succ.
  - replace (Z.succ (Z.pos (digits2_pos p)) - 1) with (Z.succ (Z.pos (digits2_pos p) - 1)) by lia.
    rewrite !Z.pow_succ_r by lia. lia.
  - replace (Z.succ (Z.pos (digits2_pos p)) - 1) with (Z.succ (Z.pos (digits2_pos p) - 1)) by lia.
    rewrite !Z.pow_succ_r by lia. lia.
  - simpl. lia.
Qed.

Lemma digits2_unique : forall p d, 0 < d -> 2 ^ (d - 1) <= Zpos p < 2 ^ d -> Zpos (digits2_pos p) = d.
Proof.
  intros p d Hd [H1 H2]. destruct (digits2_bound p) as [H3 H4].
  assert (d - 1 < Zpos (digits2_pos p)) by (apply (Z.pow_lt_mono_r_iff 2); lia).
  assert (Zpos (digits2_pos p) - 1 < d) by (apply (Z.pow_lt_mono_r_iff 2); lia). lia.
Qed.

Lemma shr_1_even : forall m, 0 < m -> shr_1 {| shr_m := 2 * m; shr_r := false; shr_s := false |} =
  {| shr_m := m; shr_r := false; shr_s := false |}.
Proof. intros [|p|p] H; try lia. reflexivity. Qed.


Lemma shr_exact_iter : forall p m, 0 < m ->
  iter_pos shr_1 p {| shr_m := m * 2 ^ Zpos p; shr_r := false; shr_s := false |} =
  {| shr_m := m; shr_r := false; shr_s := false |}.
Proof.
  induction p; intros m Hm; cbn [iter_pos].
  - replace (m * 2 ^ Z.pos p~1) with (2 * (m * 2 ^ Z.pos p * 2 ^ Z.pos p)).
    + rewrite shr_1_even by (pose proof (Z.pow_pos_nonneg 2 (Zpos p)); nia).
      rewrite IHp by (pose proof (Z.pow_pos_nonneg 2 (Zpos p)); nia). apply IHp. auto.
    + replace (Z.pos p~1) with (Z.succ (Zpos p + Zpos p)) by lia.
      rewrite Z.pow_succ_r by lia. rewrite Z.pow_add_r by lia. lia.
  - replace (m * 2 ^ Z.pos p~0) with (m * 2 ^ Z.pos p * 2 ^ Z.pos p).
    + rewrite IHp by (pose proof (Z.pow_pos_nonneg 2 (Zpos p)); nia). apply IHp. auto.
    + replace (Z.pos p~0) with (Zpos p + Zpos p) by lia. rewrite Z.pow_add_r by lia. lia.
  - rewrite Z.mul_comm. change (2 ^ 1) with 2. apply shr_1_even. auto.
Qed.

Lemma shr_exact : forall m n e, 0 < m -> 0 <= n ->
  shr {| shr_m := m * 2 ^ n; shr_r := false; shr_s := false |} e n =
  ({| shr_m := m; shr_r := false; shr_s := false |}, e + n).
Proof.
  intros m n e Hm Hn. destruct n as [|p|p]; [|cbn [shr]; rewrite shr_exact_iter by auto; reflexivity|lia].
  cbn [shr]. rewrite Z.pow_0_r, Z.mul_1_r, Z.add_0_r. reflexivity.
Qed.

Lemma shr_nonpos : forall r e n, n <= 0 -> shr r e n = (r, e).
Proof. intros r e [|p|p] H; auto. lia. Qed.

(* multiplication by 2^64 is exact: the product is (m * 2^(53-d), e + 64 - (53-d)), d the digits of m *)
Lemma mul_2_64 : forall m e, valid_binary dprec demax (S754_finite false m e) = true -> e <= 0 ->
  let d := Zpos (digits2_pos m) in
  1 <= d <= 53 /\
  SFmul dprec demax d_2_64 (S754_finite false m e) =
  S754_finite false (Z.to_pos (Zpos m * 2 ^ (53 - d))) (e + 64 - (53 - d)).
Proof.
  intros m e Hv He d.
  cbn [valid_binary] in Hv. unfold bounded, canonical_mantissa in Hv. apply andb_true_iff in Hv.
  destruct Hv as [Hc Hb]. apply Zeq_bool_eq in Hc. apply Zle_bool_imp_le in Hb. fold d in Hc.
  unfold fexp, emin, dprec, demax in Hc, Hb. 
  assert (Hd : 1 <= d <= 53) by lia. split; auto.
  destruct (digits2_bound m) as [Hm1 Hm2]. fold d in Hm1, Hm2.
  unfold d_2_64. cbn [SFmul xorb]. unfold binary_round_aux.
  assert (Hdig : Zdigits2 (Zpos (4503599627370496 * m)) = d + 52).
  { cbn [Zdigits2]. apply digits2_unique; [lia|]. rewrite Pos2Z.inj_mul.
    change 4503599627370496 with (2 ^ 52).
    replace (d + 52 - 1) with (52 + (d - 1)) by lia. rewrite (Z.add_comm d 52). rewrite !Z.pow_add_r by lia. lia. }
  unfold shr_fexp at 1. rewrite Hdig. cbn [shr_record_of_loc].
  replace (fexp dprec demax (d + 52 + (12 + e)) - (12 + e)) with (d - 1)
    by (unfold fexp, emin, dprec, demax; lia).
  replace (Z.pos (4503599627370496 * m)) with (Zpos m * 2 ^ (53 - d) * 2 ^ (d - 1)).
  2:{ rewrite Pos2Z.inj_mul. rewrite <- Z.mul_assoc, <- Z.pow_add_r by lia.
      replace (53 - d + (d - 1)) with 52 by lia. rewrite Z.mul_comm. reflexivity. }
  assert (Hpos : 0 < Zpos m * 2 ^ (53 - d)) by (pose proof (Z.pow_pos_nonneg 2 (53 - d)); nia).
  rewrite shr_exact by lia. cbn [shr_m loc_of_shr_record round_nearest_even].
  remember (Z.pos m * 2 ^ (53 - d)) as q eqn:Eq.
  unfold shr_fexp. cbn [shr_record_of_loc].
  assert (Hq : Zdigits2 q = 53).
  { destruct q as [|q'|q']; try lia. cbn [Zdigits2]. apply digits2_unique; [lia|].
    rewrite Eq. replace (53 - 1) with ((d - 1) + (53 - d)) by lia.
    assert (E53 : 2 ^ 53 = 2 ^ d * 2 ^ (53 - d)) by (rewrite <- Z.pow_add_r by lia; f_equal; lia).
    rewrite E53, Z.pow_add_r by lia.
    pose proof (Z.pow_pos_nonneg 2 (53 - d)). nia. }
  rewrite Hq. rewrite shr_nonpos by (unfold fexp, emin, dprec, demax; lia).
  cbn [shr_m]. destruct q as [|q'|q']; try lia.
  replace (12 + e + (d - 1) <=? demax - dprec) with true by (symmetry; apply Z.leb_le; unfold demax, dprec; lia).
  cbn [Z.to_pos]. f_equal. lia.
Qed.

Lemma lim_exact : forall t m e, proper_threshold t m e ->
  d_to_uint64 (SFmul dprec demax d_2_64 t) = Ok (Zpos m * 2 ^ 64 / 2 ^ (- e)) /\
  0 <= Zpos m * 2 ^ 64 / 2 ^ (- e) <= UINT64_MAX.
Proof.
  intros t m e [-> [Hv [He Hlt]]].
  assert (Hb : 0 <= Zpos m * 2 ^ 64 / 2 ^ (- e) <= UINT64_MAX).
  { assert (0 < 2 ^ (- e)) by (apply Z.pow_pos_nonneg; lia). split.
    - apply Z.div_pos; lia.
    - unfold UINT64_MAX. assert (Z.pos m * 2 ^ 64 / 2 ^ (- e) < 2 ^ 64); [|lia].
      apply Z.div_lt_upper_bound; lia. }
  split; auto.
  destruct (mul_2_64 m e Hv ltac:(lia)) as [Hd Hmul]. rewrite Hmul.
  set (d := Zpos (digits2_pos m)) in *.
  unfold d_to_uint64.
  assert (Hpos : 0 < Zpos m * 2 ^ (53 - d)) by (pose proof (Z.pow_pos_nonneg 2 (53 - d)); nia).
  rewrite Z2Pos.id by auto.
  assert (Ht : (if 0 <=? e + 64 - (53 - d) then Z.pos m * 2 ^ (53 - d) * 2 ^ (e + 64 - (53 - d))
     else Z.pos m * 2 ^ (53 - d) / 2 ^ - (e + 64 - (53 - d))) = Zpos m * 2 ^ 64 / 2 ^ (- e)).
  { destruct (Z.leb_spec 0 (e + 64 - (53 - d))).
    - apply Z.div_unique_exact; [pose proof (Z.pow_pos_nonneg 2 (-e)); lia|].
      assert (Hp64 : 2 ^ 64 = 2 ^ (- e) * 2 ^ (53 - d) * 2 ^ (e + 64 - (53 - d)))
        by (rewrite <- !Z.pow_add_r by lia; f_equal; lia).
      rewrite Hp64. ring.
    - replace (- e) with (- (e + 64 - (53 - d)) + (64 - (53 - d))) by lia.
      rewrite (Z.pow_add_r 2 (- (e + 64 - (53 - d)))) by lia.
      replace (2 ^ 64) with (2 ^ (53 - d) * 2 ^ (64 - (53 - d))) by (rewrite <- Z.pow_add_r by lia; f_equal; lia).
      rewrite Z.mul_assoc. rewrite Z.div_mul_cancel_r; auto;
      pose proof (Z.pow_pos_nonneg 2 (64 - (53 - d))); pose proof (Z.pow_pos_nonneg 2 (- (e + 64 - (53 - d)))); lia. }
  rewrite Ht. destruct Hb as [Hb1 Hb2].
  destruct (Z.leb_spec 0 (Zpos m * 2 ^ 64 / 2 ^ (- e))); [|lia].
  destruct (Z.leb_spec (Zpos m * 2 ^ 64 / 2 ^ (- e)) UINT64_MAX); [|lia]. reflexivity.
Qed.

Lemma SFeqb_neq : forall m1 e1 m2 e2, e1 <> e2 \/ m1 <> m2 ->
  SFeqb (S754_finite false m1 e1) (S754_finite false m2 e2) = false.
Proof.
  intros m1 e1 m2 e2 H. unfold SFeqb, SFcompare.
  destruct (Z.compare_spec e1 e2); auto. destruct H as [H|H]; [contradiction|].
  pose proof (Pos.compare_spec m1 m2) as Hs. unfold Pos.compare in Hs.
  destruct (Pos.compare_cont Eq m1 m2); auto. inversion Hs. contradiction.
Qed.

Lemma not_one : forall t m e, proper_threshold t m e -> SFeqb t d_one = false.
Proof.
  intros t m e [-> [Hv [He Hlt]]]. unfold d_one. apply SFeqb_neq.
  destruct (Z.eq_dec e (-52)) as [E|E]; [right|left; exact E]. intros Em. rewrite E, Em in Hlt.
  vm_compute in Hlt. discriminate.
Qed.

Lemma coin_exact : forall E t m e (r : rst E), proper_threshold t m e ->
  getRandomBool t r = (let '(u, r') := unif E 0 UINT64_MAX r in Ok (u <=? Zpos m * 2 ^ 64 / 2 ^ (- e), r')).
Proof.
  intros E t m e r H. unfold getRandomBool. rewrite (not_one t m e H).
  destruct (lim_exact t m e H) as [Hl _].
  unfold gbind, next8U, draw. change (0 <=? UINT64_MAX) with true. cbv iota.
  destruct (unif E 0 UINT64_MAX r) as [u r']. unfold gfail. rewrite Hl. reflexivity.
Qed.

(* comparing thresholds as exact fractions m/2^(-e) *)
Lemma lim_mono : forall m1 e1 m2 e2, e1 < 0 -> e2 < 0 ->
  Zpos m1 * 2 ^ (- e2) <= Zpos m2 * 2 ^ (- e1) ->
  Zpos m1 * 2 ^ 64 / 2 ^ (- e1) <= Zpos m2 * 2 ^ 64 / 2 ^ (- e2).
Proof.
  intros m1 e1 m2 e2 H1 H2 H.
  assert (P1 : 0 < 2 ^ (- e1)) by (apply Z.pow_pos_nonneg; lia).
  assert (P2 : 0 < 2 ^ (- e2)) by (apply Z.pow_pos_nonneg; lia).
  apply Z.div_le_lower_bound; auto.
  pose proof (Z.mul_div_le (Zpos m1 * 2 ^ 64) (2 ^ (- e1)) P1).
  set (q := Zpos m1 * 2 ^ 64 / 2 ^ (- e1)) in *.
  assert (2 ^ (- e1) * (2 ^ (- e2) * q) <= 2 ^ (- e1) * (Zpos m2 * 2 ^ 64)).
  { transitivity (2 ^ (- e2) * (Zpos m1 * 2 ^ 64)); [nia|]. nia. }
  nia.
Qed.
