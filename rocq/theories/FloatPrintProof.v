(** Proofs about printed floating point values. *)
From Coq Require Import String List ZArith Bool Lia Lqa QArith Qabs Qpower SpecFloat.
From Verif Require Import Base PrintModel PrintSpec PrintProof FloatModel FloatSpec FloatPrintModel FloatPrintSpec.
Import ListNotations.
Local Open Scope Z_scope.

(** * Digits *)

Lemma digits_len : forall fuel n, 0 < n -> (Z.to_nat (Z.log2 n) < fuel)%nat ->
  10 ^ (Z.of_nat (length (digits 10 fuel n)) - 1) <= n < 10 ^ Z.of_nat (length (digits 10 fuel n)).
Proof.
  induction fuel as [|fuel IH]; intros n Hn Hf; [lia|]. cbn [digits]. destruct (Z.ltb_spec n 10).
  - cbn. lia.
  - pose proof (Z.div_mod n 10 ltac:(lia)). pose proof (Z.mod_pos_bound n 10 ltac:(lia)).
    assert (0 < n / 10) by lia.
    assert (L : Z.log2 (n / 10) < Z.log2 n).
    { assert (L : Z.log2 (2 * (n / 10)) <= Z.log2 n) by (apply Z.log2_le_mono; lia). rewrite Z.log2_double in L by lia. lia. }
    pose proof (Z.log2_nonneg (n / 10)). specialize (IH (n / 10) ltac:(lia) ltac:(lia)).
    rewrite app_length. cbn [length]. set (l := length (digits 10 fuel (n / 10))) in *.
    replace (Z.of_nat (l + 1) - 1) with (Z.of_nat l) by lia. replace (Z.of_nat (l + 1)) with (Z.succ (Z.of_nat l)) by lia.
    assert (Hl : (0 < l)%nat) by (unfold l; destruct fuel; [lia|]; cbn [digits]; destruct (n / 10 <? 10); [cbn; lia|]; rewrite app_length; cbn; lia).
    rewrite Z.pow_succ_r by lia. replace (Z.of_nat l) with (Z.succ (Z.of_nat l - 1)) at 1 by lia. rewrite Z.pow_succ_r by lia. lia.
Qed.
Lemma numeral_len : forall n, 0 < n -> 10 ^ (Z.of_nat (length (numeral 10 n)) - 1) <= n < 10 ^ Z.of_nat (length (numeral 10 n)).
Proof. intros n Hn. apply digits_len; [auto|lia]. Qed.
Lemma numeral_len_max : forall n k, 0 <= n < 10 ^ Z.of_nat k -> (0 < k)%nat -> (length (numeral 10 n) <= k)%nat.
Proof.
  intros n k Hn Hk. destruct (Z.eq_dec n 0) as [->|Hz]; [cbn; lia|]. pose proof (numeral_len n ltac:(lia)) as [H _].
  assert (Z.of_nat (length (numeral 10 n)) - 1 < Z.of_nat k); [|lia]. apply (Z.pow_lt_mono_r_iff 10); lia.
Qed.

Lemma read_app : forall a b, read_digits (a ++ b) = read_digits a * 10 ^ Z.of_nat (length b) + read_digits b.
Proof.
  intros a b. revert a. induction b as [|c b IH] using rev_ind; intros a.
  - rewrite app_nil_r. change (read_digits []) with 0. cbn [length]. change (10 ^ Z.of_nat 0) with 1. lia.
  - unfold read_digits in *. rewrite app_assoc, !fold_left_app. cbn [fold_left]. rewrite app_length. cbn [length].
    rewrite <- fold_left_app, IH. replace (Z.of_nat (length b + 1)) with (Z.succ (Z.of_nat (length b))) by lia. rewrite Z.pow_succ_r by lia. lia.
Qed.
Lemma read_zeros : forall n, read_digits (repeat 48 n) = 0.
Proof.
  intros n. replace (repeat 48 n) with ([] ++ repeat 48 n) by reflexivity. induction n as [|n IH]; [reflexivity|].
  replace (repeat 48 (S n)) with ([48] ++ repeat 48 n) by reflexivity. cbn [app] in *. replace (48 :: repeat 48 n) with ([48] ++ repeat 48 n) by reflexivity.
  rewrite read_app, IH. unfold read_digits. cbn [fold_left]. lia.
Qed.
Lemma pad_ok : forall w n, 0 <= n -> Forall digit_char (pad w (numeral 10 n)) /\ pad w (numeral 10 n) <> [] /\ read_digits (pad w (numeral 10 n)) = n.
Proof.
  intros w n Hn. destruct (numeral_ok n Hn) as [F [N R]]. unfold pad. split; [|split].
  - apply Forall_app. split; auto. apply Forall_forall. intros c Hc. apply repeat_spec in Hc. subst. unfold digit_char. lia.
  - intros H. apply app_eq_nil in H. tauto.
  - rewrite read_app, read_zeros, R. lia.
Qed.
Lemma pad_len : forall w n, (0 < w)%nat -> 0 <= n < 10 ^ Z.of_nat w -> length (pad w (numeral 10 n)) = w.
Proof.
  intros w n Hw Hn. pose proof (numeral_len_max n w Hn Hw). unfold pad. rewrite app_length, repeat_length. lia.
Qed.
Lemma drop_ok : forall t, exists n, t = repeat 48 n ++ dropZeros t /\ (dropZeros t = [] \/ exists c r, dropZeros t = c :: r /\ c <> 48).
Proof.
  induction t as [|c r IH]; [exists O; auto|]. destruct (Z.eq_dec c 48) as [->|Hc].
  - destruct IH as [n [IH1 IH2]]. exists (S n). cbn. split; [congruence|exact IH2].
  - exists O. assert (E : dropZeros (c :: r) = c :: r).
    { cbn. destruct c as [|p|p]; auto. do 6 (destruct p as [p|p|]; try reflexivity; try congruence). }
    rewrite E. split; auto. right. eauto.
Qed.
Lemma rev_repeat : forall A (x : A) n, rev (repeat x n) = repeat x n.
Proof.
  intros A x n. induction n as [|n IH]; auto. cbn. rewrite IH. clear IH. induction n as [|n IH]; cbn; auto. f_equal. auto.
Qed.
(* the fraction without zeros *)
Lemma strip_ok : forall t, exists n, t = rev (dropZeros (rev t)) ++ repeat 48 n /\
  (rev (dropZeros (rev t)) = [] \/ exists r c, rev (dropZeros (rev t)) = r ++ [c] /\ c <> 48).
Proof.
  intros t. destruct (drop_ok (rev t)) as [n [H1 H2]]. exists n. split.
  - rewrite <- (rev_involutive t) at 1. rewrite H1 at 1. rewrite rev_app_distr, rev_repeat. reflexivity.
  - destruct H2 as [->|[c [r [-> Hc]]]]; auto. right. exists (rev r), c. auto.
Qed.

(** * Powers of ten *)
Local Open Scope Q_scope.

Notation T k := (inject_Z 10 ^ k).
Lemma T_pos : forall k, 0 < T k.
Proof. intros. apply Qpower_0_lt. reflexivity. Qed.
Lemma T_plus : forall a b, T (a + b) == T a * T b.
Proof. intros. apply Qpower_plus. intros H. discriminate. Qed.
Lemma T_int : forall k, (0 <= k)%Z -> T k == inject_Z (10 ^ k).
Proof. intros. symmetry. apply Zpower_Qpower. auto. Qed.
Lemma T_inv : forall k, T k * T (- k) == 1.
Proof. intros. rewrite <- T_plus. replace (k + - k)%Z with 0%Z by lia. reflexivity. Qed.
Lemma T_le : forall a b, (a <= b)%Z -> T a <= T b.
Proof. intros. apply Qpower_le_compat_l; auto. discriminate. Qed.

Lemma Qmult_lt_cancel : forall x y z, 0 < z -> x * z < y * z -> x < y.
Proof. intros x y z Hz H. apply (Qmult_lt_r x y z Hz). exact H. Qed.
Lemma Qmult_le_cancel : forall x y z, 0 < z -> x * z <= y * z -> x <= y.
Proof. intros x y z Hz H. apply (Qmult_le_r x y z Hz). exact H. Qed.
Lemma inj_pos : forall d, (0 < d)%Z -> 0 < inject_Z d.
Proof. intros d H. change 0 with (inject_Z 0). rewrite <- Zlt_Qlt. auto. Qed.
Lemma div_mul : forall n d, (0 < d)%Z -> inject_Z n / inject_Z d * inject_Z d == inject_Z n.
Proof. intros n d H. apply inj_pos in H. field. intros E. rewrite E in H. discriminate. Qed.

Lemma lead_ok : forall n d, (0 < n)%Z -> (0 < d)%Z -> T (lead n d) <= inject_Z n / inject_Z d /\ inject_Z n / inject_Z d < T (lead n d + 1).
Proof.
  intros n d Hn Hd. unfold lead. pose proof (inj_pos d Hd) as Hd'. destruct (Z.leb_spec d n) as [H|H].
  - assert (Hf : (0 < n / d)%Z) by (apply Z.div_str_pos; lia). pose proof (numeral_len _ Hf) as [L1 L2]. set (l := Z.of_nat (length (numeral 10 (n / d)))) in *.
    assert (Hl : (1 <= l)%Z). { unfold l. destruct (numeral_ok (n / d) ltac:(lia)) as [_ [N _]]. destruct (numeral 10 (n / d)); [congruence|]. cbn. lia. }
    pose proof (Z.div_mod n d ltac:(lia)). pose proof (Z.mod_pos_bound n d Hd). replace (l - 1 + 1)%Z with l by lia. split.
    + apply (Qmult_le_cancel _ _ _ Hd'). rewrite div_mul by auto. rewrite T_int by lia. rewrite <- inject_Z_mult, <- Zle_Qle. nia.
    + apply (Qmult_lt_cancel _ _ _ Hd'). rewrite div_mul by auto. rewrite T_int by lia. rewrite <- inject_Z_mult, <- Zlt_Qlt. nia.
  - assert (Hf : (0 < (d - 1) / n)%Z) by (apply Z.div_str_pos; lia). pose proof (numeral_len _ Hf) as [L1 L2]. set (l := Z.of_nat (length (numeral 10 ((d - 1) / n)))) in *.
    assert (Hl : (1 <= l)%Z). { unfold l. destruct (numeral_ok ((d - 1) / n) ltac:(lia)) as [_ [N _]]. destruct (numeral 10 ((d - 1) / n)); [congruence|]. cbn. lia. }
    pose proof (Z.div_mod (d - 1) n ltac:(lia)). pose proof (Z.mod_pos_bound (d - 1) n Hn). replace (- l + 1)%Z with (- (l - 1))%Z by lia. split.
    + apply (Qmult_le_cancel _ _ _ Hd'). rewrite div_mul by auto. apply (Qmult_le_cancel _ _ _ (T_pos l)).
      setoid_replace (T (- l) * inject_Z d * T l) with (inject_Z d) by (setoid_replace (T (-l) * inject_Z d * T l) with (inject_Z d * (T l * T (-l))) by ring; rewrite T_inv; ring).
      rewrite T_int by lia. rewrite <- inject_Z_mult, <- Zle_Qle. nia.
    + apply (Qmult_lt_cancel _ _ _ Hd'). rewrite div_mul by auto. apply (Qmult_lt_cancel _ _ _ (T_pos (l - 1))).
      setoid_replace (T (- (l - 1)) * inject_Z d * T (l - 1)) with (inject_Z d)
        by (setoid_replace (T (-(l-1)) * inject_Z d * T (l-1)) with (inject_Z d * (T (l-1) * T (-(l-1)))) by ring; rewrite T_inv; ring).
      rewrite T_int by lia. rewrite <- inject_Z_mult, <- Zlt_Qlt. nia.
Qed.

Lemma scale_ok : forall n d k, (0 < n)%Z -> (0 < d)%Z -> let '(a, b) := scale10 n d k in
  (0 < a)%Z /\ (0 < b)%Z /\ inject_Z a / inject_Z b == inject_Z n / inject_Z d * T k.
Proof.
  intros n d k Hn Hd. unfold scale10. assert (P : forall j, (0 < 10 ^ Z.max 0 j)%Z) by (intros; apply Z.pow_pos_nonneg; lia).
  pose proof (P k). pose proof (P (- k)%Z). split; [nia|]. split; [nia|]. rewrite !inject_Z_mult, <- !T_int by lia.
  assert (D0 : ~ inject_Z d == 0) by (intros E; pose proof (inj_pos d Hd) as H1; rewrite E in H1; discriminate).
  assert (T0 : forall j, ~ T j == 0) by (intros j E; pose proof (T_pos j) as H1; rewrite E in H1; discriminate).
  assert (E : T (Z.max 0 k) == T k * T (Z.max 0 (- k))) by (rewrite <- T_plus; replace (k + Z.max 0 (- k))%Z with (Z.max 0 k) by lia; reflexivity).
  rewrite E. field. split; auto.
Qed.

(** * Rounding *)

Lemma nearest_Z : forall n d, (0 <= n)%Z -> (0 < d)%Z -> let q := nearest n d in
  (2 * Z.abs (q * d - n) <= d /\ 0 <= q /\ (2 * Z.abs (q * d - n) = d -> Z.even q = true))%Z.
Proof.
  intros n d Hn Hd. unfold nearest. pose proof (Z.div_mod n d ltac:(lia)) as E. pose proof (Z.mod_pos_bound n d Hd) as B.
  assert (Q0 : (0 <= n / d)%Z) by (apply Z.div_pos; lia). set (q := (n / d)%Z) in *. set (r := (n mod d)%Z) in *. cbv zeta.
  assert (A0 : (q * d - n = - r)%Z) by nia. assert (A1 : ((q + 1) * d - n = d - r)%Z) by nia.
  destruct (Z.ltb_spec (2 * r) d); [rewrite A0; split; [lia|]; split; [lia|]; intros; exfalso; lia|].
  destruct (Z.ltb_spec d (2 * r)); [rewrite A1; split; [lia|]; split; [lia|]; intros; exfalso; lia|].
  destruct (Z.even q) eqn:Ev; [rewrite A0; split; [lia|]; split; [lia|]; auto|]. rewrite A1. split; [lia|]. split; [lia|]. intros _. rewrite Z.even_add, Ev. reflexivity.
Qed.

(* q is the integer nearest to y *)
Definition rounds (y : Q) (q : Z) : Prop := Qabs (y - inject_Z q) <= 1 # 2 /\ (Qabs (y - inject_Z q) == 1 # 2 -> Z.even q = true).
Lemma nearest_ok : forall n d, (0 < n)%Z -> (0 < d)%Z -> rounds (inject_Z n / inject_Z d) (nearest n d).
Proof.
  intros n d Hn Hd. destruct (nearest_Z n d ltac:(lia) Hd) as [H1 [_ H2]]. set (q := nearest n d) in *. pose proof (inj_pos d Hd) as Hd'.
  assert (E : Qabs (inject_Z n / inject_Z d - inject_Z q) * inject_Z d * inject_Z 2 == inject_Z (2 * Z.abs (q * d - n))).
  { assert (A : Qabs (inject_Z n / inject_Z d - inject_Z q) * inject_Z d == Qabs ((inject_Z n / inject_Z d - inject_Z q) * inject_Z d))
      by (rewrite Qabs_Qmult, (Qabs_pos (inject_Z d)) by lra; reflexivity).
    rewrite A. setoid_replace ((inject_Z n / inject_Z d - inject_Z q) * inject_Z d) with (inject_Z n / inject_Z d * inject_Z d - inject_Z (q * d)) by (rewrite inject_Z_mult; ring).
    rewrite div_mul by auto.
    setoid_replace (inject_Z n - inject_Z (q * d)) with (inject_Z (n - q * d)) by (unfold Z.sub; rewrite inject_Z_plus, inject_Z_opp; reflexivity).
    change (Qabs (inject_Z (n - q * d))) with (inject_Z (Z.abs (n - q * d))). rewrite <- (Z.abs_opp (q * d - n)). replace (- (q * d - n))%Z with (n - q * d)%Z by lia.
    rewrite inject_Z_mult. ring. }
  unfold rounds. set (y := Qabs (inject_Z n / inject_Z d - inject_Z q)) in *. split.
  - apply (Qmult_le_cancel _ _ _ Hd'). assert (H3 : y * inject_Z d * inject_Z 2 <= inject_Z d) by (rewrite E, <- Zle_Qle; exact H1).
    change (inject_Z 2) with 2 in H3. lra.
  - intros Ey. apply H2. assert (H3 : inject_Z (2 * Z.abs (q * d - n)) == inject_Z d) by (rewrite <- E, Ey; change (inject_Z 2) with 2; ring).
    apply (proj1 (inject_Z_injective _ _)). exact H3.
Qed.

Lemma rounds_best : forall y q j, rounds y q -> Qabs (y - inject_Z q) <= Qabs (y - inject_Z j) /\ (Qabs (y - inject_Z q) == Qabs (y - inject_Z j) -> j <> q -> Z.even q = true).
Proof.
  intros y q j [H1 H2]. destruct (Z.eq_dec j q) as [->|Hj]; [split; [lra|congruence]|].
  assert (H3 : 1 # 2 <= Qabs (y - inject_Z j)).
  { assert (Hq : inject_Z j + 1 <= inject_Z q \/ inject_Z q + 1 <= inject_Z j).
    { change 1 with (inject_Z 1). rewrite <- !inject_Z_plus, <- !Zle_Qle. lia. }
    apply Qabs_Qle_condition in H1. destruct Hq.
    - apply Qle_trans with (y - inject_Z j); [lra|apply Qle_Qabs].
    - apply Qle_trans with (- (y - inject_Z j)); [lra|rewrite <- Qabs_opp; apply Qle_Qabs]. }
  split; [lra|]. intros E _. apply H2. lra.
Qed.
Lemma rounds_range : forall y q lo hi, rounds y q -> inject_Z lo <= y -> y <= inject_Z hi -> (lo <= q <= hi)%Z.
Proof.
  intros y q lo hi [H _] H1 H2. apply Qabs_Qle_condition in H.
  assert (inject_Z lo < inject_Z (q + 1)) by (rewrite inject_Z_plus; change (inject_Z 1) with 1; lra).
  assert (inject_Z q < inject_Z (hi + 1)) by (rewrite inject_Z_plus; change (inject_Z 1) with 1; lra).
  rewrite <- Zlt_Qlt in *. lia.
Qed.
Lemma rounds_comp : forall y y' q, y == y' -> rounds y q -> rounds y' q.
Proof. intros y y' q E [H1 H2]. unfold rounds. rewrite <- E. auto. Qed.

(** What roundE computes: k is the position of the first digit, q the integer nearest to the value in units of the sixth. *)
Lemma roundE_ok : forall n d, (0 < n)%Z -> (0 < d)%Z -> let x := inject_Z n / inject_Z d in let '(q', X) := roundE n d in
  exists k q, T k <= x /\ x < T (k + 1) /\ rounds (x * T (5 - k)) q /\ (10 ^ 5 <= q <= 10 ^ 6)%Z /\ (10 ^ 5 <= q' < 10 ^ 6)%Z /\
    decimal q (k - 5) == decimal q' (X - 5) /\ ((X = k /\ q' = q) \/ (X = k + 1 /\ q = 10 ^ 6 /\ q' = 10 ^ 5)%Z).
Proof.
  intros n d Hn Hd x. unfold roundE. destruct (lead_ok n d Hn Hd) as [L1 L2]. fold x in L1, L2. set (k := lead n d) in *.
  pose proof (scale_ok n d (5 - k) Hn Hd) as S. destruct (scale10 n d (5 - k)) as [a b]. destruct S as [Ha [Hb E]]. fold x in E.
  pose proof (rounds_comp _ _ _ E (nearest_ok a b Ha Hb)) as R. set (q := nearest a b) in *.
  assert (B : (10 ^ 5 <= q <= 10 ^ 6)%Z).
  { apply (rounds_range _ _ _ _ R).
    - rewrite <- T_int by lia. setoid_replace (T 5) with (T k * T (5 - k)) by (rewrite <- T_plus; replace (k + (5 - k))%Z with 5%Z by lia; reflexivity).
      apply Qmult_le_compat_r; [exact L1|]. apply Qlt_le_weak, T_pos.
    - rewrite <- T_int by lia. setoid_replace (T 6) with (T (k + 1) * T (5 - k)) by (rewrite <- T_plus; replace (k + 1 + (5 - k))%Z with 6%Z by lia; reflexivity).
      apply Qlt_le_weak. apply Qmult_lt_r; [apply T_pos|exact L2]. }
  destruct (Z.eqb_spec q (10 ^ 6)) as [Eq|Nq]; exists k, q; (split; [exact L1|]; split; [exact L2|]; split; [exact R|]; split; [exact B|]).
  - split; [lia|]. split; [|right; auto]. rewrite Eq. unfold decimal. replace (k + 1 - 5)%Z with (1 + (k - 5))%Z by lia. rewrite T_plus.
    change (10 ^ 6)%Z with (10 ^ 5 * 10)%Z. rewrite inject_Z_mult. change (T 1) with (inject_Z 10). ring.
  - split; [lia|]. split; [reflexivity|left; auto].
Qed.

Lemma grid : forall x k j, Qabs (x - decimal j (k - 5)) == Qabs (x * T (5 - k) - inject_Z j) * T (k - 5).
Proof.
  intros x k j. assert (A : Qabs (x * T (5 - k) - inject_Z j) * T (k - 5) == Qabs ((x * T (5 - k) - inject_Z j) * T (k - 5))).
  { rewrite Qabs_Qmult, (Qabs_pos (T (k - 5))) by (apply Qlt_le_weak, T_pos). reflexivity. }
  rewrite A. apply Qabs_wd. unfold decimal.
  setoid_replace ((x * T (5 - k) - inject_Z j) * T (k - 5)) with (x * (T (5 - k) * T (k - 5)) - inject_Z j * T (k - 5)) by ring.
  rewrite <- T_plus. replace (5 - k + (k - 5))%Z with 0%Z by lia. change (T 0) with 1. ring.
Qed.

Lemma Qabs_scale : forall x y t, 0 < t -> (Qabs x * t <= Qabs y * t <-> Qabs x <= Qabs y) /\ (Qabs x * t == Qabs y * t <-> Qabs x == Qabs y).
Proof. intros x y t H. split; [apply Qmult_le_r; auto|apply Qmult_inj_r; intros E; rewrite E in H; discriminate]. Qed.

Lemma closest_grid : forall x k q d', T k <= x -> rounds (x * T (5 - k)) q -> (10 ^ 5 <= q)%Z -> six d' ->
  Qabs (x - decimal q (k - 5)) <= Qabs (x - d') /\ (Qabs (x - decimal q (k - 5)) == Qabs (x - d') -> ~ d' == decimal q (k - 5) -> Z.even q = true).
Proof.
  intros x k q d' Hx R Hq [z [j [Hz Hd]]].
  destruct (Z_le_gt_dec (k - 5) j) as [Hj|Hj].
  - assert (E : d' == decimal (z * 10 ^ (j - (k - 5))) (k - 5)).
    { rewrite Hd. unfold decimal. rewrite inject_Z_mult, <- T_int by lia. rewrite <- Qmult_assoc, <- T_plus.
      replace (j - (k - 5) + (k - 5))%Z with j by lia. reflexivity. }
    rewrite E, !grid. destruct (rounds_best _ _ (z * 10 ^ (j - (k - 5))) R) as [B1 B2].
    destruct (Qabs_scale (x * T (5 - k) - inject_Z q) (x * T (5 - k) - inject_Z (z * 10 ^ (j - (k - 5)))) (T (k - 5)) (T_pos _)) as [S1 S2].
    split; [apply S1; auto|]. intros H1 H2. apply B2; [apply S2; auto|]. intros Ez. apply H2. rewrite Ez. reflexivity.
  - assert (L : d' < T k).
    { rewrite Hd. unfold decimal. apply Qle_lt_trans with (inject_Z (10 ^ 6 - 1) * T j).
      - apply Qmult_le_compat_r; [rewrite <- Zle_Qle; lia|apply Qlt_le_weak, T_pos].
      - apply Qlt_le_trans with (T 6 * T j).
        + apply Qmult_lt_r; [apply T_pos|]. rewrite T_int by lia. rewrite <- Zlt_Qlt. lia.
        + rewrite <- T_plus. apply T_le. lia. }
    destruct (rounds_best _ _ (10 ^ 5) R) as [B1 _].
    destruct (Qabs_scale (x * T (5 - k) - inject_Z q) (x * T (5 - k) - inject_Z (10 ^ 5)) (T (k - 5)) (T_pos _)) as [S1 _].
    apply S1 in B1. rewrite <- !grid in B1.
    assert (E : decimal (10 ^ 5) (k - 5) == T k).
    { unfold decimal. rewrite <- T_int by lia. rewrite <- T_plus. replace (5 + (k - 5))%Z with k by lia. reflexivity. }
    rewrite E in B1. rewrite (Qabs_pos (x - T k)) in B1 by lra. rewrite (Qabs_pos (x - d')) by lra.
    assert (B : Qabs (x - decimal q (k - 5)) < x - d') by lra. split; [lra|]. intros H _. lra.
Qed.

(** * Reading *)
Local Open Scope Z_scope.

Lemma isDigit_ok : forall c, isDigit c = true <-> digit_char c.
Proof. intros c. unfold isDigit, digit_char. rewrite andb_true_iff, !Z.leb_le. lia. Qed.
Lemma span_app : forall a b, Forall digit_char a -> match b with c :: _ => ~ digit_char c | [] => True end -> span (a ++ b) = (a, b).
Proof.
  induction a as [|c a IH]; intros b Ha Hb.
  - cbn [app]. destruct b as [|c b]; auto. cbn. destruct (isDigit c) eqn:E; auto. apply isDigit_ok in E. contradiction.
  - inversion Ha; subst. cbn [app span]. rewrite (proj2 (isDigit_ok c)) by auto. rewrite IH; auto.
Qed.

(* what may follow a numeral *)
Definition tailed (r : list Z) : Prop := match r with c :: _ => c = 101 | [] => True end.

Lemma read_parts : forall ip fp rest e, Forall digit_char ip -> ip <> [] -> Forall digit_char fp -> tailed rest -> readExp rest = Some e ->
  exists f n, readParts (withFraction ip fp ++ rest) = Some (ip, f, e) /\ fp = f ++ repeat 48 n /\ (f = [] \/ exists r c, f = r ++ [c] /\ c <> 48).
Proof.
  intros ip fp rest e Hip Hne Hfp Ht He. destruct (strip_ok fp) as [n [E1 E2]]. set (f := rev (dropZeros (rev fp))) in *.
  exists f, n. split; [|split; auto]. unfold withFraction. fold f.
  assert (Hf : Forall digit_char f) by (rewrite E1 in Hfp; apply Forall_app in Hfp; tauto).
  destruct ip as [|i0 ip']; [congruence|]. set (ip := i0 :: ip') in *. destruct f as [|c r] eqn:Ef.
  - unfold readParts. rewrite span_app; auto.
    2:{ destruct rest as [|c r]; auto. cbn in Ht. subst c. unfold digit_char. lia. }
    unfold ip. destruct rest as [|c r]; [rewrite He; reflexivity|]. cbn in Ht. subst c. rewrite He. reflexivity.
  - change (lit ".") with [46]. rewrite <- app_assoc. unfold readParts. rewrite span_app; auto.
    2:{ cbn. unfold digit_char. lia. }
    cbn [app]. rewrite app_comm_cons. rewrite span_app; auto.
    2:{ destruct rest as [|c' r']; auto. cbn in Ht. subst c'. unfold digit_char. lia. }
    unfold ip. rewrite He. reflexivity.
Qed.

Lemma fraction_value : forall (ip f : list Z) n, (decimal (read_digits (ip ++ f ++ repeat 48%Z n)) (- Z.of_nat (length (f ++ repeat 48%Z n))) ==
  decimal (read_digits (ip ++ f)) (- Z.of_nat (length f)))%Q.
Proof.
  intros ip f n. rewrite app_assoc, read_app, read_zeros, Z.add_0_r. unfold decimal. rewrite app_length, !repeat_length, inject_Z_mult.
  rewrite <- T_int by lia. rewrite <- Qmult_assoc, <- T_plus. replace (Z.of_nat n + - Z.of_nat (length f + n)) with (- Z.of_nat (length f)) by lia. reflexivity.
Qed.

(* the digits of r with the last p after the point *)
Lemma pointed : forall r p rest e, 0 <= r -> 0 <= p -> tailed rest -> readExp rest = Some e ->
  exists ip f, readParts (withFraction (numeral 10 (r / 10 ^ p)) (pad (Z.to_nat p) (numeral 10 (r mod 10 ^ p))) ++ rest) = Some (ip, f, e) /\
    ip = numeral 10 (r / 10 ^ p) /\ (f = [] \/ exists g c, f = g ++ [c] /\ c <> 48) /\
    (decimal (read_digits (ip ++ f)) (e - Z.of_nat (length f)) == decimal r (e - p))%Q.
Proof.
  intros r p rest e Hr Hp Ht He. assert (P : 0 < 10 ^ p) by (apply Z.pow_pos_nonneg; lia).
  pose proof (Z.div_mod r (10 ^ p) ltac:(lia)) as Ed. pose proof (Z.mod_pos_bound r (10 ^ p) P) as Em. pose proof (Z.div_pos r (10 ^ p) Hr P) as Eq.
  destruct (numeral_ok _ Eq) as [F1 [N1 R1]]. destruct (pad_ok (Z.to_nat p) (r mod 10 ^ p) ltac:(lia)) as [F2 [N2 R2]].
  set (ip := numeral 10 (r / 10 ^ p)) in *. set (fp := pad (Z.to_nat p) (numeral 10 (r mod 10 ^ p))) in *.
  destruct (read_parts ip fp rest e F1 N1 F2 Ht He) as [f [n [H1 [H2 H3]]]]. exists ip, f. split; [exact H1|]. split; [reflexivity|]. split; [exact H3|].
  assert (V : (decimal (read_digits (ip ++ fp)) (- Z.of_nat (length fp)) == decimal r (- p))%Q).
  { rewrite read_app, R1, R2. destruct (Z.eq_dec p 0) as [->|Hp0].
    - assert (L : length fp = 1%nat) by (unfold fp; rewrite Z.pow_0_r, Z.mod_1_r; reflexivity). rewrite L.
      rewrite Z.pow_0_r, Z.div_1_r, Z.mod_1_r, Z.add_0_r. unfold decimal. rewrite inject_Z_mult, <- T_int by lia.
      rewrite <- Qmult_assoc, <- T_plus. reflexivity.
    - assert (L : length fp = Z.to_nat p) by (apply pad_len; rewrite ?Z2Nat.id; lia). rewrite L, Z2Nat.id by lia.
      replace (r / 10 ^ p * 10 ^ p + r mod 10 ^ p) with r by lia. reflexivity. }
  rewrite H2, fraction_value in V. unfold decimal in *. replace (e - Z.of_nat (length f)) with (- Z.of_nat (length f) + e) by lia. replace (e - p) with (- p + e) by lia.
  rewrite !T_plus, !Qmult_assoc, V. reflexivity.
Qed.

Lemma readExp_ok : forall x, readExp (lit "e" ++ (if x <? 0 then lit "-" else lit "+") ++ pad 2 (numeral 10 (Z.abs x))) = Some x.
Proof.
  intros x. destruct (pad_ok 2 (Z.abs x) ltac:(lia)) as [F [N R]]. set (d := pad 2 (numeral 10 (Z.abs x))) in *.
  assert (L : (2 <= length d)%nat) by (unfold d, pad; rewrite app_length, repeat_length; lia).
  assert (S : span d = (d, [])) by (rewrite <- (app_nil_r d) at 1; apply span_app; auto).
  destruct d as [|a [|b r]] eqn:Ed; [cbn in L; lia|cbn in L; lia|].
  destruct (Z.ltb_spec x 0); change (lit "e") with [101]; change (lit "-") with [45]; change (lit "+") with [43]; cbn [app readExp]; rewrite S; cbn [Z.eqb Pos.eqb]; rewrite R; f_equal; lia.
Qed.

(** * From the value to the text *)

(* x > 0 is printed with the six digits q, the first of them at position X *)
Definition goes (x : Q) (q' X : Z) : Prop := exists k q, (T k <= x /\ x < T (k + 1) /\ rounds (x * T (5 - k)) q)%Q /\ (10 ^ 5 <= q <= 10 ^ 6)%Z /\ (10 ^ 5 <= q' < 10 ^ 6)%Z /\
  (decimal q (k - 5) == decimal q' (X - 5))%Q /\ ((X = k /\ q' = q) \/ (X = k + 1 /\ q = 10 ^ 6 /\ q' = 10 ^ 5)%Z).
Lemma goes_roundE : forall n d, 0 < n -> 0 < d -> goes (inject_Z n / inject_Z d) (fst (roundE n d)) (snd (roundE n d)).
Proof.
  intros n d Hn Hd. pose proof (roundE_ok n d Hn Hd) as H. destruct (roundE n d) as [q' X]. destruct H as [k [q H]]. exists k, q. cbn [fst snd]. tauto.
Qed.

Lemma rounds_unique : forall y q q2, rounds y q -> rounds y q2 -> q = q2.
Proof.
  intros y q q2 H1 H2. destruct (Z.eq_dec q q2) as [|N]; auto. exfalso.
  destruct (rounds_best y q q2 H1) as [A1 A2]. destruct (rounds_best y q2 q H2) as [B1 B2].
  assert (E : (Qabs (y - inject_Z q) == Qabs (y - inject_Z q2))%Q) by lra.
  pose proof (A2 E ltac:(congruence)) as V1. pose proof (B2 ltac:(lra) N) as V2.
  destruct H1 as [H1 _]. destruct H2 as [H2 _]. apply Qabs_Qle_condition in H1. apply Qabs_Qle_condition in H2.
  assert (inject_Z q <= inject_Z (q2 + 1))%Q by (rewrite inject_Z_plus; change (inject_Z 1) with 1%Q; lra).
  assert (inject_Z q2 <= inject_Z (q + 1))%Q by (rewrite inject_Z_plus; change (inject_Z 1) with 1%Q; lra).
  rewrite <- Zle_Qle in *. assert (q = q2 + 1 \/ q2 = q + 1) as [->| ->] by lia; rewrite Z.even_add in *; cbn in *;
    match goal with H : Bool.eqb (Z.even ?a) false = true |- _ => destruct (Z.even a); discriminate end.
Qed.
Lemma goes_fun : forall x y q X q2 X2, (x == y)%Q -> goes x q X -> goes y q2 X2 -> q = q2 /\ X = X2.
Proof.
  intros x y q X q2 X2 E [k [p [[A1 [A2 A3]] [A4 [A5 [A6 A7]]]]]] [k2 [p2 [[B1 [B2 B3]] [B4 [B5 [B6 B7]]]]]].
  assert (k = k2).
  { assert (k < k2 + 1) by (apply (Qpower_lt_compat_l_inv (inject_Z 10)); [lra|reflexivity]).
    assert (k2 < k + 1) by (apply (Qpower_lt_compat_l_inv (inject_Z 10)); [lra|reflexivity]). lia. }
  subst k2. assert (p = p2). { apply (rounds_unique (x * T (5 - k))%Q); auto. apply (rounds_comp (y * T (5 - k))%Q); auto. rewrite E. reflexivity. }
  subst p2. lia.
Qed.
Lemma goes_six : forall x q X, goes x q X -> six (decimal q (X - 5)).
Proof. intros x q X [k [p H]]. exists q, (X - 5). split; [lia|reflexivity]. Qed.
Lemma goes_closest : forall x q X, goes x q X -> closest x (decimal q (X - 5)).
Proof.
  intros x q X H. split; [eapply goes_six; eauto|]. intros d' Hd. destruct H as [k [p [[A1 [A2 A3]] [A4 [A5 [A6 A7]]]]]].
  rewrite <- A6. apply (closest_grid x k p d' A1 A3 ltac:(lia) Hd).
Qed.
Lemma goes_tie : forall x q X d', goes x q X -> six d' -> (Qabs (x - decimal q (X - 5)) == Qabs (x - d'))%Q -> ~ (d' == decimal q (X - 5))%Q -> Z.even q = true.
Proof.
  intros x q X d' [k [p [[A1 [A2 A3]] [A4 [A5 [A6 A7]]]]]] Hd E N. rewrite <- A6 in E, N.
  pose proof (proj2 (closest_grid x k p d' A1 A3 ltac:(lia) Hd) E N) as V. destruct A7 as [[_ ->]|[_ [_ ->]]]; auto.
Qed.
Lemma goes_pos : forall x q X, goes x q X -> (0 < x)%Q.
Proof. intros x q X [k [p [[A1 _] _]]]. pose proof (T_pos k). lra. Qed.
Lemma dec_range : forall q X, 10 ^ 5 <= q < 10 ^ 6 -> (T X <= decimal q (X - 5) /\ decimal q (X - 5) < T (X + 1))%Q.
Proof.
  intros q X Hq. unfold decimal. split.
  - apply Qle_trans with (inject_Z (10 ^ 5) * T (X - 5))%Q.
    + rewrite <- T_int, <- T_plus by lia. replace (5 + (X - 5)) with X by lia. apply Qle_refl.
    + apply Qmult_le_compat_r; [rewrite <- Zle_Qle; lia|apply Qlt_le_weak, T_pos].
  - apply Qlt_le_trans with (inject_Z (10 ^ 6) * T (X - 5))%Q.
    + apply Qmult_lt_r; [apply T_pos|]. rewrite <- Zlt_Qlt. lia.
    + rewrite <- T_int, <- T_plus by lia. replace (6 + (X - 5)) with (X + 1) by lia. apply Qle_refl.
Qed.
Lemma dec_unique : forall q X q2 X2, 10 ^ 5 <= q < 10 ^ 6 -> 10 ^ 5 <= q2 < 10 ^ 6 -> (decimal q (X - 5) == decimal q2 (X2 - 5))%Q -> q = q2 /\ X = X2.
Proof.
  intros q X q2 X2 H H2 E. destruct (dec_range q X H) as [A1 A2]. destruct (dec_range q2 X2 H2) as [B1 B2].
  assert (X = X2).
  { assert (X < X2 + 1) by (apply (Qpower_lt_compat_l_inv (inject_Z 10)); [lra|reflexivity]).
    assert (X2 < X + 1) by (apply (Qpower_lt_compat_l_inv (inject_Z 10)); [lra|reflexivity]). lia. }
  subst X2. split; auto. unfold decimal in E. apply Qmult_inj_r in E; [apply (proj1 (inject_Z_injective _ _)); exact E|].
  intros E0. pose proof (T_pos (X - 5)) as P. rewrite E0 in P. discriminate.
Qed.

(* the text depends on these digits only *)
Definition written (q X : Z) : text :=
  if (-4 <=? X) && (X <? 6) then withFraction (numeral 10 (q / 10 ^ (5 - X))) (pad (Z.to_nat (5 - X)) (numeral 10 (q mod 10 ^ (5 - X)))) else styleE q X.
Lemma styleG_written : forall n d, 0 < n -> 0 < d -> styleG n d = written (fst (roundE n d)) (snd (roundE n d)).
Proof.
  intros n d Hn Hd. unfold styleG, written. pose proof (goes_roundE n d Hn Hd) as G. destruct (roundE n d) as [q' X]. cbn [fst snd] in *.
  destruct ((-4 <=? X) && (X <? 6)) eqn:C; auto. apply andb_true_iff in C. destruct C as [C1 C2]. apply Z.leb_le in C1. apply Z.ltb_lt in C2.
  unfold styleF. assert (E : nearest (n * 10 ^ (5 - X)) d = q'); [|rewrite E; reflexivity].
  assert (P : 0 < 10 ^ (5 - X)) by (apply Z.pow_pos_nonneg; lia).
  pose proof (nearest_ok (n * 10 ^ (5 - X)) d ltac:(nia) Hd) as R.
  assert (E : (inject_Z (n * 10 ^ (5 - X)) / inject_Z d == inject_Z n / inject_Z d * T (5 - X))%Q).
  { rewrite inject_Z_mult, <- T_int by lia. field. intros E0. pose proof (inj_pos d Hd) as Hd'. rewrite E0 in Hd'. discriminate. }
  apply (rounds_comp _ _ _ E) in R. destruct G as [k [q [[A1 [A2 A3]] [A4 [A5 [A6 A7]]]]]]. destruct A7 as [[-> ->]|[-> [-> ->]]].
  - eapply rounds_unique; eauto.
  - (* the carry *)
    set (x := (inject_Z n / inject_Z d)%Q) in *. apply (rounds_unique (x * T (5 - (k + 1)))); auto.
    assert (Y : (x * T (5 - k) == x * T (5 - (k + 1)) * 10)%Q).
    { replace (5 - k) with (5 - (k + 1) + 1) by lia. rewrite T_plus. change (T 1) with 10%Q. ring. }
    destruct A3 as [A3 _]. rewrite Y in A3. apply Qabs_Qle_condition in A3. change (inject_Z (10 ^ 6)) with 1000000%Q in A3.
    assert (U : (x * T (5 - (k + 1)) <= 100000)%Q).
    { apply Qlt_le_weak. apply Qlt_le_trans with (T (k + 1) * T (5 - (k + 1)))%Q; [apply Qmult_lt_r; [apply T_pos|auto]|].
      rewrite <- T_plus. replace (k + 1 + (5 - (k + 1))) with 5 by lia. apply Qle_refl. }
    change (inject_Z (10 ^ 5)) with 100000%Q. unfold rounds. change (inject_Z (10 ^ 5)) with 100000%Q.
    split; [apply Qabs_Qle_condition; lra|]. intros _. reflexivity.
Qed.

Lemma read_bound : forall t, Forall digit_char t -> 0 <= read_digits t < 10 ^ Z.of_nat (length t).
Proof.
  intros t. induction t as [|c t IH] using rev_ind; intros F; [cbn; lia|]. apply Forall_app in F. destruct F as [F1 F2]. inversion F2; subst.
  specialize (IH F1). rewrite read_app, app_length. change (length [c]) with 1%nat. change (10 ^ Z.of_nat 1) with 10. change (read_digits [c]) with (0 * 10 + (c - 48)).
  replace (Z.of_nat (length t + 1)) with (Z.succ (Z.of_nat (length t))) by lia. rewrite Z.pow_succ_r by lia. unfold digit_char in *. lia.
Qed.
Lemma numeral_head : forall n, 0 <= n -> numeral 10 n = [48] \/ exists c r, numeral 10 n = c :: r /\ c <> 48.
Proof.
  intros n Hn. destruct (Z.eq_dec n 0) as [->|N0]; [left; reflexivity|]. right. pose proof (numeral_len n ltac:(lia)) as L.
  destruct (numeral_ok n Hn) as [F [N R]]. destruct (numeral 10 n) as [|c r]; [congruence|]. exists c, r. split; auto. intros ->.
  inversion F; subst. pose proof (read_bound r H2) as Br. change (read_digits (48 :: r)) with (read_digits r) in *. cbn [length] in L.
  replace (Z.of_nat (S (length r)) - 1) with (Z.of_nat (length r)) in L by lia. lia.
Qed.
Lemma written_ok : forall q X, 10 ^ 5 <= q < 10 ^ 6 -> exists ip f e, readParts (written q X) = Some (ip, f, e) /\
  (decimal (read_digits (ip ++ f)) (e - Z.of_nat (length f)) == decimal q (X - 5))%Q /\ (f = [] \/ exists g c, f = g ++ [c] /\ c <> 48) /\
  (In 101 (written q X) <-> ~ (-4 <= X < 6)) /\ (~ (-4 <= X < 6) -> e = X /\ length ip = 1%nat) /\
  (-4 <= X < 6 -> e = 0) /\ (ip = [48] \/ exists c r, ip = c :: r /\ c <> 48).
Proof.
  intros q X Hq. unfold written.
  assert (NE : forall a b, Forall digit_char a -> Forall digit_char b -> ~ In 101 (withFraction a b)).
  { intros a b Ha Hb. assert (D : forall t, Forall digit_char t -> ~ In 101 t) by (intros t Ft I; rewrite Forall_forall in Ft; apply Ft in I; unfold digit_char in I; lia).
    unfold withFraction. destruct (strip_ok b) as [n [E _]]. set (f := rev (dropZeros (rev b))) in *.
    assert (Hf : ~ In 101 f) by (apply D; rewrite E in Hb; apply Forall_app in Hb; tauto).
    destruct f as [|c r]; [auto|]. rewrite !in_app_iff. change (lit ".") with [46]. specialize (D a Ha). cbn [In] in *. intuition lia. }
  destruct ((-4 <=? X) && (X <? 6)) eqn:C.
  - apply andb_true_iff in C. destruct C as [C1 C2]. apply Z.leb_le in C1. apply Z.ltb_lt in C2.
    destruct (pointed q (5 - X) [] 0 ltac:(lia) ltac:(lia) I eq_refl) as [ip [f [H1 [H2 [H3 H4]]]]]. rewrite app_nil_r in H1.
    exists ip, f, 0. split; [exact H1|]. split; [rewrite H4; replace (0 - (5 - X)) with (X - 5) by lia; reflexivity|]. split; [exact H3|].
    split; [|split; [lia|split; [auto|rewrite H2; apply numeral_head, Z.div_pos; [lia|apply Z.pow_pos_nonneg; lia]]]]. split; [|lia]. intros I101. exfalso. revert I101. apply NE.
    + apply (proj1 (numeral_ok _ (Z.div_pos q _ ltac:(lia) (Z.pow_pos_nonneg 10 (5 - X) ltac:(lia) ltac:(lia))))).
    + apply (proj1 (pad_ok _ _ (proj1 (Z.mod_pos_bound q _ (Z.pow_pos_nonneg 10 (5 - X) ltac:(lia) ltac:(lia)))))).
  - assert (HX : ~ (-4 <= X < 6)).
    { intros HX. apply andb_false_iff in C. destruct C as [C|C]; [apply Z.leb_gt in C|apply Z.ltb_ge in C]; lia. }
    unfold styleE.
    destruct (pointed q 5 (lit "e" ++ (if X <? 0 then lit "-" else lit "+") ++ pad 2 (numeral 10 (Z.abs X))) X ltac:(lia) ltac:(lia) eq_refl (readExp_ok X)) as [ip [f [H1 [H2 [H3 H4]]]]].
    exists ip, f, X. split; [exact H1|]. split; [exact H4|]. split; [exact H3|]. split.
    + split; [auto|]. intros _. apply in_or_app. right. cbn. auto.
    + split; [|split; [lia|rewrite H2; apply numeral_head, Z.div_pos; lia]]. intros _. split; auto. rewrite H2. assert (1 <= q / 10 ^ 5 < 10) as B. { split; [apply Z.div_le_lower_bound; lia|apply Z.div_lt_upper_bound; lia]. }
      pose proof (numeral_len_max (q / 10 ^ 5) 1 ltac:(change (10 ^ Z.of_nat 1) with 10; lia) ltac:(lia)) as L. destruct (numeral_ok (q / 10 ^ 5) ltac:(lia)) as [_ [N _]].
      destruct (numeral 10 (q / 10 ^ 5)) as [|c [|c' l]]; [congruence|reflexivity|cbn [length] in L; lia].
Qed.

(** * Values *)

Notation B e := (inject_Z 2 ^ e)%Q.
Definition num (m : positive) (e : Z) : Z := Zpos m * 2 ^ Z.max 0 e.
Definition den (e : Z) : Z := 2 ^ Z.max 0 (- e).
Lemma num_pos : forall m e, 0 < num m e.
Proof. intros. unfold num. assert (0 < 2 ^ Z.max 0 e) by (apply Z.pow_pos_nonneg; lia). nia. Qed.
Lemma den_pos : forall e, 0 < den e.
Proof. intros. apply Z.pow_pos_nonneg; lia. Qed.
Lemma B_pos : forall e, (0 < B e)%Q.
Proof. intros. apply Qpower_0_lt. reflexivity. Qed.
Lemma B_plus : forall a b, (B (a + b) == B a * B b)%Q.
Proof. intros. apply Qpower_plus. intros H. discriminate. Qed.
Lemma B_int : forall k, (0 <= k)%Z -> (B k == inject_Z (2 ^ k))%Q.
Proof. intros. symmetry. apply Zpower_Qpower. auto. Qed.
Lemma frac_value : forall m e, (inject_Z (num m e) / inject_Z (den e) == inject_Z (Zpos m) * B e)%Q.
Proof.
  intros m e. unfold num, den. rewrite inject_Z_mult, <- !B_int by lia.
  assert (E : (B (Z.max 0 e) == B e * B (Z.max 0 (- e)))%Q) by (rewrite <- B_plus; replace (e + Z.max 0 (- e)) with (Z.max 0 e) by lia; reflexivity).
  rewrite E. field. intros E0. pose proof (B_pos (Z.max 0 (- e))) as P. rewrite E0 in P. discriminate.
Qed.

(* the digits printed for m * 2^e *)
Definition sixes (m : positive) (e : Z) : Z * Z := roundE (num m e) (den e).
Lemma sixes_goes : forall m e, goes (inject_Z (Zpos m) * B e)%Q (fst (sixes m e)) (snd (sixes m e)).
Proof.
  intros m e. pose proof (goes_roundE _ _ (num_pos m e) (den_pos e)) as G. fold (sixes m e) in G.
  destruct G as [k [q [[A1 [A2 A3]] A4]]]. exists k, q. rewrite frac_value in A1, A2. split; [|exact A4]. split; [auto|]. split; [auto|].
  apply (rounds_comp _ _ _ (Qmult_comp _ _ (frac_value m e) _ _ (Qeq_refl _)) A3).
Qed.
Lemma sixes_range : forall m e, 10 ^ 5 <= fst (sixes m e) < 10 ^ 6.
Proof. intros m e. destruct (sixes_goes m e) as [k [q H]]. tauto. Qed.
Lemma show_written : forall s m e, showFloat (S754_finite s m e) = minus s ++ written (fst (sixes m e)) (snd (sixes m e)).
Proof. intros. cbn [showFloat]. f_equal. apply (styleG_written _ _ (num_pos m e) (den_pos e)). Qed.

(* what is printed *)
Definition printed (s : bool) (m : positive) (e : Z) : Q := decimal (sgn s (fst (sixes m e))) (snd (sixes m e) - 5).
Lemma printed_pos : forall s m e, (printed s m e == inject_Z (sgn s 1) * printed false m e)%Q.
Proof.
  intros s m e. unfold printed, decimal. rewrite Qmult_assoc, <- inject_Z_mult. destruct s; cbn [sgn]; [|rewrite Z.mul_1_l; reflexivity].
  replace (- (1) * fst (sixes m e)) with (- fst (sixes m e)) by lia. reflexivity.
Qed.
Lemma fval_pos : forall s m e, (fval (S754_finite s m e) == inject_Z (sgn s 1) * (inject_Z (Zpos m) * B e))%Q.
Proof.
  intros s m e. cbn [fval]. rewrite Qmult_assoc, <- inject_Z_mult. destruct s; cbn [sgn]; [|rewrite Z.mul_1_l; reflexivity].
  replace (- (1) * Zpos m) with (- Zpos m) by lia. reflexivity.
Qed.
Lemma sgn_abs : forall s x y, (Qabs (inject_Z (sgn s 1) * x - inject_Z (sgn s 1) * y) == Qabs (x - y))%Q.
Proof.
  intros [] x y; cbn [sgn].
  - rewrite <- (Qabs_opp (x - y)). apply Qabs_wd. change (inject_Z (- (1))) with (- (1))%Q. ring.
  - apply Qabs_wd. change (inject_Z 1) with 1%Q. ring.
Qed.
Lemma six_sgn : forall s x, six x -> six (inject_Z (sgn s 1) * x)%Q.
Proof.
  intros s x [z [k [H E]]]. exists (sgn s z), k. split; [destruct s; cbn; lia|]. rewrite E. unfold decimal. rewrite Qmult_assoc, <- inject_Z_mult.
  destruct s; cbn [sgn]; [|rewrite Z.mul_1_l; reflexivity]. replace (- (1) * z) with (- z) by lia. reflexivity.
Qed.
Lemma sgn_sgn : forall s x, (inject_Z (sgn s 1) * (inject_Z (sgn s 1) * x) == x)%Q.
Proof. intros [] x; cbn [sgn]; [change (inject_Z (- (1))) with (- (1))%Q|change (inject_Z 1) with 1%Q]; ring. Qed.

Lemma printed_closest : forall s m e, closest (fval (S754_finite s m e)) (printed s m e).
Proof.
  intros s m e. destruct (goes_closest _ _ _ (sixes_goes m e)) as [C1 C2]. split.
  - destruct C1 as [z [k [H E]]]. destruct (six_sgn s (printed false m e)) as [z' [k' [H' E']]]; [exists z, k; auto|]. exists z', k'. split; auto. rewrite printed_pos. exact E'.
  - intros d' Hd. specialize (C2 _ (six_sgn s d' Hd)). rewrite printed_pos, fval_pos, sgn_abs.
    rewrite <- (sgn_sgn s d') , sgn_abs. exact C2.
Qed.
Lemma printed_tie : forall s m e d', six d' -> (Qabs (fval (S754_finite s m e) - printed s m e) == Qabs (fval (S754_finite s m e) - d'))%Q -> ~ (d' == printed s m e)%Q ->
  Z.even (fst (sixes m e)) = true.
Proof.
  intros s m e d' Hd E N. apply (goes_tie _ _ _ _ (sixes_goes m e) (six_sgn s d' Hd)).
  - rewrite printed_pos, fval_pos, sgn_abs in E. change (decimal (fst (sixes m e)) (snd (sixes m e) - 5)) with (printed false m e). rewrite E.
    rewrite <- (sgn_sgn s d') at 1. apply sgn_abs.
  - intros E2. apply N. rewrite printed_pos. rewrite <- (sgn_sgn s d'), E2. reflexivity.
Qed.
Lemma printed_stands : forall s m e, standsFor (showFloat (S754_finite s m e)) s (printed s m e).
Proof.
  intros s m e. destruct (written_ok (fst (sixes m e)) (snd (sixes m e)) (sixes_range m e)) as [ip [f [x [H1 [H2 _]]]]].
  rewrite show_written. exists (written (fst (sixes m e)) (snd (sixes m e))), ip, f, x. split; [destruct s; reflexivity|]. split; [exact H1|].
  rewrite printed_pos. unfold printed at 1. cbn [sgn]. rewrite <- H2. unfold decimal. rewrite Qmult_assoc, <- inject_Z_mult.
  destruct s; cbn [sgn]; [|rewrite Z.mul_1_l; reflexivity]. replace (- (1) * read_digits (ip ++ f)) with (- read_digits (ip ++ f)) by lia. reflexivity.
Qed.

(** * Order *)
Lemma goes_mono : forall x y q X q2 X2, (x <= y)%Q -> goes x q X -> goes y q2 X2 -> (decimal q (X - 5) <= decimal q2 (X2 - 5))%Q.
Proof.
  intros x y q X q2 X2 L G1 G2. destruct (Qlt_le_dec (decimal q2 (X2 - 5)) (decimal q (X - 5))) as [D|D]; auto. exfalso.
  destruct (Qeq_dec x y) as [E|N].
  - destruct (goes_fun _ _ _ _ _ _ E G1 G2) as [-> ->]. lra.
  - pose proof (proj2 (goes_closest _ _ _ G1) _ (goes_six _ _ _ G2)) as C1. pose proof (proj2 (goes_closest _ _ _ G2) _ (goes_six _ _ _ G1)) as C2.
    set (a := decimal q (X - 5)) in *. set (b := decimal q2 (X2 - 5)) in *.
    assert (x < y)%Q by (apply Qnot_le_lt; intros H; apply N; apply Qle_antisym; auto).
    revert C1 C2. apply (Qabs_case (x - a)); apply (Qabs_case (x - b)); apply (Qabs_case (y - a)); apply (Qabs_case (y - b)); intros; lra.
Qed.

(* a value near enough to a six digit number is printed as that *)
Lemma goes_near : forall w q2 X2 q X u, goes w q2 X2 -> 10 ^ 5 <= q < 10 ^ 6 ->
  (q = 10 ^ 5 /\ (u == T (X - 6))%Q \/ 10 ^ 5 < q /\ (u == T (X - 5))%Q) -> (2 * Qabs (w - decimal q (X - 5)) < u)%Q -> q2 = q /\ X2 = X.
Proof.
  intros w q2 X2 q X u G Hq Hu Hw. assert (R2 : 10 ^ 5 <= q2 < 10 ^ 6) by (destruct G as [k [p H]]; tauto).
  assert (S : six (decimal q (X - 5))) by (exists q, (X - 5); split; [lia|reflexivity]).
  pose proof (proj2 (goes_closest _ _ _ G) _ S) as C. destruct (dec_range q X Hq) as [D1 D2]. destruct (dec_range q2 X2 R2) as [D3 D4].
  apply dec_unique; auto. set (a := decimal q (X - 5)) in *. set (b := decimal q2 (X2 - 5)) in *.
  assert (C' : (Qabs (b - a) < u)%Q).
  { assert (Tr : (Qabs (b - a) <= Qabs (w - b) + Qabs (w - a))%Q).
    { setoid_replace (b - a)%Q with (- (w - b) + (w - a))%Q by ring. eapply Qle_trans; [apply Qabs_triangle|]. rewrite Qabs_opp. lra. }
    lra. }
  destruct (Qeq_dec b a) as [E|N]; [auto|]. exfalso.
  assert (U : (u <= T (X - 5))%Q) by (destruct Hu as [[_ ->]|[_ ->]]; apply T_le; lia).
  assert (GR : forall j, (X2 - 5 >= j)%Z -> (j <= X - 5)%Z -> (T j <= Qabs (b - a))%Q).
  { intros j Hj Hj2. unfold a, b, decimal.
    assert (E1 : (T (X2 - 5) == inject_Z (10 ^ (X2 - 5 - j)) * T j)%Q) by (rewrite <- T_int by lia; rewrite <- T_plus; replace (X2 - 5 - j + j) with (X2 - 5) by lia; reflexivity).
    assert (E2 : (T (X - 5) == inject_Z (10 ^ (X - 5 - j)) * T j)%Q) by (rewrite <- T_int by lia; rewrite <- T_plus; replace (X - 5 - j + j) with (X - 5) by lia; reflexivity).
    set (z := q2 * 10 ^ (X2 - 5 - j) - q * 10 ^ (X - 5 - j)).
    assert (E3 : (inject_Z q2 * T (X2 - 5) - inject_Z q * T (X - 5) == inject_Z z * T j)%Q).
    { rewrite E1, E2. unfold z, Z.sub. rewrite inject_Z_plus, inject_Z_opp, !inject_Z_mult. ring. }
    rewrite E3, Qabs_Qmult, (Qabs_pos (T j)) by (apply Qlt_le_weak, T_pos).
    assert (Hz : z <> 0). { intros Hz. apply N. unfold a, b, decimal. rewrite Hz in E3. change (inject_Z 0) with 0%Q in E3. lra. }
    change (Qabs (inject_Z z)) with (inject_Z (Z.abs z)). setoid_replace (T j) with (1 * T j)%Q at 1 by ring. apply Qmult_le_compat_r; [|apply Qlt_le_weak, T_pos].
    change 1%Q with (inject_Z 1). rewrite <- Zle_Qle. lia. }
  destruct (Z_lt_le_dec X2 X) as [L|L].
  - assert (D5 : (b < T X)%Q) by (apply Qlt_le_trans with (T (X2 + 1)); [auto|apply T_le; lia]).
    destruct Hu as [[Eq Hu]|[Lq Hu]].
    + (* a power of ten *)
      assert (Ea : (a == T X)%Q). { unfold a, decimal. rewrite Eq, <- T_int, <- T_plus by lia. replace (5 + (X - 5)) with X by lia. reflexivity. }
      destruct (Z.eq_dec X2 (X - 1)) as [->|Hx].
      * specialize (GR (X - 6) ltac:(lia) ltac:(lia)). lra.
      * assert (D6 : (b < T (X - 1))%Q) by (apply Qlt_le_trans with (T (X2 + 1)); [auto|apply T_le; lia]).
        assert (E1 : (T X == T (X - 1) * 10)%Q) by (replace X with (X - 1 + 1) at 1 by lia; rewrite T_plus; reflexivity).
        pose proof (T_pos (X - 1)). pose proof (T_le (X - 5) (X - 1) ltac:(lia)). rewrite Qabs_neg in C' by lra. lra.
    + assert (Ea : (T X + T (X - 5) <= a)%Q).
      { unfold a, decimal. apply Qle_trans with (inject_Z (10 ^ 5 + 1) * T (X - 5))%Q.
        - rewrite inject_Z_plus, <- (T_int 5) by lia. rewrite Qmult_plus_distr_l, <- T_plus. replace (5 + (X - 5)) with X by lia. change (inject_Z 1) with 1%Q. lra.
        - apply Qmult_le_compat_r; [rewrite <- Zle_Qle; lia|apply Qlt_le_weak, T_pos]. }
      pose proof (T_pos (X - 5)). rewrite Qabs_neg in C' by lra. lra.
  - specialize (GR (X - 5) ltac:(lia) ltac:(lia)). lra.
Qed.
