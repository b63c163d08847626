(** Arithmetic of exact floating point results. *)
From Coq Require Import List ZArith Lia Bool SpecFloat.
From Verif Require Import Base TreeModel BoolProof FloatModel FloatSpec.
Import ListNotations.
Local Open Scope Z_scope.

Lemma digits_mul : forall p q j, 0 <= j -> Zpos q = Zpos p * 2 ^ j -> Zpos (digits2_pos q) = Zpos (digits2_pos p) + j.
Proof.
  intros p q j Hj E. apply digits2_unique; [lia|]. rewrite E. assert (B := digits2_bound p). replace (Zpos (digits2_pos p) + j - 1) with (Zpos (digits2_pos p) - 1 + j) by lia.
  rewrite !Z.pow_add_r by lia. assert (0 < 2 ^ j) by (apply Z.pow_pos_nonneg; lia). nia.
Qed.
Lemma shift_mul : forall d p, Zpos (shift_pos d p) = Zpos p * 2 ^ Zpos d.
Proof. intros. rewrite Zpower.shift_pos_correct. rewrite Z.mul_comm. reflexivity. Qed.

Section Type_.
Variable ty : ftype.
Hypothesis Hprec : 2 <= prec ty.
Hypothesis Hemax : prec ty < emax ty.
Notation pr := (prec ty).
Notation em := (emax ty).
Notation emn := (emin pr em).

Lemma valid_iff : forall s m e, valid ty (S754_finite s m e) <-> fexp pr em (Zpos (digits2_pos m) + e) = e /\ e <= em - pr.
Proof.
  intros. unfold valid. cbn [valid_binary]. unfold bounded, canonical_mantissa. rewrite andb_true_iff. rewrite <- Zle_is_le_bool. split.
  - intros [H1 H2]. apply Zeq_bool_eq in H1. auto.
  - intros [H1 H2]. split; auto. apply Zeq_is_eq_bool. auto.
Qed.

(** Rounding a valid value written with more digits gives that value. *)
Lemma aux_exact : forall s m e j q, valid ty (S754_finite s m e) -> 0 <= j -> q = Zpos m * 2 ^ j ->
  binary_round_aux pr em s q (e - j) loc_Exact = S754_finite s m e.
Proof.
  intros s m e j q Hv Hj Hq. apply valid_iff in Hv. destruct Hv as [Hc Hb]. unfold binary_round_aux.
  assert (0 < 2 ^ j) by (apply Z.pow_pos_nonneg; lia). destruct q as [|q|q]; [nia| |nia].
  unfold shr_fexp at 1. cbn [Zdigits2]. rewrite (digits_mul m q j) by auto. replace (Zpos (digits2_pos m) + j + (e - j)) with (Zpos (digits2_pos m) + e) by lia. rewrite Hc.
  replace (e - (e - j)) with j by lia. cbn [shr_record_of_loc]. rewrite Hq, shr_exact by lia. cbn [shr_m loc_of_shr_record round_nearest_even].
  replace (e - j + j) with e by lia. unfold shr_fexp. cbn [Zdigits2]. rewrite Hc, shr_nonpos by lia. cbn [shr_record_of_loc shr_m]. rewrite Zle_imp_le_bool by auto. reflexivity.
Qed.
Lemma round_down : forall s m e j q, valid ty (S754_finite s m e) -> 0 <= j -> Zpos q = Zpos m * 2 ^ j -> binary_round pr em s q (e - j) = S754_finite s m e.
Proof.
  intros s m e j q Hv Hj Hq. unfold binary_round. assert (Hv' := Hv). apply valid_iff in Hv'. destruct Hv' as [Hc Hb].
  rewrite (digits_mul m q j) by auto. replace (Zpos (digits2_pos m) + j + (e - j)) with (Zpos (digits2_pos m) + e) by lia. rewrite Hc.
  unfold shl_align. replace (e - (e - j)) with j by lia. destruct j as [|j|j]; try lia; apply aux_exact; auto; lia.
Qed.
Lemma round_up : forall s m e j q, valid ty (S754_finite s m e) -> 0 <= j -> Zpos m = Zpos q * 2 ^ j -> binary_round pr em s q (e + j) = S754_finite s m e.
Proof.
  intros s m e j q Hv Hj Hq. unfold binary_round. assert (Hv' := Hv). apply valid_iff in Hv'. destruct Hv' as [Hc Hb].
  rewrite (digits_mul q m j) in Hc by auto. replace (Zpos (digits2_pos q) + (e + j)) with (Zpos (digits2_pos q) + j + e) by lia. rewrite Hc.
  unfold shl_align. replace (e - (e + j)) with (- j) by lia. destruct j as [|j|j]; try lia; cbn [Z.opp].
  - rewrite Z.pow_0_r, Z.mul_1_r in Hq. replace q with m by lia. replace (e + 0) with (e - 0) by lia. apply aux_exact; auto; lia.
  - replace e with (e - 0) at 1 by lia. apply aux_exact; auto; [lia|]. rewrite shift_mul, Hq. lia.
Qed.

(** ** The value with mantissa M (of full length) and frexp exponent x *)
Definition xexp (x : Z) : Z := Z.max (x - pr) emn.
Definition xdrop (x : Z) : Z := xexp x - (x - pr).
Definition cf (s : bool) (M x : Z) : spec_float := S754_finite s (Z.to_pos (M / 2 ^ xdrop x)) (xexp x).
Definition wf (M x : Z) : Prop := 2 ^ (pr - 1) <= M < 2 ^ pr /\ x <= em /\ (2 ^ xdrop x | M).

Lemma drop_nonneg : forall x, 0 <= xdrop x.
Proof. intros. unfold xdrop, xexp. lia. Qed.
Lemma cf_mant : forall M x, wf M x -> M = Zpos (Z.to_pos (M / 2 ^ xdrop x)) * 2 ^ xdrop x /\ Zpos (digits2_pos (Z.to_pos (M / 2 ^ xdrop x))) = pr - xdrop x.
Proof.
  intros M x (HM & _ & k & Hk). assert (D := drop_nonneg x). assert (0 < 2 ^ xdrop x) by (apply Z.pow_pos_nonneg; lia). assert (0 < 2 ^ (pr - 1)) by (apply Z.pow_pos_nonneg; lia).
  assert (E : M / 2 ^ xdrop x = k) by (rewrite Hk; apply Z.div_mul; lia). rewrite E. assert (0 < k) by nia. rewrite Z2Pos.id by auto. split; auto.
  assert (Hd := digits_mul (Z.to_pos k) (Z.to_pos M) (xdrop x) D). rewrite !Z2Pos.id in Hd by lia. specialize (Hd Hk).
  rewrite (digits2_unique (Z.to_pos M) pr) in Hd; [lia|lia|]. rewrite Z2Pos.id by lia. auto.
Qed.
Lemma cf_valid : forall s M x, wf M x -> valid ty (cf s M x).
Proof.
  intros s M x H. unfold cf. apply valid_iff. destruct (cf_mant M x H) as [_ ->]. destruct H as (_ & Hx & _).
  unfold xdrop, xexp, fexp, emin in *. lia.
Qed.
Lemma wf_pos : forall M x, wf M x -> 0 < M.
Proof. intros M x (H & _). assert (0 < 2 ^ (pr - 1)) by (apply Z.pow_pos_nonneg; lia). lia. Qed.
Lemma cf_ldexp : forall s M x, wf M x -> SFldexp pr em (S754_finite s (Z.to_pos M) (- pr)) x = cf s M x.
Proof.
  intros s M x H. cbn [SFldexp]. replace (- pr + x) with (xexp x - xdrop x) by (unfold xdrop; lia). apply round_down; [apply cf_valid; auto|apply drop_nonneg|].
  rewrite Z2Pos.id by (eapply wf_pos; eauto). apply cf_mant; auto.
Qed.
Lemma cf_frexp : forall s M x, wf M x -> SFfrexp pr em (cf s M x) = (S754_finite s (Z.to_pos M) (- pr), x).
Proof.
  intros s M x H. destruct (cf_mant M x H) as [E D]. assert (N := drop_nonneg x). assert (P := wf_pos _ _ H). unfold cf, SFfrexp.
  remember (Z.to_pos (M / 2 ^ xdrop x)) as m eqn:Em. clear Em.
  destruct (Z.to_pos pr <=? digits2_pos m)%positive eqn:El.
  - apply Pos.leb_le in El. assert (xdrop x = 0) by (unfold xdrop in *; lia). rewrite H0, Z.pow_0_r, Z.mul_1_r in E. rewrite E. cbn [Z.to_pos]. f_equal. unfold xdrop in *. lia.
  - apply Pos.leb_gt in El. rewrite D. replace (pr - (pr - xdrop x)) with (xdrop x) by lia.
    assert (Hs : shift_pos (Z.to_pos (xdrop x)) m = Z.to_pos M).
    { assert (Hz : Zpos (shift_pos (Z.to_pos (xdrop x)) m) = Zpos (Z.to_pos M)) by (rewrite shift_mul, !Z2Pos.id by lia; auto). inversion Hz; auto. }
    rewrite Hs. f_equal. unfold xdrop. lia.
Qed.
Lemma cf_exactly : forall s M x z k d, wf M x -> 0 <= d -> M = z * 2 ^ d -> k = x - pr + d -> exactly (cf s M x) (sgn s z) k.
Proof.
  intros s M x z k d H Hd Hz ->. destruct (cf_mant M x H) as [E _]. assert (N := drop_nonneg x). unfold cf, exactly. remember (Z.to_pos (M / 2 ^ xdrop x)) as m eqn:Em. clear Em.
  assert (A : Zpos m * 2 ^ (xexp x - Z.min (xexp x) (x - pr + d)) = z * 2 ^ (x - pr + d - Z.min (xexp x) (x - pr + d))).
  { rewrite Hz in E. clear Hz. destruct (Z.min_spec (xexp x) (x - pr + d)) as [[L ->]|[L ->]].
    - replace (xexp x - xexp x) with 0 by lia. rewrite Z.pow_0_r, Z.mul_1_r. replace d with (x - pr + d - xexp x + xdrop x) in E by (unfold xdrop; lia).
      rewrite Z.pow_add_r, Z.mul_assoc in E by (unfold xdrop in *; lia). assert (0 < 2 ^ xdrop x) by (apply Z.pow_pos_nonneg; lia). apply Z.mul_reg_r in E; lia.
    - replace (x - pr + d - (x - pr + d)) with 0 by lia. rewrite Z.pow_0_r, Z.mul_1_r. replace (xdrop x) with (xexp x - (x - pr + d) + d) in E by (unfold xdrop; lia).
      rewrite Z.pow_add_r, Z.mul_assoc in E by lia. assert (0 < 2 ^ d) by (apply Z.pow_pos_nonneg; lia). apply Z.mul_reg_r in E; lia. }
  destruct s; cbn [sgn]; lia.
Qed.

(** Every value is one of these. *)
Lemma finite_cf : forall s m e, valid ty (S754_finite s m e) -> let d := pr - Zpos (digits2_pos m) in let x := e + Zpos (digits2_pos m) in
  0 <= d /\ wf (Zpos m * 2 ^ d) x /\ S754_finite s m e = cf s (Zpos m * 2 ^ d) x /\ emn < x.
Proof.
  intros s m e Hv d x. assert (Hv' := Hv). apply valid_iff in Hv'. destruct Hv' as [Hc Hb]. unfold fexp in Hc.
  assert (Hd : 0 <= d) by (unfold d, emin in *; lia). split; auto.
  assert (Ex : xexp x = e) by (unfold xexp, x; lia). assert (Dx : xdrop x = d) by (unfold xdrop; rewrite Ex; unfold d, x; lia). split; [|split].
  - split; [|split].
    + assert (B := digits2_bound m). unfold d. replace (pr - 1) with (Zpos (digits2_pos m) - 1 + (pr - Zpos (digits2_pos m))) by lia.
      rewrite Z.pow_add_r by lia. replace pr with (Zpos (digits2_pos m) + (pr - Zpos (digits2_pos m))) at 4 by lia. rewrite Z.pow_add_r by lia.
      assert (0 < 2 ^ (pr - Zpos (digits2_pos m))) by (apply Z.pow_pos_nonneg; lia). nia.
    + unfold x, emin in *. lia.
    + rewrite Dx. exists (Zpos m). auto.
  - unfold cf. rewrite Ex, Dx, Z.div_mul by (assert (0 < 2 ^ d) by (apply Z.pow_pos_nonneg; lia); lia). reflexivity.
  - unfold x. lia.
Qed.

(** Other exponents between there and zero. *)
Lemma wf_toward : forall M x x', wf M x -> (x <= x' <= 0 \/ 0 <= x' <= x) -> wf M x'.
Proof.
  intros M x x' (H1 & H2 & H3) Hx. split; auto. split; [unfold emin in *; lia|]. destruct Hx as [Hx|Hx].
  - destruct H3 as (k & Hk). exists (k * 2 ^ (xdrop x - xdrop x')). rewrite <- Z.mul_assoc, <- Z.pow_add_r by (unfold xdrop, xexp; lia). replace (xdrop x - xdrop x' + xdrop x') with (xdrop x) by lia. auto.
  - assert (E : xdrop x' = 0) by (unfold xdrop, xexp, emin; lia). rewrite E. exists M. lia.
Qed.
Lemma wf_half : forall x, emn < x <= em -> wf (2 ^ (pr - 1)) x.
Proof.
  intros x Hx. split; [|split; [lia|]].
  - split; [lia|]. apply Z.pow_lt_mono_r; lia.
  - exists (2 ^ (pr - 1 - xdrop x)). rewrite <- Z.pow_add_r by (unfold xdrop, xexp, emin in *; lia). f_equal. lia.
Qed.
Lemma half_eq : forall s, half ty s = S754_finite s (Z.to_pos (2 ^ (pr - 1))) (- pr).
Proof.
  intros. unfold half. f_equal. assert (Zpos (shift_pos (Z.to_pos (pr - 1)) 1) = Zpos (Z.to_pos (2 ^ (pr - 1)))).
  { rewrite shift_mul. rewrite !Z2Pos.id by (try apply Z.pow_pos_nonneg; lia). lia. } inversion H; auto.
Qed.

(** Powers of two as ints. *)
Lemma toInt_pow : forall s x, emn < x <= em -> toInt (cf s (2 ^ (pr - 1)) x) =
  (let z := sgn s (if x <=? 0 then 0 else 2 ^ (x - 1)) in if (- 2 ^ 31 <=? z) && (z <=? 2 ^ 31 - 1) then Ok z else UB).
Proof.
  intros s x Hx. assert (W := wf_half x Hx). unfold cf, toInt.
  assert (Ed : 2 ^ (pr - 1) / 2 ^ xdrop x = 2 ^ (pr - 1 - xdrop x)) by (assert (N := drop_nonneg x); rewrite <- Z.pow_sub_r by (unfold xdrop, xexp, emin in *; lia); auto).
  rewrite Ed, Z2Pos.id by (apply Z.pow_pos_nonneg; [lia|unfold xdrop, xexp, emin in *; lia]).
  assert (Et : (if 0 <=? xexp x then 2 ^ (pr - 1 - xdrop x) * 2 ^ xexp x else 2 ^ (pr - 1 - xdrop x) / 2 ^ (- xexp x)) = (if x <=? 0 then 0 else 2 ^ (x - 1))).
  { destruct (Z.leb_spec 0 (xexp x)).
    - rewrite <- Z.pow_add_r by (unfold xdrop, xexp, emin in *; lia). destruct (Z.leb_spec x 0); [unfold xdrop, xexp, emin in *; lia|]. f_equal. unfold xdrop. lia.
    - destruct (Z.leb_spec x 0).
      + apply Z.div_small. split; [apply Z.pow_nonneg; lia|]. apply Z.pow_lt_mono_r; unfold xdrop, xexp, emin in *; lia.
      + rewrite <- Z.pow_sub_r by (unfold xdrop, xexp, emin in *; lia). f_equal. unfold xdrop. lia. }
  rewrite Et. reflexivity.
Qed.
Lemma normalize_pow : forall x, 0 < x -> x <= em -> binary_normalize pr em (2 ^ (x - 1)) 0 false = cf false (2 ^ (pr - 1)) x.
Proof.
  intros x H0 Hx. assert (Hx' : emn < x <= em) by (unfold emin; lia). assert (W := wf_half x Hx'). assert (V := cf_valid false _ _ W). unfold cf in *.
  assert (E : xdrop x = 0 /\ xexp x = x - pr) by (unfold xdrop, xexp, emin; lia). destruct E as [E1 E2]. rewrite E1, E2 in *. rewrite Z.pow_0_r, Z.div_1_r in *.
  assert (P1 : 0 < 2 ^ (x - 1)) by (apply Z.pow_pos_nonneg; lia). assert (P2 : 0 < 2 ^ (pr - 1)) by (apply Z.pow_pos_nonneg; lia).
  destruct (2 ^ (x - 1)) as [|q|q] eqn:Eq; try lia. cbn [binary_normalize]. destruct (Z_le_gt_dec pr x).
  - replace 0 with (x - pr - (x - pr)) by lia. apply round_down; auto; [lia|]. rewrite Z2Pos.id, <- Eq, <- Z.pow_add_r by lia. f_equal. lia.
  - replace 0 with (x - pr + (pr - x)) by lia. apply round_up; auto; [lia|]. rewrite Z2Pos.id, <- Eq, <- Z.pow_add_r by lia. f_equal. lia.
Qed.
Lemma SFltb_irrefl : forall v, SFltb v v = false.
Proof.
  intros v. unfold SFltb. destruct v as [s|s| |s m e]; cbn; try (destruct s); auto; rewrite Z.compare_refl; change (Pos.compare_cont Eq m m) with (Pos.compare m m); rewrite Pos.compare_refl; auto.
Qed.

Lemma integerfy_pow : forall s x, emn < x <= em -> integerfy ty (Node (cf s (2 ^ (pr - 1)) x) []) = if x <=? 31 then Ok [] else UB.
Proof.
  intros s x Hx. unfold integerfy. cbn [root]. rewrite toInt_pow by auto. cbv zeta. destruct (Z.leb_spec x 0).
  - destruct (Z.leb_spec x 31); [|lia]. destruct s; reflexivity.
  - destruct (Z.leb_spec x 31).
    + assert (P : 0 < 2 ^ (x - 1) <= 2 ^ 30) by (split; [apply Z.pow_pos_nonneg; lia|apply Z.pow_le_mono_r; lia]).
      replace ((- 2 ^ 31 <=? sgn s (2 ^ (x - 1))) && (sgn s (2 ^ (x - 1)) <=? 2 ^ 31 - 1)) with true
        by (symmetry; apply andb_true_iff; rewrite !Z.leb_le; destruct s; cbn [sgn]; lia).
      cbn [bind]. replace (sgn s (2 ^ (x - 1)) =? 0) with false by (symmetry; apply Z.eqb_neq; destruct s; cbn [sgn]; lia).
      replace (sgn s (2 ^ (x - 1)) =? - 2 ^ 31) with false by (symmetry; apply Z.eqb_neq; destruct s; cbn [sgn]; lia).
      replace (Z.abs (sgn s (2 ^ (x - 1)))) with (2 ^ (x - 1)) by (destruct s; cbn [sgn]; lia). rewrite normalize_pow by lia.
      change (SFabs (cf s (2 ^ (pr - 1)) x)) with (cf false (2 ^ (pr - 1)) x). rewrite SFltb_irrefl. reflexivity.
    + assert (P : 2 ^ 31 <= 2 ^ (x - 1)) by (apply Z.pow_le_mono_r; lia). destruct s; cbn [sgn].
      * destruct (Z.eqb_spec (2 ^ (x - 1)) (2 ^ 31)) as [E|E].
        -- rewrite E. reflexivity.
        -- replace (- 2 ^ 31 <=? - 2 ^ (x - 1)) with false by (symmetry; apply Z.leb_gt; lia). reflexivity.
      * replace (2 ^ (x - 1) <=? 2 ^ 31 - 1) with false by (symmetry; apply Z.leb_gt; lia). rewrite andb_false_r. reflexivity.
Qed.
Lemma fraction_cf : forall s M x, wf M x -> emn < x <= em -> fractionShrinks ty (Node (cf s M x) []) = [Node (cf s (2 ^ (pr - 1)) x) []].
Proof.
  intros s M x W Hx. unfold fractionShrinks. cbn [root]. rewrite cf_frexp by auto. cbn [snd]. rewrite !half_eq, !cf_ldexp by (apply wf_half; auto). destruct s; reflexivity.
Qed.
End Type_.
