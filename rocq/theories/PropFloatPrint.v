(** C72: printed floating point values. *)
From Coq Require Import String List ZArith Bool Lia Lqa QArith Qabs Qpower SpecFloat.
From Verif Require Import Base PrintModel PrintSpec PrintProof BoolProof FloatModel FloatSpec FloatProof FloatPrintModel FloatPrintSpec FloatPrintProof FloatPrintNearProof.
Import ListNotations.
Local Open Scope Z_scope.

(** The double 0.1, the double nearest to 2/3 * 10^-5 (negative), 1234567.5 and 100000.5 as doubles. *)
Definition p01 : spec_float := S754_finite false 7205759403792794 (-56).
Definition p23 : spec_float := S754_finite true 7870610804782742 (-70).
Definition p12 : spec_float := S754_finite false 5302427037204480 (-32).
Definition pTie : spec_float := S754_finite false 6871982033338368 (-36).
Example p_ok : forallb (fun v => valid_binary (prec binary64) (emax binary64) v) [p01; p23; p12; pTie] = true. Proof. vm_compute. reflexivity. Qed.
Example p_shown : map showFloat [p01; p23; p12; pTie] = [lit "0.1"; lit "-6.66667e-06"; lit "1.23457e+06"; lit "100000"]. Proof. vm_compute. reflexivity. Qed.

(** The text stands for the number with at most six digits that is nearest to the value; if two are, for the one whose sixth
    digit is even.  It differs from the value by no more than half a unit of the sixth digit. *)
Theorem C72_nearest : forall s m e, let v := S754_finite s m e in exists D, standsFor (showFloat v) s D /\ closest (fval v) D /\
  (forall d, six d -> (Qabs (fval v - d) == Qabs (fval v - D))%Q -> ~ (d == D)%Q ->
     exists z k, 10 ^ 5 <= Z.abs z < 10 ^ 6 /\ (D == decimal z k)%Q /\ Z.even z = true) /\
  (Qabs (fval v - D) <= (1 # 200000) * Qabs D)%Q.
Proof.
  intros s m e v. exists (printed s m e). split; [apply printed_stands|]. split; [apply printed_closest|]. split; [|apply printed_err].
  intros d Hd E N. exists (sgn s (fst (sixes m e))), (snd (sixes m e) - 5). pose proof (sixes_range m e). split; [destruct s; cbn [sgn]; lia|]. split; [reflexivity|].
  assert (Z.even (fst (sixes m e)) = true) by (eapply printed_tie; [exact Hd|symmetry; exact E|exact N]). destruct s; cbn [sgn]; rewrite ?Z.even_opp; auto.
Qed.
(** 100000.5 is as far from 100000 as from 100001. *)
Example C72_nearest_ex : (fval pTie == 1000005 # 10)%Q /\ standsFor (showFloat pTie) false 100000 /\ six 100001 /\ (Qabs (fval pTie - 100001) == Qabs (fval pTie - 100000))%Q.
Proof.
  split; [vm_compute; reflexivity|]. split.
  - exists (lit "100000"), (lit "100000"), [], 0. repeat split; vm_compute; reflexivity.
  - split; [exists 100001, 0; split; [lia|reflexivity]|vm_compute; reflexivity].
Qed.

(** Its form: a minus sign for negative values; no zero at the end of the fraction, no point without a fraction; no superfluous
    zero in front; an exponent exactly for numbers below 10^-4 or from 10^6 on, and then with one digit, not 0, in front. *)
Theorem C72_form : forall s m e, exists u ip fp x, showFloat (S754_finite s m e) = (if s then 45 :: u else u) /\ readParts u = Some (ip, fp, x) /\
  (fp = [] \/ exists g c, fp = g ++ [c] /\ c <> 48) /\ (ip = [48] \/ exists c r, ip = c :: r /\ c <> 48) /\
  (let D := decimal (read_digits (ip ++ fp)) (x - Z.of_nat (length fp)) in In 101 u <-> (D < decimal 1 (-4) \/ decimal 1 6 <= D)%Q) /\
  (In 101 u -> length ip = 1%nat /\ ip <> [48]) /\ (~ In 101 u -> x = 0).
Proof.
  intros s m e. destruct (written_ok (fst (sixes m e)) (snd (sixes m e)) (sixes_range m e)) as (ip & f & x & H1 & H2 & H3 & H4 & H5 & H6 & H7).
  pose proof (sixes_range m e) as R. destruct (sixes m e) as [q X] eqn:Eq. cbn [fst snd] in *.
  destruct (dec_range q X R) as [D1 D2].
  exists (written q X), ip, f, x. split; [rewrite show_written, Eq; destruct s; reflexivity|]. split; [exact H1|]. split; [exact H3|]. split; [exact H7|].
  split; [|split].
  - cbv zeta. assert (O : forall k, (decimal 1 k == T k)%Q) by (intros k; unfold decimal; change (inject_Z 1) with 1%Q; apply Qmult_1_l).
    rewrite H4, H2, !O. split.
    + intros HX. destruct (Z_lt_ge_dec X (-4)) as [L|L]; [left|right].
      * apply Qlt_le_trans with (T (X + 1)); [exact D2|]. apply T_le. lia.
      * apply Qle_trans with (T X); [|exact D1]. apply T_le. lia.
    + intros [L|L] HX.
      * assert (T (-4) <= T X)%Q by (apply T_le; lia). lra.
      * assert (T (X + 1) <= T 6)%Q by (apply T_le; lia). lra.
  - intros I. apply H4 in I. destruct (H5 I) as [Ex El]. split; auto. intros ->.
    (* the number would be below 10^X *)
    assert (F : (decimal (read_digits ([48%Z] ++ f)) (x - Z.of_nat (length f)) < T X)%Q); [|lra].
    assert (Fd : Forall digit_char f).
    { clear - H1. unfold readParts in H1. destruct (span (written q X)) as [a b]. destruct a as [|a0 a]; [discriminate|].
      assert (S : forall t a b, span t = (a, b) -> Forall digit_char a).
      { clear. induction t as [|c t IH]; intros a b E; cbn in E; [inversion E; constructor|]. destruct (isDigit c) eqn:Ec.
        - destruct (span t) as [a' b']. inversion E; subst. constructor; eauto. unfold isDigit in Ec. apply andb_true_iff in Ec. destruct Ec as [E1 E2]. apply Z.leb_le in E1. apply Z.leb_le in E2. unfold digit_char. lia.
        - inversion E; constructor. }
      destruct b as [|b0 b]; [inversion H1; constructor|]. destruct (Z.eq_dec b0 46) as [->|N].
      + destruct (span b) as [f' r'] eqn:Es. destruct f' as [|f0 f']; [discriminate|]. destruct (readExp r'); inversion H1; subst. eapply S; eauto.
      + assert (E : option_map (fun x : Z => (a0 :: a, @nil Z, x)) (readExp (b0 :: b)) = Some ([48], f, x)).
        { rewrite <- H1. destruct b0 as [|p|p]; auto. do 6 (destruct p as [p|p|]; try reflexivity; try congruence). }
        destruct (readExp (b0 :: b)); inversion E; constructor. }
    pose proof (read_bound f Fd) as Br. change (read_digits ([48] ++ f)) with (read_digits f). subst x.
    unfold decimal, Z.sub. rewrite T_plus. apply Qlt_le_trans with (inject_Z (10 ^ Z.of_nat (length f)) * (T X * T (- Z.of_nat (length f))))%Q.
    + apply Qmult_lt_r; [rewrite <- T_plus; apply T_pos|]. rewrite <- Zlt_Qlt. lia.
    + rewrite <- T_int by lia. rewrite (Qmult_comm (T X)), Qmult_assoc, <- T_plus. replace (Z.of_nat (length f) + - Z.of_nat (length f)) with 0 by lia. change (T 0) with 1%Q. lra.
  - intros N. apply H6. destruct (Z_le_gt_dec (-4) X); [destruct (Z_lt_ge_dec X 6); [lia|]|]; exfalso; apply N; apply H4; lia.
Qed.
Example C72_form_ex : readParts (lit "6.66667e-06") = Some (lit "6", lit "66667", -6) /\ readParts (lit "0.1") = Some (lit "0", lit "1", 0) /\ readParts (lit "1.23457e+06") = Some (lit "1", lit "23457", 6) /\
  showFloat (S754_finite false 5902958103587057 (-66)) = lit "8e-05" /\ showFloat (S754_finite false 7378697629483821 (-66)) = lit "0.0001" /\
  showFloat (S754_finite false 8589926002065408 (-33)) = lit "999999" /\ showFloat (S754_finite false 8589930297032704 (-33)) = lit "1e+06".
Proof. vm_compute. repeat split. Qed.

(** A value with at most six digits is printed exactly; a whole number below a million as an integer is. *)
Theorem C72_exact : forall s m e, six (fval (S754_finite s m e)) -> standsFor (showFloat (S754_finite s m e)) s (fval (S754_finite s m e)).
Proof.
  intros s m e S. destruct (printed_stands s m e) as (u & ip & fp & x & E1 & E2 & E3). exists u, ip, fp, x. split; [exact E1|]. split; [exact E2|].
  rewrite <- E3. pose proof (proj2 (printed_closest s m e) _ S) as C. set (y := fval (S754_finite s m e)) in *. set (D := printed s m e) in *.
  assert (C' : (Qabs (y - D) <= 0)%Q). { apply Qle_trans with (Qabs (y - y)); [exact C|]. setoid_replace (y - y)%Q with 0%Q by ring. discriminate. }
  apply Qabs_Qle_condition in C'. lra.
Qed.
Theorem C72_integers : forall s m e z, (fval (S754_finite s m e) == inject_Z z)%Q -> Z.abs z < 10 ^ 6 -> showFloat (S754_finite s m e) = dec z.
Proof.
  intros s m e z E Hz. pose proof (fval_sign s m e) as P. rewrite E in P. rewrite <- inject_Z_mult in P. change 0%Q with (inject_Z 0) in P. rewrite <- Zlt_Qlt in P.
  rewrite show_written, (whole m e (sgn s 1 * z)).
  - unfold dec, minus. destruct s; cbn [sgn] in *.
    + rewrite (proj2 (Z.ltb_lt z 0)) by lia. replace (- (1) * z) with (- z) by lia. reflexivity.
    + rewrite (proj2 (Z.ltb_ge z 0)) by lia. rewrite Z.mul_1_l. reflexivity.
  - split; [exact P|]. destruct s; cbn [sgn] in *; lia.
  - rewrite inject_Z_mult, <- E, fval_pos, sgn_sgn. reflexivity.
Qed.
(** -0.5 and the float -999999. *)
Example C72_exact_ex : six (fval (S754_finite true 4503599627370496 (-53))) /\ showFloat (S754_finite true 4503599627370496 (-53)) = lit "-0.5" /\
  (fval (S754_finite true 15999984 (-4)) == inject_Z (-999999))%Q /\ showFloat (S754_finite true 15999984 (-4)) = dec (-999999) /\ dec (-999999) = lit "-999999".
Proof. split; [exists (-5), (-1); split; [lia|vm_compute; reflexivity]|]. repeat split; vm_compute; reflexivity. Qed.

(** The texts keep the order, though not strictly; equal texts mean the same sign and values within 10^-5 of what is printed. *)
Theorem C72_monotone : forall v w sv sw x y, finite v -> finite w -> (fval v <= fval w)%Q -> standsFor (showFloat v) sv x -> standsFor (showFloat w) sw y -> (x <= y)%Q.
Proof.
  intros v w sv sw x y Fv Fw L Hx Hy. pose proof (value_stands v Fv) as Hv. pose proof (value_stands w Fw) as Hw.
  assert (sv = sign v) by (eapply stands_sign; eauto). assert (sw = sign w) by (eapply stands_sign; eauto). subst.
  rewrite (stands_fun _ _ _ _ Hx Hv), (stands_fun _ _ _ _ Hy Hw). apply value_mono; auto.
Qed.
Theorem C72_close : forall s m e s' m' e', showFloat (S754_finite s m e) = showFloat (S754_finite s' m' e') -> s = s' /\
  forall x, standsFor (showFloat (S754_finite s m e)) s x -> (Qabs (fval (S754_finite s m e) - fval (S754_finite s' m' e')) <= (1 # 100000) * Qabs x)%Q.
Proof.
  intros s m e s' m' e' E. pose proof (printed_stands s m e) as H1. pose proof (printed_stands s' m' e') as H2. rewrite <- E in H2.
  assert (s = s') by (eapply stands_sign; eauto). subst s'. split; auto. intros x Hx.
  pose proof (stands_fun _ _ _ _ Hx H1) as E1. pose proof (stands_fun _ _ _ _ Hx H2) as E2.
  pose proof (printed_err s m e) as A1. pose proof (printed_err s m' e') as A2. rewrite <- E1 in A1. rewrite <- E2 in A2.
  set (a := fval (S754_finite s m e)) in *. set (b := fval (S754_finite s m' e')) in *.
  assert (Tr : (Qabs (a - b) <= Qabs (a - x) + Qabs (b - x))%Q).
  { setoid_replace (a - b)%Q with ((a - x) + - (b - x))%Q by ring. eapply Qle_trans; [apply Qabs_triangle|]. rewrite Qabs_opp. lra. }
  lra.
Qed.
(** 0.1 and the next double. *)
Example C72_close_ex : valid binary64 (S754_finite false 7205759403792795 (-56)) /\ showFloat p01 = showFloat (S754_finite false 7205759403792795 (-56)) /\
  finite p23 /\ finite (S754_zero true) /\ (fval p23 <= fval (S754_zero true))%Q /\ standsFor (showFloat (S754_zero true)) true 0.
Proof. split; [reflexivity|]. split; [vm_compute; reflexivity|]. split; [exact I|]. split; [exact I|]. split; [vm_compute; discriminate|]. apply stands_zero. Qed.

(** One might expect different values to print differently.  No normal value does: a neighbour prints the same. *)
Theorem C72_never_unique : forall ty s m e, standard ty -> valid ty (S754_finite s m e) -> 2 ^ (prec ty - 1) <= Zpos m ->
  exists m' e', let w := S754_finite s m' e' in valid ty w /\ ~ (fval w == fval (S754_finite s m e))%Q /\ showFloat w = showFloat (S754_finite s m e).
Proof.
  intros ty s m e Hty Hv Hm. destruct (standard_prec ty Hty) as (H1 & H2 & H3).
  assert (Hd : Zpos (digits2_pos m) = prec ty).
  { pose proof Hv as Hv2. apply valid_iff in Hv2. destruct Hv2 as [V1 V2]. pose proof (digits2_bound m) as [B1 B2].
    assert (prec ty - 1 < Zpos (digits2_pos m)) by (apply (Z.pow_lt_mono_r_iff 2); lia). unfold fexp in V1. lia. }
  destruct (neighbour ty s m e Hty Hv Hd) as (m' & e' & N & V & E). exists m', e'. split; [exact V|]. split.
  - intros Eq. apply N. rewrite <- (sgn_sgn s (inject_Z (Zpos m') * B e')), <- (sgn_sgn s (inject_Z (Zpos m) * B e)), <- !fval_pos, Eq. reflexivity.
  - rewrite !show_written, E. reflexivity.
Qed.
(** The largest double, the smallest normal one, and 1.0f; subnormal values may be told apart. *)
Example C72_never_unique_ex : valid binary64 (S754_finite false 9007199254740991 971) /\ valid binary64 (S754_finite false 4503599627370496 (-1074)) /\
  2 ^ (prec binary64 - 1) = 4503599627370496 /\ showFloat (S754_finite false 9007199254740991 971) = lit "1.79769e+308" /\ showFloat (S754_finite false 9007199254740990 971) = lit "1.79769e+308" /\
  showFloat (S754_finite false 4503599627370496 (-1074)) = lit "2.22507e-308" /\ valid binary64 (S754_finite false 1 (-1074)) /\
  map (fun m => showFloat (S754_finite false m (-1074))) [1; 2; 3]%positive = [lit "4.94066e-324"; lit "9.88131e-324"; lit "1.4822e-323"].
Proof. vm_compute. repeat split. Qed.

(** Zeros keep their sign; infinities and NaNs are named; a NaN has a minus sign in front if its first bit is set.  All other
    values print the same however they came about. *)
Theorem C72_special : (forall s, showFloat (S754_zero s) = minus s ++ lit "0" /\ showFloat (S754_infinity s) = minus s ++ lit "inf") /\
  forall ty raw b, ty = binary32 /\ b = 32 \/ ty = binary64 /\ b = 64 -> 0 <= raw < 2 ^ b ->
    (ofBits ty raw = S754_nan -> showBits ty raw = if raw <? 2 ^ (b - 1) then lit "nan" else lit "-nan") /\ (ofBits ty raw <> S754_nan -> showBits ty raw = showFloat (ofBits ty raw)).
Proof.
  split; [auto|]. intros ty raw b Hty Hr. unfold showBits. split.
  - intros ->. assert (E : Z.testbit raw (prec ty + Z.log2 (emax ty)) = negb (raw <? 2 ^ (b - 1))).
    { replace (prec ty + Z.log2 (emax ty)) with (b - 1) by (destruct Hty as [[-> ->]|[-> ->]]; reflexivity).
      assert (Hb : 0 < b) by (destruct Hty as [[_ ->]|[_ ->]]; lia). assert (P : 0 < 2 ^ (b - 1)) by (apply Z.pow_pos_nonneg; lia).
      assert (E2 : 2 ^ b = 2 * 2 ^ (b - 1)) by (rewrite <- Z.pow_succ_r by lia; f_equal; lia).
      rewrite Z.testbit_odd, Z.shiftr_div_pow2 by lia. destruct (Z.ltb_spec raw (2 ^ (b - 1))).
      - rewrite Z.div_small by lia. reflexivity.
      - replace (raw / 2 ^ (b - 1)) with 1; [reflexivity|]. apply (Z.div_unique_pos raw (2 ^ (b - 1)) 1 (raw - 2 ^ (b - 1))); lia. }
    rewrite E. destruct (raw <? 2 ^ (b - 1)); reflexivity.
  - intros N. destruct (ofBits ty raw); congruence.
Qed.
Example C72_special_ex : ofBits binary64 0x7FF8000000000000 = S754_nan /\ showBits binary64 0xFFF8000000000000 = lit "-nan" /\ showBits binary32 0x7FC00000 = lit "nan" /\
  showBits binary32 0x80000000 = lit "-0" /\ showBits binary64 0xFFF0000000000000 = lit "-inf" /\ showBits binary32 0x3DCCCCCD = lit "0.1".
Proof. vm_compute. repeat split. Qed.

Print Assumptions C72_nearest.
Print Assumptions C72_form.
Print Assumptions C72_exact.
Print Assumptions C72_integers.
Print Assumptions C72_monotone.
Print Assumptions C72_close.
Print Assumptions C72_never_unique.
Print Assumptions C72_special.
