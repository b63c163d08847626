(** Rounding of the floating point operations of SpecFloat: the result is the integer nearest to the exact value in units of
    the last place, ties to even.  Used for percentages and weights. *)
From Coq Require Import List ZArith Bool Lia Lqa QArith Qabs Qpower SpecFloat.
From Verif Require Import Base BoolProof FloatModel FloatSpec FloatProof FloatPrintSpec FloatPrintProof.
Import ListNotations.
Local Open Scope Z_scope.

Lemma B_nz : forall e, ~ (B e == 0)%Q.
Proof. intros e E. pose proof (B_pos e) as P. rewrite E in P. discriminate. Qed.
Lemma B_0 : (B 0 == 1)%Q. Proof. reflexivity. Qed.
Lemma B_le : forall a b, a <= b -> (B a <= B b)%Q.
Proof.
  intros a b L. replace b with (a + (b - a)) by lia. rewrite B_plus, (B_int (b - a)) by lia. pose proof (B_pos a) as P.
  setoid_replace (B a) with (B a * 1)%Q at 1 by ring. apply Qmult_le_l; auto. change 1%Q with (inject_Z 1). rewrite <- Zle_Qle.
  assert (0 < 2 ^ (b - a)) by (apply Z.pow_pos_nonneg; lia). lia.
Qed.
Lemma B_lt : forall a b, (B a < B b)%Q -> a < b.
Proof. intros a b L. destruct (Z_lt_ge_dec a b); auto. exfalso. assert (B b <= B a)%Q by (apply B_le; lia). lra. Qed.
Lemma B_inv : forall e, (B (- e) * B e == 1)%Q.
Proof. intros e. rewrite <- B_plus. replace (- e + e) with 0 by lia. reflexivity. Qed.
Lemma B_unscale : forall x y e, (x * B (- e) == y -> x == y * B e)%Q.
Proof. intros x y e E. rewrite <- E, <- Qmult_assoc, B_inv. ring. Qed.

(** [x] in units of 2^e is the number a record with two more bits stands for. *)
Definition rep (x : Q) (r : shr_record) (e : Z) : Prop :=
  0 <= shr_m r /\ let y := (x * B (- e))%Q in let m := inject_Z (shr_m r) in
  match shr_r r, shr_s r with
  | false, false => (y == m)%Q
  | false, true => (m < y /\ y < m + (1 # 2))%Q
  | true, false => (y == m + (1 # 2))%Q
  | true, true => (m + (1 # 2) < y /\ y < m + 1)%Q
  end.
Lemma rep_1 : forall x r e, rep x r e -> rep x (shr_1 r) (e + 1).
Proof.
  intros x [m r s] e [H0 H]. cbn [shr_m shr_r shr_s] in *. cbv zeta in H.
  assert (E : (x * B (- (e + 1)) == x * B (- e) * (1 # 2))%Q).
  { replace (- (e + 1)) with (- e + -1) by lia. rewrite B_plus. change (B (-1)) with (1 # 2)%Q. ring. }
  unfold rep. unfold shr_1. cbn [shr_m shr_r shr_s]. destruct m as [|p|p]; [|destruct p as [p|p|]|lia]; cbn [shr_m shr_r shr_s]; split; try lia; cbv zeta;
    try (change (inject_Z 0) with 0%Q in * ); try (change (inject_Z 1) with 1%Q in * ).
  - destruct r, s; cbn [orb]; rewrite E; lra.
  - assert (P : (inject_Z (Zpos p~1) == 2 * inject_Z (Zpos p) + 1)%Q) by (rewrite Pos2Z.inj_xI, inject_Z_plus, inject_Z_mult; reflexivity).
    destruct r, s; cbn [orb]; rewrite E; lra.
  - assert (P : (inject_Z (Zpos p~0) == 2 * inject_Z (Zpos p))%Q) by (rewrite Pos2Z.inj_xO, inject_Z_mult; reflexivity).
    destruct r, s; cbn [orb]; rewrite E; lra.
  - destruct r, s; cbn [orb]; rewrite E; lra.
Qed.
Lemma rep_iter : forall x p r e, rep x r e -> rep x (iter_pos shr_1 p r) (e + Zpos p).
Proof.
  intros x p. induction p as [p IH|p IH|]; intros r e H; cbn [iter_pos].
  - rewrite Pos2Z.inj_xI. replace (e + (2 * Zpos p + 1)) with (e + 1 + Zpos p + Zpos p) by lia. apply IH, IH, rep_1, H.
  - rewrite Pos2Z.inj_xO. replace (e + 2 * Zpos p) with (e + Zpos p + Zpos p) by lia. apply IH, IH, H.
  - apply rep_1, H.
Qed.
Lemma rep_shr : forall x r e n, rep x r e -> 0 <= n -> rep x (fst (shr r e n)) (e + n) /\ snd (shr r e n) = e + n.
Proof.
  intros x r e n H Hn. destruct n as [|p|p]; [cbn [shr fst snd]; rewrite Z.add_0_r; auto|cbn [shr fst snd]; split; auto; apply rep_iter; auto|lia].
Qed.
Lemma rep_rounds : forall x r e, rep x r e -> rounds (x * B (- e)) (round_nearest_even (shr_m r) (loc_of_shr_record r)).
Proof.
  intros x [m r s] e [H0 H]. cbn [shr_m shr_r shr_s] in *. cbv zeta in H. set (y := (x * B (- e))%Q) in *. unfold rounds.
  assert (P1 : (inject_Z (m + 1) == inject_Z m + 1)%Q) by (rewrite inject_Z_plus; reflexivity).
  destruct r, s; cbn [loc_of_shr_record round_nearest_even].
  - rewrite P1. split; [apply Qabs_Qle_condition; lra|]. rewrite Qabs_neg by lra. intros; lra.
  - destruct (Z.even m) eqn:Ev; [rewrite Qabs_pos by lra; split; [lra|auto]|]. rewrite P1, Qabs_neg by lra. split; [lra|]. intros _.
    rewrite Z.even_add, Ev. reflexivity.
  - rewrite Qabs_pos by lra. split; [lra|intros; lra].
  - rewrite Qabs_pos by lra. split; [lra|intros; lra].
Qed.
Lemma rep_floor : forall x r e, rep x r e -> (inject_Z (shr_m r) * B e <= x /\ x < inject_Z (shr_m r + 1) * B e)%Q.
Proof.
  intros x [m r s] e [H0 H]. cbn [shr_m shr_r shr_s] in *. cbv zeta in H. rewrite inject_Z_plus. change (inject_Z 1) with 1%Q.
  assert (E : (x == x * B (- e) * B e)%Q) by (rewrite <- Qmult_assoc, B_inv; ring). pose proof (B_pos e) as P. rewrite E. set (y := (x * B (- e))%Q) in *.
  split; [apply Qmult_le_compat_r; [|lra]|apply Qmult_lt_r; auto]; destruct r, s; lra.
Qed.

(** 2^(k-1) <= x < 2^k *)
Definition mag (x : Q) (k : Z) : Prop := (B (k - 1) <= x /\ x < B k)%Q.
Lemma mag_fun : forall x y j k, (x == y)%Q -> mag x j -> mag y k -> j = k.
Proof.
  intros x y j k E [H1 H2] [H3 H4]. assert (B (j - 1) < B k)%Q by lra. assert (B (k - 1) < B j)%Q by lra. apply B_lt in H. apply B_lt in H0. lia.
Qed.
Lemma mag_mono : forall x y j k, (x <= y)%Q -> mag x j -> mag y k -> j <= k.
Proof. intros x y j k L [H1 H2] [H3 H4]. assert (B (j - 1) < B k)%Q by lra. apply B_lt in H. lia. Qed.
Lemma mag_between : forall x m e, 0 < m -> (inject_Z m * B e <= x)%Q -> (x < inject_Z (m + 1) * B e)%Q -> mag x (Zdigits2 m + e).
Proof.
  intros x m e Hm L1 L2. destruct m as [|p|p]; try lia. cbn [Zdigits2]. destruct (digits2_bound p) as [D1 D2]. set (d := Zpos (digits2_pos p)) in *.
  assert (0 < d) by (unfold d; lia). pose proof (B_pos e) as P. split.
  - replace (d + e - 1) with (d - 1 + e) by lia. rewrite B_plus, B_int by lia. eapply Qle_trans; [|exact L1]. apply Qmult_le_compat_r; [|lra]. rewrite <- Zle_Qle. lia.
  - rewrite B_plus, B_int by lia. eapply Qlt_le_trans; [exact L2|]. apply Qmult_le_compat_r; [|lra]. rewrite <- Zle_Qle. lia.
Qed.

Section R.
Variable ty : ftype.
Hypothesis Hprec : 2 <= prec ty.
Hypothesis Hemax : prec ty < emax ty.
Notation pr := (prec ty).
Notation em := (emax ty).
Notation fe := (fexp pr em).

(** q * 2^e as a floating point number. *)
Definition pack (s : bool) (q e : Z) : spec_float :=
  if q =? 0 then S754_zero s
  else let '(q', e') := if q =? 2 ^ pr then (2 ^ (pr - 1), e + 1) else (q, e) in
       if e' <=? em - pr then S754_finite s (Z.to_pos q') e' else S754_infinity s.
(** The rounding of x > 0. *)
Definition rnd (s : bool) (x : Q) (v : spec_float) : Prop :=
  exists k q, mag x k /\ rounds (x * B (- fe k)) q /\ 0 <= q <= 2 ^ pr /\ v = pack s q (fe k).

Lemma scaled : forall x k, mag x k -> (0 < x * B (- fe k) /\ x * B (- fe k) < inject_Z (2 ^ pr))%Q.
Proof.
  intros x k [H1 H2]. pose proof (B_pos (- fe k)) as P. pose proof (B_pos (k - 1)) as P2. split.
  - setoid_replace 0%Q with (0 * B (- fe k))%Q by ring. apply Qmult_lt_r; auto. lra.
  - rewrite <- B_int by lia. apply Qlt_le_trans with (B k * B (- fe k))%Q; [apply Qmult_lt_r; auto|]. rewrite <- B_plus. apply B_le. unfold fexp. lia.
Qed.
Lemma pack_fix : forall s q e, 0 < q <= 2 ^ pr -> e = fe (pr + e) -> 
  (let '(r, e2) := shr_fexp pr em q e loc_Exact in
   match shr_m r with Zpos m => if e2 <=? em - pr then S754_finite s m e2 else S754_infinity s | Z0 => S754_zero s | _ => S754_nan end) = pack s q e.
Proof.
  intros s q e Hq He. unfold shr_fexp, pack. cbn [shr_record_of_loc]. destruct q as [|p|p]; try lia. cbn [Zdigits2]. destruct (digits2_bound p) as [D1 D2].
  set (d := Zpos (digits2_pos p)) in *. destruct (Z.eqb_spec (Zpos p) 0); [lia|]. destruct (Z.eqb_spec (Zpos p) (2 ^ pr)) as [E|E].
  - assert (Hd : d = pr + 1) by (apply digits2_unique; [lia|]; rewrite E; replace (pr + 1 - 1) with pr by lia; rewrite Z.pow_add_r by lia; change (2 ^ 1) with 2; assert (0 < 2 ^ pr) by (apply Z.pow_pos_nonneg; lia); lia).
    assert (F : fe (d + e) - e = 1) by (rewrite Hd; unfold fexp, emin in *; lia). rewrite F.
    assert (Ep : Zpos p = 2 ^ (pr - 1) * 2 ^ 1) by (rewrite E, <- Z.pow_add_r by lia; f_equal; lia). rewrite Ep.
    assert (P : 0 < 2 ^ (pr - 1)) by (apply Z.pow_pos_nonneg; lia). rewrite shr_exact by lia. cbn [shr_m].
    destruct (2 ^ (pr - 1)) as [|p'|p'] eqn:E2; try lia. reflexivity.
  - assert (Hd : d <= pr). { destruct (Z_le_gt_dec d pr); auto. exfalso. assert (2 ^ pr <= 2 ^ (d - 1)) by (apply Z.pow_le_mono_r; lia). lia. }
    rewrite shr_nonpos by (unfold fexp, emin in *; lia). cbn [shr_m]. reflexivity.
Qed.
Lemma fe_idem : forall k, fe k = fe (pr + fe k).
Proof. intros k. unfold fexp, emin. lia. Qed.

Lemma aux_rnd : forall s x m l e, rep x (shr_record_of_loc m l) e -> shr_m (shr_record_of_loc m l) = m -> 0 < m -> e <= fe (Zdigits2 m + e) -> rnd s x (binary_round_aux pr em s m e l).
Proof.
  intros s x m l e R Hm0 Hm He. pose proof (rep_floor _ _ _ R) as [F1 F2]. rewrite Hm0 in F1, F2.
  pose proof (mag_between x m e Hm F1 F2) as M. set (k := Zdigits2 m + e) in *. unfold binary_round_aux. unfold shr_fexp at 1. fold k.
  destruct (rep_shr _ _ _ (fe k - e) R ltac:(lia)) as [R1 R2]. replace (e + (fe k - e)) with (fe k) in R1, R2 by lia.
  destruct (shr (shr_record_of_loc m l) e (fe k - e)) as [r e1]. cbn [fst snd] in R1, R2. subst e1.
  pose proof (rep_rounds _ _ _ R1) as Rq. set (q := round_nearest_even (shr_m r) (loc_of_shr_record r)) in *.
  destruct (scaled x k M) as [S1 S2]. assert (Bq : 0 <= q <= 2 ^ pr) by (apply (rounds_range _ _ _ _ Rq); [change (inject_Z 0) with 0%Q; lra|lra]).
  exists k, q. split; [exact M|]. split; [exact Rq|]. split; [exact Bq|].
  destruct (Z.eq_dec q 0) as [E0|E0].
  - rewrite E0. unfold shr_fexp, pack. cbn [Zdigits2 shr_record_of_loc]. change (0 =? 0) with true. cbv iota.
    rewrite shr_nonpos by (unfold fexp, emin; lia). reflexivity.
  - rewrite <- (pack_fix s q (fe k)) by (lia || apply fe_idem). destruct (shr_fexp pr em q (fe k) loc_Exact) as [r2 e2]. reflexivity.
Qed.

Lemma rep_exact : forall m e, 0 <= m -> rep (inject_Z m * B e) (shr_record_of_loc m loc_Exact) e.
Proof. intros m e Hm. split; [exact Hm|]. cbn. rewrite <- Qmult_assoc, <- B_plus. replace (e + - e) with 0 by lia. rewrite B_0. ring. Qed.
Lemma shl_ok : forall p e e', let '(m, e2) := shl_align p e e' in (inject_Z (Zpos m) * B e2 == inject_Z (Zpos p) * B e)%Q /\ e2 <= e /\ (e2 = e \/ e2 = e') /\ e2 <= Z.max e' e2 /\ (e' <= e -> e2 = e') /\ (e <= e' -> e2 = e).
Proof.
  intros p e e'. unfold shl_align. destruct (e' - e) as [|d|d] eqn:Ed; try (split; [reflexivity|lia]).
  split; [|lia]. replace e with (e' + Zpos d) by lia. rewrite B_plus, (B_int (Zpos d)) by lia.
  assert (E : Zpos (shift_pos d p) = 2 ^ Zpos d * Zpos p) by apply shift_pos_correct.
  rewrite E, inject_Z_mult. ring.
Qed.
Lemma round_rnd : forall s p e, rnd s (inject_Z (Zpos p) * B e) (binary_round pr em s p e).
Proof.
  intros s p e. unfold binary_round. pose proof (shl_ok p e (fe (Zpos (digits2_pos p) + e))) as H.
  destruct (shl_align p e _) as [m e2]. destruct H as [H1 [H2 [H3 [_ [H4 H5]]]]].
  assert (K : Zdigits2 (Zpos m) + e2 = Zpos (digits2_pos p) + e).
  { apply (mag_fun _ _ _ _ H1); [|apply (mag_between _ (Zpos p)); try lia; [lra|apply Qmult_lt_r; [apply B_pos|rewrite <- Zlt_Qlt; lia]]].
    apply mag_between; try lia; [lra|apply Qmult_lt_r; [apply B_pos|rewrite <- Zlt_Qlt; lia]]. }
  assert (R : rnd s (inject_Z (Zpos m) * B e2) (binary_round_aux pr em s (Zpos m) e2 loc_Exact)).
  { apply aux_rnd; [apply rep_exact; lia|reflexivity|lia|]. rewrite K. destruct (Z_le_gt_dec e (fe (Zpos (digits2_pos p) + e))); [rewrite H5; lia|rewrite H4; lia]. }
  destruct R as (k & q & R1 & R2 & R3 & R4). exists k, q. split; [destruct R1; split; rewrite <- H1; auto|]. split; [|auto].
  eapply rounds_comp; [|exact R2]. rewrite H1. reflexivity.
Qed.
Lemma normalize_rnd : forall p e z, rnd false (inject_Z (Zpos p) * B e) (binary_normalize pr em (Zpos p) e z).
Proof. intros. apply round_rnd. Qed.
Lemma mul_rnd : forall s1 m1 e1 s2 m2 e2, valid ty (S754_finite s1 m1 e1) -> valid ty (S754_finite s2 m2 e2) ->
  rnd (xorb s1 s2) (inject_Z (Zpos m1) * B e1 * (inject_Z (Zpos m2) * B e2)) (SFmul pr em (S754_finite s1 m1 e1) (S754_finite s2 m2 e2)).
Proof.
  intros s1 m1 e1 s2 m2 e2 V1 V2. apply valid_iff in V1. apply valid_iff in V2. cbn [SFmul].
  assert (E : (inject_Z (Zpos m1) * B e1 * (inject_Z (Zpos m2) * B e2) == inject_Z (Zpos (m1 * m2)) * B (e1 + e2))%Q).
  { rewrite Pos2Z.inj_mul, inject_Z_mult, B_plus. ring. }
  assert (D : Zpos (digits2_pos m1) + Zpos (digits2_pos m2) - 1 <= Zdigits2 (Zpos (m1 * m2))).
  { cbn [Zdigits2]. destruct (digits2_bound m1) as [A1 A2]. destruct (digits2_bound m2) as [B1 B2]. destruct (digits2_bound (m1 * m2)) as [C1 C2].
    assert (L : 2 ^ (Zpos (digits2_pos m1) - 1 + (Zpos (digits2_pos m2) - 1)) < 2 ^ Zpos (digits2_pos (m1 * m2))).
    { rewrite Z.pow_add_r by lia. rewrite Pos2Z.inj_mul in C2. assert (0 < 2 ^ (Zpos (digits2_pos m1) - 1)) by (apply Z.pow_pos_nonneg; lia).
      assert (0 < 2 ^ (Zpos (digits2_pos m2) - 1)) by (apply Z.pow_pos_nonneg; lia). nia. }
    apply Z.pow_lt_mono_r_iff in L; lia. }
  destruct (aux_rnd (xorb s1 s2) _ (Zpos (m1 * m2)) loc_Exact (e1 + e2) (rep_exact _ _ (Pos2Z.is_nonneg _)) eq_refl ltac:(lia) ltac:(unfold fexp, emin in *; lia)) as (k & q & R1 & R2 & R3 & R4).
  exists k, q. split; [destruct R1; split; rewrite E; auto|]. split; [|auto]. eapply rounds_comp; [|exact R2]. rewrite E. reflexivity.
Qed.

(* the remainder of a division as a location *)
Lemma rep_div : forall a b e, 0 <= a -> 0 < b -> rep (inject_Z a / inject_Z b * B e) (shr_record_of_loc (a / b) (new_location b (a mod b))) e /\
  shr_m (shr_record_of_loc (a / b) (new_location b (a mod b))) = a / b.
Proof.
  intros a b e Ha Hb. pose proof (inj_pos b Hb) as Pb. assert (E : (inject_Z a / inject_Z b * B e * B (- e) == inject_Z a / inject_Z b)%Q).
  { rewrite <- Qmult_assoc, <- B_plus. replace (e + - e) with 0 by lia. rewrite B_0. ring. }
  pose proof (Z.div_mod a b ltac:(lia)) as Ed. pose proof (Z.mod_pos_bound a b Hb) as Em. pose proof (Z.div_pos a b Ha Hb) as Hq.
  set (q := a / b) in *. set (r := a mod b) in *.
  assert (Y : (inject_Z a / inject_Z b == inject_Z q + inject_Z r / inject_Z b)%Q).
  { rewrite Ed, inject_Z_plus, inject_Z_mult. field. lra. }
  assert (Cmp : forall c, c = (2 * r ?= b) -> match c with Lt => inject_Z r / inject_Z b < 1 # 2 | Eq => inject_Z r / inject_Z b == 1 # 2 | Gt => 1 # 2 < inject_Z r / inject_Z b end%Q).
  { intros c ->. assert (E2 : (inject_Z r / inject_Z b * inject_Z b == inject_Z r)%Q) by (field; lra). assert (E3 : (inject_Z (2 * r) == 2 * inject_Z r)%Q) by (rewrite inject_Z_mult; reflexivity).
    destruct (Z.compare_spec (2 * r) b) as [C|C|C].
    - apply (Qmult_inj_r _ _ (inject_Z b)); [lra|]. rewrite E2. rewrite C in E3. lra.
    - apply (Qmult_lt_r _ _ (inject_Z b)); auto. rewrite E2. rewrite Zlt_Qlt, E3 in C. lra.
    - apply (Qmult_lt_r _ _ (inject_Z b)); auto. rewrite E2. rewrite Zlt_Qlt, E3 in C. lra. }
  assert (R1 : r <> 0 -> (0 < inject_Z r / inject_Z b)%Q).
  { intros N. apply (Qmult_lt_r _ _ (inject_Z b)); auto. setoid_replace (inject_Z r / inject_Z b * inject_Z b)%Q with (inject_Z r) by (field; lra).
    rewrite Qmult_0_l. change 0%Q with (inject_Z 0). rewrite <- Zlt_Qlt. lia. }
  assert (R2 : (inject_Z r / inject_Z b < 1)%Q).
  { apply (Qmult_lt_r _ _ (inject_Z b)); auto. setoid_replace (inject_Z r / inject_Z b * inject_Z b)%Q with (inject_Z r) by (field; lra).
    rewrite Qmult_1_l. rewrite <- Zlt_Qlt. lia. }
  assert (L : new_location b r = if r =? 0 then loc_Exact else loc_Inexact (2 * r ?= b)).
  { assert (Ez : Zeq_bool r 0 = (r =? 0)) by (destruct (Z.eqb_spec r 0) as [->|N]; [reflexivity|]; unfold Zeq_bool; destruct (Z.compare_spec r 0); auto; congruence).
    unfold new_location. destruct (Z.even b) eqn:Ev; [unfold new_location_even|unfold new_location_odd]; rewrite Ez; destruct (r =? 0); auto. f_equal.
    assert (b <> 2 * r) by (intros Hb2; apply (f_equal Z.even) in Hb2; rewrite Ev, Z.even_mul in Hb2; cbn [Z.even orb] in Hb2; congruence).
    destruct (Z.compare_spec (2 * r + 1) b); destruct (Z.compare_spec (2 * r) b); auto; lia. }
  rewrite L. destruct (Z.eqb_spec r 0) as [E0|E0].
  - split; [split; [exact Hq|]|reflexivity]. cbn. rewrite E, Y, E0. change (inject_Z 0) with 0%Q. field. lra.
  - specialize (Cmp _ eq_refl). specialize (R1 E0). destruct (2 * r ?= b); (split; [split; [exact Hq|]|reflexivity]); cbn; rewrite E, Y; lra.
Qed.
Lemma div_rnd : forall s1 m1 e1 s2 m2 e2, emin pr em + pr < Zpos (digits2_pos m1) + e1 - (Zpos (digits2_pos m2) + e2) ->
  rnd (xorb s1 s2) (inject_Z (Zpos m1) * B e1 / (inject_Z (Zpos m2) * B e2)) (SFdiv pr em (S754_finite s1 m1 e1) (S754_finite s2 m2 e2)).
Proof.
  intros s1 m1 e1 s2 m2 e2 Hn. cbn [SFdiv]. unfold SFdiv_core_binary. cbn [Zdigits2]. set (D := Zpos (digits2_pos m1) + e1 - (Zpos (digits2_pos m2) + e2)) in *.
  set (e' := Z.min (fe D) (e1 - e2)). set (s := e1 - e2 - e').
  assert (Em : match s with Z0 => Zpos m1 | Zpos _ => Z.shiftl (Zpos m1) s | Zneg _ => 0 end = Zpos m1 * 2 ^ s).
  { destruct s as [|p|p] eqn:Es; [lia|apply Z.shiftl_mul_pow2; lia|unfold s, e' in Es; lia]. }
  rewrite Em. clear Em. assert (Hs : 0 <= s) by (unfold s, e'; lia).
  assert (Ps : 0 < 2 ^ s) by (apply Z.pow_pos_nonneg; lia).
  assert (Ed : Z.div_eucl (Zpos m1 * 2 ^ s) (Zpos m2) = ((Zpos m1 * 2 ^ s) / Zpos m2, (Zpos m1 * 2 ^ s) mod Zpos m2)).
  { unfold Z.div, Z.modulo. destruct (Z.div_eucl _ _); reflexivity. }
  rewrite Ed. set (a := Zpos m1 * 2 ^ s). destruct (rep_div a (Zpos m2) e' ltac:(unfold a; lia) ltac:(lia)) as [R1 R2].
  assert (Ex : (inject_Z (Zpos m1) * B e1 / (inject_Z (Zpos m2) * B e2) == inject_Z a / inject_Z (Zpos m2) * B e')%Q).
  { unfold a. rewrite inject_Z_mult, <- B_int by lia. setoid_replace (B e1) with (B s * B e' * B e2)%Q by (rewrite <- !B_plus; replace (s + e' + e2) with e1 by (unfold s; lia); reflexivity).
    field. repeat split; try apply B_nz; intros E0; discriminate. }
  assert (Hd : fe D = D - pr) by (unfold fexp, emin in *; lia).
  destruct (digits2_bound m1) as [A1 A2]. destruct (digits2_bound m2) as [B1 B2]. set (d1 := Zpos (digits2_pos m1)) in *. set (d2 := Zpos (digits2_pos m2)) in *.
  assert (Hq : 2 ^ (pr - 1) <= a / Zpos m2).
  { apply Z.div_le_lower_bound; [lia|]. apply Z.le_trans with (2 ^ d2 * 2 ^ (pr - 1)); [apply Z.mul_le_mono_nonneg_r; [apply Z.pow_nonneg; lia|lia]|].
    rewrite <- Z.pow_add_r by (unfold d2; lia). apply Z.le_trans with (2 ^ (d1 - 1) * 2 ^ s); [|unfold a; apply Z.mul_le_mono_nonneg_r; lia].
    rewrite <- Z.pow_add_r by (unfold d1; lia). apply Z.pow_le_mono_r; [lia|]. unfold s, e', D in *. lia. }
  assert (P0 : 0 < 2 ^ (pr - 1)) by (apply Z.pow_pos_nonneg; lia).
  assert (He : e' <= fe (Zdigits2 (a / Zpos m2) + e')).
  { destruct (a / Zpos m2) as [|p|p] eqn:Eq; try lia. cbn [Zdigits2]. destruct (digits2_bound p) as [C1 C2].
    assert (2 ^ (pr - 1) < 2 ^ Zpos (digits2_pos p)) by lia. apply Z.pow_lt_mono_r_iff in H; [|lia|lia]. unfold fexp. lia. }
  destruct (aux_rnd (xorb s1 s2) _ _ _ _ R1 R2 ltac:(lia) He) as (k & q & Q1 & Q2 & Q3 & Q4).
  exists k, q. split; [destruct Q1; split; rewrite Ex; auto|]. split; [|auto]. eapply rounds_comp; [|exact Q2]. rewrite Ex. reflexivity.
Qed.

Lemma rounds_self : forall q, rounds (inject_Z q) q.
Proof. intros q. unfold rounds. setoid_replace (inject_Z q - inject_Z q)%Q with 0%Q by ring. split; [discriminate|]. intros E. discriminate. Qed.
Lemma rounds_mono : forall y y' q q', (y <= y')%Q -> rounds y q -> rounds y' q' -> q <= q'.
Proof.
  intros y y' q q' L [A1 A2] [B1 B2]. destruct (Z_le_gt_dec q q'); auto. exfalso. assert (G : (inject_Z (q' + 1) <= inject_Z q)%Q) by (rewrite <- Zle_Qle; lia).
  rewrite inject_Z_plus in G. change (inject_Z 1) with 1%Q in G. apply Qabs_Qle_condition in A1 as A1'. apply Qabs_Qle_condition in B1 as B1'.
  assert (E1 : (y - inject_Z q == - (1 # 2))%Q) by lra. assert (E2 : (y' - inject_Z q' == 1 # 2)%Q) by lra.
  rewrite E1 in A2. rewrite E2 in B2. specialize (A2 (Qeq_refl _)). specialize (B2 (Qeq_refl _)).
  assert (E3 : (inject_Z q == inject_Z (q' + 1))%Q) by (rewrite inject_Z_plus; change (inject_Z 1) with 1%Q; lra). apply (proj1 (inject_Z_injective _ _)) in E3.
  rewrite E3, Z.even_add, B2 in A2. discriminate.
Qed.
(** A normal result: the relative error is at most half a unit in the last place. *)
Lemma rnd_normal : forall s x v k, rnd s x v -> mag x k -> emin pr em + pr <= k -> k <= em - 1 ->
  exists m e, v = S754_finite s m e /\ valid ty v /\ 2 ^ (pr - 1) <= Zpos m /\ (Qabs (inject_Z (Zpos m) * B e - x) <= x * B (- pr))%Q /\
    (B (k - 1) <= inject_Z (Zpos m) * B e <= B k)%Q /\ exists q, rounds (x * B (- (k - pr))) q /\ (inject_Z (Zpos m) * B e == inject_Z q * B (k - pr))%Q.
Proof.
  intros s x v k (k' & q & M & R & Bq & Ev) Mk K1 K2. assert (k' = k) by (eapply mag_fun; [reflexivity|exact M|exact Mk]). subst k'.
  assert (F : fe k = k - pr) by (unfold fexp; lia). rewrite F in *.
  assert (P0 : 0 < 2 ^ (pr - 1)) by (apply Z.pow_pos_nonneg; lia). assert (P1 : 2 ^ pr = 2 * 2 ^ (pr - 1)) by (rewrite <- Z.pow_succ_r by lia; f_equal; lia).
  destruct Mk as [M1 M2]. pose proof (B_pos (- (k - pr))) as Pb.
  assert (Lq : 2 ^ (pr - 1) <= q).
  { apply (rounds_range _ _ (2 ^ (pr - 1)) (2 ^ pr) R).
    - rewrite <- B_int by lia. setoid_replace (B (pr - 1)) with (B (k - 1) * B (- (k - pr)))%Q by (rewrite <- B_plus; replace (k - 1 + - (k - pr)) with (pr - 1) by lia; reflexivity).
      apply Qmult_le_compat_r; lra.
    - rewrite <- B_int by lia. setoid_replace (B pr) with (B k * B (- (k - pr)))%Q by (rewrite <- B_plus; replace (k + - (k - pr)) with pr by lia; reflexivity).
      apply Qmult_le_compat_r; lra. }
  assert (V : exists m e, v = S754_finite s m e /\ 2 ^ (pr - 1) <= Zpos m < 2 ^ pr /\ k - pr <= e <= k - pr + 1 /\ (inject_Z (Zpos m) * B e == inject_Z q * B (k - pr))%Q).
  { rewrite Ev. unfold pack. destruct (Z.eqb_spec q 0); [lia|]. destruct (Z.eqb_spec q (2 ^ pr)) as [E|E].
    - rewrite Zle_imp_le_bool by lia. exists (Z.to_pos (2 ^ (pr - 1))), (k - pr + 1). split; auto. rewrite Z2Pos.id by lia. split; [lia|]. split; [lia|].
      rewrite E, P1, B_plus, inject_Z_mult. change (B 1) with 2%Q. change (inject_Z 2) with 2%Q. ring.
    - rewrite Zle_imp_le_bool by lia. exists (Z.to_pos q), (k - pr). split; auto. rewrite Z2Pos.id by lia. split; [lia|]. split; [lia|reflexivity]. }
  destruct V as (m & e & V1 & V2 & V3 & V4). exists m, e. split; [exact V1|]. split.
  { rewrite V1. apply valid_iff. rewrite (digits2_unique m pr) by lia. unfold fexp. lia. }
  split; [lia|]. rewrite V4. split; [|split; [|exists q; split; [exact R|first [exact V4|reflexivity]]]].
  - destruct R as [R _]. assert (Ex : (x == x * B (- (k - pr)) * B (k - pr))%Q) by (rewrite <- Qmult_assoc, B_inv; ring).
    pose proof (B_pos (k - pr)) as Pk. set (y := (x * B (- (k - pr)))%Q) in *.
    assert (E : (Qabs (inject_Z q * B (k - pr) - x) == Qabs (y - inject_Z q) * B (k - pr))%Q).
    { rewrite <- (Qabs_pos (B (k - pr))) at 2 by lra. rewrite <- Qabs_Qmult. rewrite <- Qabs_opp. apply Qabs_wd. rewrite Ex at 1. ring. }
    rewrite E. apply Qle_trans with ((1 # 2) * B (k - pr))%Q; [apply Qmult_le_compat_r; lra|].
    apply Qle_trans with (B (k - 1) * B (- pr))%Q; [|apply Qmult_le_compat_r; [lra|pose proof (B_pos (- pr)); lra]].
    change (1 # 2)%Q with (B (-1)). rewrite <- !B_plus. apply B_le. lia.
  - split.
    + replace (k - 1) with (pr - 1 + (k - pr)) by lia. rewrite B_plus, B_int by lia. apply Qmult_le_compat_r; [rewrite <- Zle_Qle; lia|pose proof (B_pos (k - pr)); lra].
    + setoid_replace (B k) with (inject_Z (2 ^ pr) * B (k - pr))%Q by (rewrite <- B_int, <- B_plus by lia; replace (pr + (k - pr)) with k by lia; reflexivity). apply Qmult_le_compat_r; [rewrite <- Zle_Qle; lia|pose proof (B_pos (k - pr)); lra].
Qed.
Lemma rnd_exact : forall s x m e v, valid ty (S754_finite s m e) -> (x == inject_Z (Zpos m) * B e)%Q -> rnd s x v -> v = S754_finite s m e.
Proof.
  intros s x m e v V E (k & q & M & R & Bq & Ev). apply valid_iff in V. destruct V as [V1 V2].
  assert (k = Zpos (digits2_pos m) + e).
  { apply (mag_fun _ _ _ _ E M). apply (mag_between _ (Zpos m)); [lia|lra|]. apply Qmult_lt_r; [apply B_pos|]. rewrite <- Zlt_Qlt. lia. }
  subst k. rewrite V1 in *. assert (q = Zpos m).
  { eapply rounds_unique; [exact R|]. eapply rounds_comp; [|apply rounds_self]. rewrite E, <- Qmult_assoc, <- B_plus. replace (e + - e) with 0 by lia. rewrite B_0. ring. }
  subst q v. unfold pack. destruct (Z.eqb_spec (Zpos m) 0); [lia|]. destruct (digits2_bound m) as [D1 D2].
  assert (Zpos m <> 2 ^ pr).
  { assert (Zpos (digits2_pos m) <= pr) by (unfold fexp in V1; lia). assert (2 ^ Zpos (digits2_pos m) <= 2 ^ pr) by (apply Z.pow_le_mono_r; lia). lia. }
  rewrite (proj2 (Z.eqb_neq _ _)) by auto. rewrite Zle_imp_le_bool by lia. reflexivity.
Qed.
Lemma rnd_mono : forall s x y m e s' m' e' j k, (x <= y)%Q -> rnd s x (S754_finite s m e) -> rnd s' y (S754_finite s' m' e') -> mag x j -> mag y k ->
  emin pr em + pr <= j -> j <= em - 1 -> k <= em - 1 -> (inject_Z (Zpos m) * B e <= inject_Z (Zpos m') * B e')%Q.
Proof.
  intros s x y m e s' m' e' j k L R1 R2 M1 M2 J1 J2 K2. pose proof (mag_mono _ _ _ _ L M1 M2) as Jk.
  destruct (rnd_normal _ _ _ _ R1 M1 J1 J2) as (a & b & E1 & _ & _ & _ & [_ U1] & (q & Q1 & Q2)). inversion E1; subst a b.
  destruct (rnd_normal _ _ _ _ R2 M2 ltac:(lia) K2) as (a & b & E2 & _ & _ & _ & [U2 _] & (q' & Q3 & Q4)). inversion E2; subst a b.
  destruct (Z.eq_dec j k) as [->|N].
  - rewrite Q2, Q4. apply Qmult_le_compat_r; [|pose proof (B_pos (k - pr)); lra]. rewrite <- Zle_Qle. eapply rounds_mono; [|exact Q1|exact Q3].
    apply Qmult_le_compat_r; [exact L|pose proof (B_pos (- (k - pr))); lra].
  - assert (B j <= B (k - 1))%Q by (apply B_le; lia). lra.
Qed.
End R.
