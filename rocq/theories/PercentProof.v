(** Proofs about percentages: the error of the three roundings, order. *)
From Coq Require Import String List ZArith Bool Lia Lqa QArith Qabs Qpower SpecFloat.
From Verif Require Import Base PrintModel PrintSpec PrintProof BoolProof FloatModel FloatSpec FloatProof FloatPrintModel FloatPrintSpec FloatPrintProof FloatPrintNearProof RoundProof.
Import ListNotations.
Local Open Scope Z_scope.

Notation V m e := (inject_Z (Zpos m) * B e)%Q.
Lemma V_pos : forall m e, (0 < V m e)%Q.
Proof. intros m e. pose proof (B_pos e). setoid_replace 0%Q with (0 * B e)%Q by ring. apply Qmult_lt_r; auto. reflexivity. Qed.

(** Interval arithmetic on factors. *)
Definition within (x y a b : Q) : Prop := (a * y <= x /\ x <= b * y)%Q.
Lemma within_mul : forall x1 y1 a1 b1 x2 y2 a2 b2, (0 <= a1 -> 0 <= a2 -> 0 <= y1 -> 0 <= y2 -> within x1 y1 a1 b1 -> within x2 y2 a2 b2 -> within (x1 * x2) (y1 * y2) (a1 * a2) (b1 * b2))%Q.
Proof.
  intros x1 y1 a1 b1 x2 y2 a2 b2 A1 A2 Y1 Y2 [L1 U1] [L2 U2].
  assert (P1 : (0 <= a1 * y1)%Q) by (apply Qmult_le_0_compat; auto). assert (P2 : (0 <= a2 * y2)%Q) by (apply Qmult_le_0_compat; auto).
  split.
  - setoid_replace (a1 * a2 * (y1 * y2))%Q with (a1 * y1 * (a2 * y2))%Q by ring. apply Qmult_le_compat_nonneg; split; lra.
  - setoid_replace (b1 * b2 * (y1 * y2))%Q with (b1 * y1 * (b2 * y2))%Q by ring. apply Qmult_le_compat_nonneg; split; lra.
Qed.
Lemma within_inv : forall x y a b, (0 < a -> 0 < y -> within x y a b -> within (/ x) (/ y) (/ b) (/ a))%Q.
Proof.
  intros x y a b A Y [L U]. assert (P : (0 < a * y)%Q) by (setoid_replace 0%Q with (0 * y)%Q by ring; apply Qmult_lt_r; auto).
  assert (Pb : (0 < b)%Q). { destruct (Qlt_le_dec 0 b) as [|Hb]; auto. exfalso. assert (b * y <= 0 * y)%Q by (apply Qmult_le_compat_r; lra). lra. }
  assert (I : forall u v, (0 < u -> u <= v -> / v <= / u)%Q).
  { intros u v Hu Huv. assert (Hi : (0 < / u * / v)%Q). { setoid_replace 0%Q with (0 * / v)%Q by ring. apply Qmult_lt_r; [apply Qinv_lt_0_compat; lra|apply Qinv_lt_0_compat; auto]. }
    setoid_replace (/ v)%Q with (u * (/ u * / v))%Q by (field; lra). setoid_replace (/ u)%Q with (v * (/ u * / v))%Q at 2 by (field; lra). apply Qmult_le_compat_r; lra. }
  split.
  - rewrite <- Qinv_mult_distr. apply I; lra.
  - rewrite <- Qinv_mult_distr. apply I; lra.
Qed.
Lemma div_back : forall a b, (0 < b -> a / b * b == a)%Q.
Proof. intros a b H. field. lra. Qed.
Lemma div_self : forall b, (0 < b -> b / b == 1)%Q.
Proof. intros b H. field. lra. Qed.
Definition u : Q := 1 # 9007199254740992.
Lemma u_eq : (B (- 53) == u)%Q. Proof. reflexivity. Qed.
Lemma within_err : forall x y, (0 < x -> Qabs (y - x) <= x * B (- 53) -> within y x (1 - u) (1 + u))%Q.
Proof. intros x y Px H. rewrite u_eq in H. apply Qabs_Qle_condition in H. unfold within. split; lra. Qed.

Notation b64 := binary64.
Ltac fmt := unfold emin; change (prec binary64) with 53; change (emax binary64) with 1024; lia.
Lemma toDouble_ok : forall n, 0 < n < 2 ^ 64 -> exists m e k, toDouble n = S754_finite false m e /\ valid b64 (S754_finite false m e) /\ 2 ^ 52 <= Zpos m /\
  rnd b64 false (inject_Z n) (S754_finite false m e) /\ mag (inject_Z n) k /\ 1 <= k <= 64 /\ (B (k - 1) <= V m e <= B k)%Q /\ within (V m e) (inject_Z n) (1 - u) (1 + u).
Proof.
  intros n Hn. destruct n as [|p|p]; try lia. unfold toDouble.
  assert (R : rnd b64 false (inject_Z (Zpos p)) (binary_normalize (prec b64) (emax b64) (Zpos p) 0 false)).
  { destruct (normalize_rnd b64 ltac:(fmt) p 0 false) as (k & q & H1 & H2 & H3 & H4).
    assert (E : (inject_Z (Zpos p) * B 0 == inject_Z (Zpos p))%Q) by (rewrite B_0; ring).
    exists k, q. split; [destruct H1; split; rewrite <- E; auto|]. split; [eapply rounds_comp; [|exact H2]; rewrite E; reflexivity|auto]. }
  assert (M : exists k, mag (inject_Z (Zpos p)) k /\ 1 <= k <= 64).
  { destruct R as (k & q & M & _). exists k. split; auto. destruct M as [M1 M2]. split.
    - assert (B 0 < B k)%Q; [|apply B_lt in H; lia]. rewrite B_0. change 1%Q with (inject_Z 1). eapply Qle_lt_trans; [|exact M2]. rewrite <- Zle_Qle. lia.
    - assert (B (k - 1) < B 64)%Q; [|apply B_lt in H; lia]. eapply Qle_lt_trans; [exact M1|]. rewrite B_int by lia. rewrite <- Zlt_Qlt. lia. }
  destruct M as (k & M & Hk). destruct (rnd_normal b64 ltac:(fmt) _ _ _ _ R M ltac:(fmt) ltac:(fmt)) as (m & e & E & Vd & L & Er & Br & _).
  rewrite E in *. exists m, e, k. split; [reflexivity|]. split; [exact Vd|]. split; [exact L|]. split; [exact R|]. split; [exact M|]. split; [exact Hk|]. split; [exact Br|].
  apply within_err; [apply inj_pos; lia|exact Er].
Qed.

(* the exponent of a value between two powers of two *)
Lemma digits_mag : forall m e a b, (B a <= V m e)%Q -> (V m e < B b)%Q -> a < Zpos (digits2_pos m) + e <= b.
Proof.
  intros m e a b L U. assert (M : mag (V m e) (Zpos (digits2_pos m) + e)).
  { apply (mag_between _ (Zpos m)); [lia|lra|]. apply Qmult_lt_r; [apply B_pos|]. rewrite <- Zlt_Qlt. lia. }
  destruct M as [M1 M2]. assert (B a < B (Zpos (digits2_pos m) + e))%Q by lra. assert (B (Zpos (digits2_pos m) + e - 1) < B b)%Q by lra.
  apply B_lt in H. apply B_lt in H0. lia.
Qed.
Lemma mag_bounds : forall x k a b, mag x k -> (B a <= x)%Q -> (x < B b)%Q -> a < k <= b.
Proof. intros x k a b [M1 M2] L U. assert (B a < B k)%Q by lra. assert (B (k - 1) < B b)%Q by lra. apply B_lt in H. apply B_lt in H0. lia. Qed.

Definition hundred : spec_float := toDouble 100.
Lemma hundred_eq : hundred = S754_finite false 7036874417766400 (-46). Proof. vm_compute. reflexivity. Qed.
Lemma hundred_val : (V 7036874417766400 (-46) == 100)%Q. Proof. vm_compute. reflexivity. Qed.

(* everything about the quotient *)
Lemma div_ok : forall c t mc ec kc mt et kt, toDouble c = S754_finite false mc ec -> toDouble t = S754_finite false mt et ->
  1 <= kc <= 64 -> (B (kc - 1) <= V mc ec <= B kc)%Q -> 1 <= kt <= 64 -> (B (kt - 1) <= V mt et <= B kt)%Q ->
  exists m e k, SFdiv 53 1024 (toDouble c) (toDouble t) = S754_finite false m e /\ valid b64 (S754_finite false m e) /\ rnd b64 false (V mc ec / V mt et) (S754_finite false m e) /\
    mag (V mc ec / V mt et) k /\ -65 < k <= 65 /\ (B (k - 1) <= V m e <= B k)%Q /\ within (V m e) (V mc ec / V mt et) (1 - u) (1 + u).
Proof.
  intros c t mc ec kc mt et kt Ec Et Hkc [C1 C2] Hkt [T1 T2]. rewrite Ec, Et.
  assert (C3 : (B 0 <= V mc ec)%Q) by (eapply Qle_trans; [|exact C1]; apply B_le; lia). assert (C4 : (V mc ec <= B 64)%Q) by (eapply Qle_trans; [exact C2|]; apply B_le; lia).
  assert (T3 : (B 0 <= V mt et)%Q) by (eapply Qle_trans; [|exact T1]; apply B_le; lia). assert (T4 : (V mt et <= B 64)%Q) by (eapply Qle_trans; [exact T2|]; apply B_le; lia).
  assert (L : (B 64 < B 65)%Q) by reflexivity.
  pose proof (digits_mag mc ec 0 65 C3 ltac:(lra)) as Dc. pose proof (digits_mag mt et 0 65 T3 ltac:(lra)) as Dt.
  pose proof (div_rnd b64 ltac:(fmt) false mc ec false mt et ltac:(fmt)) as R. cbn [xorb] in R.
  change (SFdiv (prec b64) (emax b64)) with (SFdiv 53 1024) in R. set (x := (V mc ec / V mt et)%Q) in *. set (v := SFdiv 53 1024 _ _) in *.
  pose proof (V_pos mt et) as Pt. pose proof (V_pos mc ec) as Pc. assert (Ex : (x * V mt et == V mc ec)%Q) by (apply div_back; exact Pt).
  assert (X1 : (B (- 65) <= x)%Q).
  { apply (Qmult_le_r _ _ (V mt et)); auto. rewrite Ex. apply Qle_trans with (B (- 65) * B 64)%Q; [apply Qmult_le_l; [reflexivity|exact T4]|]. rewrite <- B_plus. eapply Qle_trans; [|exact C3]. apply B_le. lia. }
  assert (X2 : (x < B 65)%Q).
  { apply (Qmult_lt_r _ _ (V mt et)); auto. rewrite Ex. apply Qlt_le_trans with (B 65 * B 0)%Q; [rewrite B_0; lra|]. apply Qmult_le_l; [reflexivity|exact T3]. }
  destruct R as (k & q & M & Rest). pose proof (mag_bounds _ _ _ _ M X1 X2) as Hk.
  assert (R : rnd b64 false x v) by (exists k, q; auto).
  destruct (rnd_normal b64 ltac:(fmt) _ _ _ _ R M ltac:(fmt) ltac:(fmt)) as (m & e & E & Vd & _ & Er & Br & _).
  rewrite E in *. exists m, e, k. split; [reflexivity|]. split; [exact Vd|]. split; [exact R|]. split; [exact M|]. split; [lia|]. split; [exact Br|].
  apply within_err; [|exact Er]. pose proof (B_pos (- 65)). lra.
Qed.
Lemma mul_ok : forall md ed k, valid b64 (S754_finite false md ed) -> -65 < k <= 65 -> (B (k - 1) <= V md ed <= B k)%Q ->
  exists m e j, SFmul 53 1024 (S754_finite false md ed) hundred = S754_finite false m e /\ rnd b64 false (V md ed * 100) (S754_finite false m e) /\
    mag (V md ed * 100) j /\ -60 < j <= 72 /\ within (V m e) (V md ed * 100) (1 - u) (1 + u).
Proof.
  intros md ed k Vd Hk [D1 D2]. rewrite hundred_eq.
  assert (D3 : (B (- 65) <= V md ed)%Q) by (eapply Qle_trans; [|exact D1]; apply B_le; lia). assert (D4 : (V md ed <= B 65)%Q) by (eapply Qle_trans; [exact D2|]; apply B_le; lia).
  pose proof (mul_rnd b64 ltac:(fmt) ltac:(fmt) false md ed false 7036874417766400 (-46) Vd ltac:(vm_compute; reflexivity)) as R0. cbn [xorb] in R0.
  change (SFmul (prec b64) (emax b64)) with (SFmul 53 1024) in R0. set (v := SFmul 53 1024 _ _) in *. set (x := (V md ed * 100)%Q).
  assert (Ex : (V md ed * V 7036874417766400 (-46) == x)%Q) by (unfold x; rewrite hundred_val; reflexivity).
  assert (R : rnd b64 false x v).
  { destruct R0 as (j & q & M & Q1 & Q2). exists j, q. split; [destruct M; split; rewrite <- Ex; auto|]. split; [|auto]. eapply rounds_comp; [|exact Q1]. rewrite Ex. reflexivity. }
  assert (X1 : (B (- 60) <= x)%Q) by (unfold x; assert (B (- 60) <= B (- 65) * 100)%Q by discriminate; lra).
  assert (X2 : (x < B 72)%Q) by (unfold x; assert (B 65 * 100 < B 72)%Q by reflexivity; lra).
  destruct R as (j & q & M & Rest). pose proof (mag_bounds _ _ _ _ M X1 X2) as Hj.
  assert (R : rnd b64 false x v) by (exists j, q; auto).
  destruct (rnd_normal b64 ltac:(fmt) _ _ _ _ R M ltac:(fmt) ltac:(fmt)) as (m & e & E & _ & _ & Er & _).
  rewrite E in *. exists m, e, j. split; [reflexivity|]. split; [exact R|]. split; [exact M|]. split; [lia|].
  apply within_err; [|exact Er]. pose proof (B_pos (- 60)). lra.
Qed.

Lemma percentage_ok : forall c t, 0 < c < 2 ^ 64 -> 0 < t < 2 ^ 64 -> exists m e, percentage c t = S754_finite false m e /\
  within (V m e) (inject_Z c / inject_Z t * 100) (1 - (1 # 1125899906842624)) (1 + (1 # 1125899906842624)).
Proof.
  intros c t Hc Ht. destruct (toDouble_ok c Hc) as (mc & ec & kc & Ec & Vc & _ & _ & _ & Kc & Bc & Wc). destruct (toDouble_ok t Ht) as (mt & et & kt & Et & Vt & _ & _ & _ & Kt & Bt & Wt).
  destruct (div_ok c t mc ec kc mt et kt Ec Et Kc Bc Kt Bt) as (md & ed & k & Ed & Vd & _ & _ & Kd & Bd & Wd).
  destruct (mul_ok md ed k Vd Kd Bd) as (m & e & j & Em & _ & _ & _ & Wm).
  exists m, e. split; [unfold percentage; change (prec b64) with 53; change (emax b64) with 1024; rewrite Ed; exact Em|].
  pose proof (inj_pos c ltac:(lia)) as Pc. pose proof (inj_pos t ltac:(lia)) as Pt. pose proof (V_pos mt et) as PVt. pose proof (V_pos mc ec) as PVc.
  assert (Pi : (0 < / inject_Z t)%Q) by (apply Qinv_lt_0_compat; auto).
  assert (U1 : (0 < 1 - u)%Q) by reflexivity. assert (U2 : (0 <= 1 - u)%Q) by discriminate. assert (U3 : (0 <= / (1 + u))%Q) by discriminate.
  pose proof (within_inv _ _ _ _ U1 Pt Wt) as Wi.
  pose proof (within_mul _ _ _ _ _ _ _ _ U2 U3 (Qlt_le_weak _ _ Pc) (Qlt_le_weak _ _ Pi) Wc Wi) as Wq.
  change (V mc ec * / V mt et)%Q with (V mc ec / V mt et)%Q in Wq. change (inject_Z c * / inject_Z t)%Q with (inject_Z c / inject_Z t)%Q in Wq.
  assert (Pct : (0 < inject_Z c / inject_Z t)%Q) by (unfold Qdiv; setoid_replace 0%Q with (0 * / inject_Z t)%Q by ring; apply Qmult_lt_r; auto).
  set (y := (inject_Z c / inject_Z t)%Q) in *. set (x := (V mc ec / V mt et)%Q) in *.
  destruct Wq as [Q1 Q2]. destruct Wd as [D1 D2]. destruct Wm as [M1 M2].
  set (lo := ((1 - u) * / (1 + u))%Q) in *. set (hi := ((1 + u) * / (1 - u))%Q) in *.
  assert (A1 : ((1 - u) * lo * y <= V md ed)%Q). { eapply Qle_trans; [|exact D1]. rewrite <- Qmult_assoc. apply Qmult_le_l; [reflexivity|exact Q1]. }
  assert (A2 : (V md ed <= (1 + u) * hi * y)%Q). { eapply Qle_trans; [exact D2|]. rewrite <- Qmult_assoc. apply Qmult_le_l; [reflexivity|exact Q2]. }
  assert (A3 : ((1 - u) * ((1 - u) * lo * y * 100) <= V m e)%Q). { eapply Qle_trans; [|exact M1]. apply Qmult_le_l; [reflexivity|]. apply Qmult_le_compat_r; [exact A1|discriminate]. }
  assert (A4 : (V m e <= (1 + u) * ((1 + u) * hi * y * 100))%Q). { eapply Qle_trans; [exact M2|]. apply Qmult_le_l; [reflexivity|]. apply Qmult_le_compat_r; [exact A2|discriminate]. }
  split.
  - eapply Qle_trans; [|exact A3]. setoid_replace ((1 - u) * ((1 - u) * lo * y * 100))%Q with ((1 - u) * (1 - u) * lo * (y * 100))%Q by ring. apply Qmult_le_compat_r; [discriminate|lra].
  - eapply Qle_trans; [exact A4|]. setoid_replace ((1 + u) * ((1 + u) * hi * y * 100))%Q with ((1 + u) * (1 + u) * hi * (y * 100))%Q by ring. apply Qmult_le_compat_r; [discriminate|lra].
Qed.

Lemma percentage_mono : forall c c' t, 0 < c <= c' -> c' < 2 ^ 64 -> 0 < t < 2 ^ 64 -> (fval (percentage c t) <= fval (percentage c' t))%Q.
Proof.
  intros c c' t Hc Hc' Ht. destruct (toDouble_ok c ltac:(lia)) as (mc & ec & kc & Ec & Vc & _ & Rc & Mc & Kc & Bc & _).
  destruct (toDouble_ok c' ltac:(lia)) as (mc' & ec' & kc' & Ec' & Vc' & _ & Rc' & Mc' & Kc' & Bc' & _).
  destruct (toDouble_ok t Ht) as (mt & et & kt & Et & Vt & _ & _ & _ & Kt & Bt & _).
  destruct (div_ok c t mc ec kc mt et kt Ec Et Kc Bc Kt Bt) as (md & ed & k & Ed & Vd & Rd & Md & Kd & Bd & _).
  destruct (div_ok c' t mc' ec' kc' mt et kt Ec' Et Kc' Bc' Kt Bt) as (md' & ed' & k' & Ed' & Vd' & Rd' & Md' & Kd' & Bd' & _).
  destruct (mul_ok md ed k Vd Kd Bd) as (m & e & j & Em & Rm & Mm & Jm & _). destruct (mul_ok md' ed' k' Vd' Kd' Bd') as (m' & e' & j' & Em' & Rm' & Mm' & Jm' & _).
  unfold percentage. change (prec b64) with 53. change (emax b64) with 1024. rewrite Ed, Ed'. fold hundred. rewrite Em, Em'. cbn [fval sgn].
  assert (S1 : (V mc ec <= V mc' ec')%Q).
  { eapply (rnd_mono b64 ltac:(fmt)); [|exact Rc|exact Rc'|exact Mc|exact Mc'|fmt|fmt|fmt]. rewrite <- Zle_Qle. lia. }
  pose proof (V_pos mt et) as Pt.
  assert (S2 : (V md ed <= V md' ed')%Q).
  { eapply (rnd_mono b64 ltac:(fmt)); [|exact Rd|exact Rd'|exact Md|exact Md'|fmt|fmt|fmt].
    unfold Qdiv. apply Qmult_le_compat_r; [exact S1|]. apply Qlt_le_weak, Qinv_lt_0_compat; auto. }
  eapply (rnd_mono b64 ltac:(fmt)); [|exact Rm|exact Rm'|exact Mm|exact Mm'|fmt|fmt|fmt].
  apply Qmult_le_compat_r; [exact S2|discriminate].
Qed.

Lemma percentage_all : forall t, 0 < t < 2 ^ 64 -> percentage t t = hundred.
Proof.
  intros t Ht. destruct (toDouble_ok t Ht) as (mt & et & kt & Et & Vt & _ & _ & _ & Kt & Bt & _).
  destruct (div_ok t t mt et kt mt et kt Et Et Kt Bt Kt Bt) as (md & ed & k & Ed & Vd & Rd & _). unfold percentage. change (prec b64) with 53. change (emax b64) with 1024. rewrite Ed.
  pose proof (V_pos mt et) as Pt.
  assert (E : S754_finite false md ed = S754_finite false 4503599627370496 (-52)).
  { eapply (rnd_exact b64 ltac:(fmt)); [vm_compute; reflexivity| |exact Rd]. setoid_replace (V 4503599627370496 (-52)) with 1%Q by (vm_compute; reflexivity). apply div_self, Pt. }
  rewrite E. vm_compute. reflexivity.
Qed.
