(** Proofs that printed floating point values do not tell neighbours apart; whole numbers. *)
From Coq Require Import String List ZArith Bool Lia Lqa QArith Qabs Qpower SpecFloat.
From Verif Require Import Base PrintModel PrintSpec PrintProof BoolProof FloatModel FloatSpec FloatProof FloatPrintModel FloatPrintSpec FloatPrintProof.
Import ListNotations.
Local Open Scope Z_scope.

Lemma goes_range : forall x q X, goes x q X -> 10 ^ 5 <= q < 10 ^ 6.
Proof. intros x q X [k [p H]]. tauto. Qed.
Lemma goes_err : forall x q X, goes x q X -> (Qabs (x - decimal q (X - 5)) <= (1 # 2) * T (X - 5))%Q.
Proof.
  intros x q X [k [p [[A1 [A2 [A3 _]]] [A4 [A5 [A6 A7]]]]]]. rewrite <- A6, grid.
  apply Qle_trans with ((1 # 2) * T (k - 5))%Q.
  - apply Qmult_le_compat_r; [exact A3|apply Qlt_le_weak, T_pos].
  - apply Qmult_le_l; [reflexivity|]. apply T_le. lia.
Qed.

Lemma step_same : forall x q X w q2 X2 s, goes x q X -> goes w q2 X2 -> let D := decimal q (X - 5) in
  (x <= D /\ x <= w /\ w <= x + s \/ D <= x /\ x - s <= w /\ w <= x)%Q ->
  (q = 10 ^ 5 -> (2 * s < T (X - 6))%Q) -> (10 ^ 5 < q -> (2 * s < T (X - 5))%Q) -> q2 = q /\ X2 = X.
Proof.
  intros x q X w q2 X2 s G1 G2 D Hs U1 U2. pose proof (goes_range _ _ _ G1) as R1. pose proof (goes_range _ _ _ G2) as R2.
  assert (N : (Qabs (w - D) <= s)%Q -> q2 = q /\ X2 = X).
  { intros Hw. destruct (Z.eq_dec q (10 ^ 5)) as [E|E].
    - apply (goes_near w q2 X2 q X (T (X - 6)) G2 R1); [left; split; [auto|reflexivity]|]. specialize (U1 E). unfold D in Hw. lra.
    - apply (goes_near w q2 X2 q X (T (X - 5)) G2 R1); [right; split; [lia|reflexivity]|]. specialize (U2 ltac:(lia)). unfold D in Hw. lra. }
  pose proof (proj2 (goes_closest _ _ _ G2) _ (goes_six _ _ _ G1)) as C. fold D in C. set (D2 := decimal q2 (X2 - 5)) in *.
  destruct Hs as [[H1 [H2 H3]]|[H1 [H2 H3]]].
  - destruct (Qlt_le_dec D w) as [L|L].
    + apply N. rewrite Qabs_pos by lra. lra.
    + pose proof (goes_mono _ _ _ _ _ _ H2 G1 G2) as M. fold D D2 in M. apply dec_unique; auto. fold D D2.
      revert C. apply (Qabs_case (w - D2)); apply (Qabs_case (w - D)); intros; lra.
  - destruct (Qlt_le_dec w D) as [L|L].
    + apply N. rewrite Qabs_neg by lra. lra.
    + pose proof (goes_mono _ _ _ _ _ _ H3 G2 G1) as M. fold D D2 in M. apply dec_unique; auto. fold D D2.
      revert C. apply (Qabs_case (w - D2)); apply (Qabs_case (w - D)); intros; lra.
Qed.

(* 24 bits or more: one step in the last place is less than half a unit of the sixth digit *)
Lemma step_small : forall m e q X, 2 ^ 23 <= Zpos m -> goes (inject_Z (Zpos m) * B e)%Q q X ->
  (q = 10 ^ 5 -> (2 * B e < T (X - 6))%Q) /\ (10 ^ 5 < q -> (2 * B e < T (X - 5))%Q).
Proof.
  intros m e q X Hm G. pose proof (goes_err _ _ _ G) as Er. pose proof (goes_range _ _ _ G) as R. destruct (dec_range q X R) as [D1 D2].
  set (x := (inject_Z (Zpos m) * B e)%Q) in *. pose proof (B_pos e) as Pb. pose proof (T_pos X) as Pt.
  assert (L : (8388608 * B e <= x)%Q).
  { unfold x. apply Qmult_le_compat_r; [|lra]. change 8388608%Q with (inject_Z (2 ^ 23)). rewrite <- Zle_Qle. exact Hm. }
  assert (E5 : (T X == T (X - 5) * 100000)%Q) by (replace X with (X - 5 + 5) at 1 by lia; rewrite T_plus; reflexivity).
  assert (E6 : (T X == T (X - 6) * 1000000)%Q) by (replace X with (X - 6 + 6) at 1 by lia; rewrite T_plus; reflexivity).
  assert (E1 : (T (X + 1) == T X * 10)%Q) by (rewrite T_plus; reflexivity).
  apply Qabs_Qle_condition in Er. set (D := decimal q (X - 5)) in *. split; intros Hq.
  - assert (Ed : (D == T X)%Q). { unfold D, decimal. rewrite Hq, <- T_int, <- T_plus by lia. replace (5 + (X - 5)) with X by lia. reflexivity. } lra.
  - lra.
Qed.

Lemma standard_prec : forall ty, standard ty -> 24 <= prec ty /\ prec ty < emax ty /\ 2 <= prec ty.
Proof. intros ty [->| ->]; cbn; lia. Qed.

Lemma dig_valid : forall ty s m e, standard ty -> 2 ^ (prec ty - 1) <= Zpos m < 2 ^ prec ty -> emin (prec ty) (emax ty) <= e <= emax ty - prec ty -> valid ty (S754_finite s m e).
Proof.
  intros ty s m e Hty Hm He. destruct (standard_prec ty Hty) as [H1 [H2 H3]]. apply valid_iff. rewrite (digits2_unique m (prec ty)) by lia.
  unfold fexp. split; [|lia]. lia.
Qed.
Lemma sub_valid : forall ty s m, standard ty -> Zpos m < 2 ^ (prec ty - 1) -> valid ty (S754_finite s m (emin (prec ty) (emax ty))).
Proof.
  intros ty s m Hty Hm. destruct (standard_prec ty Hty) as [H1 [H2 H3]]. apply valid_iff. pose proof (digits2_bound m) as [Bd _].
  assert (Zpos (digits2_pos m) - 1 < prec ty - 1) by (apply (Z.pow_lt_mono_r_iff 2); lia).
  unfold fexp, emin in *. split; lia.
Qed.

(* the largest value is printed below itself *)
Lemma largest_below : forall ty, standard ty -> (printed false (Z.to_pos (2 ^ prec ty - 1)) (emax ty - prec ty) <= inject_Z (2 ^ prec ty - 1) * B (emax ty - prec ty))%Q.
Proof.
  intros ty Hty. unfold printed. cbn [sgn]. destruct Hty as [->| ->]; cbn [prec emax binary32 binary64].
  - assert (E : sixes (Z.to_pos (2 ^ 24 - 1)) (128 - 24) = (340282, 38)) by (vm_compute; reflexivity). rewrite E. cbn [fst snd]. unfold decimal.
    rewrite T_int, B_int by lia. rewrite <- !inject_Z_mult, <- Zle_Qle. vm_compute. discriminate.
  - assert (E : sixes (Z.to_pos (2 ^ 53 - 1)) (1024 - 53) = (179769, 308)) by (vm_compute; reflexivity). rewrite E. cbn [fst snd]. unfold decimal.
    rewrite T_int, B_int by lia. rewrite <- !inject_Z_mult, <- Zle_Qle. vm_compute. discriminate.
Qed.

Lemma neighbour : forall ty s m e, standard ty -> valid ty (S754_finite s m e) -> Zpos (digits2_pos m) = prec ty ->
  exists m' e', ~ (inject_Z (Zpos m') * B e' == inject_Z (Zpos m) * B e)%Q /\ valid ty (S754_finite s m' e') /\ sixes m' e' = sixes m e.
Proof.
  intros ty s m e Hty Hv Hd. destruct (standard_prec ty Hty) as [H1 [H2 H3]]. pose proof (digits2_bound m) as Bd. rewrite Hd in Bd.
  apply valid_iff in Hv. rewrite Hd in Hv. destruct Hv as [V1 V2].
  assert (Hmin : emin (prec ty) (emax ty) <= e) by (unfold fexp in V1; lia).
  assert (P : 2 ^ prec ty = 2 * 2 ^ (prec ty - 1)) by (rewrite <- Z.pow_succ_r by lia; f_equal; lia).
  assert (P23 : 2 ^ 23 <= 2 ^ (prec ty - 1)) by (apply Z.pow_le_mono_r; lia).
  pose proof (sixes_goes m e) as G. destruct (step_small m e _ _ ltac:(lia) G) as [U1 U2].
  assert (Same : forall m' e', let w := (inject_Z (Zpos m') * B e')%Q in let x := (inject_Z (Zpos m) * B e)%Q in
    (x <= printed false m e /\ x <= w /\ w <= x + B e \/ printed false m e <= x /\ x - B e <= w /\ w <= x)%Q -> sixes m' e' = sixes m e).
  { intros m' e' w x Hs. pose proof (sixes_goes m' e') as G'.
    destruct (step_same _ _ _ _ _ _ (B e) G G' Hs U1 U2) as [E1 E2]. destruct (sixes m' e'), (sixes m e). cbn in E1, E2. congruence. }
  pose proof (B_pos e) as Pb. set (x := (inject_Z (Zpos m) * B e)%Q) in *.
  destruct (Qlt_le_dec x (printed false m e)) as [L|L].
  - (* up *)
    destruct (Z.eq_dec (Zpos m + 1) (2 ^ prec ty)) as [Em|Em].
    + destruct (Z.eq_dec e (emax ty - prec ty)) as [Ee|Ee].
      { exfalso. pose proof (largest_below ty Hty) as Lb. replace (Z.to_pos (2 ^ prec ty - 1)) with m in Lb by lia. rewrite <- Ee in Lb.
        replace (2 ^ prec ty - 1) with (Zpos m) in Lb by lia. fold x in Lb. lra. }
      exists (Z.to_pos (2 ^ (prec ty - 1))), (e + 1). 
      assert (Ew : (inject_Z (2 ^ (prec ty - 1)) * B (e + 1) == x + B e)%Q).
      { rewrite B_plus. change (B 1) with 2%Q. unfold x. setoid_replace (inject_Z (2 ^ (prec ty - 1)) * (B e * 2))%Q with (inject_Z (2 ^ (prec ty - 1)) * 2 * B e)%Q by ring.
        change 2%Q with (inject_Z 2). rewrite <- inject_Z_mult. replace (2 ^ (prec ty - 1) * 2) with (Zpos m + 1) by lia. rewrite inject_Z_plus. change (inject_Z 1) with 1%Q. ring. }
      change (inject_Z (Z.pos m) * B e)%Q with x. rewrite Z2Pos.id by lia. split; [rewrite Ew; lra|].
      split; [apply dig_valid; auto; [rewrite Z2Pos.id by lia; lia|lia]|]. apply Same. left.
      rewrite Z2Pos.id by lia. rewrite Ew. change (inject_Z (Z.pos m) * B e)%Q with x. lra.
    + exists (m + 1)%positive, e. change (inject_Z (Z.pos m) * B e)%Q with x.
      assert (Ew : (inject_Z (Zpos (m + 1)) * B e == x + B e)%Q). { unfold x. rewrite Pos2Z.inj_add, inject_Z_plus. change (inject_Z 1) with 1%Q. ring. }
      split; [rewrite Ew; lra|]. split; [apply dig_valid; auto; lia|]. apply Same. left.
      change (inject_Z (Z.pos m) * B e)%Q with x. rewrite Ew. lra.
  - (* down *)
    assert (Dn : forall m' : positive, Zpos m' = Zpos m - 1 -> valid ty (S754_finite s m' e) -> exists m' e', ~ (inject_Z (Zpos m') * B e' == x)%Q /\ valid ty (S754_finite s m' e') /\ sixes m' e' = sixes m e).
    { intros m' Em' Hv'. exists m', e.
      assert (Ew : (inject_Z (Zpos m') * B e == x - B e)%Q). { rewrite Em'. unfold x, Z.sub. rewrite inject_Z_plus, inject_Z_opp. change (inject_Z 1) with 1%Q. ring. }
      split; [rewrite Ew; lra|]. split; [auto|]. apply Same. right. change (inject_Z (Z.pos m) * B e)%Q with x. rewrite Ew. lra. }
    change (inject_Z (Z.pos m) * B e)%Q with x.
    destruct (Z.eq_dec (Zpos m) (2 ^ (prec ty - 1))) as [Em|Em].
    + destruct (Z.eq_dec e (emin (prec ty) (emax ty))) as [Ee|Ee].
      * apply (Dn (Z.to_pos (Zpos m - 1))); [lia|]. rewrite Ee. apply sub_valid; auto. lia.
      * exists (Z.to_pos (2 ^ prec ty - 1)), (e - 1).
        assert (Eb : (B e == B (e - 1) * 2)%Q) by (replace e with (e - 1 + 1) at 1 by lia; rewrite B_plus; reflexivity).
        assert (Ew : (inject_Z (2 ^ prec ty - 1) * B (e - 1) == x - B (e - 1))%Q).
        { unfold x. rewrite Em, P, Eb. unfold Z.sub. rewrite inject_Z_plus, inject_Z_mult, inject_Z_opp. change (inject_Z 1) with 1%Q. change (inject_Z 2) with 2%Q. ring. }
        pose proof (B_pos (e - 1)). split; [rewrite Z2Pos.id, Ew by lia; lra|]. split; [apply dig_valid; auto; lia|]. apply Same. right.
        change (inject_Z (Z.pos m) * B e)%Q with x. rewrite Z2Pos.id by lia. rewrite Ew. lra.
    + apply (Dn (Z.to_pos (Zpos m - 1))); [lia|]. apply dig_valid; auto; lia.
Qed.

(** * Whole numbers *)
Lemma drop_zeros : forall n, dropZeros (repeat 48 n) = [].
Proof. induction n; auto. Qed.
Lemma whole : forall m e z, 0 < z < 10 ^ 6 -> (inject_Z (Zpos m) * B e == inject_Z z)%Q -> written (fst (sixes m e)) (snd (sixes m e)) = numeral 10 z.
Proof.
  intros m e z Hz E. pose proof (sixes_goes m e) as G. destruct (sixes m e) as [q X]. cbn [fst snd] in *. pose proof (goes_range _ _ _ G) as R.
  assert (D : (decimal q (X - 5) == inject_Z z)%Q).
  { assert (S : six (inject_Z z)) by (exists z, 0; split; [lia|]; unfold decimal; change (T 0) with 1%Q; ring).
    pose proof (proj2 (goes_closest _ _ _ G) _ S) as C. rewrite E in C. setoid_replace (inject_Z z - inject_Z z)%Q with 0%Q in C by ring. cbn [Qabs Z.abs] in C.
    change (Qabs 0) with 0%Q in C. pose proof (Qabs_nonneg (inject_Z z - decimal q (X - 5))) as N.
    revert C N. apply (Qabs_case (inject_Z z - decimal q (X - 5))); intros; lra. }
  destruct (dec_range q X R) as [D1 D2]. rewrite D in D1, D2.
  assert (X0 : 0 <= X).
  { destruct (Z_le_gt_dec 0 X); auto. exfalso. assert (T (X + 1) <= T 0)%Q by (apply T_le; lia). change (T 0) with (inject_Z 1) in H.
    assert (inject_Z z < inject_Z 1)%Q by lra. rewrite <- Zlt_Qlt in H0. lia. }
  assert (X5 : X <= 5).
  { destruct (Z_le_gt_dec X 5); auto. exfalso. assert (T 6 <= T X)%Q by (apply T_le; lia). rewrite T_int in H by lia.
    assert (inject_Z (10 ^ 6) <= inject_Z z)%Q by lra. rewrite <- Zle_Qle in H0. lia. }
  assert (Eq : q = z * 10 ^ (5 - X)).
  { apply (proj1 (inject_Z_injective _ _)). rewrite inject_Z_mult, <- T_int by lia. rewrite <- D. unfold decimal. rewrite <- Qmult_assoc, <- T_plus.
    replace (X - 5 + (5 - X)) with 0 by lia. change (T 0) with 1%Q. ring. }
  assert (P : 0 < 10 ^ (5 - X)) by (apply Z.pow_pos_nonneg; lia).
  unfold written. rewrite (proj2 (Z.leb_le (-4) X)), (proj2 (Z.ltb_lt X 6)) by lia. cbn [andb]. rewrite Eq, Z.div_mul, Z.mod_mul by lia.
  unfold withFraction, pad. change (numeral 10 0) with (repeat 48 1). rewrite <- repeat_app, rev_repeat, drop_zeros. reflexivity.
Qed.

(** * What a text stands for *)
Lemma stands_fun : forall t s x y, standsFor t s x -> standsFor t s y -> (x == y)%Q.
Proof.
  intros t s x y (u & ip & fp & e & E & P & V) (u' & ip' & fp' & e' & E' & P' & V').
  assert (u' = u) by (rewrite E in E'; destruct s; congruence). subst u'. rewrite P in P'. inversion P'; subst. rewrite V, V'. reflexivity.
Qed.
Lemma stands_zero : forall s, standsFor (showFloat (S754_zero s)) s 0.
Proof. intros s. exists (lit "0"), [48], [], 0. split; [destruct s; reflexivity|]. split; [reflexivity|]. destruct s; reflexivity. Qed.
Lemma no_minus : forall u r, readParts u = Some r -> ~ exists t, u = 45 :: t.
Proof. intros u r Hr [t ->]. discriminate. Qed.
Lemma stands_sign : forall t s s' x y, standsFor t s x -> standsFor t s' y -> s = s'.
Proof.
  intros t s s' x y (u & ip & fp & e & E & P & V) (u' & ip' & fp' & e' & E' & P' & V'). destruct s, s'; auto; exfalso.
  - apply (no_minus _ _ P'). exists u. congruence.
  - apply (no_minus _ _ P). exists u'. congruence.
Qed.

Lemma printed_err : forall s m e, (Qabs (fval (S754_finite s m e) - printed s m e) <= (1 # 200000) * Qabs (printed s m e))%Q.
Proof.
  intros s m e. rewrite (printed_pos s), fval_pos, sgn_abs. rewrite Qabs_Qmult. replace (Qabs (inject_Z (sgn s 1))) with 1%Q by (destruct s; reflexivity).
  rewrite Qmult_1_l. pose proof (sixes_goes m e) as G. pose proof (goes_err _ _ _ G) as Er. destruct (dec_range (fst (sixes m e)) (snd (sixes m e)) (goes_range _ _ _ G)) as [D1 _].
  change (decimal (fst (sixes m e)) (snd (sixes m e) - 5)) with (printed false m e) in *.
  assert (E5 : (T (snd (sixes m e)) == T (snd (sixes m e) - 5) * 100000)%Q) by (replace (snd (sixes m e)) with (snd (sixes m e) - 5 + 5) at 1 by lia; rewrite T_plus; reflexivity).
  pose proof (T_pos (snd (sixes m e))). rewrite (Qabs_pos (printed false m e)) by lra. lra.
Qed.

(* the values before and after a number *)
Lemma printed_mono : forall s m e s' m' e', (fval (S754_finite s m e) <= fval (S754_finite s' m' e'))%Q -> (printed s m e <= printed s' m' e')%Q.
Proof.
  intros s m e s' m' e' L. rewrite !fval_pos in L. rewrite (printed_pos s), (printed_pos s').
  pose proof (sixes_goes m e) as G. pose proof (sixes_goes m' e') as G'.
  destruct (dec_range (fst (sixes m e)) (snd (sixes m e)) (goes_range _ _ _ G)) as [D1 _]. destruct (dec_range (fst (sixes m' e')) (snd (sixes m' e')) (goes_range _ _ _ G')) as [D2 _].
  change (decimal (fst (sixes m e)) (snd (sixes m e) - 5)) with (printed false m e) in *. change (decimal (fst (sixes m' e')) (snd (sixes m' e') - 5)) with (printed false m' e') in *.
  pose proof (T_pos (snd (sixes m e))). pose proof (T_pos (snd (sixes m' e'))).
  assert (P : forall m e, (0 < inject_Z (Zpos m) * B e)%Q).
  { intros m0 e0. pose proof (B_pos e0). setoid_replace 0%Q with (0 * B e0)%Q by ring. apply Qmult_lt_r; auto. reflexivity. }
  pose proof (P m e) as P1. pose proof (P m' e') as P2.
  destruct s, s'; cbn [sgn] in *; change (inject_Z (- (1))) with (- (1))%Q in *; change (inject_Z 1) with 1%Q in *.
  - assert (L' : (inject_Z (Z.pos m') * B e' <= inject_Z (Z.pos m) * B e)%Q) by lra. pose proof (goes_mono _ _ _ _ _ _ L' G' G) as M.
    change (printed false m' e' <= printed false m e)%Q in M. lra.
  - lra.
  - lra.
  - assert (L' : (inject_Z (Z.pos m) * B e <= inject_Z (Z.pos m') * B e')%Q) by lra. pose proof (goes_mono _ _ _ _ _ _ L' G G') as M.
    change (printed false m e <= printed false m' e')%Q in M. lra.
Qed.
Lemma printed_sign : forall s m e, (0 < inject_Z (sgn s 1) * printed s m e)%Q.
Proof.
  intros s m e. rewrite printed_pos, sgn_sgn. destruct (dec_range (fst (sixes m e)) (snd (sixes m e)) (goes_range _ _ _ (sixes_goes m e))) as [D1 _]. pose proof (T_pos (snd (sixes m e))).
  unfold printed. cbn [sgn]. lra.
Qed.
Lemma fval_sign : forall s m e, (0 < inject_Z (sgn s 1) * fval (S754_finite s m e))%Q.
Proof.
  intros s m e. rewrite fval_pos, sgn_sgn. pose proof (B_pos e). setoid_replace 0%Q with (0 * B e)%Q by ring. apply Qmult_lt_r; auto. reflexivity.
Qed.

(* the number printed for a finite value *)
Definition value (v : spec_float) : Q := match v with S754_finite s m e => printed s m e | _ => 0%Q end.
Definition sign (v : spec_float) : bool := match v with S754_finite s _ _ | S754_zero s | S754_infinity s => s | S754_nan => false end.
Lemma value_stands : forall v, finite v -> standsFor (showFloat v) (sign v) (value v).
Proof. intros [s|s| |s m e] Hv; try contradiction; [apply stands_zero|apply printed_stands]. Qed.
Lemma value_mono : forall v w, finite v -> finite w -> (fval v <= fval w)%Q -> (value v <= value w)%Q.
Proof.
  intros [s|s| |s m e] [s'|s'| |s' m' e'] Hv Hw L; try contradiction; cbn [value fval] in *; try lra.
  - pose proof (fval_sign s' m' e') as F. pose proof (printed_sign s' m' e') as P. cbn [fval] in F. destruct s'; cbn [sgn] in *; change (inject_Z (- (1))) with (- (1))%Q in *; change (inject_Z 1) with 1%Q in *; lra.
  - pose proof (fval_sign s m e) as F. pose proof (printed_sign s m e) as P. cbn [fval] in F. destruct s; cbn [sgn] in *; change (inject_Z (- (1))) with (- (1))%Q in *; change (inject_Z 1) with 1%Q in *; lra.
  - apply printed_mono. exact L.
Qed.
