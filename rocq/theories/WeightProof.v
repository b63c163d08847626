(** Proofs about weights as numbers: sums, the share of generators without weight, weights of intervals. *)
From Coq Require Import List ZArith Bool Lia Lqa QArith Qabs Qpower SpecFloat.
From Verif Require Import Base BoolProof FloatModel FloatSpec FloatProof FloatPrintModel FloatPrintSpec FloatPrintProof FloatPrintNearProof RoundProof PercentProof.
Import ListNotations.
Local Open Scope Z_scope.

Section R.
Variable ty : ftype.
Hypothesis Hprec : 2 <= prec ty.
Notation pr := (prec ty).
Notation em := (emax ty).
Notation fe := (fexp pr em).
Notation rnd := (rnd ty).

Lemma rnd_comp : forall s x y v, (x == y)%Q -> rnd s x v -> rnd s y v.
Proof.
  intros s x y v E (k & q & [M1 M2] & R & Rest). exists k, q. split; [split; rewrite <- E; auto|]. split; [|exact Rest]. eapply rounds_comp; [|exact R]. rewrite E. reflexivity.
Qed.
Lemma align : forall m e e', e' <= e -> (inject_Z (Zpos (fst (shl_align m e e'))) * B e' == V m e)%Q.
Proof.
  intros m e e' L. pose proof (shl_ok m e e') as H. destruct (shl_align m e e') as [m2 e2]. destruct H as (H & _ & _ & _ & H4 & _). cbn [fst]. rewrite <- H, H4 by auto. reflexivity.
Qed.
Lemma add_rnd : forall m1 e1 m2 e2, rnd false (V m1 e1 + V m2 e2) (SFadd pr em (S754_finite false m1 e1) (S754_finite false m2 e2)).
Proof.
  intros m1 e1 m2 e2. cbn [SFadd cond_Zopp]. pose proof (align m1 e1 (Z.min e1 e2) ltac:(lia)) as A1. pose proof (align m2 e2 (Z.min e1 e2) ltac:(lia)) as A2.
  set (a := fst _) in *. set (b := fst (shl_align m2 _ _)) in *. change (Zpos a + Zpos b) with (Zpos (a + b)).
  eapply rnd_comp; [|apply normalize_rnd; auto]. rewrite Pos2Z.inj_add, inject_Z_plus, <- A1, <- A2. ring.
Qed.
Lemma sub_rnd : forall m1 e1 m2 e2, (V m2 e2 < V m1 e1)%Q -> rnd false (V m1 e1 - V m2 e2) (SFsub pr em (S754_finite false m1 e1) (S754_finite false m2 e2)).
Proof.
  intros m1 e1 m2 e2 L. cbn [SFsub cond_Zopp]. pose proof (align m1 e1 (Z.min e1 e2) ltac:(lia)) as A1. pose proof (align m2 e2 (Z.min e1 e2) ltac:(lia)) as A2.
  set (a := fst _) in *. set (b := fst (shl_align m2 _ _)) in *. rewrite <- A1, <- A2 in L. apply Qmult_lt_r in L; [|apply B_pos]. rewrite <- Zlt_Qlt in L.
  destruct (Zpos a - Zpos b) as [|z|z] eqn:Ez; try lia.
  eapply rnd_comp; [|apply normalize_rnd; auto]. rewrite <- Ez. unfold Z.sub at 1. rewrite inject_Z_plus, inject_Z_opp, <- A1, <- A2. ring.
Qed.

(** Zero or a positive number of the type. *)
Definition nonneg (v : spec_float) : Prop := v = S754_zero false \/ exists m e, v = S754_finite false m e /\ valid ty v.
Lemma fval_pos : forall m e, (fval (S754_finite false m e) == V m e)%Q.
Proof. intros. reflexivity. Qed.
Lemma nonneg_val : forall v, nonneg v -> (0 <= fval v)%Q.
Proof. intros v [->|(m & e & -> & _)]; [discriminate|]. rewrite fval_pos. pose proof (V_pos m e). lra. Qed.

Lemma rnd_cases : forall x v, rnd false x v -> exists k q, mag x k /\ rounds (x * B (- fe k)) q /\ 0 <= q <= 2 ^ pr /\ (emin pr em + pr <= k -> 2 ^ (pr - 1) <= q) /\
  (v = S754_infinity false \/ nonneg v /\ (fval v == inject_Z q * B (fe k))%Q).
Proof.
  intros x v (k & q & M & R & Bq & Ev). exists k, q. split; [exact M|]. split; [exact R|]. split; [exact Bq|].
  assert (P0 : 0 < 2 ^ (pr - 1)) by (apply Z.pow_pos_nonneg; lia). assert (P1 : 2 ^ pr = 2 * 2 ^ (pr - 1)) by (rewrite <- Z.pow_succ_r by lia; f_equal; lia).
  assert (Lq : emin pr em + pr <= k -> 2 ^ (pr - 1) <= q).
  { intros K. destruct M as [M1 M2]. assert (F : fe k = k - pr) by (unfold fexp; lia). rewrite F in R. pose proof (B_pos (- (k - pr))) as Pb.
    apply (rounds_range _ _ (2 ^ (pr - 1)) (2 ^ pr) R).
    - rewrite <- B_int by lia. setoid_replace (B (pr - 1)) with (B (k - 1) * B (- (k - pr)))%Q by (rewrite <- B_plus; replace (k - 1 + - (k - pr)) with (pr - 1) by lia; reflexivity).
      apply Qmult_le_compat_r; lra.
    - rewrite <- B_int by lia. setoid_replace (B pr) with (B k * B (- (k - pr)))%Q by (rewrite <- B_plus; replace (k + - (k - pr)) with pr by lia; reflexivity).
      apply Qmult_le_compat_r; lra. }
  split; [exact Lq|]. rewrite Ev. unfold pack. destruct (Z.eqb_spec q 0) as [->|N0]; [right; split; [left; reflexivity|cbn [fval]; change (inject_Z 0) with 0%Q; ring]|].
  destruct (Z.eqb_spec q (2 ^ pr)) as [E|E].
  - destruct (Z.leb_spec (fe k + 1) (em - pr)); [|left; reflexivity]. right. split.
    + right. eexists _, _. split; [reflexivity|]. apply valid_iff. rewrite (digits2_unique _ pr) by (rewrite ?Z2Pos.id; lia). unfold fexp, emin in *. lia.
    + rewrite fval_pos, Z2Pos.id by lia. rewrite E, P1, B_plus, inject_Z_mult. change (B 1) with 2%Q. change (inject_Z 2) with 2%Q. ring.
  - destruct (Z.leb_spec (fe k) (em - pr)); [|left; reflexivity]. right. split.
    + right. eexists _, _. split; [reflexivity|]. apply valid_iff. split; [|lia]. destruct (digits2_bound (Z.to_pos q)) as [D1 D2]. rewrite Z2Pos.id in D1, D2 by lia.
      set (d := Zpos (digits2_pos (Z.to_pos q))) in *.
      assert (d <= pr). { destruct (Z_le_gt_dec d pr); auto. exfalso. assert (2 ^ pr <= 2 ^ (d - 1)) by (apply Z.pow_le_mono_r; lia). lia. }
      destruct (Z_le_gt_dec (emin pr em + pr) k) as [K|K]; [|unfold fexp, emin in *; lia].
      assert (pr - 1 < d). { apply (Z.pow_lt_mono_r_iff 2); unfold d; try lia. fold d. specialize (Lq K). lia. }
      unfold fexp, emin in *. lia.
    + rewrite fval_pos, Z2Pos.id by lia. reflexivity.
Qed.
(* a number of the type below the exact value is below the rounded value *)
Lemma rnd_above : forall x v y, rnd false x v -> v <> S754_infinity false -> nonneg y -> (fval y <= x)%Q -> (fval y <= fval v)%Q.
Proof.
  intros x v y R Nv Ny L. destruct (rnd_cases _ _ R) as (k & q & M & Q1 & Bq & Lq & [C|[C Ev]]); [contradiction|].
  destruct Ny as [->|(m & e & -> & Vy)]; [change (fval (S754_zero false)) with 0%Q; apply nonneg_val; auto|]. rewrite fval_pos in *. rewrite Ev.
  apply valid_iff in Vy. destruct Vy as [V1 V2]. set (d := Zpos (digits2_pos m)) in *.
  assert (My : mag (V m e) (d + e)). { apply (mag_between _ (Zpos m)); [lia|lra|]. apply Qmult_lt_r; [apply B_pos|]. rewrite <- Zlt_Qlt. lia. }
  pose proof (mag_mono _ _ _ _ L My M) as Mk. destruct (Z.eq_dec e (fe k)) as [E|E].
  - rewrite E. apply Qmult_le_compat_r; [|pose proof (B_pos (fe k)); lra]. rewrite <- Zle_Qle. eapply rounds_mono; [|apply rounds_self|exact Q1].
    rewrite E in L. pose proof (B_pos (- fe k)) as P. setoid_replace (inject_Z (Zpos m)) with (V m (fe k) * B (- fe k))%Q.
    + apply Qmult_le_compat_r; lra.
    + rewrite <- Qmult_assoc, <- B_plus. replace (fe k + - fe k) with 0 by lia. rewrite B_0. ring.
  - assert (K : emin pr em + pr <= k /\ d + e < k) by (unfold fexp in *; lia). destruct K as [K1 K2]. specialize (Lq K1).
    destruct My as [_ My]. assert (B (d + e) <= B (k - 1))%Q by (apply B_le; lia). assert (F : fe k = k - pr) by (unfold fexp; lia). rewrite F.
    assert (B (k - 1) <= inject_Z q * B (k - pr))%Q; [|lra].
    replace (k - 1) with (pr - 1 + (k - pr)) by lia. rewrite B_plus, B_int by lia. apply Qmult_le_compat_r; [rewrite <- Zle_Qle; lia|pose proof (B_pos (k - pr)); lra].
Qed.
(* the error of a rounding below 2^K *)
Lemma rnd_abs : forall x v K, rnd false x v -> v <> S754_infinity false -> (x < B K)%Q -> emin pr em + pr <= K -> (Qabs (fval v - x) <= B (K - pr - 1))%Q.
Proof.
  intros x v K R Nv L HK. destruct (rnd_cases _ _ R) as (k & q & M & [Q1 _] & Bq & Lq & [C|[C Ev]]); [contradiction|]. rewrite Ev.
  assert (Hk : k <= K) by (destruct M as [M _]; assert (B (k - 1) < B K)%Q by lra; apply B_lt in H; lia).
  assert (Ex : (x == x * B (- fe k) * B (fe k))%Q) by (rewrite <- Qmult_assoc, B_inv; ring). pose proof (B_pos (fe k)) as Pk. set (y := (x * B (- fe k))%Q) in *.
  assert (E : (Qabs (inject_Z q * B (fe k) - x) == Qabs (y - inject_Z q) * B (fe k))%Q).
  { rewrite <- (Qabs_pos (B (fe k))) at 2 by lra. rewrite <- Qabs_Qmult. rewrite <- Qabs_opp. apply Qabs_wd. rewrite Ex at 1. ring. }
  rewrite E. apply Qle_trans with ((1 # 2) * B (fe k))%Q; [apply Qmult_le_compat_r; lra|].
  change (1 # 2)%Q with (B (-1)). rewrite <- B_plus. apply B_le. unfold fexp. lia.
Qed.
(* numbers with few bits are not rounded *)
Lemma rnd_dyadic : forall x v n f, rnd false x v -> v <> S754_infinity false -> 0 < n <= 2 ^ pr -> (x == inject_Z n * B f)%Q -> emin pr em <= f -> (fval v == x)%Q.
Proof.
  intros x v n f R Nv Hn Ex Hf. destruct (rnd_cases _ _ R) as (k & q & M & Q1 & Bq & Lq & [C|[C Ev]]); [contradiction|]. rewrite Ev.
  assert (I : exists z, (x * B (- fe k) == inject_Z z)%Q).
  { destruct (Z.eq_dec n (2 ^ pr)) as [E|E].
    - assert (Em : (x == B (pr + f))%Q) by (rewrite Ex, E, <- (B_int pr) by lia; rewrite <- B_plus; reflexivity).
      assert (Hk : k = pr + f + 1).
      { apply (mag_fun _ _ _ _ Em M). split; [apply B_le; lia|]. setoid_replace (B (pr + f + 1)) with (B (pr + f) * 2)%Q by (rewrite B_plus; reflexivity). pose proof (B_pos (pr + f)). lra. }
      exists (2 ^ (pr + f - fe k)). assert (0 <= pr + f - fe k) by (unfold fexp, emin in *; lia). rewrite <- (B_int (pr + f - fe k)) by lia. rewrite Em, <- B_plus. unfold Z.sub. reflexivity.
    - assert (Hk : k <= pr + f).
      { destruct M as [M _]. rewrite Ex in M. assert (B (k - 1) < B (pr + f))%Q; [|apply B_lt in H; lia]. eapply Qle_lt_trans; [exact M|]. rewrite (B_plus pr f), (B_int pr) by lia.
        apply Qmult_lt_r; [apply B_pos|]. rewrite <- Zlt_Qlt. lia. }
      exists (n * 2 ^ (f - fe k)). assert (0 <= f - fe k) by (unfold fexp, emin in *; lia). rewrite inject_Z_mult, <- (B_int (f - fe k)) by lia. rewrite Ex, <- Qmult_assoc, <- B_plus. unfold Z.sub. reflexivity. }
  destruct I as [z I]. assert (q = z) by (eapply rounds_unique; [exact Q1|]; eapply rounds_comp; [|apply rounds_self]; rewrite I; reflexivity).
  subst z. rewrite <- I, <- Qmult_assoc, B_inv. ring.
Qed.
End R.

Notation one := (S754_finite false 4503599627370496 (-52)).
Notation nn := (nonneg b64).
Lemma valid_facts : forall m e, valid b64 (S754_finite false m e) -> Zpos m < 2 ^ 53 /\ (-1074 < e -> 2 ^ 52 <= Zpos m) /\ -1074 <= e <= 971.
Proof.
  intros m e H. apply valid_iff in H. destruct H as [V1 V2]. unfold fexp, emin in V1. change (prec b64) with 53 in *. change (emax b64) with 1024 in *.
  destruct (digits2_bound m) as [D1 D2]. set (d := Zpos (digits2_pos m)) in *. assert (d <= 53) by lia. assert (2 ^ d <= 2 ^ 53) by (apply Z.pow_le_mono_r; lia).
  split; [lia|]. split; [|lia]. intros He. assert (d = 53) by lia. assert (E : d - 1 = 52) by lia. rewrite E in D1. exact D1.
Qed.
Lemma cmp_lt : forall a b, match Some (Pos.compare_cont Eq a b) with Some Lt => true | _ => false end = true -> (a < b)%positive.
Proof. intros a b. change (Pos.compare_cont Eq a b) with (a ?= b)%positive. destruct (Pos.compare_spec a b); auto; discriminate. Qed.
Lemma cmp_ge : forall a b, (b <= a)%positive -> match Some (Pos.compare_cont Eq a b) with Some Lt => true | _ => false end = false.
Proof. intros a b. change (Pos.compare_cont Eq a b) with (a ?= b)%positive. destruct (Pos.compare_spec a b); auto; lia. Qed.
Lemma pos_le : forall a b, Zpos a <= Zpos b -> (a <= b)%positive. Proof. intros. lia. Qed.
Lemma pos_lt : forall a b, (a < b)%positive -> Zpos a < Zpos b. Proof. intros. lia. Qed.
Lemma lt_one : forall v, nn v -> SFltb v one = true -> (fval v < 1)%Q.
Proof.
  intros v [->|(m & e & -> & H)] L; [reflexivity|]. rewrite fval_pos. destruct (valid_facts _ _ H) as (H1 & _). unfold SFltb, SFcompare in L.
  destruct (Z.compare_spec e (-52)) as [E|E|E]; try discriminate.
  - subst e. change (B (-52)) with (1 # 4503599627370496)%Q. assert (Zpos m < 2 ^ 52). { change (2 ^ 52) with 4503599627370496. apply cmp_lt, pos_lt in L. exact L. }
    assert (inject_Z (Zpos m) < inject_Z (2 ^ 52))%Q by (rewrite <- Zlt_Qlt; lia). change (inject_Z (2 ^ 52)) with 4503599627370496%Q in H2. lra.
  - assert (B e <= B (-53))%Q by (apply B_le; lia). change (B (-53)) with (1 # 9007199254740992)%Q in H0. pose proof (B_pos e) as P.
    assert (L2 : (inject_Z (Zpos m) < inject_Z (2 ^ 53))%Q) by (rewrite <- Zlt_Qlt; lia). change (inject_Z (2 ^ 53)) with 9007199254740992%Q in L2.
    apply Qlt_le_trans with (9007199254740992 * B e)%Q; [apply Qmult_lt_r; auto|]. lra.
Qed.
Lemma not_above_one : forall v, nn v -> (fval v <= 1)%Q -> SFltb one v = false.
Proof.
  intros v [->|(m & e & -> & H)] L; [reflexivity|]. rewrite fval_pos in L. destruct (valid_facts _ _ H) as (H1 & H2 & _). unfold SFltb, SFcompare.
  destruct (Z.compare_spec (-52) e) as [E|E|E]; auto.
  - subst e. change (B (-52)) with (1 # 4503599627370496)%Q in L. assert (inject_Z (Zpos m) <= inject_Z (2 ^ 52))%Q by (change (inject_Z (2 ^ 52)) with 4503599627370496%Q; lra).
    rewrite <- Zle_Qle in H0. change (2 ^ 52) with 4503599627370496 in H0. apply cmp_ge. apply pos_le. exact H0.
  - exfalso. specialize (H2 ltac:(lia)). assert (P : (B (-51) <= B e)%Q) by (apply B_le; lia). change (B (-51)) with (1 # 2251799813685248)%Q in P.
    assert (L2 : (inject_Z (2 ^ 52) <= inject_Z (Zpos m))%Q) by (rewrite <- Zle_Qle; lia). change (inject_Z (2 ^ 52)) with 4503599627370496%Q in L2.
    assert (inject_Z (Zpos m) * (1 # 2251799813685248) <= V m e)%Q by (apply Qmult_le_l; [lra|exact P]). lra.
Qed.

(** Sums of weights. *)
Definition okWeight (w : spec_float) : Prop := (exists s, w = S754_zero s) \/ exists m e, w = S754_finite false m e /\ valid b64 w /\ (V m e <= 1)%Q.
Notation add := (SFadd 53 1024).
Fixpoint qsum (ws : list spec_float) : Q := match ws with [] => 0%Q | w :: r => (fval w + qsum r)%Q end.
Lemma add_cases : forall a w, nn a -> okWeight w -> add a w = S754_infinity false \/
  nn (add a w) /\ (fval a <= fval (add a w))%Q /\ ((fval (add a w) < 1)%Q -> (Qabs (fval (add a w) - (fval a + fval w)) <= B (-54))%Q).
Proof.
  intros a w Ha Hw. assert (Z : forall x y, (x == y)%Q -> (Qabs (x - y) <= B (-54))%Q).
  { intros x y E. setoid_replace (x - y)%Q with 0%Q by (rewrite E; ring). discriminate. }
  destruct Hw as [[s ->]|(mw & ew & -> & Vw & Lw)].
  - right. assert (E : add a (S754_zero s) = a) by (destruct Ha as [->|(m & e & -> & _)]; [destruct s|]; reflexivity).
    rewrite E. split; auto. split; [lra|]. intros _. apply Z. cbn [fval]. ring.
  - destruct Ha as [->|(m & e & -> & Va)].
    + right. cbn [SFadd]. split; [right; eauto|]. split; [apply nonneg_val with (ty := b64); right; eauto|]. intros _. apply Z. cbn [fval]. ring.
    + pose proof (add_rnd b64 ltac:(fmt) m e mw ew) as R. change (SFadd (prec b64) (emax b64)) with add in R. set (v := add _ _) in *.
      destruct (rnd_cases b64 ltac:(fmt) _ _ R) as (k & q & M & Q1 & Bq & Lq & [C|[C Ev]]); [left; auto|]. right.
      assert (Nv : v <> S754_infinity false) by (destruct C as [->|(? & ? & -> & _)]; discriminate).
      assert (Na : nn (S754_finite false m e)) by (right; eauto). pose proof (V_pos mw ew) as Pw. split; [exact C|]. split.
      * apply (rnd_above b64 ltac:(fmt) _ _ _ R Nv Na). rewrite fval_pos. lra.
      * intros L. rewrite !fval_pos. change (-54) with (0 - prec b64 - 1). apply (rnd_abs b64 ltac:(fmt) _ _ 0 R Nv); [|fmt].
        destruct (Qlt_le_dec (V m e + V mw ew) (B 0)) as [|G]; auto. exfalso. rewrite B_0 in G.
        pose proof (rnd_above b64 ltac:(fmt) _ _ one R Nv) as A. assert (nn one) by (right; eexists _, _; split; [reflexivity|vm_compute; reflexivity]).
        specialize (A H). assert (Eo : (fval one == 1)%Q) by (vm_compute; reflexivity). rewrite Eo in A. specialize (A G). lra.
Qed.
Lemma add_inf : forall w, okWeight w -> add (S754_infinity false) w = S754_infinity false.
Proof. intros w [[s ->]|(m & e & -> & _)]; reflexivity. Qed.
Lemma fold_inf : forall ws, Forall okWeight ws -> fold_left add ws (S754_infinity false) = S754_infinity false.
Proof. induction ws as [|w ws IH]; intros H; cbn [fold_left]; auto. inversion H; subst. rewrite add_inf by auto. auto. Qed.
Lemma sum_ok : forall ws a, nn a -> Forall okWeight ws -> SFltb (fold_left add ws a) one = true ->
  let s := fold_left add ws a in nn s /\ (fval a <= fval s)%Q /\ (fval s < 1)%Q /\ (Qabs (fval s - (fval a + qsum ws)) <= inject_Z (Z.of_nat (length ws)) * B (-54))%Q.
Proof.
  induction ws as [|w ws IH]; intros a Ha Hws L; cbn [fold_left length qsum] in *; cbv zeta.
  - split; auto. split; [lra|]. split; [apply lt_one; auto|]. setoid_replace (fval a - (fval a + 0))%Q with 0%Q by ring. discriminate.
  - inversion Hws as [|? ? Hw Hr]; subst. destruct (add_cases a w Ha Hw) as [C|(N & G & A)].
    + rewrite C, fold_inf in L by auto. discriminate.
    + destruct (IH (add a w) N Hr L) as (S1 & S2 & S3 & S4). cbv zeta in *. set (s := fold_left add ws (add a w)) in *.
      split; auto. split; [lra|]. split; auto. specialize (A ltac:(lra)). rewrite Nat2Z.inj_succ. unfold Z.succ. rewrite inject_Z_plus. change (inject_Z 1) with 1%Q.
      apply Qabs_Qle_condition in A. apply Qabs_Qle_condition in S4. apply Qabs_Qle_condition. lra.
Qed.

Section R2.
Variable ty : ftype.
Hypothesis Hprec : 2 <= prec ty.
Notation pr := (prec ty).
Notation em := (emax ty).
Notation fe := (fexp pr em).
(* a number of the type above the exact value is above the rounded value *)
Lemma rnd_below : forall x v y, rnd ty false x v -> v <> S754_infinity false -> nonneg ty y -> (x <= fval y)%Q -> (fval v <= fval y)%Q.
Proof.
  intros x v y R Nv Ny L. destruct (rnd_cases ty Hprec _ _ R) as (k & q & M & Q1 & Bq & Lq & [C|[C Ev]]); [contradiction|].
  destruct Ny as [->|(m & e & -> & Vy)].
  { exfalso. change (fval (S754_zero false)) with 0%Q in L. destruct M as [M _]. pose proof (B_pos (k - 1)). lra. }
  rewrite fval_pos in *. rewrite Ev. apply valid_iff in Vy. destruct Vy as [V1 V2]. set (d := Zpos (digits2_pos m)) in *.
  assert (My : mag (V m e) (d + e)). { apply (mag_between _ (Zpos m)); [lia|lra|]. apply Qmult_lt_r; [apply B_pos|]. rewrite <- Zlt_Qlt. lia. }
  pose proof (mag_mono _ _ _ _ L M My) as Mk. assert (Fe : fe k <= e) by (unfold fexp in *; lia).
  assert (Ey : (V m e * B (- fe k) == inject_Z (Zpos m * 2 ^ (e - fe k)))%Q).
  { rewrite inject_Z_mult, <- (B_int (e - fe k)) by lia. rewrite <- Qmult_assoc, <- B_plus. unfold Z.sub. reflexivity. }
  assert (q <= Zpos m * 2 ^ (e - fe k)).
  { eapply rounds_mono; [|exact Q1|apply rounds_self]. rewrite <- Ey. apply Qmult_le_compat_r; [exact L|]. pose proof (B_pos (- fe k)). lra. }
  setoid_replace (V m e) with (V m e * B (- fe k) * B (fe k))%Q by (rewrite <- (Qmult_assoc (V m e)), B_inv; ring).
  rewrite Ey. apply Qmult_le_compat_r; [rewrite <- Zle_Qle; lia|]. pose proof (B_pos (fe k)). lra.
Qed.
End R2.

(** Quotients. *)
Lemma div_gen : forall mc ec mt et, (B (-64) <= V mc ec <= B 64)%Q -> (B 0 <= V mt et <= B 64)%Q ->
  exists m e k, SFdiv 53 1024 (S754_finite false mc ec) (S754_finite false mt et) = S754_finite false m e /\ valid b64 (S754_finite false m e) /\ rnd b64 false (V mc ec / V mt et) (S754_finite false m e) /\
    mag (V mc ec / V mt et) k /\ -130 < k <= 65 /\ within (V m e) (V mc ec / V mt et) (1 - u) (1 + u).
Proof.
  intros mc ec mt et [C1 C2] [T1 T2]. assert (L : (B 64 < B 65)%Q) by reflexivity.
  pose proof (digits_mag mc ec (-64) 65 C1 ltac:(lra)) as Dc. pose proof (digits_mag mt et 0 65 T1 ltac:(lra)) as Dt.
  pose proof (div_rnd b64 ltac:(fmt) false mc ec false mt et ltac:(fmt)) as R. cbn [xorb] in R.
  change (SFdiv (prec b64) (emax b64)) with (SFdiv 53 1024) in R. set (x := (V mc ec / V mt et)%Q) in *. set (v := SFdiv 53 1024 _ _) in *.
  pose proof (V_pos mt et) as Pt. pose proof (V_pos mc ec) as Pc. assert (Ex : (x * V mt et == V mc ec)%Q) by (apply div_back; exact Pt).
  assert (X1 : (B (- 130) <= x)%Q).
  { apply (Qmult_le_r _ _ (V mt et)); auto. rewrite Ex. apply Qle_trans with (B (- 130) * B 64)%Q; [apply Qmult_le_l; [reflexivity|exact T2]|]. rewrite <- B_plus. eapply Qle_trans; [|exact C1]. apply B_le. lia. }
  assert (X2 : (x < B 65)%Q).
  { apply (Qmult_lt_r _ _ (V mt et)); auto. rewrite Ex. apply Qlt_le_trans with (B 65 * B 0)%Q; [rewrite B_0; lra|]. apply Qmult_le_l; [reflexivity|exact T1]. }
  destruct R as (k & q & M & Rest). pose proof (mag_bounds _ _ _ _ M X1 X2) as Hk.
  assert (R : rnd b64 false x v) by (exists k, q; auto).
  destruct (rnd_normal b64 ltac:(fmt) _ _ _ _ R M ltac:(fmt) ltac:(fmt)) as (m & e & E & Vd & _ & Er & Br & _).
  rewrite E in *. exists m, e, k. split; [reflexivity|]. split; [exact Vd|]. split; [exact R|]. split; [exact M|]. split; [lia|].
  apply within_err; [|exact Er]. pose proof (B_pos (- 130)). lra.
Qed.
Definition four : Q := 1 # 2251799813685248.
Lemma quot_ok : forall v x X n N, (0 < x -> 0 < n -> 0 < N -> within X x (1 - u) (1 + u) -> within N n (1 - u) (1 + u) -> within v (X / N) (1 - u) (1 + u) -> within v (x / n) (1 - four) (1 + four))%Q.
Proof.
  intros v x X n N Px Pn PN Wx Wn Wv. assert (U1 : (0 < 1 - u)%Q) by reflexivity. assert (U2 : (0 <= 1 - u)%Q) by discriminate. assert (U3 : (0 <= / (1 + u))%Q) by discriminate.
  assert (Pi : (0 < / n)%Q) by (apply Qinv_lt_0_compat; auto). pose proof (within_inv _ _ _ _ U1 Pn Wn) as Wi.
  pose proof (within_mul _ _ _ _ _ _ _ _ U2 U3 (Qlt_le_weak _ _ Px) (Qlt_le_weak _ _ Pi) Wx Wi) as Wq.
  change (X * / N)%Q with (X / N)%Q in Wq. change (x * / n)%Q with (x / n)%Q in Wq.
  assert (Pq : (0 < x / n)%Q) by (unfold Qdiv; setoid_replace 0%Q with (0 * / n)%Q by ring; apply Qmult_lt_r; auto).
  set (y := (x / n)%Q) in *. destruct Wq as [Q1 Q2]. destruct Wv as [D1 D2].
  set (lo := ((1 - u) * / (1 + u))%Q) in *. set (hi := ((1 + u) * / (1 - u))%Q) in *.
  assert (A1 : ((1 - u) * lo * y <= v)%Q). { eapply Qle_trans; [|exact D1]. rewrite <- Qmult_assoc. apply Qmult_le_l; [reflexivity|exact Q1]. }
  assert (A2 : (v <= (1 + u) * hi * y)%Q). { eapply Qle_trans; [exact D2|]. rewrite <- Qmult_assoc. apply Qmult_le_l; [reflexivity|exact Q2]. }
  split.
  - eapply Qle_trans; [|exact A1]. apply Qmult_le_compat_r; [discriminate|lra].
  - eapply Qle_trans; [exact A2|]. apply Qmult_le_compat_r; [discriminate|lra].
Qed.

(** The share of the generators without weight. *)
Lemma gap : forall s, nn s -> (fval s < 1)%Q -> (fval s <= 1 - B (-53))%Q.
Proof.
  intros s [->|(m & e & -> & H)] L; [discriminate|]. rewrite fval_pos in *. destruct (valid_facts _ _ H) as (H1 & H2 & H3).
  assert (E : e <= -53).
  { destruct (Z_le_gt_dec e (-53)); auto. exfalso. specialize (H2 ltac:(lia)). assert (P : (B (-52) <= B e)%Q) by (apply B_le; lia). change (B (-52)) with (1 # 4503599627370496)%Q in P.
    assert (L2 : (inject_Z (2 ^ 52) <= inject_Z (Zpos m))%Q) by (rewrite <- Zle_Qle; lia). change (inject_Z (2 ^ 52)) with 4503599627370496%Q in L2.
    assert (inject_Z (Zpos m) * (1 # 4503599627370496) <= V m e)%Q by (apply Qmult_le_l; [lra|exact P]). lra. }
  assert (P : (B e <= B (-53))%Q) by (apply B_le; lia). change (B (-53)) with (1 # 9007199254740992)%Q in *.
  assert (L2 : (inject_Z (Zpos m) <= inject_Z (2 ^ 53 - 1))%Q) by (rewrite <- Zle_Qle; lia). change (inject_Z (2 ^ 53 - 1)) with 9007199254740991%Q in L2.
  assert (inject_Z (Zpos m) * B e <= inject_Z (Zpos m) * (1 # 9007199254740992))%Q by (apply Qmult_le_l; [pose proof (inj_pos (Zpos m) ltac:(lia)); lra|exact P]). lra.
Qed.
Lemma one_minus : forall s, nn s -> (fval s < 1)%Q -> exists m e, SFsub 53 1024 one s = S754_finite false m e /\ (B (-64) <= V m e <= B 64)%Q /\
  within (V m e) (1 - fval s) (1 - u) (1 + u).
Proof.
  intros s Ns L. pose proof (gap s Ns L) as G. pose proof (nonneg_val b64 s Ns) as N0. assert (One : (V 4503599627370496 (-52) == 1)%Q) by (vm_compute; reflexivity).
  destruct Ns as [->|(m & e & -> & H)].
  - eexists _, _. split; [reflexivity|]. split; [split; vm_compute; discriminate|]. split; vm_compute; discriminate.
  - rewrite fval_pos in *. assert (P : (V m e < V 4503599627370496 (-52))%Q) by (rewrite One; exact L). pose proof (sub_rnd b64 ltac:(fmt) _ _ _ _ P) as R0.
    change (SFsub (prec b64) (emax b64)) with (SFsub 53 1024) in R0. set (v := SFsub 53 1024 _ _) in *.
    assert (R : rnd b64 false (1 - V m e) v) by (eapply rnd_comp; [|exact R0]; rewrite One; reflexivity). clear R0.
    destruct R as (k & q & M & Rest). assert (X1 : (B (-53) <= 1 - V m e)%Q) by lra. assert (X2 : (1 - V m e < B 1)%Q) by (change (B 1) with 2%Q; lra).
    pose proof (mag_bounds _ _ _ _ M X1 X2) as Hk. assert (R : rnd b64 false (1 - V m e) v) by (exists k, q; auto).
    destruct (rnd_normal b64 ltac:(fmt) _ _ _ _ R M ltac:(fmt) ltac:(fmt)) as (m' & e' & E & _ & _ & Er & [B1 B2] & _).
    rewrite E in *. exists m', e'. split; [reflexivity|]. split.
    + split; [eapply Qle_trans; [|exact B1]; apply B_le; lia|eapply Qle_trans; [exact B2|]; apply B_le; lia].
    + change (fval (S754_finite false m e)) with (V m e). apply within_err; [|exact Er]. pose proof (B_pos (-53)). lra.
Qed.
Lemma share_ok : forall s n, nn s -> (fval s < 1)%Q -> 0 < n < 2 ^ 64 -> exists m e, SFdiv 53 1024 (SFsub 53 1024 one s) (toDouble n) = S754_finite false m e /\
  valid b64 (S754_finite false m e) /\ within (V m e) ((1 - fval s) / inject_Z n) (1 - four) (1 + four).
Proof.
  intros s n Ns L Hn. destruct (one_minus s Ns L) as (mc & ec & Ec & Bc & Wc). destruct (toDouble_ok n Hn) as (mt & et & kt & Et & _ & _ & _ & _ & Kt & [Bt1 Bt2] & Wt).
  assert (Bt : (B 0 <= V mt et <= B 64)%Q) by (split; [eapply Qle_trans; [|exact Bt1]; apply B_le; lia|eapply Qle_trans; [exact Bt2|]; apply B_le; lia]).
  destruct (div_gen _ _ _ _ Bc Bt) as (m & e & k & E & Vd & _ & _ & _ & W). rewrite Ec, Et. exists m, e. split; [exact E|]. split; [exact Vd|].
  eapply quot_ok; [lra|apply inj_pos; lia|apply V_pos|exact Wc|exact Wt|exact W].
Qed.

(** Weights of intervals. *)
Definition ratio (a t : Z) : spec_float := SFdiv 53 1024 (toDouble a) (toDouble t).
Lemma ratio_ok : forall a t, 0 < a <= t -> t < 2 ^ 64 -> exists m e x, ratio a t = S754_finite false m e /\ valid b64 (S754_finite false m e) /\
  rnd b64 false x (S754_finite false m e) /\ (V m e <= 1)%Q /\ (B (-130) <= V m e)%Q /\ within (V m e) (inject_Z a / inject_Z t) (1 - four) (1 + four) /\
  (t <= 2 ^ 53 -> (x == inject_Z a / inject_Z t)%Q) /\ (a = t -> (x == 1)%Q).
Proof.
  intros a t Ha Ht. destruct (toDouble_ok a ltac:(lia)) as (mc & ec & kc & Ec & Vc & _ & Rc & Mc & Kc & [Bc1 Bc2] & Wc). destruct (toDouble_ok t ltac:(lia)) as (mt & et & kt & Et & Vt & _ & Rt & Mt & Kt & [Bt1 Bt2] & Wt).
  assert (Bt : (B 0 <= V mt et <= B 64)%Q) by (split; [eapply Qle_trans; [|exact Bt1]; apply B_le; lia|eapply Qle_trans; [exact Bt2|]; apply B_le; lia]).
  assert (Bc : (B (-64) <= V mc ec <= B 64)%Q) by (split; [eapply Qle_trans; [|exact Bc1]; apply B_le; lia|eapply Qle_trans; [exact Bc2|]; apply B_le; lia]).
  destruct (div_gen _ _ _ _ Bc Bt) as (m & e & k & E & Vd & R & M & K & W). exists m, e, (V mc ec / V mt et)%Q. unfold ratio. rewrite Ec, Et.
  pose proof (inj_pos a ltac:(lia)) as Pa. pose proof (inj_pos t ltac:(lia)) as Pt. pose proof (V_pos mt et) as PVt.
  split; [exact E|]. split; [exact Vd|]. split; [exact R|].
  assert (Ord : (V mc ec <= V mt et)%Q).
  { eapply (rnd_mono b64 ltac:(fmt)); [|exact Rc|exact Rt|exact Mc|exact Mt|fmt|fmt|fmt]. rewrite <- Zle_Qle. lia. }
  split; [|split; [|split; [|split]]].
  - assert (Eo : (fval one == 1)%Q) by (vm_compute; reflexivity). rewrite <- Eo. rewrite <- (fval_pos m e).
    apply (rnd_below b64 ltac:(fmt) _ _ one R); [discriminate|right; eexists _, _; split; [reflexivity|vm_compute; reflexivity]|]. rewrite Eo.
    apply (Qmult_le_r _ _ (V mt et)); auto. rewrite div_back by auto. lra.
  - destruct (rnd_normal b64 ltac:(fmt) _ _ _ _ R M ltac:(fmt) ltac:(fmt)) as (m' & e' & E' & _ & _ & _ & [B1 B2] & _). inversion E'; subst m' e'.
    eapply Qle_trans; [|exact B1]. apply B_le. lia.
  - eapply quot_ok; [exact Pa|exact Pt|exact PVt|exact Wc|exact Wt|exact W].
  - intros T53. assert (Xc : (V mc ec == inject_Z a)%Q).
    { rewrite <- fval_pos. apply (rnd_dyadic b64 ltac:(fmt) _ _ a 0 Rc); [discriminate|change (prec b64) with 53; lia|rewrite B_0; ring|fmt]. }
    assert (Xt : (V mt et == inject_Z t)%Q).
    { rewrite <- fval_pos. apply (rnd_dyadic b64 ltac:(fmt) _ _ t 0 Rt); [discriminate|change (prec b64) with 53; lia|rewrite B_0; ring|fmt]. }
    rewrite Xc, Xt. reflexivity.
  - intros ->. rewrite Ec in Et. inversion Et; subst mt et. apply div_self. exact PVt.
Qed.

Lemma rnd_fun : forall ty s x y v w, (x == y)%Q -> rnd ty s x v -> rnd ty s y w -> v = w.
Proof.
  intros ty s x y v w E (k & q & M & R & _ & ->) (k' & q' & M' & R' & _ & ->). assert (k = k') by (eapply mag_fun; eauto). subst k'.
  assert (q = q') by (eapply rounds_unique; [exact R|]; eapply rounds_comp; [|exact R']; rewrite E; reflexivity). subst q'. reflexivity.
Qed.
Lemma nn_one : nn one. Proof. right. eexists _, _. split; [reflexivity|]. vm_compute. reflexivity. Qed.
Lemma fval_one : (fval one == 1)%Q. Proof. vm_compute. reflexivity. Qed.
Lemma one_ok : forall t, 0 < t < 2 ^ 64 -> ratio t t = one.
Proof.
  intros t Ht. destruct (ratio_ok t t ltac:(lia) ltac:(lia)) as (m & e & x & E & _ & R & _ & _ & _ & _ & X). rewrite E.
  eapply (rnd_exact b64 ltac:(fmt)); [vm_compute; reflexivity| |exact R]. rewrite X by reflexivity. vm_compute. reflexivity.
Qed.
Lemma two_ok : forall a b, 0 < a -> 0 < b -> a + b <= 2 ^ 53 -> SFltb one (add (add (S754_zero false) (ratio a (a + b))) (ratio b (a + b))) = false.
Proof.
  intros a b Ha Hb Ht. destruct (ratio_ok a (a + b) ltac:(lia) ltac:(lia)) as (m1 & e1 & x1 & E1 & V1 & R1 & L1 & G1 & _ & X1 & _).
  destruct (ratio_ok b (a + b) ltac:(lia) ltac:(lia)) as (m2 & e2 & x2 & E2 & V2 & R2 & L2 & G2 & _ & X2 & _). specialize (X1 Ht). specialize (X2 Ht).
  rewrite E1, E2. change (add (S754_zero false) (S754_finite false m1 e1)) with (S754_finite false m1 e1).
  pose proof (inj_pos a Ha) as Pa. pose proof (inj_pos b Hb) as Pb. pose proof (inj_pos (a + b) ltac:(lia)) as Pt. assert (Et : (inject_Z (a + b) == inject_Z a + inject_Z b)%Q) by (rewrite inject_Z_plus; reflexivity).
  assert (Sx : (x1 + x2 == 1)%Q). { rewrite X1, X2. unfold Qdiv. rewrite <- Qmult_plus_distr_l, <- Et. apply div_self. exact Pt. }
  assert (Y1 : (x1 < B 0)%Q). { rewrite B_0. apply (Qmult_lt_r _ _ (inject_Z (a + b))); auto. rewrite X1, div_back by auto. lra. }
  assert (Y2 : (x2 < B 0)%Q). { rewrite B_0. apply (Qmult_lt_r _ _ (inject_Z (a + b))); auto. rewrite X2, div_back by auto. lra. }
  pose proof (rnd_abs b64 ltac:(fmt) _ _ 0 R1 ltac:(discriminate) Y1 ltac:(fmt)) as A1. pose proof (rnd_abs b64 ltac:(fmt) _ _ 0 R2 ltac:(discriminate) Y2 ltac:(fmt)) as A2.
  rewrite fval_pos in A1, A2. change (B (0 - prec b64 - 1)) with (1 # 18014398509481984)%Q in A1, A2. apply Qabs_Qle_condition in A1. apply Qabs_Qle_condition in A2.
  pose proof (add_rnd b64 ltac:(fmt) m1 e1 m2 e2) as R. change (SFadd (prec b64) (emax b64)) with add in R. set (v := add _ _) in *. set (x := (V m1 e1 + V m2 e2)%Q) in *.
  pose proof (V_pos m1 e1) as P1. pose proof (V_pos m2 e2) as P2.
  assert (U : (x <= 1 + (1 # 9007199254740992))%Q) by (unfold x; lra).
  destruct (rnd_cases b64 ltac:(fmt) _ _ R) as (k & q & M & Q1 & Bq & Lq & D). assert (X3 : (B (-130) <= x)%Q) by (unfold x; lra). assert (X4 : (x < B 1)%Q) by (change (B 1) with 2%Q; lra).
  pose proof (mag_bounds _ _ _ _ M X3 X4) as Hk. destruct (rnd_normal b64 ltac:(fmt) _ _ _ _ R M ltac:(fmt) ltac:(fmt)) as (m & e & Ev & Vv & _).
  destruct D as [D|[D Fv]]; [rewrite D in Ev; discriminate|]. apply not_above_one; [exact D|].
  destruct (Qlt_le_dec 1 x) as [G|G].
  - assert (k = 1). { destruct (mag_bounds _ _ 0 1 M) as [K1 K2]; [rewrite B_0; lra|exact X4|lia]. } subst k.
    change (fexp (prec b64) (emax b64) 1) with (-52) in *. change (B (- -52)) with 4503599627370496%Q in Q1.
    assert (q <= 4503599627370496).
    { apply (rounds_mono (x * 4503599627370496)%Q (4503599627370496 + (1 # 2))%Q); [lra|exact Q1|]. split; [|intros _; reflexivity].
      setoid_replace (4503599627370496 + (1 # 2) - inject_Z 4503599627370496)%Q with (1 # 2)%Q; [discriminate|]. change (inject_Z 4503599627370496) with 4503599627370496%Q. ring. }
    rewrite Fv. change (B (-52)) with (1 # 4503599627370496)%Q. assert (inject_Z q <= inject_Z 4503599627370496)%Q by (rewrite <- Zle_Qle; lia).
    change (inject_Z 4503599627370496) with 4503599627370496%Q in H0. lra.
  - rewrite <- fval_one. apply (rnd_below b64 ltac:(fmt) _ _ one R); [rewrite Ev; discriminate|apply nn_one|]. rewrite fval_one. exact G.
Qed.

Fixpoint zsum (l : list Z) : Z := match l with [] => 0 | z :: r => z + zsum r end.
Lemma zsum_pos : forall l, Forall (fun z => 0 < z) l -> 0 <= zsum l.
Proof. induction l as [|z l IH]; intros H; cbn [zsum]; [lia|]. inversion H; subst. specialize (IH ltac:(auto)). lia. Qed.
Lemma pow_ok : forall k ss a p, 0 <= k <= 53 -> Forall (fun z => 0 < z) ss -> nn a -> 0 <= p -> (fval a == inject_Z p * B (- k))%Q -> p + zsum ss <= 2 ^ k ->
  nn (fold_left add (map (fun s => ratio s (2 ^ k)) ss) a) /\ (fval (fold_left add (map (fun s => ratio s (2 ^ k)) ss) a) == inject_Z (p + zsum ss) * B (- k))%Q.
Proof.
  intros k ss. induction ss as [|s ss IH]; intros a p Hk Hss Na Hp Ea Hs; cbn [map fold_left zsum] in *; [rewrite Z.add_0_r; auto|].
  inversion Hss as [|? ? Hs0 Hss']; subst. pose proof (zsum_pos ss Hss') as Z0. assert (T : 2 ^ k <= 2 ^ 53) by (apply Z.pow_le_mono_r; lia).
  destruct (ratio_ok s (2 ^ k) ltac:(lia) ltac:(lia)) as (m & e & x & E & Vd & R & L & G & _ & X & _). specialize (X T).
  assert (Xw : (x == inject_Z s * B (- k))%Q).
  { rewrite X, <- (B_int k) by lia. setoid_replace (B (- k)) with (/ B k)%Q; [reflexivity|]. pose proof (B_pos k) as P. rewrite <- (Qmult_1_l (/ B k)), <- (B_inv k). field. lra. }
  assert (Ew : (V m e == inject_Z s * B (- k))%Q).
  { rewrite <- fval_pos, <- Xw. apply (rnd_dyadic b64 ltac:(fmt) _ _ s (- k) R); [discriminate|change (prec b64) with 53; lia|exact Xw|fmt]. }
  assert (Es : (inject_Z (p + s) * B (- k) == fval a + V m e)%Q) by (rewrite Ea, Ew, inject_Z_plus; ring).
  replace (p + (s + zsum ss)) with (p + s + zsum ss) by lia. rewrite E. apply IH; auto; try lia.
  - destruct Na as [->|(ma & ea & -> & Va)]; [right; exists m, e; split; [reflexivity|exact Vd]|].
    pose proof (add_rnd b64 ltac:(fmt) ma ea m e) as Ra. change (SFadd (prec b64) (emax b64)) with add in Ra. destruct (rnd_cases b64 ltac:(fmt) _ _ Ra) as (j & q & M & _ & _ & _ & [D|[D _]]); [|exact D].
    exfalso. rewrite fval_pos in Es. assert (P : (V ma ea + V m e <= 1)%Q).
    { rewrite <- Es. apply Qle_trans with (inject_Z (2 ^ k) * B (- k))%Q; [apply Qmult_le_compat_r; [rewrite <- Zle_Qle; lia|pose proof (B_pos (- k)); lra]|].
      rewrite <- (B_int k) by lia. rewrite Qmult_comm, B_inv. lra. }
    pose proof (V_pos ma ea). pose proof (mag_bounds _ _ (-130) 1 M ltac:(lra) ltac:(change (B 1) with 2%Q; lra)) as Hj.
    destruct (rnd_normal b64 ltac:(fmt) _ _ _ _ Ra M ltac:(fmt) ltac:(fmt)) as (m' & e' & Ev & _). rewrite D in Ev. discriminate.
  - rewrite Es. destruct Na as [->|(ma & ea & -> & Va)]; [cbn [SFadd]; rewrite fval_pos; change (fval (S754_zero false)) with 0%Q; ring|].
    pose proof (add_rnd b64 ltac:(fmt) ma ea m e) as Ra. change (SFadd (prec b64) (emax b64)) with add in Ra. rewrite fval_pos in *.
    destruct (rnd_cases b64 ltac:(fmt) _ _ Ra) as (j & q & M & _ & _ & _ & D).
    assert (P : (V ma ea + V m e <= 1)%Q).
    { rewrite <- Es. apply Qle_trans with (inject_Z (2 ^ k) * B (- k))%Q; [apply Qmult_le_compat_r; [rewrite <- Zle_Qle; lia|pose proof (B_pos (- k)); lra]|].
      rewrite <- (B_int k) by lia. rewrite Qmult_comm, B_inv. lra. }
    pose proof (V_pos ma ea). pose proof (mag_bounds _ _ (-130) 1 M ltac:(lra) ltac:(change (B 1) with 2%Q; lra)) as Hj.
    destruct (rnd_normal b64 ltac:(fmt) _ _ _ _ Ra M ltac:(fmt) ltac:(fmt)) as (m' & e' & Ev & _).
    apply (rnd_dyadic b64 ltac:(fmt) _ _ (p + s) (- k) Ra); [rewrite Ev; discriminate|change (prec b64) with 53; lia|rewrite Es; reflexivity|fmt].
Qed.
Lemma equal_ratio : forall s n, 0 < s -> 0 < n -> n * s <= 2 ^ 53 -> ratio s (n * s) = ratio 1 n.
Proof.
  intros s n Hs Hn H. destruct (ratio_ok s (n * s) ltac:(nia) ltac:(lia)) as (m1 & e1 & x1 & E1 & _ & R1 & _ & _ & _ & X1 & _).
  destruct (ratio_ok 1 n ltac:(lia) ltac:(nia)) as (m2 & e2 & x2 & E2 & _ & R2 & _ & _ & _ & X2 & _). specialize (X1 H). specialize (X2 ltac:(nia)).
  rewrite E1, E2. eapply rnd_fun; [|exact R1|exact R2]. rewrite X1, X2, inject_Z_mult. pose proof (inj_pos s Hs). pose proof (inj_pos n Hn). change (inject_Z 1) with 1%Q. field. split; lra.
Qed.
Lemma cmp_gt : forall a b, (a < b)%positive -> match Some (Pos.compare_cont Eq a b) with Some Lt => true | _ => false end = true.
Proof. intros a b. change (Pos.compare_cont Eq a b) with (a ?= b)%positive. destruct (Pos.compare_spec a b); auto; lia. Qed.
Lemma pos_lt' : forall a b, Zpos a < Zpos b -> (a < b)%positive. Proof. intros. lia. Qed.
Lemma above_one : forall m e, valid b64 (S754_finite false m e) -> (1 < V m e)%Q -> SFltb one (S754_finite false m e) = true.
Proof.
  intros m e H G. destruct (valid_facts _ _ H) as (H1 & _). unfold SFltb, SFcompare. destruct (Z.compare_spec (-52) e) as [E|E|E]; auto.
  - subst e. change (B (-52)) with (1 # 4503599627370496)%Q in G. assert (L : (inject_Z (2 ^ 52) < inject_Z (Zpos m))%Q) by (change (inject_Z (2 ^ 52)) with 4503599627370496%Q; lra).
    rewrite <- Zlt_Qlt in L. change (2 ^ 52) with 4503599627370496 in L. apply cmp_gt. apply pos_lt'. exact L.
  - exfalso. assert (P : (B e <= B (-53))%Q) by (apply B_le; lia). change (B (-53)) with (1 # 9007199254740992)%Q in P. pose proof (B_pos e) as P0.
    assert (L2 : (inject_Z (Zpos m) < inject_Z (2 ^ 53))%Q) by (rewrite <- Zlt_Qlt; lia). change (inject_Z (2 ^ 53)) with 9007199254740992%Q in L2.
    assert (V m e < 9007199254740992 * B e)%Q by (apply Qmult_lt_r; auto). lra.
Qed.
Lemma nth_ext_error : forall A (a b : list A), (forall n, nth_error a n = nth_error b n) -> a = b.
Proof.
  induction a as [|x a IH]; intros [|y b] H; auto; try (specialize (H 0%nat); discriminate). f_equal; [specialize (H 0%nat); cbn in H; congruence|]. apply IH. intros n. exact (H (S n)).
Qed.
