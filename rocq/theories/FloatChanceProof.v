(** How likely each floating point value is: lemmas. *)
From Coq Require Import List ZArith QArith Lia Lqa Bool SpecFloat.
From Verif Require Import Base TreeModel RandomModel FloatModel FloatSpec FloatProof FloatTree PropFloat BoolProof ChanceSpec ChanceProof ChanceLawProof FloatChanceSpec.
Import ListNotations.
Local Open Scope Q_scope.

(** ** Counting *)
Lemma average_lt : forall hi k, (0 <= hi)%Z -> (0 <= k <= hi + 1)%Z -> average 0 hi (fun z => if (z <? k)%Z then 1 else 0) == inject_Z k / inject_Z (hi + 1).
Proof.
  intros hi k Hh Hk. destruct (Z.eq_dec k 0) as [->|N].
  - rewrite average_none; [unfold Qdiv; change (inject_Z 0) with 0; ring|auto|]. intros z Hz. destruct (Z.ltb_spec z 0); [lia|reflexivity].
  - refine (Qeq_trans _ _ _ (average_ext 0 hi _ (fun z => if (z <=? k - 1)%Z then 1 else 0) _) _).
    + intros z Hz. destruct (Z.ltb_spec z k), (Z.leb_spec z (k - 1)); try lia; reflexivity.
    + rewrite average_below by lia. replace (k - 1 + 1)%Z with k by lia. ring.
Qed.
Lemma average_between : forall hi a b, (0 <= hi)%Z -> (0 <= a <= b)%Z -> (b <= hi + 1)%Z -> average 0 hi (fun z => if (a <=? z)%Z && (z <? b)%Z then 1 else 0) == inject_Z (b - a) / inject_Z (hi + 1).
Proof.
  intros hi a b Hh Ha Hb.
  assert (E : average 0 hi (fun z => if (a <=? z)%Z && (z <? b)%Z then 1 else 0) + average 0 hi (fun z => if (z <? a)%Z then 1 else 0) == average 0 hi (fun z => if (z <? b)%Z then 1 else 0)).
  { rewrite <- average_plus. apply average_ext. intros z Hz. destruct (Z.leb_spec a z), (Z.ltb_spec z b), (Z.ltb_spec z a); cbn [andb]; try lia; reflexivity. }
  rewrite !average_lt in E by lia. unfold Zminus. rewrite inject_Z_plus, inject_Z_opp. unfold Qdiv in *. lra.
Qed.
(** The numbers between a and b in both halves. *)
Lemma average_halves : forall H a b, (0 < H)%Z -> (0 <= a <= b)%Z -> (b <= H)%Z ->
  average 0 (2 * H - 1) (fun z => if (a <=? z mod H)%Z && (z mod H <? b)%Z then 1 else 0) == inject_Z (b - a) / inject_Z H.
Proof.
  intros H a b HH Ha Hb.
  refine (Qeq_trans _ _ _ (average_ext 0 (2 * H - 1) _ (fun z => (if (a <=? z)%Z && (z <? b)%Z then 1 else 0) + (if (H + a <=? z)%Z && (z <? H + b)%Z then 1 else 0)) _) _).
  - intros z Hz. destruct (Z.lt_ge_cases z H) as [L|L].
    + rewrite Z.mod_small by lia. destruct (Z.leb_spec a z), (Z.ltb_spec z b), (Z.leb_spec (H + a) z), (Z.ltb_spec z (H + b)); cbn [andb]; try lia; reflexivity.
    + replace (z mod H)%Z with (z - H)%Z by (apply (Z.mod_unique_pos z H 1); lia).
      destruct (Z.leb_spec a (z - H)), (Z.ltb_spec (z - H) b), (Z.leb_spec a z), (Z.ltb_spec z b), (Z.leb_spec (H + a) z), (Z.ltb_spec z (H + b)); cbn [andb]; try lia; reflexivity.
  - rewrite average_plus, !average_between by lia. replace (H + b - (H + a))%Z with (b - a)%Z by lia. replace (2 * H - 1 + 1)%Z with (2 * H)%Z by lia.
    rewrite inject_Z_mult. change (inject_Z 2) with 2. field. intros E. apply (inject_Z_injective H 0) in E. lia.
Qed.
Local Open Scope Z_scope.

Section Type_.
Variable ty : ftype.
Hypothesis Hty : standard ty.
Notation M := (2 ^ (prec ty - 1)).
Notation half := (2 * emax ty * 2 ^ (prec ty - 1)).

Lemma M_pos : 0 < M. Proof. destruct Hty as [->| ->]; reflexivity. Qed.
Lemma em_pos : 2 <= emax ty. Proof. destruct (standard_ok ty Hty). lia. Qed.
Lemma half_pos : 0 < half. Proof. assert (A := M_pos). assert (B := em_pos). nia. Qed.

(** The bounds of the finite values. *)
Lemma finite_bounds : forall s m e, valid ty (S754_finite s m e) -> 3 - emax ty - prec ty <= e <= emax ty - prec ty /\ Zpos m < 2 * M /\ (3 - emax ty - prec ty < e -> M <= Zpos m).
Proof.
  intros s m e Hv. destruct (standard_ok ty Hty) as (H1 & H2 & H3). apply valid_iff in Hv. destruct Hv as [F L]. unfold fexp, emin in F. assert (B := digits2_bound m).
  assert (W : 2 ^ prec ty = 2 * M) by (replace (prec ty) with (Z.succ (prec ty - 1)) at 1 by lia; rewrite Z.pow_succ_r by lia; reflexivity).
  split; [lia|]. split.
  - rewrite <- W. eapply Z.lt_le_trans; [apply B|]. apply Z.pow_le_mono_r; lia.
  - intros G. replace (prec ty - 1) with (Zpos (digits2_pos m) - 1) by lia. apply B.
Qed.

Definition plus (v : spec_float) : Prop := match v with S754_zero s | S754_infinity s | S754_finite s _ _ => s = false | S754_nan => False end.
Lemma rank_compare : forall u v, valid ty u -> valid ty v -> plus u -> plus v -> SFcompare u v = Some (rank ty u ?= rank ty v).
Proof.
  intros u v Hu Hv Pu Pv. assert (A := M_pos). assert (B := em_pos). destruct (standard_ok ty Hty) as (H1 & _ & _).
  destruct u as [s|s| |s m e], v as [t|t| |t n f]; try (cbn [plus] in *; contradiction); cbn [plus] in Pu, Pv; subst; cbn [SFcompare rank].
  - reflexivity.
  - f_equal. symmetry. apply Z.compare_lt_iff. nia.
  - f_equal. symmetry. apply Z.compare_lt_iff. apply finite_bounds in Hv. nia.
  - f_equal. symmetry. apply Z.compare_gt_iff. nia.
  - rewrite Z.compare_refl. reflexivity.
  - f_equal. symmetry. apply Z.compare_gt_iff. apply finite_bounds in Hv. nia.
  - f_equal. symmetry. apply Z.compare_gt_iff. apply finite_bounds in Hu. nia.
  - f_equal. symmetry. apply Z.compare_lt_iff. apply finite_bounds in Hu. nia.
  - apply finite_bounds in Hu, Hv. destruct Hu as (U1 & U2 & U3), Hv as (V1 & V2 & V3). f_equal. destruct (Z.compare_spec e f) as [->|L|L].
    + rewrite Zcompare_plus_compat. reflexivity.
    + symmetry. apply Z.compare_lt_iff. specialize (V3 ltac:(lia)). nia.
    + symmetry. apply Z.compare_gt_iff. specialize (U3 ltac:(lia)). nia.
Qed.

(** The bits of a value. *)
Lemma ofBits_abs : forall raw, 0 <= raw < 2 * half -> SFabs (ofBits ty raw) = ofBits ty (raw mod half).
Proof.
  intros raw H. assert (A := M_pos). assert (B := em_pos). unfold ofBits.
  assert (E1 : (raw mod half) mod M = raw mod M). { rewrite Z.mul_comm, Z.rem_mul_r by nia. rewrite Z.mul_comm, Z.mod_add, Z.mod_mod by lia. reflexivity. }
  assert (E2 : (raw mod half) / M = (raw / M) mod (2 * emax ty)). { rewrite (Z.mul_comm (2 * emax ty)), Z.rem_mul_r by nia. rewrite Z.mul_comm, Z.div_add, (Z.div_small (raw mod M)) by (try lia; apply Z.mod_pos_bound; lia). reflexivity. }
  rewrite E1, E2, Z.mod_mod by lia. assert (E3 : (raw / M) mod (2 * emax ty) / (2 * emax ty) = 0) by (apply Z.div_small, Z.mod_pos_bound; lia). rewrite E3. cbn [Z.odd].
  destruct (_ =? 2 * emax ty - 1); [destruct (_ =? 0); reflexivity|]. destruct (_ =? 0); [destruct (raw mod M); reflexivity|]. destruct (raw mod M + M); reflexivity.
Qed.
Lemma ofBits_small : forall raw, 0 <= raw < half -> if raw <=? (2 * emax ty - 1) * M then plus (ofBits ty raw) /\ rank ty (ofBits ty raw) = raw else ofBits ty raw = S754_nan.
Proof.
  intros raw H. assert (A := M_pos). assert (B := em_pos). unfold ofBits.
  assert (D := Z.div_mod raw M ltac:(lia)). assert (Hm := Z.mod_pos_bound raw M ltac:(lia)). remember (raw mod M) as mant. remember (raw / M) as be.
  assert (Hb : 0 <= be < 2 * emax ty) by nia. rewrite (Z.mod_small be) by lia. rewrite (Z.div_small be) by lia. cbn [Z.odd].
  destruct (Z.eqb_spec be (2 * emax ty - 1)) as [->|N1].
  - destruct (Z.eqb_spec mant 0) as [->|N2].
    + destruct (Z.leb_spec raw ((2 * emax ty - 1) * M)); [|nia]. split; [reflexivity|]. cbn [rank]. nia.
    + destruct (Z.leb_spec raw ((2 * emax ty - 1) * M)); [nia|reflexivity].
  - destruct (Z.leb_spec raw ((2 * emax ty - 1) * M)); [|nia]. destruct (Z.eqb_spec be 0) as [->|N2].
    + destruct mant as [|p|p]; [..|lia]; (split; [reflexivity|]); cbn [rank]; unfold emin; lia.
    + destruct (mant + M) as [|p|p] eqn:Ep; [lia| |lia]. split; [reflexivity|]. cbn [rank]. unfold emin. nia.
Qed.
Lemma ofBits_rank : forall raw, 0 <= raw < 2 * half ->
  if raw mod half <=? (2 * emax ty - 1) * M then plus (SFabs (ofBits ty raw)) /\ rank ty (SFabs (ofBits ty raw)) = raw mod half else ofBits ty raw = S754_nan.
Proof.
  intros raw H. assert (A := half_pos). assert (B := ofBits_small (raw mod half) (Z.mod_pos_bound _ _ A)). rewrite <- ofBits_abs in B by exact H.
  destruct (_ <=? _); [exact B|]. destruct (ofBits ty raw); cbn in B; congruence.
Qed.
Lemma rank_range : forall v, valid ty v -> 0 <= rank ty v <= (2 * emax ty - 1) * M.
Proof.
  intros v Hv. assert (A := M_pos). assert (B := em_pos). destruct (standard_ok ty Hty) as (H1 & _ & _). destruct v as [s|s| |s m e]; cbn [rank]; try nia. apply finite_bounds in Hv. nia.
Qed.

(** ** The chances *)
Definition float_plan : plan spec_float := Draws 0 (2 * half - 1) (fun raw => Ends (Ok (ofBits ty raw))).
Lemma float_law : forall E (r : rst E), drawn ty E r = result (play float_plan r).
Proof.
  intros E r. unfold drawn, genFloat, float_plan. replace (2 ^ (prec ty + Z.log2 (emax ty) + 1) - 1) with (2 * half - 1) by (destruct Hty as [->| ->]; reflexivity).
  unfold gbind, draw. cbn [play]. destruct (0 <=? 2 * half - 1); [|reflexivity]. destruct (unif E 0 (2 * half - 1) r) as [raw r']. reflexivity.
Qed.
Lemma float_likely : forall ev (f : Z -> bool) q, (forall raw, 0 <= raw < 2 * half -> ev (ofBits ty raw) = f raw) ->
  (average 0 (2 * half - 1) (fun z => if f z then 1 else 0) == q)%Q -> likelyResult (drawn ty) ev q.
Proof.
  intros ev f q H Hq. assert (A := half_pos). exists float_plan. split; [apply float_law|]. unfold prob, float_plan. cbn [mean]. destruct (Z.leb_spec 0 (2 * half - 1)); [|lia].
  rewrite <- Hq. apply average_ext. intros z Hz. cbn [when]. rewrite H by lia. reflexivity.
Qed.

Lemma plus_abs : forall v, SFabs v = v -> isNaN v = false -> plus v.
Proof. intros [s|s| |s m e] H N; cbn in *; congruence. Qed.
Lemma abs_valid : forall v, valid ty v -> valid ty (SFabs v).
Proof. intros [s|s| |s m e] H; exact H. Qed.
Lemma within_rank : forall lo hi raw, valid ty lo -> valid ty hi -> plus lo -> plus hi -> 0 <= raw < 2 * half ->
  within lo hi (ofBits ty raw) = (rank ty lo <=? raw mod half) && (raw mod half <? rank ty hi).
Proof.
  intros lo hi raw Hl Hh Pl Ph Hr. assert (R := ofBits_rank raw Hr). assert (V := abs_valid _ (C58_bits ty raw Hty)). assert (B := rank_range hi Hh). unfold within.
  destruct (Z.leb_spec (raw mod half) ((2 * emax ty - 1) * M)) as [L|L].
  - destruct R as [Pr <-]. unfold SFleb, SFltb. rewrite !rank_compare by auto. unfold Z.leb, Z.ltb. destruct (rank ty lo ?= _), (rank ty (SFabs _) ?= _); reflexivity.
  - rewrite R. cbn [SFabs]. destruct (Z.ltb_spec (raw mod half) (rank ty hi)); [lia|]. rewrite andb_false_r. unfold SFltb, SFcompare. destruct hi; rewrite andb_false_r; reflexivity.
Qed.
(** The sign of a value. *)
Definition signOf (v : spec_float) : bool := match v with S754_zero s | S754_infinity s | S754_finite s _ _ => s | S754_nan => false end.
Lemma ofBits_sign : forall raw, 0 <= raw < 2 * half -> isNaN (ofBits ty raw) = false -> signOf (ofBits ty raw) = (half <=? raw).
Proof.
  intros raw H. assert (A := M_pos). assert (B := em_pos). unfold ofBits.
  assert (O : Z.odd (raw / M / (2 * emax ty)) = (half <=? raw)).
  { rewrite Z.div_div by lia. rewrite (Z.mul_comm M). destruct (Z.leb_spec half raw).
    - replace (raw / half) with 1; [reflexivity|]. apply (Z.div_unique_pos raw half 1 (raw - half)); lia.
    - rewrite Z.div_small by lia. reflexivity. }
  rewrite O. destruct (_ =? 2 * emax ty - 1); [destruct (_ =? 0); cbn; congruence|]. destruct (_ =? 0); [destruct (raw mod M); reflexivity|]. destruct (raw mod M + M); cbn; congruence.
Qed.
Lemma same_eq : forall a b, same a b = true <-> a = b.
Proof.
  intros [s|s| |s m e] [t|t| |t n f]; cbn [same]; split; intros H; try congruence; rewrite ?andb_true_iff, ?Bool.eqb_true_iff, ?Pos.eqb_eq, ?Z.eqb_eq in *; try congruence.
  - destruct H as [[-> ->] ->]. reflexivity.
  - injection H. auto.
Qed.
Lemma rank_inj : forall u v, valid ty u -> valid ty v -> isNaN u = false -> isNaN v = false -> signOf u = signOf v -> rank ty u = rank ty v -> u = v.
Proof.
  intros u v Hu Hv Nu Nv S R. assert (P : forall w, isNaN w = false -> plus (SFabs w)) by (intros [s|s| |s m e] N; cbn in *; congruence).
  assert (RA : forall w, rank ty (SFabs w) = rank ty w) by (intros [s|s| |s m e]; reflexivity).
  assert (C := rank_compare (SFabs u) (SFabs v) (abs_valid _ Hu) (abs_valid _ Hv) (P _ Nu) (P _ Nv)). rewrite !RA, R, Z.compare_refl in C.
  destruct u as [s|s| |s m e], v as [t|t| |t n f]; cbn [SFabs SFcompare] in C; cbn [signOf] in S; cbn [isNaN] in Nu, Nv; try discriminate; subst; try reflexivity; try discriminate.
  destruct (e ?= f) eqn:Ef; try discriminate. apply Z.compare_eq in Ef. subst f. injection C as C. change (Pos.compare m n = Eq) in C. apply Pos.compare_eq in C. subst n. reflexivity.
Qed.
Lemma same_bits : forall v raw, valid ty v -> isNaN v = false -> 0 <= raw < 2 * half -> same v (ofBits ty raw) = (raw =? (if signOf v then half else 0) + rank ty v).
Proof.
  intros v raw Hv Nv Hr. assert (A := half_pos). assert (W := M_pos). assert (R := ofBits_rank raw Hr). assert (B := rank_range v Hv). assert (V := C58_bits ty raw Hty).
  assert (RA : forall w, rank ty (SFabs w) = rank ty w) by (intros [s|s| |s m e]; reflexivity).
  assert (RM : raw mod half = if half <=? raw then raw - half else raw).
  { destruct (Z.leb_spec half raw); [symmetry; apply (Z.mod_unique_pos raw half 1); lia|apply Z.mod_small; lia]. }
  apply Bool.eq_true_iff_eq. rewrite same_eq, Z.eqb_eq. split.
  - intros E. assert (Nr : isNaN (ofBits ty raw) = false) by (rewrite <- E; exact Nv). assert (S := ofBits_sign raw Hr Nr). destruct (Z.leb_spec (raw mod half) ((2 * emax ty - 1) * M)) as [L|L].
    + destruct R as [_ R]. rewrite RA in R. rewrite E, R, S, RM. destruct (half <=? raw); lia.
    + rewrite R in Nr. discriminate.
  - intros E. assert (L : raw mod half = rank ty v). { rewrite RM. destruct (signOf v), (Z.leb_spec half raw); nia. }
    destruct (Z.leb_spec (raw mod half) ((2 * emax ty - 1) * M)) as [L'|L']; [|lia]. destruct R as [P R]. rewrite RA in R.
    assert (Nr : isNaN (ofBits ty raw) = false) by (destruct (ofBits ty raw); cbn in P; [reflexivity|reflexivity|contradiction|reflexivity]).
    apply rank_inj; auto; [|lia]. rewrite (ofBits_sign raw Hr Nr). destruct (signOf v), (Z.leb_spec half raw); try reflexivity; nia.
Qed.
End Type_.
