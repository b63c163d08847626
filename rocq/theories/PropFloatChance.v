(** C89: how likely each floating point value is. *)
From Coq Require Import List ZArith QArith Lia Lqa Bool SpecFloat.
From Verif Require Import Base TreeModel BinSearchModel RandomModel ContainerModel EffModel ContextModel RunnerModel RunnerSpec FloatModel FloatSpec FloatProof FloatTree PropFloat BoolProof ChanceSpec ChanceProof ChanceLawProof EndingSpec FloatChanceSpec FloatChanceProof PropSetChance.
From Verif Require StatefulModel.
Import ListNotations.
Local Open Scope Q_scope.

Lemma nz : forall z, (0 < z)%Z -> ~ inject_Z z == 0.
Proof. intros z H E. apply (inject_Z_injective z 0) in E. lia. Qed.

(** Every value other than NaN is equally likely: one bit pattern each. *)
Theorem C89_value : forall ty v, standard ty -> valid ty v -> isNaN v = false -> likelyResult (drawn ty) (same v) (1 / inject_Z (patterns ty)).
Proof.
  intros ty v Hty Hv N. assert (A := half_pos ty Hty). assert (B := rank_range ty Hty v Hv). assert (W := M_pos ty Hty).
  refine (float_likely ty Hty _ _ _ (fun raw Hr => same_bits ty Hty v raw Hv N Hr) _). unfold patterns.
  rewrite (average_single 0 _ _ 1); [replace (2 * (2 * emax ty * 2 ^ (prec ty - 1)) - 1 - 0 + 1)%Z with (2 * (2 * emax ty * 2 ^ (prec ty - 1)))%Z by lia; reflexivity|]. destruct (signOf v); nia.
Qed.
(** 0.1 and 0.0. *)
Example C89_value_ex : likelyResult (drawn binary64) (same d01) (1 / inject_Z (2 ^ 64)) /\ likelyResult (drawn binary32) (same (S754_zero false)) (1 / inject_Z (2 ^ 32)).
Proof. split; [apply (C89_value binary64); [right|..]|apply (C89_value binary32); [left|..]]; reflexivity. Qed.

(** All the bit patterns left over are NaN. *)
Theorem C89_nan : forall ty, standard ty -> likelyResult (drawn ty) isNaN (inject_Z (2 * (2 ^ (prec ty - 1) - 1)) / inject_Z (patterns ty)).
Proof.
  intros ty Hty. assert (A := half_pos ty Hty). assert (W := M_pos ty Hty). assert (X := em_pos ty Hty). set (H := (2 * emax ty * 2 ^ (prec ty - 1))%Z) in *.
  refine (float_likely ty Hty _ (fun raw => ((2 * emax ty - 1) * 2 ^ (prec ty - 1) + 1 <=? raw mod H)%Z && (raw mod H <? H)%Z) _ _ _).
  - intros raw Hr. assert (R := ofBits_rank ty Hty raw Hr). fold H in R. assert (B := Z.mod_pos_bound raw H A).
    destruct (Z.leb_spec (raw mod H) ((2 * emax ty - 1) * 2 ^ (prec ty - 1))) as [L|L], (Z.leb_spec ((2 * emax ty - 1) * 2 ^ (prec ty - 1) + 1) (raw mod H)), (Z.ltb_spec (raw mod H) H); try lia; cbn [andb].
    + destruct R as [P _]. destruct (ofBits ty raw); cbn in P; try reflexivity. contradiction.
    + rewrite R. reflexivity.
  - fold H. rewrite average_halves by (unfold H in *; nia). unfold patterns. fold H. rewrite !inject_Z_mult. change (inject_Z 2) with 2.
    replace (H - ((2 * emax ty - 1) * 2 ^ (prec ty - 1) + 1))%Z with (2 ^ (prec ty - 1) - 1)%Z by (unfold H; lia). field. intros E. apply (inject_Z_injective H 0) in E. lia.
Qed.
(** About one double in 2048 is NaN, about one float in 256. *)
Example C89_nan_ex : likelyResult (drawn binary64) isNaN (inject_Z (2 ^ 53 - 2) / inject_Z (2 ^ 64)) /\ likelyResult (drawn binary32) isNaN (inject_Z (2 ^ 24 - 2) / inject_Z (2 ^ 32)).
Proof. split; [apply (C89_nan binary64); right|apply (C89_nan binary32); left]; reflexivity. Qed.

(** A range of magnitudes is as likely as it has values, which has little to do with how wide it is. *)
Theorem C89_range : forall ty lo hi, standard ty -> valid ty lo -> valid ty hi -> SFabs lo = lo -> SFabs hi = hi -> SFleb lo hi = true ->
  likelyResult (drawn ty) (within lo hi) (inject_Z (2 * (rank ty hi - rank ty lo)) / inject_Z (patterns ty)).
Proof.
  intros ty lo hi Hty Hl Hh Al Ah Le. assert (A := half_pos ty Hty). assert (W := M_pos ty Hty). assert (X := em_pos ty Hty). assert (Bl := rank_range ty Hty lo Hl). assert (Bh := rank_range ty Hty hi Hh).
  assert (N : isNaN lo = false /\ isNaN hi = false) by (destruct lo, hi; cbn in Le; try discriminate; auto). destruct N as [Nl Nh].
  assert (Pl := plus_abs lo Al Nl). assert (Ph := plus_abs hi Ah Nh).
  assert (C : (rank ty lo <= rank ty hi)%Z). { unfold SFleb in Le. rewrite (rank_compare ty Hty) in Le by auto. apply Z.compare_le_iff. intros E. rewrite E in Le. discriminate. }
  refine (float_likely ty Hty _ _ _ (fun raw Hr => within_rank ty Hty lo hi raw Hl Hh Pl Ph Hr) _). unfold patterns. set (H := (2 * emax ty * 2 ^ (prec ty - 1))%Z) in *.
  rewrite average_halves by (unfold H in *; nia). rewrite !inject_Z_mult. change (inject_Z 2) with 2. field. intros E. apply (inject_Z_injective H 0) in E. lia.
Qed.
(** One double in a hundred is between 1 and a million. *)
Definition d_million : spec_float := S754_finite false 8589934592000000 (-33).
Example C89_range_ex : likelyResult (drawn binary64) (within (two binary64 0) d_million) (inject_Z 179309455769337856 / inject_Z (2 ^ 64)) /\ (1 # 103) < inject_Z 179309455769337856 / inject_Z (2 ^ 64) < (1 # 102).
Proof.
  split; [|split; vm_compute; reflexivity]. refine (C89_range binary64 (two binary64 0) d_million _ _ _ _ _ _); try reflexivity. right. reflexivity.
Qed.

Lemma two_valid : forall ty k, standard ty -> (2 - emax ty <= k <= emax ty)%Z -> valid ty (two ty k) /\ SFabs (two ty k) = two ty k /\ rank ty (two ty k) = ((k + emax ty - 1) * 2 ^ (prec ty - 1))%Z.
Proof.
  intros ty k Hty Hk. assert (W := M_pos ty Hty). destruct (standard_ok ty Hty) as (H1 & H2 & H3). unfold two. destruct (Z.eqb_spec k (emax ty)) as [->|N].
  - split; [reflexivity|]. split; [reflexivity|]. cbn [rank]. f_equal. lia.
  - split; [|split; [reflexivity|]].
    + apply valid_iff. assert (D : Zpos (digits2_pos (Z.to_pos (2 ^ (prec ty - 1)))) = prec ty) by (destruct Hty as [->| ->]; reflexivity). rewrite D. unfold fexp, emin. lia.
    + cbn [rank]. rewrite Z2Pos.id by lia. nia.
Qed.
(** There are as many values between any two successive powers of two, so all of these ranges are equally likely. *)
Theorem C89_binade : forall ty k, standard ty -> (2 - emax ty <= k < emax ty)%Z -> likelyResult (drawn ty) (within (two ty k) (two ty (k + 1))) (1 / inject_Z (2 * emax ty)).
Proof.
  intros ty k Hty Hk. assert (W := M_pos ty Hty). assert (X := em_pos ty Hty). destruct (two_valid ty k Hty ltac:(lia)) as (V1 & A1 & R1). destruct (two_valid ty (k + 1) Hty ltac:(lia)) as (V2 & A2 & R2).
  assert (N1 : isNaN (two ty k) = false) by (unfold two; destruct (k =? emax ty)%Z; reflexivity). assert (N2 : isNaN (two ty (k + 1)) = false) by (unfold two; destruct (k + 1 =? emax ty)%Z; reflexivity).
  destruct (C89_range ty (two ty k) (two ty (k + 1)) Hty V1 V2 A1 A2) as (p & L & Q).
  - unfold SFleb. rewrite (rank_compare ty Hty) by (auto using plus_abs). rewrite R1, R2. destruct (Z.compare_spec ((k + emax ty - 1) * 2 ^ (prec ty - 1)) ((k + 1 + emax ty - 1) * 2 ^ (prec ty - 1))); try reflexivity. nia.
  - exists p. split; [exact L|]. rewrite Q, R1, R2. unfold patterns. replace (2 * ((k + 1 + emax ty - 1) * 2 ^ (prec ty - 1) - (k + emax ty - 1) * 2 ^ (prec ty - 1)))%Z with (2 * 2 ^ (prec ty - 1))%Z by lia.
    rewrite !inject_Z_mult. field. repeat split; apply nz; lia.
Qed.
(** From 1 to 2, and from 2^1000 to 2^1001. *)
Example C89_binade_ex : likelyResult (drawn binary64) (within (two binary64 0) (two binary64 1)) (1 # 2048) /\ likelyResult (drawn binary64) (within (two binary64 1000) (two binary64 1001)) (1 # 2048).
Proof. split; [exact (C89_binade binary64 0 ltac:(right; reflexivity) ltac:(cbn; lia))|exact (C89_binade binary64 1000 ltac:(right; reflexivity) ltac:(cbn; lia))]. Qed.
(** Smaller than a power of two. *)
Theorem C89_below : forall ty k, standard ty -> (2 - emax ty <= k <= emax ty)%Z -> likelyResult (drawn ty) (within (S754_zero false) (two ty k)) (inject_Z (k + emax ty - 1) / inject_Z (2 * emax ty)).
Proof.
  intros ty k Hty Hk. assert (W := M_pos ty Hty). assert (X := em_pos ty Hty). destruct (two_valid ty k Hty Hk) as (V1 & A1 & R1).
  destruct (C89_range ty (S754_zero false) (two ty k) Hty eq_refl V1 eq_refl A1) as (p & L & Q).
  - unfold two. destruct (k =? emax ty)%Z; reflexivity.
  - exists p. split; [exact L|]. rewrite Q, R1. cbn [rank]. unfold patterns. rewrite Z.sub_0_r, !inject_Z_mult. field. repeat split; apply nz; lia.
Qed.
(** Half of the doubles are smaller than 1; nearly half are larger than 2^63; all but one in 2048 are finite. *)
Example C89_below_ex : likelyResult (drawn binary64) (within (S754_zero false) (two binary64 0)) (1023 # 2048) /\ likelyResult (drawn binary64) (within (S754_zero false) (two binary64 63)) (1086 # 2048) /\
  likelyResult (drawn binary64) (within (S754_zero false) (S754_infinity false)) (2047 # 2048).
Proof. split; [|split]; [exact (C89_below binary64 0 ltac:(right; reflexivity) ltac:(cbn; lia))|exact (C89_below binary64 63 ltac:(right; reflexivity) ltac:(cbn; lia))|exact (C89_below binary64 1024 ltac:(right; reflexivity) ltac:(cbn; lia))]. Qed.

(** Negative and positive values are equally likely. *)
Theorem C89_sign : forall ty, standard ty -> likelyResult (drawn ty) (fun v => SFltb v (S754_zero false)) (inject_Z (2 * emax ty - 1) / inject_Z (4 * emax ty)) /\
  likelyResult (drawn ty) (fun v => SFltb (S754_zero false) v) (inject_Z (2 * emax ty - 1) / inject_Z (4 * emax ty)).
Proof.
  intros ty Hty. assert (A := half_pos ty Hty). assert (W := M_pos ty Hty). assert (X := em_pos ty Hty). set (H := (2 * emax ty * 2 ^ (prec ty - 1))%Z) in *. set (I := ((2 * emax ty - 1) * 2 ^ (prec ty - 1))%Z).
  assert (IH : (0 < I < H)%Z) by (unfold I, H in *; nia).
  assert (K : forall raw, (0 <= raw < 2 * H)%Z -> SFltb (ofBits ty raw) (S754_zero false) = ((H + 1 <=? raw)%Z && (raw <? H + I + 1)%Z)%bool /\ SFltb (S754_zero false) (ofBits ty raw) = ((1 <=? raw)%Z && (raw <? I + 1)%Z)%bool).
  { intros raw Hr. assert (R := ofBits_rank ty Hty raw Hr). fold H I in R. assert (S := ofBits_sign ty Hty raw Hr). fold H in S. assert (V := C58_bits ty raw Hty).
    assert (RM : (raw mod H = if H <=? raw then raw - H else raw)%Z).
    { destruct (Z.leb_spec H raw); [symmetry; apply (Z.mod_unique_pos raw H 1); lia|apply Z.mod_small; lia]. }
    rewrite RM in R. destruct (Z.leb_spec (if (H <=? raw)%Z then raw - H else raw) I) as [L|L].
    - destruct R as [P R]. assert (N : isNaN (ofBits ty raw) = false) by (destruct (ofBits ty raw); cbn in P; try reflexivity; contradiction). specialize (S N).
      assert (Z0 : rank ty (SFabs (ofBits ty raw)) = 0%Z <-> exists s, ofBits ty raw = S754_zero s).
      { split; [|intros [s ->]; reflexivity]. intros E. destruct (ofBits ty raw) as [s|s| |s m e]; eauto; cbn [SFabs rank] in E; [fold I in E; lia|discriminate|]. apply (finite_bounds ty Hty) in V. nia. }
      rewrite R in Z0. destruct (ofBits ty raw) as [s|s| |s m e] eqn:Eo; cbn [signOf] in S; [|..|discriminate|].
      + destruct Z0 as [_ Z0]. specialize (Z0 ltac:(eauto)). unfold SFltb, SFcompare. destruct (Z.leb_spec H raw), (Z.leb_spec (H + 1) raw), (Z.leb_spec 1 raw), (Z.ltb_spec raw (H + I + 1)), (Z.ltb_spec raw (I + 1)); cbn [andb]; auto; lia.
      + assert (NZ : ((if H <=? raw then raw - H else raw) <> 0)%Z) by (intros E; apply Z0 in E; destruct E; discriminate). unfold SFltb, SFcompare. rewrite S.
        destruct (Z.leb_spec H raw), (Z.leb_spec (H + 1) raw), (Z.leb_spec 1 raw), (Z.ltb_spec raw (H + I + 1)), (Z.ltb_spec raw (I + 1)); cbn [andb]; auto; lia.
      + assert (NZ : ((if H <=? raw then raw - H else raw) <> 0)%Z) by (intros E; apply Z0 in E; destruct E; discriminate). unfold SFltb, SFcompare. rewrite S.
        destruct (Z.leb_spec H raw), (Z.leb_spec (H + 1) raw), (Z.leb_spec 1 raw), (Z.ltb_spec raw (H + I + 1)), (Z.ltb_spec raw (I + 1)); cbn [andb]; auto; lia.
    - rewrite R. unfold SFltb, SFcompare. destruct (Z.leb_spec H raw), (Z.leb_spec (H + 1) raw), (Z.leb_spec 1 raw), (Z.ltb_spec raw (H + I + 1)), (Z.ltb_spec raw (I + 1)); cbn [andb]; auto; lia. }
  assert (F : inject_Z I / inject_Z (2 * H) == inject_Z (2 * emax ty - 1) / inject_Z (4 * emax ty)).
  { replace (4 * emax ty)%Z with (2 * (2 * emax ty))%Z by lia. unfold I, H. rewrite !inject_Z_mult. field. repeat split; apply nz; lia. }
  split.
  - refine (float_likely ty Hty _ _ _ (fun raw Hr => proj1 (K raw Hr)) _). fold H. rewrite average_between by lia. replace (H + I + 1 - (H + 1))%Z with I by lia. replace (2 * H - 1 + 1)%Z with (2 * H)%Z by lia. exact F.
  - refine (float_likely ty Hty _ _ _ (fun raw Hr => proj2 (K raw Hr)) _). fold H. rewrite average_between by lia. replace (I + 1 - 1)%Z with I by lia. replace (2 * H - 1 + 1)%Z with (2 * H)%Z by lia. exact F.
Qed.
Example C89_sign_ex : likelyResult (drawn binary32) (fun v => SFltb v (S754_zero false)) (255 # 512) /\ likelyResult (drawn binary32) (fun v => SFltb (S754_zero false) v) (255 # 512).
Proof. exact (C89_sign binary32 ltac:(left; reflexivity)). Qed.

(** Asking for all the shrinks of a generated value is undefined behaviour for nearly half of the doubles and for three eighths of the floats: just the values, infinite ones
    included, of magnitude 2^32 or more. *)
Theorem C89_undefined : forall ty, standard ty -> exists ev,
  (forall v, valid ty v -> (ev v = true <-> exists l c u, shrinkFloat ty v = Ok l /\ In c l /\ freach c (FUndef u))) /\
  likelyResult (drawn ty) ev (inject_Z ((emax ty - 32) * 2 ^ (prec ty - 1) + 1) / inject_Z (2 * emax ty * 2 ^ (prec ty - 1))).
Proof.
  intros ty Hty. assert (A := half_pos ty Hty). assert (W := M_pos ty Hty). assert (X := em_pos ty Hty). destruct (standard_ok ty Hty) as (H1 & H2 & H3).
  assert (H32 : (32 < emax ty)%Z) by (destruct Hty as [->| ->]; cbn; lia).
  assert (Fin : forall s m e, valid ty (S754_finite s m e) -> (SFleb (two ty 32) (SFabs (S754_finite s m e)) = true <-> exists l c u, shrinkFloat ty (S754_finite s m e) = Ok l /\ In c l /\ freach c (FUndef u))).
  { intros s m e Hv. assert (Bm := digits2_bound m). set (x := (e + Zpos (digits2_pos m))%Z).
    assert (Mg : magnitude (S754_finite s m e) x). { cbn [magnitude]. unfold x. split; [lia|]. replace (e + Zpos (digits2_pos m) - 1 - e)%Z with (Zpos (digits2_pos m) - 1)%Z by lia. replace (e + Zpos (digits2_pos m) - e)%Z with (Zpos (digits2_pos m)) by lia. exact Bm. }
    assert (C : SFleb (two ty 32) (SFabs (S754_finite s m e)) = true <-> (32 < x)%Z).
    { destruct (two_valid ty 32 Hty ltac:(lia)) as (V2 & A2 & R2). unfold SFleb. rewrite (rank_compare ty Hty); [|exact V2|exact Hv|unfold two; destruct (32 =? emax ty)%Z; reflexivity|reflexivity].
      rewrite R2. cbn [SFabs rank]. assert (G : ((32 + emax ty - 1) * 2 ^ (prec ty - 1) <= (e - (3 - emax ty - prec ty)) * 2 ^ (prec ty - 1) + Zpos m <-> 32 < x)%Z).
      { assert (Fb := finite_bounds ty Hty s m e Hv). apply valid_iff in Hv. destruct Hv as [Hf _]. unfold fexp, emin in Hf. fold x in Hf. split.
        - intros L. destruct (Z.lt_ge_cases 32 x) as [|Gx]; [assumption|exfalso]. destruct (Z.eq_dec e (3 - emax ty - prec ty)) as [->|Ne]; [nia|].
          assert (e <= 32 - prec ty)%Z by (unfold x in *; lia). nia.
        - intros L. assert (e = x - prec ty)%Z by lia. assert (2 ^ (prec ty - 1) <= Zpos m)%Z by (apply Fb; lia). nia. }
      rewrite <- G. rewrite <- Z.compare_le_iff. destruct (_ ?= _)%Z; split; intros; try reflexivity; try discriminate; congruence. }
    rewrite C. split.
    - intros L. destruct (C58_tree ty s m e x Hty Hv Mg) as (t & l & _ & Hs & _). destruct (C58_undefined_refuted ty s m e x _ Hty Hv Mg L Hs) as (c & u & Hc & Hr). eauto 6.
    - intros (l & c & u & Hs & Hc & Hr). destruct (Z.lt_ge_cases 32 x) as [|Gx]; [assumption|exfalso]. exact (C58_defined ty s m e x l Hty Hv Mg Gx Hs c u Hc Hr). }
  exists (fun v => SFleb (two ty 32) (SFabs v)). split.
  - intros [s|s| |s m e] Hv.
    + split; [|intros (l & c & u & Hs & Hc & _); cbn in Hs; injection Hs as <-; destruct Hc]. unfold two. destruct (32 =? emax ty)%Z; discriminate.
    + split; [intros _|unfold two; destruct (32 =? emax ty)%Z; reflexivity]. destruct (C58_special ty Hty) as (_ & _ & Sp). destruct (Sp s) as (E & Lv & Lm). rewrite E.
      destruct (largest ty s) as [s'|s'| |s' m e] eqn:El; try contradiction. destruct (C58_tree ty s' m e _ Hty Lv Lm) as (t & l & _ & Hs & _). destruct (C58_undefined_refuted ty s' m e _ _ Hty Lv Lm H32 Hs) as (c & u & Hc & Hr). eauto 6.
    + split; [unfold two; destruct (32 =? emax ty)%Z; discriminate|]. intros (l & c & u & Hs & Hc & Hr). cbn in Hs. injection Hs as <-. destruct Hc as [<-|[]]. inversion Hr as [|v0 l0 c0 t0 Hin _]; subst. destruct Hin.
    + apply Fin, Hv.
  - destruct (two_valid ty 32 Hty ltac:(lia)) as (V2 & A2 & R2). set (H := (2 * emax ty * 2 ^ (prec ty - 1))%Z) in *. set (I := ((2 * emax ty - 1) * 2 ^ (prec ty - 1))%Z).
    assert (IH : (0 < I < H)%Z) by (unfold I, H in *; nia). assert (BI : ((32 + emax ty - 1) * 2 ^ (prec ty - 1) <= I)%Z) by (unfold I; nia).
    refine (float_likely ty Hty _ (fun raw => ((32 + emax ty - 1) * 2 ^ (prec ty - 1) <=? raw mod H)%Z && (raw mod H <? I + 1)%Z)%bool _ _ _).
    + intros raw Hr. assert (R := ofBits_rank ty Hty raw Hr). fold H I in R. destruct (Z.leb_spec (raw mod H) I) as [L|L].
      * destruct R as [P R]. unfold SFleb. rewrite (rank_compare ty Hty); [|exact V2|apply abs_valid, C58_bits, Hty|unfold two; destruct (32 =? emax ty)%Z; reflexivity|exact P]. rewrite R, R2.
        destruct (Z.ltb_spec (raw mod H) (I + 1)); [|lia]. rewrite andb_true_r. unfold Z.leb. destruct (_ ?= _)%Z; reflexivity.
      * rewrite R. destruct (Z.ltb_spec (raw mod H) (I + 1)); [lia|]. rewrite andb_false_r. unfold two. destruct (32 =? emax ty)%Z; reflexivity.
    + fold H. rewrite average_halves by (try lia; nia). replace (I + 1 - (32 + emax ty - 1) * 2 ^ (prec ty - 1))%Z with ((emax ty - 32) * 2 ^ (prec ty - 1) + 1)%Z by (unfold I; lia). reflexivity.
Qed.
(** 48 in 100 doubles; 3 in 8 floats. *)
Example C89_undefined_ex : standard binary64 /\ standard binary32 /\ (48 # 100) < inject_Z ((1024 - 32) * 2 ^ 52 + 1) / inject_Z (2048 * 2 ^ 52) /\ (3 # 8) < inject_Z ((128 - 32) * 2 ^ 23 + 1) / inject_Z (256 * 2 ^ 23).
Proof. split; [right; reflexivity|]. split; [left; reflexivity|]. split; vm_compute; reflexivity. Qed.

(** ** forAll *)

(** The generator returns the values of Arbi<float> or Arbi<double>, with whatever shrinks. *)
Definition drawsFloat (ty : ftype) (g : forall E, gen E spec_float) : Prop := forall E (r : rst E), seen root (g E r) = seen fst (genFloat ty r).
(** A property of one floating point argument that passes where [ok] holds and never discards: forAll returns true with probability q^n, where q is the probability of a value for which
    [ok] holds; so a bug shown by a share of c of all bit patterns is found in n runs with probability at most c * n. *)
Theorem C89_forAll : forall ty W (ev : setting) (g : forall E, gen E spec_float) (P : forall E, property E spec_float W) beh ok q n fuel w, drawsFloat ty g -> likelyResult (drawn ty) ok q ->
  (forall E, ord_call (ev E) = [0%nat] /\ gens (P E) = [StatefulModel.pure_gen (g E)] /\ pure_property (P E) beh /\ maxDurationMs (P E) = 0%Z /\ numRuns (P E) = n) ->
  no_leak beh -> (forall a, judge (beh [a]) <> JDiscard /\ (judge (beh [a]) = JPass <-> ok a = true)) -> standard ty ->
  likelyResult (fun E r => Ok (returnedTrue (runForAll (S fuel) (starting r (ev E)) (P E) w))) (fun b => b) (power q n) /\
  likelyResult (fun E r => Ok (returnedTrue (runForAll (S fuel) (starting r (ev E)) (P E) w))) negb (1 - power q n) /\ 1 - power q n <= (1 - q) * inject_Z (Z.of_nat n).
Proof.
  intros ty W ev g P beh ok q n fuel w Hg L HP HL HB Hty.
  assert (Lg : likely g ok q).
  { exists (float_plan ty). split.
    - intros E r. rewrite Hg. unfold float_plan, genFloat, gbind, draw. replace (2 ^ (prec ty + Z.log2 (emax ty) + 1) - 1)%Z with (2 * (2 * emax ty * 2 ^ (prec ty - 1)) - 1)%Z by (destruct Hty as [->| ->]; reflexivity).
      set (hi := (2 * (2 * emax ty * 2 ^ (prec ty - 1)) - 1)%Z). cbn [play]. destruct (0 <=? hi)%Z; [|reflexivity]. destruct (unif E 0 hi r). reflexivity.
    - destruct L as (p & Lp & <-). apply (PropChance.C78_unique_result _ (drawn ty) ok); [exists (float_plan ty)|exists p]; (split; [|reflexivity]); [apply float_law, Hty|exact Lp]. }
  destruct (C88_forAll spec_float W ev g P beh ok q n fuel w Lg HP HL HB) as [R1 R2]. split; [exact R1|]. split; [exact R2|].
  assert (B : 0 <= q <= 1) by exact (proj2 (PropChance.C78_unique _ _ _ _ _ Lg Lg)).
  clear - B. assert (P : forall k, 0 <= power q k <= 1). { induction k as [|k IH]; cbn [power]; [lra|]. split; [apply Qmult_le_0_compat; lra|]. set (x := power q k) in *. nra. }
  induction n as [|n IH]; [cbn [power]; change (inject_Z (Z.of_nat 0)) with 0; lra|]. cbn [power]. rewrite Nat2Z.inj_succ. unfold Z.succ. rewrite inject_Z_plus. change (inject_Z 1) with 1. specialize (P n). set (x := power q n) in *. set (y := inject_Z (Z.of_nat n)) in *. nra.
Qed.
(** A property that fails for 0.0 and -0.0 only, checked with 1000 doubles, is found to be wrong with probability at most 1000 * 2^-63. *)
Definition nonzero (v : spec_float) : bool := match v with S754_zero _ => false | _ => true end.
Definition doubles : forall E, gen E spec_float := fun E => gbind (genFloat binary64) (fun x => gret (Node (fst x) [])).
Definition nonzeroDouble : forall E, property E spec_float unit := fun E =>
  {| func := fun args w => ([], URet (forallb nonzero args), w); gens := [StatefulModel.pure_gen (doubles E)]; onStartup := None; onCleanup := None; numRuns := 1000; maxDurationMs := 0; seed := 0 |}.
Lemma nonzero_likely : likelyResult (drawn binary64) nonzero (1 - inject_Z 2 / inject_Z (2 ^ 64)).
Proof.
  assert (Hty : standard binary64) by (right; reflexivity).
  destruct (C89_value binary64 (S754_zero false) Hty eq_refl eq_refl) as (p & L & Q1). destruct (C89_value binary64 (S754_zero true) Hty eq_refl eq_refl) as (p' & L' & Q2).
  exists p. split; [exact L|].
  assert (Q2' : prob p (same (S754_zero true)) == 1 / inject_Z (patterns binary64)) by (rewrite <- Q2; apply (PropChance.C78_unique_result _ (drawn binary64) (same (S754_zero true))); [exists p|exists p']; auto with *).
  assert (All : prob p anything == 1).
  { assert (F : prob (float_plan binary64) anything == 1) by exact (average_const 0 (2 * (2 * emax binary64 * 2 ^ (prec binary64 - 1)) - 1) 1 ltac:(cbn; lia)).
    rewrite <- F. apply (PropChance.C78_unique_result _ (drawn binary64) anything); [exists p|exists (float_plan binary64)]; (split; [|reflexivity]); [exact L|apply float_law, Hty]. }
  assert (S : prob p anything == prob p nonzero + (prob p (same (S754_zero false)) + prob p (same (S754_zero true)))).
  { unfold prob. rewrite <- mean_plus, <- mean_plus. apply mean_ext. intros [[[|]|s| |s m e]| | |]; reflexivity. }
  rewrite All, Q1, Q2' in S. change (inject_Z (patterns binary64)) with (inject_Z (2 ^ 64)) in S. change (inject_Z 2) with 2. unfold Qdiv in *. lra.
Qed.
Example C89_forAll_ex : forall ev : setting, (forall E, ord_call (ev E) = [0%nat]) ->
  exists q, likelyResult (fun E r => Ok (returnedTrue (runForAll 1 (starting r (ev E)) (nonzeroDouble E) tt))) negb q /\ q <= inject_Z 1000 / inject_Z (2 ^ 63).
Proof.
  intros ev Ho. destruct (C89_forAll binary64 unit ev doubles nonzeroDouble (fun args => ([], URet (forallb nonzero args))) nonzero (1 - inject_Z 2 / inject_Z (2 ^ 64)) 1000 0 tt) as (_ & R & B).
  - intros E r. unfold doubles, gbind. destruct (genFloat binary64 r) as [[x r']| | |]; reflexivity.
  - exact nonzero_likely.
  - intros E. split; [apply Ho|]. repeat split.
  - intros args X. exfalso. apply X. reflexivity.
  - intros a. cbn [forallb]. rewrite andb_true_r. destruct (nonzero a); split; try discriminate; split; reflexivity || discriminate.
  - right. reflexivity.
  - eexists. split; [exact R|]. refine (Qle_trans _ _ _ B _). change (Z.of_nat 1000) with 1000%Z. vm_compute. discriminate.
Qed.

Print Assumptions C89_value.
Print Assumptions C89_nan.
Print Assumptions C89_range.
Print Assumptions C89_binade.
Print Assumptions C89_below.
Print Assumptions C89_sign.
Print Assumptions C89_undefined.
Print Assumptions C89_forAll.
