(** C58: floating point generation and shrinking. *)
From Coq Require Import List ZArith Lia Bool SpecFloat.
From Verif Require Import Base TreeModel TreeSpec TreeProof BinSearchModel BinSearchProof PropInt BoolProof RandomModel IntegralSpec IntegralProof FloatModel FloatSpec FloatProof FloatTree.
Import ListNotations.
Local Open Scope Z_scope.

(** 12.0f, 0.1 (the double), 2^40 and their magnitudes. *)
Definition f12 : spec_float := S754_finite false 12582912 (-20).
Definition d01 : spec_float := S754_finite false 7205759403792794 (-56).
Definition d2_40 : spec_float := S754_finite false 4503599627370496 (-12).
Example f12_ok : standard binary32 /\ valid binary32 f12 /\ magnitude f12 4.
Proof. split; [left; auto|split; [reflexivity|cbn; lia]]. Qed.
Example d01_ok : standard binary64 /\ valid binary64 d01 /\ magnitude d01 (-3).
Proof. split; [right; auto|split; [reflexivity|cbn; lia]]. Qed.
Example d2_40_ok : standard binary64 /\ valid binary64 d2_40 /\ magnitude d2_40 41.
Proof. split; [right; auto|split; [reflexivity|cbn; lia]]. Qed.

(** The whole tree for a finite value: 0 first, then the same fraction with the shrinks of the exponent. *)
Theorem C58_tree : forall ty s m e x, standard ty -> valid ty (S754_finite s m e) -> magnitude (S754_finite s m e) x ->
  exists t l, binarySearch x = Ok t /\ shrinkFloat ty (S754_finite s m e) = Ok (FNode (S754_zero false) [] :: l) /\ Forall2 (follows s (Zpos m) (e - x)) (shrinks t) l.
Proof.
  intros ty s m e x Hty Hv Hm. destruct (standard_ok ty Hty) as (H1 & H2 & H3). apply magnitude_digits in Hm. subst x. apply shrinkFloat_tree; auto.
Qed.
(** 12 = 3/4 * 2^4: 0, 3/4, 3 (with 3/2 below), 6. *)
Example C58_tree_ex : binarySearch 4 = Ok (Node 4 [Node 0 []; Node 2 [Node 1 []]; Node 3 []]) /\
  shrinkFloat binary32 f12 = Ok [FNode (S754_zero false) []; FNode (S754_finite false 12582912 (-24)) [FNode (S754_finite false 8388608 (-24)) []];
    FNode (S754_finite false 12582912 (-22)) [FNode (S754_finite false 12582912 (-23)) [FNode (S754_finite false 8388608 (-23)) []]];
    FNode (S754_finite false 12582912 (-21)) [FNode (S754_finite false 8388608 (-21)) []]].
Proof. split; vm_compute; reflexivity. Qed.

(** Zeros, NaN, infinities. *)
Theorem C58_special : forall ty, standard ty -> (forall s, shrinkFloat ty (S754_zero s) = Ok []) /\ shrinkFloat ty S754_nan = Ok [FNode (S754_zero false) []] /\
  forall s, shrinkFloat ty (S754_infinity s) = shrinkFloat ty (largest ty s) /\ valid ty (largest ty s) /\ magnitude (largest ty s) (emax ty).
Proof.
  intros ty Hty. destruct (standard_ok ty Hty) as (H1 & H2 & H3). split; auto. split; auto. intros s. split; [|apply largest_valid; auto].
  unfold shrinkFloat. destruct s; cbn [largest SFmax_float SFopp]; reflexivity.
Qed.
Example C58_special_ex : largest binary64 true = S754_finite true 9007199254740991 971. Proof. vm_compute. reflexivity. Qed.

(** Asking any value for its shrinks is defined; every way down ends after at most 66 steps. *)
Theorem C58_finite : forall ty v, standard ty -> valid ty v -> exists l, shrinkFloat ty v = Ok l /\ Forall (fun t => (fdepth t <= 65)%nat) l.
Proof.
  intros ty v Hty Hv.
  assert (A : forall s m e, valid ty (S754_finite s m e) -> exists l, shrinkFloat ty (S754_finite s m e) = Ok l /\ Forall (fun t => (fdepth t <= 65)%nat) l).
  { clear v Hv. intros s m e Hv. destruct (standard_ok ty Hty) as (H1 & H2 & H3). destruct (shrinkFloat_tree ty H1 H2 s m e H3 Hv) as (t & l & Ht & Hs & Hf).
    eexists. split; [exact Hs|]. constructor; [cbn; lia|]. apply Forall_forall. intros u Hu. destruct (Forall2_In_r _ _ _ _ _ _ Hf Hu) as (y & Hy & Hfy).
    apply follows_depth in Hfy. assert (Hi : in_int64 (e + Zpos (digits2_pos m))).
    { assert (Hx := finite_cf ty H1 H2 s m e Hv). cbv zeta in Hx. destruct Hx as (_ & (_ & W & _) & _ & Hx). unfold in_int64, INT64_MIN, INT64_MAX, emin in *. cbn. lia. }
    destruct (C06_signed_shrink _ Hi) as (t' & Ht' & _ & _ & _ & _ & Hd & _). rewrite Ht in Ht'. inversion Ht'; subst t'. destruct t as [a ts]. cbn [shrinks tdepth] in *.
    assert (S (tdepth y) <= list_max (map (fun s => S (tdepth s)) ts))%nat by (apply (proj1 (list_max_le _ (list_max (map (fun s => S (tdepth s)) ts)))) in Hy || idtac;
      assert (HF := proj1 (list_max_le (map (fun s => S (tdepth s)) ts) _) (Nat.le_refl _)); rewrite Forall_forall in HF; apply HF; apply in_map_iff; eauto). lia. }
  destruct v as [s|s| |s m e]; try (eexists; split; [reflexivity|]; repeat constructor; cbn; lia); auto.
  destruct (C58_special ty Hty) as (_ & _ & Hi). destruct (Hi s) as (-> & Hl & _). destruct (largest ty s) as [s'|s'| |s' m e] eqn:E; auto;
    destruct (standard_ok ty Hty) as (H1 & H2 & _); destruct (largest_valid ty H1 H2 s) as [_ Hm]; rewrite E in Hm; destruct Hm.
Qed.
Example C58_finite_ex : valid binary64 (S754_infinity true) /\ valid binary64 (S754_finite true 1 (-1074)). Proof. split; reflexivity. Qed.

(** Where nothing is left to shrink, the value is 0 or plus or minus a power of two; signs never change. *)
Theorem C58_ends : forall ty s m e l, standard ty -> valid ty (S754_finite s m e) -> shrinkFloat ty (S754_finite s m e) = Ok l ->
  forall c v, In c l -> freach c (FNode v []) -> v = S754_zero false \/ exists k, exactly v (sgn s 1) k.
Proof.
  intros ty s m e l Hty Hv Hl c v Hc Hr. destruct (standard_ok ty Hty) as (H1 & H2 & H3). destruct (shrinkFloat_tree ty H1 H2 s m e H3 Hv) as (t & l' & Ht & Hs & Hf).
  rewrite Hs in Hl. inversion Hl; subst l. destruct Hc as [<-|Hc].
  - inversion Hr as [|v0 l0 c0 t0 Hin Hcw]; subst; auto. destruct Hin.
  - right. destruct (Forall2_In_r _ _ _ _ _ _ Hf Hc) as (y & Hy & Hfy). destruct (follows_reach _ _ _ _ _ Hfy _ Hr) as [(x & w & q & E & N & _)|(x & _ & E & _)]; eauto. inversion E; subst. destruct (N eq_refl).
Qed.
Example C58_ends_ex : exactly (S754_finite false 8388608 (-24)) (sgn false 1) (-1). Proof. vm_compute. reflexivity. Qed.

(** Asking on, no value below 2^32 leads to undefined behaviour *)
Theorem C58_defined : forall ty s m e x l, standard ty -> valid ty (S754_finite s m e) -> magnitude (S754_finite s m e) x -> x <= 32 -> shrinkFloat ty (S754_finite s m e) = Ok l ->
  forall c v, In c l -> ~ freach c (FUndef v).
Proof.
  intros ty s m e x l Hty Hv Hm Hx Hl c v Hc Hr. destruct (standard_ok ty Hty) as (H1 & H2 & H3). destruct (C58_tree ty s m e x Hty Hv Hm) as (t & l' & Ht & Hs & Hf).
  rewrite Hs in Hl. inversion Hl; subst l. destruct Hc as [<-|Hc].
  - inversion Hr as [|v0 l0 c0 t0 Hin Hcw]; subst. destruct Hin.
  - destruct (Forall2_In_r _ _ _ _ _ _ Hf Hc) as (y & Hy & Hfy). destruct (follows_reach _ _ _ _ _ Hfy _ Hr) as [(x' & w & q & E & N & _)|(x' & Hin & E & Hc')]; [discriminate|].
    assert (Hi : in_int64 x). { apply magnitude_digits in Hm. subst x. assert (Hx' := finite_cf ty H1 H2 s m e Hv). cbv zeta in Hx'. destruct Hx' as (_ & (_ & W & _) & _ & Hx'). unfold in_int64, INT64_MIN, INT64_MAX, emin in *. cbn. lia. }
    destruct (C06_signed_shrink _ Hi) as (t' & Ht' & Hrt & _ & Hz & _). rewrite Ht in Ht'. inversion Ht'; subst t'.
    assert (Hb : In x' (values t)) by (destruct t as [a ts]; cbn [shrinks values] in *; right; apply in_flat_map; eauto).
    destruct (C06_signed_shrink_once x t Hi Ht) as [Hnd Hall]. assert (x' = x \/ x' <= 31) by (apply Hall in Hb; lia). destruct H as [->|]; [|lia].
    destruct t as [a ts]. cbn [root] in Hrt. subst a. cbn [values] in Hnd. inversion Hnd; subst. apply H4. cbn [shrinks] in Hy. apply in_flat_map. eauto.
Qed.
Example C58_defined_ex : valid binary64 (S754_finite true 9007199254740991 (-21)) /\ magnitude (S754_finite true 9007199254740991 (-21)) 32.
Proof. split; [reflexivity|cbn; lia]. Qed.
(** ... and every other does. *)
Theorem C58_undefined_refuted : forall ty s m e x l, standard ty -> valid ty (S754_finite s m e) -> magnitude (S754_finite s m e) x -> 32 < x -> shrinkFloat ty (S754_finite s m e) = Ok l ->
  exists c v, In c l /\ freach c (FUndef v).
Proof.
  intros ty s m e x l Hty Hv Hm Hx Hl. destruct (standard_ok ty Hty) as (H1 & H2 & H3). destruct (C58_tree ty s m e x Hty Hv Hm) as (t & l' & Ht & Hs & Hf).
  rewrite Hs in Hl. inversion Hl; subst l.
  assert (Hi : x <= 1024). { apply magnitude_digits in Hm. subst x. assert (Hx' := finite_cf ty H1 H2 s m e Hv). cbv zeta in Hx'. destruct Hx' as (_ & (_ & W & _) & _). lia. }
  assert (Hlast := search_last x t). assert (Hin : In (Node (x - 1) []) (shrinks t)) by (apply Hlast; auto; unfold INT64_MAX; cbn; lia).
  destruct (Forall2_In_l _ _ _ _ _ _ Hf Hin) as (u & Hu & Hfu). exists u. apply follows_inv in Hfu. destruct Hfu as (v & q & -> & _ & [(N & _)|(_ & h & -> & Hh & Hc)]); [congruence|].
  destruct h as [w r|w]; [lia|]. exists w. split; [cbn; auto|]. eapply fr_step; [cbn; eauto|constructor].
Qed.
Example C58_undefined_ex : exists l, shrinkFloat binary64 d2_40 = Ok l /\ In (FNode (S754_finite false 4503599627370496 (-13)) [FUndef (S754_finite false 4503599627370496 (-13))]) l.
Proof. eexists. split; [vm_compute; reflexivity|]. cbn. tauto. Qed.

(** Values below a half offer, right after 0, a larger one. *)
Theorem C58_grows_refuted : forall ty s m e x l, standard ty -> valid ty (S754_finite s m e) -> magnitude (S754_finite s m e) x -> x < 0 -> shrinkFloat ty (S754_finite s m e) = Ok l ->
  exists c r, l = FNode (S754_zero false) [] :: c :: r /\ exactly (fvalue c) (sgn s (Zpos m)) (e - x).
Proof.
  intros ty s m e x l Hty Hv Hm Hx Hl. destruct (standard_ok ty Hty) as (H1 & H2 & H3). destruct (C58_tree ty s m e x Hty Hv Hm) as (t & l' & Ht & Hs & Hf).
  rewrite Hs in Hl. inversion Hl; subst l.
  assert (Hi : in_int64 x). { apply magnitude_digits in Hm. subst x. assert (Hx' := finite_cf ty H1 H2 s m e Hv). cbv zeta in Hx'. destruct Hx' as (_ & (_ & W & _) & _ & Hx'). unfold in_int64, INT64_MIN, INT64_MAX, emin in *. cbn. lia. }
  destruct (C06_signed_shrink _ Hi) as (t' & Ht' & _ & _ & _ & Hz & _). rewrite Ht in Ht'. inversion Ht'; subst t'. destruct Hz as (r & Hr); [lia|]. rewrite Hr in Hf. inversion Hf as [|y c ys cs Hc Hcs]; subst.
  exists c, cs. split; auto. apply follows_inv in Hc. destruct Hc as (v & q & -> & Hv' & _). cbn. rewrite Z.add_0_r in Hv'. auto.
Qed.
(** 0.1 = 0.8 * 2^-3 offers 0.8. *)
Example C58_grows_ex : exists r, shrinkFloat binary64 d01 = Ok (FNode (S754_zero false) [] :: FNode (S754_finite false 7205759403792794 (-53)) [FNode (S754_finite false 4503599627370496 (-53)) []] :: r).
Proof. eexists. vm_compute. reflexivity. Qed.
(** 2.0 leads to 1.0 and that to 1.0 again. *)
Theorem C58_repeats_refuted : exists r, shrinkFloat binary64 (S754_finite false 4503599627370496 (-51)) =
  Ok (r ++ [FNode (S754_finite false 4503599627370496 (-52)) [FNode (S754_finite false 4503599627370496 (-52)) []]]).
Proof. eexists [_; _]. vm_compute. reflexivity. Qed.

(** * The generators *)

(** All bits drawn make a value of the type, and every value comes from some bits. *)
Theorem C58_bits : forall ty raw, standard ty -> valid ty (ofBits ty raw).
Proof.
  intros ty raw Hty. destruct (standard_ok ty Hty) as (H1 & H2 & H3). unfold ofBits. remember (raw mod 2 ^ (prec ty - 1)) as mant. remember ((raw / 2 ^ (prec ty - 1)) mod (2 * emax ty)) as be.
  assert (P : 0 < 2 ^ (prec ty - 1)) by (apply Z.pow_pos_nonneg; lia). assert (Hm : 0 <= mant < 2 ^ (prec ty - 1)) by (subst mant; apply Z.mod_pos_bound; lia).
  assert (Hb : 0 <= be < 2 * emax ty) by (subst be; apply Z.mod_pos_bound; lia).
  destruct (Z.eqb_spec be (2 * emax ty - 1)); [destruct (mant =? 0); reflexivity|]. destruct (Z.eqb_spec be 0).
  - destruct mant as [|p|p]; try reflexivity. apply valid_iff. assert (B := digits2_bound p). unfold fexp.
    assert (Hd : Zpos (digits2_pos p) <= prec ty - 1) by (apply Z.lt_pred_le, (Z.pow_lt_mono_r_iff 2); lia). unfold emin in *. lia.
  - assert (Hp : 2 ^ prec ty = 2 * 2 ^ (prec ty - 1)) by (rewrite <- Z.pow_succ_r by lia; f_equal; lia).
    destruct (mant + 2 ^ (prec ty - 1)) as [|p|p] eqn:E; try lia. apply valid_iff. rewrite (digits2_unique p (prec ty)) by lia. unfold fexp, emin in *. lia.
Qed.
Example C58_bits_ex : ofBits binary64 4607182418800017408 = S754_finite false 4503599627370496 (-52). Proof. vm_compute. reflexivity. Qed.

Theorem C58_all_values : forall ty v, standard ty -> valid ty v -> exists raw, 0 <= raw < 4 * emax ty * 2 ^ (prec ty - 1) /\ ofBits ty raw = v.
Proof.
  intros ty v Hty Hv. destruct (standard_ok ty Hty) as (H1 & H2 & H3). assert (P : 1 < 2 ^ (prec ty - 1)) by (apply Z.pow_gt_1; lia).
  assert (D : forall neg be mant, 0 <= be < 2 * emax ty -> 0 <= mant < 2 ^ (prec ty - 1) -> let raw := ((if neg : bool then 2 * emax ty else 0) + be) * 2 ^ (prec ty - 1) + mant in
    0 <= raw < 4 * emax ty * 2 ^ (prec ty - 1) /\ raw mod 2 ^ (prec ty - 1) = mant /\ (raw / 2 ^ (prec ty - 1)) mod (2 * emax ty) = be /\ Z.odd (raw / 2 ^ (prec ty - 1) / (2 * emax ty)) = neg).
  { intros neg be mant Hb Hm raw. assert (E : raw / 2 ^ (prec ty - 1) = (if neg then 2 * emax ty else 0) + be) by (unfold raw; rewrite Z.div_add_l, (Z.div_small mant) by lia; lia).
    split; [unfold raw; destruct neg; nia|]. split; [unfold raw; rewrite Z.add_comm, Z.mod_add, Z.mod_small; lia|]. rewrite E. destruct neg.
    - split.
      + replace (2 * emax ty + be) with (be + 1 * (2 * emax ty)) by lia. rewrite Z.mod_add, Z.mod_small; lia.
      + replace (2 * emax ty + be) with (1 * (2 * emax ty) + be) by lia. rewrite Z.div_add_l, (Z.div_small be) by lia. reflexivity.
    - rewrite Z.add_0_l. split; [apply Z.mod_small; lia|]. rewrite Z.div_small by lia. reflexivity. }
  assert (U : forall neg be mant w, 0 <= be < 2 * emax ty -> 0 <= mant < 2 ^ (prec ty - 1) ->
    (if be =? 2 * emax ty - 1 then (if mant =? 0 then S754_infinity neg else S754_nan)
     else if be =? 0 then match mant with Zpos m => S754_finite neg m (emin (prec ty) (emax ty)) | _ => S754_zero neg end
     else match mant + 2 ^ (prec ty - 1) with Zpos m => S754_finite neg m (emin (prec ty) (emax ty) + be - 1) | _ => S754_nan end) = w ->
    exists raw, 0 <= raw < 4 * emax ty * 2 ^ (prec ty - 1) /\ ofBits ty raw = w).
  { intros neg be mant w Hb Hm Hw. destruct (D neg be mant Hb Hm) as (R & E1 & E2 & E3). eexists. split; [exact R|]. unfold ofBits. rewrite E1, E2, E3. exact Hw. }
  destruct v as [s|s| |s m e].
  - apply (U s 0 0); try lia. destruct (Z.eqb_spec 0 (2 * emax ty - 1)); [lia|reflexivity].
  - apply (U s (2 * emax ty - 1) 0); try lia. rewrite Z.eqb_refl. reflexivity.
  - apply (U false (2 * emax ty - 1) 1); try lia. rewrite Z.eqb_refl. reflexivity.
  - assert (Hv' := Hv). apply valid_iff in Hv'. destruct Hv' as [Hc Hb]. unfold fexp, emin in Hc. assert (B := digits2_bound m).
    assert (Hd : Zpos (digits2_pos m) <= prec ty) by lia. destruct (Z.eq_dec (Zpos (digits2_pos m)) (prec ty)) as [E|N].
    + rewrite E in *. assert (Hp : 2 ^ prec ty = 2 * 2 ^ (prec ty - 1)) by (rewrite <- Z.pow_succ_r by lia; f_equal; lia).
      apply (U s (e - emin (prec ty) (emax ty) + 1) (Zpos m - 2 ^ (prec ty - 1))); unfold emin; try lia.
      destruct (Z.eqb_spec (e - (3 - emax ty - prec ty) + 1) (2 * emax ty - 1)); [lia|]. destruct (Z.eqb_spec (e - (3 - emax ty - prec ty) + 1) 0); [lia|].
      replace (Zpos m - 2 ^ (prec ty - 1) + 2 ^ (prec ty - 1)) with (Zpos m) by lia. f_equal. lia.
    + assert (e = emin (prec ty) (emax ty)) by (unfold emin; lia). subst e. apply (U s 0 (Zpos m)); try lia.
      * assert (2 ^ Zpos (digits2_pos m) <= 2 ^ (prec ty - 1)) by (apply Z.pow_le_mono_r; lia). lia.
      * destruct (Z.eqb_spec 0 (2 * emax ty - 1)); [lia|]. reflexivity.
Qed.
Example C58_all_values_ex : 4 * emax binary64 * 2 ^ (prec binary64 - 1) = 2 ^ 64 /\ 4 * emax binary32 * 2 ^ (prec binary32 - 1) = 2 ^ 32. Proof. split; reflexivity. Qed.

(** Arbitrary<float> and Arbitrary<double> give values of the type with their shrinks. *)
Theorem C58_generated : forall E ty (r : rst E), standard ty -> returns (genFloat ty) r (fun x => valid ty (fst x) /\ snd x = shrinkFloat ty (fst x)).
Proof.
  intros E ty r Hty. unfold returns, genFloat, gbind, draw. destruct Hty as [->| ->]; cbn [prec emax binary32 binary64];
    match goal with |- context [0 <=? ?b] => replace (0 <=? b) with true by reflexivity end; unfold gret;
    match goal with |- context [unif E ?a ?b r] => destruct (unif E a b r) as [raw r'] end; eexists; eexists; (split; [reflexivity|]); cbn [fst snd]; split; auto; apply C58_bits; [left|right]; auto.
Qed.
Example C58_generated_ex : standard binary32 /\ standard binary64. Proof. split; [left|right]; auto. Qed.

(** Every value of the type can be generated: some draw gives it. *)
Theorem C58_every_value : forall ty v, standard ty -> valid ty v -> exists r : rst replay, exists r', genFloat ty r = Ok ((v, shrinkFloat ty v), r').
Proof.
  intros ty v Hty Hv. destruct (C58_all_values ty v Hty Hv) as (raw & Hraw & E). exists ([raw] : rst replay), ([] : rst replay). unfold genFloat, gbind, draw.
  destruct Hty as [->| ->]; cbn [prec emax binary32 binary64] in *; unfold unif, replay, replay_unif;
    match goal with |- context [0 <=? ?b] => replace (0 <=? b) with true by reflexivity end;
    match goal with |- context [(0 <=? raw) && (raw <=? ?b)] => replace ((0 <=? raw) && (raw <=? b)) with true by (symmetry; apply andb_true_intro; split; apply Z.leb_le; [|apply Z.lt_le_pred; eapply Z.lt_le_trans; [apply Hraw|]]; lia || (vm_compute; discriminate)) end;
    unfold gret; rewrite E; reflexivity.
Qed.
Example C58_every_value_ex : valid binary64 (S754_finite true 4503599627370496 (-52)) /\ valid binary32 (S754_infinity true).
Proof. split; reflexivity. Qed.

Print Assumptions C58_tree.
Print Assumptions C58_special.
Print Assumptions C58_finite.
Print Assumptions C58_ends.
Print Assumptions C58_defined.
Print Assumptions C58_undefined_refuted.
Print Assumptions C58_grows_refuted.
Print Assumptions C58_repeats_refuted.
Print Assumptions C58_bits.
Print Assumptions C58_all_values.
Print Assumptions C58_generated.
Print Assumptions C58_every_value.
