From Coq Require Import List ZArith Lia Bool Permutation.
From Verif Require Import Base TreeModel TreeSpec TreeProof BinSearchModel BinSearchSpec.
Import ListNotations.
Local Open Scope Z_scope.

Lemma zseq_app : forall n m lo, zseq lo (n + m) = zseq lo n ++ zseq (lo + Z.of_nat n) m.
Proof.
  induction n; intros m lo.
  - simpl. f_equal. lia.
  - simpl plus. simpl zseq. rewrite IHn. simpl. do 3 f_equal. lia.
Qed.

Lemma zseq_In : forall n lo x, In x (zseq lo n) <-> lo <= x < lo + Z.of_nat n.
Proof.
  induction n; intros lo x; simpl zseq.
  - simpl. lia.
  - simpl In. rewrite IHn. lia.
Qed.

Lemma zrange_In : forall lo hi x, In x (zrange lo hi) <-> lo <= x <= hi.
Proof. intros. unfold zrange. rewrite zseq_In. lia. Qed.

Lemma zseq_NoDup : forall n lo, NoDup (zseq lo n).
Proof. induction n; intros lo; simpl; constructor; auto. rewrite zseq_In. lia. Qed.

Lemma zrange_NoDup : forall lo hi, NoDup (zrange lo hi).
Proof. intros. apply zseq_NoDup. Qed.

Lemma zrange_split : forall lo mid hi, lo <= mid <= hi + 1 -> zrange lo hi = zrange lo (mid - 1) ++ zrange mid hi.
Proof.
  intros. unfold zrange.
  replace (Z.to_nat (hi - lo + 1)) with (Z.to_nat (mid - 1 - lo + 1) + Z.to_nat (hi - mid + 1))%nat by lia.
  rewrite zseq_app. do 2 f_equal. lia.
Qed.

Lemma zrange_cons : forall lo hi, lo <= hi -> zrange lo hi = lo :: zrange (lo + 1) hi.
Proof.
  intros. unfold zrange. replace (Z.to_nat (hi - lo + 1)) with (S (Z.to_nat (hi - (lo + 1) + 1))) by lia. auto.
Qed.

Lemma zrange_nil : forall lo hi, hi < lo -> zrange lo hi = [].
Proof. intros. unfold zrange. replace (Z.to_nat (hi - lo + 1)) with 0%nat by lia. auto. Qed.

Lemma chk64_ok : forall x, in_int64 x -> chk64 x = Ok x.
Proof.
  intros x [H1 H2]. unfold chk64. destruct (Z.leb_spec INT64_MIN x); destruct (Z.leb_spec x INT64_MAX); auto; lia.
Qed.

(* the abstract search: what every variant computes *)
Fixpoint gp (f : nat) (min max : Z) : list (tree Z) :=
  match f with
  | O => []
  | S f' =>
      if min + 1 >=? max then []
      else if min + 2 >=? max then [Node ((min + max) / 2) []]
      else Node ((min + max) / 2) (gp f' min ((min + max) / 2)) :: gp f' ((min + max) / 2) max
  end.

Lemma gp_S : forall f min max, gp (S f) min max =
      if min + 1 >=? max then []
      else if min + 2 >=? max then [Node ((min + max) / 2) []]
      else Node ((min + max) / 2) (gp f min ((min + max) / 2)) :: gp f ((min + max) / 2) max.
Proof. reflexivity. Qed.
Arguments gp : simpl never.

Lemma pow_S : forall f, 2 ^ Z.of_nat (S f) = 2 * 2 ^ Z.of_nat f.
Proof. intros. rewrite Nat2Z.inj_succ, Z.pow_succ_r by lia. lia. Qed.

Lemma mid_pos : forall min max, 0 <= min -> 0 <= max ->
  Z.quot min 2 + Z.quot max 2 +
    (if negb (Z.rem min 2 =? 0) && negb (Z.rem max 2 =? 0) then 1 else 0) = (min + max) / 2.
Proof.
  intros. rewrite !Z.quot_div_nonneg, !Z.rem_mod_nonneg by lia.
  pose proof (Z.div_mod min 2 ltac:(lia)). pose proof (Z.div_mod max 2 ltac:(lia)).
  pose proof (Z.mod_pos_bound min 2 ltac:(lia)). pose proof (Z.mod_pos_bound max 2 ltac:(lia)).
  destruct (Z.eqb_spec (min mod 2) 0); destruct (Z.eqb_spec (max mod 2) 0); simpl;
  Z.div_mod_to_equations; lia.
Qed.

Lemma mid_posU : forall min max, 0 <= min -> 0 <= max ->
  min / 2 + max / 2 +
    (if negb (min mod 2 =? 0) && negb (max mod 2 =? 0) then 1 else 0) = (min + max) / 2.
Proof.
  intros.
  pose proof (Z.div_mod min 2 ltac:(lia)). pose proof (Z.div_mod max 2 ltac:(lia)).
  pose proof (Z.mod_pos_bound min 2 ltac:(lia)). pose proof (Z.mod_pos_bound max 2 ltac:(lia)).
  destruct (Z.eqb_spec (min mod 2) 0); destruct (Z.eqb_spec (max mod 2) 0); simpl;
  Z.div_mod_to_equations; lia.
Qed.

Lemma half_bounds : forall min max, min + 2 < max -> min < (min + max) / 2 < max /\
  2 * ((min + max) / 2 - min) <= max - min /\ 2 * (max - (min + max) / 2) <= max - min + 1.
Proof. intros. Z.div_mod_to_equations; lia. Qed.


Ltac i64 := unfold in_int64, INT64_MIN, INT64_MAX in *; cbn in *; Z.div_mod_to_equations; lia.

Lemma genpos_gp : forall f min max, 0 <= min -> min < max -> max <= INT64_MAX -> max - min <= 2 ^ Z.of_nat f ->
  genpos (S f) min max = Ok (gp (S f) min max).
Proof.
  induction f; intros min max Hmin Hle Hmax Hw.
  - change (2 ^ Z.of_nat 0) with 1 in Hw. cbn [genpos]. rewrite gp_S.
    rewrite chk64_ok by (rewrite !Z.quot_div_nonneg by lia; i64). cbn [bind].
    rewrite chk64_ok by (rewrite mid_pos by lia; i64). cbn [bind].
    rewrite chk64_ok by i64. cbn [bind].
    destruct (Z.geb_spec (min + 1) max); auto. lia.
  - rewrite pow_S in Hw. remember (S f) as f1. cbn [genpos]. rewrite gp_S.
    rewrite chk64_ok by (rewrite !Z.quot_div_nonneg by lia; i64). cbn [bind].
    rewrite chk64_ok by (rewrite mid_pos by lia; i64). cbn [bind].
    rewrite chk64_ok by i64. cbn [bind]. rewrite mid_pos by lia.
    destruct (Z.geb_spec (min + 1) max); auto.
    rewrite chk64_ok by i64. cbn [bind].
    destruct (Z.geb_spec (min + 2) max); auto.
    destruct (half_bounds min max) as [? [? ?]]; [lia|].
    subst f1. rewrite !IHf by lia. reflexivity.
Qed.

Lemma wrapU_small : forall w x, 0 <= x < 2 ^ w -> wrapU w x = x.
Proof. intros. unfold wrapU. apply Z.mod_small; auto. Qed.

Ltac u64 := unfold UINT64_MAX in *; cbn in *; Z.div_mod_to_equations; lia.

Lemma genposU_gp : forall f min max, 0 <= min -> min < max -> max <= UINT64_MAX -> max - min <= 2 ^ Z.of_nat f ->
  genposU (S f) min max = Ok (gp (S f) min max).
Proof.
  assert (Hmid : forall min max, 0 <= min -> min < max -> max <= UINT64_MAX ->
    wrapU 64 (wrapU 64 (min / 2 + max / 2) + (if negb (min mod 2 =? 0) && negb (max mod 2 =? 0) then 1 else 0))
    = (min + max) / 2).
  { intros. rewrite (wrapU_small 64 (min / 2 + max / 2)) by u64.
    rewrite mid_posU by lia. apply wrapU_small. u64. }
  induction f; intros min max Hmin Hle Hmax Hw.
  - change (2 ^ Z.of_nat 0) with 1 in Hw. cbn [genposU]. rewrite gp_S. rewrite wrapU_small by u64.
    destruct (Z.geb_spec (min + 1) max); auto. lia.
  - rewrite pow_S in Hw. remember (S f) as f1. cbn [genposU]. rewrite gp_S. rewrite Hmid by auto.
    rewrite wrapU_small by u64.
    destruct (Z.geb_spec (min + 1) max); auto.
    rewrite wrapU_small by u64.
    destruct (Z.geb_spec (min + 2) max); auto.
    destruct (half_bounds min max) as [? [? ?]]; [lia|].
    subst f1. rewrite !IHf by lia. reflexivity.
Qed.

(* mirror image *)
Lemma quot_opp2 : forall x, Z.quot (- x) 2 = - Z.quot x 2.
Proof. intros. apply Z.quot_opp_l. lia. Qed.
Lemma rem_opp2 : forall x, Z.rem (- x) 2 = - Z.rem x 2.
Proof. intros. apply Z.rem_opp_l. lia. Qed.
Lemma eqb_opp0 : forall x, (- x =? 0) = (x =? 0).
Proof. intros. destruct (Z.eqb_spec (- x) 0); destruct (Z.eqb_spec x 0); auto; lia. Qed.

Lemma mid_neg : forall a b, 0 <= a -> 0 <= b ->
  Z.quot (- b) 2 + Z.quot (- a) 2 +
    (if negb (Z.rem (- b) 2 =? 0) && negb (Z.rem (- a) 2 =? 0) then -1 else 0) = - ((a + b) / 2).
Proof.
  intros. rewrite !quot_opp2, !rem_opp2, !eqb_opp0. rewrite <- mid_pos by lia.
  rewrite (andb_comm (negb (Z.rem b 2 =? 0))). destruct (_ && _); lia.
Qed.

Lemma genneg_gp : forall f a b, 0 <= a -> a < b -> b <= 2 ^ 63 -> b - a <= 2 ^ Z.of_nat f ->
  genneg (S f) (- b) (- a) = Ok (map (map_tree Z.opp) (gp (S f) a b)).
Proof.
  induction f; intros a b Ha Hle Hb Hw.
  - change (2 ^ Z.of_nat 0) with 1 in Hw. cbn [genneg]. rewrite gp_S.
    rewrite chk64_ok by (rewrite !quot_opp2, !Z.quot_div_nonneg by lia; i64). cbn [bind].
    rewrite chk64_ok by (rewrite mid_neg by lia; i64). cbn [bind].
    rewrite chk64_ok by i64. cbn [bind].
    destruct (Z.geb_spec (- b + 1) (- a)); [|lia]. destruct (Z.geb_spec (a + 1) b); auto. lia.
  - rewrite pow_S in Hw. remember (S f) as f1. cbn [genneg]. rewrite gp_S.
    rewrite chk64_ok by (rewrite !quot_opp2, !Z.quot_div_nonneg by lia; i64). cbn [bind].
    rewrite chk64_ok by (rewrite mid_neg by lia; i64). cbn [bind].
    rewrite chk64_ok by i64. cbn [bind]. rewrite mid_neg by lia.
    destruct (Z.geb_spec (- b + 1) (- a)); destruct (Z.geb_spec (a + 1) b); try lia; auto.
    rewrite chk64_ok by i64. cbn [bind].
    destruct (Z.geb_spec (- b + 2) (- a)); destruct (Z.geb_spec (a + 2) b); try lia; auto.
    destruct (half_bounds a b) as [? [? ?]]; [lia|].
    subst f1. rewrite !IHf by lia. reflexivity.
Qed.

(* facts about the abstract search *)
Lemma gp_values : forall f min max, 0 <= min -> min < max -> max - min <= 2 ^ Z.of_nat f ->
  Permutation (flat_map values (gp (S f) min max)) (zrange (min + 1) (max - 1)).
Proof.
  induction f; intros min max Hmin Hlt Hw.
  - change (2 ^ Z.of_nat 0) with 1 in Hw. rewrite gp_S.
    destruct (Z.geb_spec (min + 1) max); [|lia]. rewrite zrange_nil by lia. constructor.
  - rewrite pow_S in Hw. remember (S f) as f1. rewrite gp_S.
    destruct (Z.geb_spec (min + 1) max).
    { rewrite zrange_nil by lia. constructor. }
    destruct (Z.geb_spec (min + 2) max).
    { assert (max = min + 2) by lia. subst max. simpl.
      replace ((min + (min + 2)) / 2) with (min + 1) by (Z.div_mod_to_equations; lia).
      replace (min + 2 - 1) with (min + 1) by lia. rewrite zrange_cons, zrange_nil by lia. auto. }
    destruct (half_bounds min max) as [? [? ?]]; [lia|]. subst f1.
    set (mid := (min + max) / 2) in *. cbn [flat_map values].
    rewrite !IHf by lia. rewrite (zrange_split (min + 1) mid (max - 1)) by lia.
    rewrite (zrange_cons mid (max - 1)) by lia. simpl.
    rewrite <- app_comm_cons || idtac. apply Permutation_middle.
Qed.

Lemma gp_shape : forall f min max, 0 <= min -> min < max -> max - min <= 2 ^ Z.of_nat f ->
  (length (gp (S f) min max) <= f)%nat /\
  Forall (fun c => (S (tdepth c) <= f)%nat /\ width_le f c) (gp (S f) min max).
Proof.
  induction f; intros min max Hmin Hlt Hw.
  - change (2 ^ Z.of_nat 0) with 1 in Hw. rewrite gp_S.
    destruct (Z.geb_spec (min + 1) max); [|lia]. simpl. auto.
  - rewrite pow_S in Hw. remember (S f) as f1. rewrite gp_S.
    destruct (Z.geb_spec (min + 1) max). { split; simpl; [lia|constructor]. }
    destruct (Z.geb_spec (min + 2) max).
    { subst f1. split; simpl; [lia|]. constructor; auto. split; simpl; [lia|]. intros s Hs. inversion Hs; subst; simpl; [lia|].
      simpl in *. tauto. }
    destruct (half_bounds min max) as [? [? ?]]; [lia|]. subst f1.
    set (mid := (min + max) / 2) in *.
    destruct (IHf min mid) as [L1 F1]; try lia. destruct (IHf mid max) as [L2 F2]; try lia.
    split; [cbn [length]; lia|]. constructor.
    + split.
      * cbn [tdepth]. apply le_n_S. apply list_max_le. apply Forall_map.
        eapply Forall_impl; [|exact F1]. simpl. intros a [Ha _]. lia.
      * intros s Hs. inversion Hs as [|t c u Hc Hr]; subst; cbn [shrinks] in *; [lia|].
        rewrite Forall_forall in F1. destruct (F1 _ Hc) as [_ Hw1]. specialize (Hw1 _ Hr). simpl in Hw1. lia.
    + eapply Forall_impl; [|exact F2]. simpl. intros a [Ha1 Ha2]. split; [lia|].
      intros s Hs. specialize (Ha2 s Hs). simpl in Ha2. lia.
Qed.

Lemma gp_between : forall f min max c, 0 <= min -> min < max -> In c (gp f min max) -> min < root c < max.
Proof.
  induction f; intros min max c Hmin Hlt Hc; [destruct Hc|]. rewrite gp_S in Hc.
  destruct (Z.geb_spec (min + 1) max). { destruct Hc. }
  destruct (Z.geb_spec (min + 2) max).
  { destruct Hc as [<-|[]]. simpl. Z.div_mod_to_equations; lia. }
  destruct (half_bounds min max) as [? [? ?]]; [lia|].
  destruct Hc as [<-|Hc]; [simpl; lia|]. apply IHf in Hc; lia.
Qed.

Lemma gp_steps : forall f min max, 0 <= min -> min < max ->
  Forall (all_nodes (fun s => 0 < root s /\ Forall (fun c => 0 < root c < root s) (shrinks s) /\ increasing_abs (shrinks s)))
         (gp f min max) /\ increasing_abs (gp f min max).
Proof.
  induction f; intros min max Hmin Hlt. { change (gp 0 min max) with (@nil (tree Z)). simpl; auto. }
  rewrite gp_S.
  destruct (Z.geb_spec (min + 1) max). { simpl; auto. }
  destruct (Z.geb_spec (min + 2) max).
  { simpl. split; auto. constructor; auto. intros s Hs. inversion Hs; subst; simpl in *; [|tauto].
    split; auto. Z.div_mod_to_equations; lia. }
  destruct (half_bounds min max) as [? [? ?]]; [lia|].
  set (mid := (min + max) / 2) in *.
  destruct (IHf min mid) as [A1 B1]; try lia. destruct (IHf mid max) as [A2 B2]; try lia.
  split.
  - constructor; auto. intros s Hs. inversion Hs as [|t c u Hc Hr]; subst; cbn [shrinks root] in *.
    + split; [lia|]. split; auto. apply Forall_forall. intros c Hc. apply gp_between in Hc; lia.
    + rewrite Forall_forall in A1. apply (A1 _ Hc _ Hr).
  - cbn [increasing_abs root]. split; auto. apply Forall_forall. intros d Hd. apply gp_between in Hd; lia.
Qed.

(* signed *)
Lemma opp_zseq_perm : forall n lo, Permutation (map Z.opp (zseq lo n)) (zseq (- lo - Z.of_nat n + 1) n).
Proof.
  intros n lo. apply NoDup_Permutation.
  - apply FinFun.Injective_map_NoDup; [|apply zseq_NoDup]. intros x y. lia.
  - apply zseq_NoDup.
  - intros x. rewrite in_map_iff, zseq_In. split.
    + intros [y [<- Hy]]. apply zseq_In in Hy. lia.
    + intros Hx. exists (- x). split; [lia|]. apply zseq_In. lia.
Qed.

Lemma opp_zrange_perm : forall lo hi, Permutation (map Z.opp (zrange lo hi)) (zrange (- hi) (- lo)).
Proof.
  intros. unfold zrange. rewrite opp_zseq_perm.
  replace (Z.to_nat (- lo - - hi + 1)) with (Z.to_nat (hi - lo + 1)) by lia.
  destruct (Z_lt_le_dec hi lo).
  - replace (Z.to_nat (hi - lo + 1)) with 0%nat by lia. auto.
  - replace (- lo - Z.of_nat (Z.to_nat (hi - lo + 1)) + 1) with (- hi) by lia. auto.
Qed.

(* the whole tree for a non-negative magnitude *)
Definition bs_abs (v : Z) : tree Z :=
  if v =? 0 then Node 0 [] else Node v (Node 0 [] :: gp bs_fuel 0 v).


Lemma genpos_bs : forall v, 0 < v <= INT64_MAX -> genpos bs_fuel 0 v = Ok (gp bs_fuel 0 v).
Proof. intros. apply (genpos_gp 64); unfold INT64_MAX in *; cbn in *; lia. Qed.
Lemma genposU_bs : forall v, 0 < v <= UINT64_MAX -> genposU bs_fuel 0 v = Ok (gp bs_fuel 0 v).
Proof. intros. apply (genposU_gp 64); unfold UINT64_MAX in *; cbn in *; lia. Qed.
Lemma genneg_bs : forall v, INT64_MIN <= v < 0 -> genneg bs_fuel v 0 = Ok (map (map_tree Z.opp) (gp bs_fuel 0 (- v))).
Proof.
  intros v H.
  assert (E : genneg bs_fuel (- (- v)) (- 0) = Ok (map (map_tree Z.opp) (gp bs_fuel 0 (- v)))).
  { apply (genneg_gp 64).
    - lia.
    - lia.
    - unfold INT64_MIN in H. lia.
    - unfold INT64_MIN in H. change (2 ^ Z.of_nat 64) with 18446744073709551616. lia. }
  rewrite Z.opp_involutive in E. rewrite Z.opp_0 in E. exact E.
Qed.
Lemma gp_values_bs : forall v, 0 < v <= UINT64_MAX -> 
  Permutation (flat_map values (gp bs_fuel 0 v)) (zrange 1 (v - 1)).
Proof. intros. apply (gp_values 64); unfold UINT64_MAX in *; cbn in *; lia. Qed.
Lemma gp_shape_bs : forall v, 0 < v <= UINT64_MAX -> 
  (length (gp bs_fuel 0 v) <= 64)%nat /\
  Forall (fun c => (S (tdepth c) <= 64)%nat /\ width_le 64 c) (gp bs_fuel 0 v).
Proof. intros. apply (gp_shape 64); unfold UINT64_MAX in *; cbn in *; lia. Qed.
Global Opaque bs_fuel.

Lemma binarySearch_pos : forall v, 0 <= v <= INT64_MAX -> binarySearch v = Ok (bs_abs v).
Proof.
  intros v Hv. unfold binarySearch, bs_abs. destruct (Z.eqb_spec v 0); [subst; auto|].
  destruct (Z.gtb_spec v 0); [|lia]. rewrite genpos_bs by lia. reflexivity.
Qed.

Lemma binarySearch_neg : forall v, INT64_MIN <= v <= 0 -> binarySearch v = Ok (map_tree Z.opp (bs_abs (- v))).
Proof.
  intros v Hv. unfold binarySearch, bs_abs. destruct (Z.eqb_spec v 0); [subst; auto|].
  destruct (Z.eqb_spec (- v) 0); [lia|]. destruct (Z.gtb_spec v 0); [lia|].
  rewrite genneg_bs by lia. cbn [bind map_tree]. rewrite Z.opp_involutive. reflexivity.
Qed.

Lemma binarySearchU_ok : forall v, in_uint64 v -> binarySearchU v = Ok (bs_abs v).
Proof.
  intros v [H1 H2]. unfold binarySearchU, bs_abs. destruct (Z.eqb_spec v 0); [subst; auto|].
  destruct (Z.gtb_spec v 0); [|lia]. rewrite genposU_bs by lia. reflexivity.
Qed.

Lemma bs_abs_values : forall v, 0 <= v <= UINT64_MAX -> Permutation (values (bs_abs v)) (v :: zrange 0 (v - 1)).
Proof.
  intros v Hv. unfold bs_abs. destruct (Z.eqb_spec v 0).
  - subst. rewrite zrange_nil by lia. reflexivity.
  - cbn [values flat_map app]. constructor. rewrite gp_values_bs by lia.
    rewrite (zrange_cons 0) by lia. reflexivity.
Qed.

Lemma bs_abs_steps : forall v, 0 <= v -> 
  all_nodes (fun s => 0 <= root s /\ Forall (fun c => 0 <= root c < root s) (shrinks s) /\ increasing_abs (shrinks s)) (bs_abs v).
Proof.
  intros v Hv. unfold bs_abs. destruct (Z.eqb_spec v 0).
  - intros s Hs. inversion Hs; subst; simpl in *; [|tauto]. repeat split; auto; lia.
  - destruct (gp_steps bs_fuel 0 v) as [A B]; try lia.
    intros s Hs. inversion Hs as [|t c u Hc Hr]; subst; cbn [shrinks root] in *.
    + split; [lia|]. split.
      * constructor; [simpl; lia|]. apply Forall_forall. intros c Hc. apply gp_between in Hc; lia.
      * cbn [increasing_abs root]. split; auto. apply Forall_forall. intros d Hd. apply gp_between in Hd; lia.
    + destruct Hc as [<-|Hc].
      * inversion Hr; subst; simpl in *; [|tauto]. repeat split; auto; lia.
      * rewrite Forall_forall in A. destruct (A _ Hc _ Hr) as [H1 [H2 H3]]. split; [lia|]. split; auto.
        eapply Forall_impl; [|exact H2]. simpl. intros; lia.
Qed.


Lemma bs_abs_shape : forall v, 0 <= v <= UINT64_MAX ->
  (tdepth (bs_abs v) <= 64)%nat /\ width_le 65 (bs_abs v).
Proof.
  intros v Hv. unfold bs_abs. destruct (Z.eqb_spec v 0).
  - split; [simpl; lia|]. intros s Hs. inversion Hs; subst; simpl in *; [lia|tauto].
  - destruct (gp_shape_bs v) as [L F]; try lia. split.
    + cbn [tdepth]. apply list_max_le. apply Forall_map. constructor; [simpl; lia|].
      eapply Forall_impl; [|exact F]. simpl. intros a [H _]. lia.
    + intros s Hs. inversion Hs as [|t c u Hc Hr]; subst; cbn [shrinks] in *.
      * cbn [length]. lia.
      * destruct Hc as [<-|Hc].
        -- inversion Hr; subst; simpl in *; [lia|tauto].
        -- rewrite Forall_forall in F. destruct (F _ Hc) as [_ H]. specialize (H _ Hr). simpl in H. lia.
Qed.

Lemma tdepth_map : forall A B (f : A -> B) t, tdepth (map_tree f t) = tdepth t.
Proof.
  intros *. induction t as [a ts IH] using tree_ind'. cbn. f_equal. rewrite map_map.
  apply map_ext_Forall. eapply Forall_impl; [|exact IH]. simpl; congruence.
Qed.

Lemma width_map : forall A B (f : A -> B) n t, width_le n t -> width_le n (map_tree f t).
Proof.
  intros A B f n t H s Hs. apply reach_map_inv in Hs. destruct Hs as [s0 [Hs ->]].
  rewrite shrinks_map, map_length. apply (H _ Hs).
Qed.

Lemma increasing_opp : forall l, increasing_abs l -> increasing_abs (map (map_tree Z.opp) l).
Proof.
  induction l as [|c l IH]; simpl; auto. intros [H1 H2]. split; auto. apply Forall_map.
  eapply Forall_impl; [|exact H1]. simpl. intros d Hd. rewrite !root_map. lia.
Qed.

(* final statements *)

Lemma binarySearch_main : forall v, in_int64 v -> exists t, binarySearch v = Ok t /\
  root t = v /\
  Permutation (values t) (v :: sign_range v) /\
  toward_zero t /\ all_nodes (fun s => increasing_abs (shrinks s)) t /\
  (v <> 0 -> exists r, shrinks t = Node 0 [] :: r) /\
  (tdepth t <= 64)%nat /\ width_le 65 t.
Proof.
  intros v [H1 H2]. unfold sign_range. destruct (Z.leb_spec 0 v) as [Hv|Hv].
  - exists (bs_abs v). split; [apply binarySearch_pos; lia|].
    assert (Hu : 0 <= v <= UINT64_MAX) by (unfold INT64_MAX, UINT64_MAX in *; cbn in *; lia).
    split; [unfold bs_abs; destruct (Z.eqb_spec v 0); auto|].
    split; [apply bs_abs_values; auto|].
    pose proof (bs_abs_steps v Hv) as Hs.
    split; [|split; [|split; [|apply bs_abs_shape; auto]]].
    + intros s Hr. destruct (Hs s Hr) as [A [B _]]. eapply Forall_impl; [|exact B]. simpl. intros c Hc. nia.
    + intros s Hr. destruct (Hs s Hr) as [_ [_ C]]. auto.
    + intros Hn. unfold bs_abs. destruct (Z.eqb_spec v 0); [congruence|]. simpl. eauto.
  - assert (Hu : 0 <= - v <= UINT64_MAX) by (unfold INT64_MIN, UINT64_MAX in *; cbn in *; lia).
    exists (map_tree Z.opp (bs_abs (- v))). split; [apply binarySearch_neg; lia|].
    split; [rewrite root_map; unfold bs_abs; destruct (Z.eqb_spec (- v) 0); simpl; lia|].
    split.
    { rewrite values_map, bs_abs_values by auto. simpl. rewrite Z.opp_involutive. constructor.
      rewrite opp_zrange_perm. replace (- (- v - 1)) with (v + 1) by lia. reflexivity. }
    pose proof (bs_abs_steps (- v) ltac:(lia)) as Hs.
    split; [|split; [|split; [|split]]].
    + intros s Hr. apply reach_map_inv in Hr. destruct Hr as [s0 [Hr ->]]. destruct (Hs s0 Hr) as [A [B _]].
      rewrite shrinks_map. apply Forall_map. eapply Forall_impl; [|exact B]. simpl. intros c Hc.
      rewrite !root_map. nia.
    + intros s Hr. apply reach_map_inv in Hr. destruct Hr as [s0 [Hr ->]]. destruct (Hs s0 Hr) as [_ [_ C]].
      rewrite shrinks_map. apply increasing_opp; auto.
    + intros Hn. unfold bs_abs. destruct (Z.eqb_spec (- v) 0); [lia|]. simpl. eauto.
    + rewrite tdepth_map. apply bs_abs_shape; auto.
    + apply width_map. apply bs_abs_shape; auto.
Qed.

Lemma binarySearchU_main : forall v, in_uint64 v -> exists t, binarySearchU v = Ok t /\
  root t = v /\
  Permutation (values t) (v :: zrange 0 (v - 1)) /\
  toward_zero t /\ all_nodes (fun s => increasing_abs (shrinks s)) t /\
  (v <> 0 -> exists r, shrinks t = Node 0 [] :: r) /\
  (tdepth t <= 64)%nat /\ width_le 65 t.
Proof.
  intros v Hu. pose proof Hu as [H1 H2].
  exists (bs_abs v). split; [apply binarySearchU_ok; auto|].
  split; [unfold bs_abs; destruct (Z.eqb_spec v 0); auto|].
  split; [apply bs_abs_values; auto|].
  pose proof (bs_abs_steps v H1) as Hs.
  split; [|split; [|split; [|apply bs_abs_shape; auto]]].
  + intros s Hr. destruct (Hs s Hr) as [A [B _]]. eapply Forall_impl; [|exact B]. simpl. intros c Hc. nia.
  + intros s Hr. destruct (Hs s Hr) as [_ [_ C]]. auto.
  + intros Hn. unfold bs_abs. destruct (Z.eqb_spec v 0); [congruence|]. simpl. eauto.
Qed.
