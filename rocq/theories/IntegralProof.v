From Coq Require Import List ZArith Lia Bool Permutation SpecFloat.
From Verif Require Import Base TreeModel TreeSpec TreeProof BinSearchModel BinSearchSpec BinSearchProof
  RandomModel IntegralModel IntegralSpec.
Import ListNotations.
Local Open Scope Z_scope.

Lemma wrapS_small : forall w x, 0 < w -> - 2 ^ (w - 1) <= x < 2 ^ (w - 1) -> wrapS w x = x.
Proof.
  intros w x Hw H. unfold wrapS.
  assert (2 ^ w = 2 * 2 ^ (w - 1)) by (rewrite <- Z.pow_succ_r by lia; f_equal; lia).
  rewrite Z.mod_small by lia. lia.
Qed.

Lemma castT_small : forall ty x, tmin ty <= x <= tmax ty -> castT ty x = x.
Proof.
  intros ty x H. unfold castT, tmin, tmax in *.
  destruct (is_signed ty) eqn:E.
  - apply wrapS_small. destruct ty; simpl; lia. lia.
  - apply wrapU_small. lia.
Qed.

Lemma castT_mod : forall ty x y, (x - y) mod 2 ^ bits ty = 0 -> castT ty x = castT ty y.
Proof.
  intros ty x y H. assert (Hp : 2 ^ bits ty <> 0) by (destruct ty; discriminate).
  apply Z.mod_divide in H; auto. destruct H as [k Hk].
  unfold castT, wrapS, wrapU. destruct (is_signed ty).
  - f_equal. replace (x + 2 ^ (bits ty - 1)) with (y + 2 ^ (bits ty - 1) + k * 2 ^ bits ty) by lia.
    rewrite Z.mod_add; auto.
  - replace x with (y + k * 2 ^ bits ty) by lia. rewrite Z.mod_add; auto.
Qed.

Lemma pow_divide : forall ty, (2 ^ bits ty | 2 ^ 64).
Proof. intros ty. exists (2 ^ (64 - bits ty)). destruct ty; reflexivity. Qed.

Lemma plusFunctor_ok : forall ty m v, tmin ty <= v + m <= tmax ty -> plusFunctor ty m v = v + m.
Proof.
  intros ty m v H. unfold plusFunctor. transitivity (castT ty (v + m)); [|apply castT_small; auto].
  apply castT_mod. unfold wrapU. rewrite <- Z.add_mod by lia.
  pose proof (Z.div_mod (v + m) (2 ^ 64) ltac:(lia)) as E.
  apply Z.mod_divide. { destruct ty; discriminate. }
  replace ((v + m) mod 2 ^ 64 - (v + m)) with (2 ^ 64 * (- ((v + m) / 2 ^ 64))) by lia.
  apply Z.divide_mul_l. apply pow_divide.
Qed.

(* types *)
Lemma tmin_64 : forall ty, INT64_MIN <= tmin ty.
Proof. destruct ty; unfold tmin, INT64_MIN; simpl; lia. Qed.
Lemma tmax_64 : forall ty, tmax ty <= UINT64_MAX.
Proof. destruct ty; unfold tmax, UINT64_MAX; simpl; lia. Qed.
Lemma tmax_s64 : forall ty, is_signed ty = true -> tmax ty <= INT64_MAX.
Proof. destruct ty; unfold tmax, INT64_MAX; simpl; intros; try discriminate; lia. Qed.

(* shifting a shrink tree *)
Lemma map_seq_shift : forall n lo m, map (fun x => x + m) (zseq lo n) = zseq (lo + m) n.
Proof. induction n; intros; simpl; auto. f_equal. rewrite IHn. f_equal. lia. Qed.
Lemma map_range_shift : forall lo hi m, map (fun x => x + m) (zrange lo hi) = zrange (lo + m) (hi + m).
Proof. intros. unfold zrange. rewrite map_seq_shift. f_equal. f_equal. lia. Qed.

Lemma good_of_shift : forall min max m (t : tree Z) v f,
  m = nearest_zero min max -> min <= v <= max ->
  root t = v - m ->
  Permutation (values t) ((v - m) :: sign_range (v - m)) ->
  toward_zero t -> (v - m <> 0 -> exists r, shrinks t = Node 0 [] :: r) ->
  (forall x, In x (values t) -> f x = x + m) ->
  good_integer min max (map_tree f t).
Proof.
  intros min max m t v f Hm Hv Hr Hp Ht Hf Hext.
  rewrite (map_tree_ext _ _ f (fun x => x + m)) by auto.
  assert (Hroot : root (map_tree (fun x => x + m) t) = v) by (rewrite root_map, Hr; lia).
  constructor; rewrite ?Hroot, <- ?Hm; auto.
  - rewrite values_map. eapply Permutation_trans; [apply Permutation_map; exact Hp|].
    simpl. replace (v - m + m) with v by lia. constructor.
    unfold sign_range, between. destruct (Z.leb_spec 0 (v - m)); destruct (Z.leb_spec m v); try lia;
    rewrite map_range_shift; apply Permutation_refl'; f_equal; lia.
  - intros Hn. destruct Hf as [r Hf]; [lia|]. rewrite shrinks_map, Hf. simpl. eauto.
  - intros s Hs. apply reach_map_inv in Hs. destruct Hs as [s0 [Hs ->]]. specialize (Ht _ Hs). simpl in Ht.
    rewrite shrinks_map. apply Forall_map. eapply Forall_impl; [|exact Ht]. simpl. intros c [Hc _].
    rewrite !root_map. replace (root c + m - m) with (root c) by lia.
    replace (root s0 + m - m) with (root s0) by lia. auto.
Qed.

Lemma sign_range_bounds : forall v x, In x (v :: sign_range v) -> (0 <= x <= v) \/ (v <= x <= 0).
Proof.
  intros v x. unfold sign_range. simpl. intros [->|H].
  - lia.
  - destruct (Z.leb_spec 0 v); apply zrange_In in H; lia.
Qed.

Definition reversed_char (ty : ity) (min max : Z) : Prop := ty = TChar /\ min < 0 <= max.

Lemma gi_shrink_tail : forall E ty min max value (r : rst E),
  tmin ty <= min -> max <= tmax ty -> min <= value <= max ->
  exists t, (if (value <? min) || (max <? value) then gfail (Throw ERuntime)
  else if 0 <=? min then
    gbind (gfail (arith ty (value - min))) (fun d =>
    gbind (gfail (binarySearchU (wrapU 64 (castT ty d)))) (fun t =>
    gret (map_tree (plusFunctor ty min) t)))
  else if max <=? 0 then
    gbind (gfail (arith ty (value - max))) (fun d =>
    gbind (gfail (binarySearch (wrapS 64 (castT ty d)))) (fun t =>
    gret (map_tree (plusFunctor ty max) t)))
  else
    gbind (gfail (binarySearch (wrapS 64 value))) (fun t =>
    gret (map_tree (castT ty) t))) r = Ok (t, r) /\ root t = value /\ good_integer min max t.
Proof.
  intros E ty min max value r Hmin Hmax Hv.
  destruct (Z.ltb_spec value min); [lia|]. destruct (Z.ltb_spec max value); [lia|]. cbn [orb].
  pose proof (tmin_64 ty). pose proof (tmax_64 ty).
  destruct (Z.leb_spec 0 min) as [Hm0|Hm0].
  - assert (Ha : arith ty (value - min) = Ok (value - min)).
    { assert (0 <= value - min <= tmax ty) by lia. unfold arith, tmin, tmax in *.
      destruct ty; cbn in *;
      repeat match goal with |- context [if ?b then _ else _] => destruct b eqn:? end; auto;
      try (f_equal; apply Z.mod_small; lia);
      rewrite ?andb_false_iff, ?Z.leb_gt in *; lia. }
    unfold gbind, gfail. rewrite Ha. rewrite castT_small; [|unfold tmin, tmax in *; destruct ty; cbn in *; lia].
    rewrite wrapU_small; [|unfold UINT64_MAX in *; lia].
    destruct (binarySearchU_main (value - min)) as [t [Et [Hr [Hp [Htz [_ [Hf _]]]]]]].
    { unfold in_uint64. lia. }
    rewrite Et. eexists. split; [reflexivity|].
    assert (Hext : forall x, In x (values t) -> plusFunctor ty min x = x + min).
    { intros x Hx. eapply Permutation_in in Hx; [|exact Hp]. apply plusFunctor_ok.
      destruct Hx as [<-|Hx]; [lia|]. apply zrange_In in Hx. lia. }
    split.
    + rewrite root_map, Hr. rewrite Hext; [lia|]. destruct t. simpl in *. auto.
    + apply good_of_shift with (m := min) (v := value); auto; try (unfold nearest_zero; lia).
      unfold sign_range. destruct (Z.leb_spec 0 (value - min)); [auto|lia].
  - assert (Hsg : is_signed ty = true).
    { destruct (is_signed ty) eqn:Es; auto. unfold tmin in Hmin. rewrite Es in Hmin. lia. }
    pose proof (tmax_s64 ty Hsg).
    destruct (Z.leb_spec max 0) as [Hx0|Hx0].
    + assert (Ha : arith ty (value - max) = Ok (value - max)).
      { assert (tmin ty <= value - max <= 0) by lia. unfold arith, tmin, tmax in *.
        destruct ty; try discriminate; cbn in *;
        repeat match goal with |- context [if ?b then _ else _] => destruct b eqn:? end; auto;
        rewrite ?andb_false_iff, ?Z.leb_gt in *; lia. }
      unfold gbind, gfail. rewrite Ha. rewrite castT_small; [|unfold tmin, tmax in *; destruct ty; cbn in *; lia].
      rewrite wrapS_small; [|lia|unfold INT64_MIN in *; simpl; lia].
      destruct (binarySearch_main (value - max)) as [t [Et [Hr [Hp [Htz [_ [Hf _]]]]]]].
      { unfold in_int64. unfold INT64_MIN, INT64_MAX in *; lia. }
      rewrite Et. eexists. split; [reflexivity|].
      assert (Hext : forall x, In x (values t) -> plusFunctor ty max x = x + max).
      { intros x Hx. eapply Permutation_in in Hx; [|exact Hp]. apply plusFunctor_ok.
        apply sign_range_bounds in Hx. unfold tmax. destruct ty; cbn in *; lia. }
      split.
      * rewrite root_map, Hr. rewrite Hext; [lia|]. destruct t. simpl in *. auto.
      * apply good_of_shift with (m := max) (v := value); auto; try (unfold nearest_zero; lia).
    + unfold gbind, gfail. rewrite wrapS_small; [|lia|unfold INT64_MIN, INT64_MAX in *; simpl; lia].
      destruct (binarySearch_main value) as [t [Et [Hr [Hp [Htz [_ [Hf _]]]]]]].
      { unfold in_int64. unfold INT64_MIN, INT64_MAX in *; lia. }
      rewrite Et. eexists. split; [reflexivity|].
      assert (Hext : forall x, In x (values t) -> castT ty x = x + 0).
      { intros x Hx. eapply Permutation_in in Hx; [|exact Hp]. rewrite castT_small; [lia|].
        apply sign_range_bounds in Hx. lia. }
      split.
      * rewrite root_map, Hr. rewrite Hext; [lia|]. destruct t. simpl in *. auto.
      * apply good_of_shift with (m := 0) (v := value); rewrite ?Z.sub_0_r; auto; try (unfold nearest_zero; lia).
Qed.

Lemma draw_ok : forall E a b (r : rst E), a <= b -> exists v r', draw a b r = Ok (v, r') /\ a <= v <= b.
Proof.
  intros. unfold draw. destruct (Z.leb_spec a b); [|lia]. pose proof (unif_range E a b r H).
  destruct (unif E a b r) as [v r']. exists v, r'. auto.
Qed.

Lemma getRandomT_ok : forall E ty min max (r : rst E),
  tmin ty <= min -> min <= max -> max <= tmax ty -> ~ reversed_char ty min max ->
  exists v r', getRandomT ty min max r = Ok (v, r') /\ min <= v <= max.
Proof.
  intros E ty min max r H1 H2 H3 Hc.
  assert (Hgen : exists v r', gbind (draw (castT ty min) (castT ty max)) (fun u => gret (castT ty u)) r = Ok (v, r')
                 /\ min <= v <= max).
  { rewrite !castT_small by lia. destruct (draw_ok E min max r H2) as [v [r' [E1 E2]]].
    exists v, r'. unfold gbind. rewrite E1. rewrite castT_small by lia. auto. }
  destruct ty; auto. clear Hgen. cbn [getRandomT]. unfold reversed_char in Hc.
  change (tmin TChar) with (-128) in *. change (tmax TChar) with 127 in *.
  assert (Hcase : 0 <= min \/ max < 0) by (destruct (Z_lt_le_dec max 0); [lia|]; destruct (Z_lt_le_dec min 0); [exfalso; apply Hc; auto|lia]). destruct Hcase as [Hn|Hn].
  - rewrite !wrapU_small by (simpl; lia). destruct (draw_ok E min max r H2) as [v [r' [E1 E2]]].
    exists v, r'. unfold gbind. rewrite E1. rewrite castT_small; auto. change (tmin TChar) with (-128). change (tmax TChar) with 127. lia.
  - assert (Hw : forall x, -128 <= x < 0 -> wrapU 8 x = x + 256).
    { intros x Hx. unfold wrapU. change (2 ^ 8) with 256. symmetry. apply Z.mod_unique with (-1); lia. }
    rewrite !Hw by lia. destruct (draw_ok E (min + 256) (max + 256) r ltac:(lia)) as [v [r' [E1 E2]]].
    exists (v - 256), r'. unfold gbind. rewrite E1. split; [|lia]. unfold gret. do 2 f_equal.
    transitivity (castT TChar (v - 256)).
    + apply castT_mod. replace (v - (v - 256)) with 256 by lia. reflexivity.
    + apply castT_small. change (tmin TChar) with (-128). change (tmax TChar) with 127. lia.
Qed.

Lemma boundary_range : forall ty x, In x (boundaryValues ty) -> tmin ty <= x <= tmax ty.
Proof.
  intros ty. apply Forall_forall.
  destruct ty; cbn [boundaryValues];
  repeat (apply Forall_cons; [vm_compute; split; discriminate|]); apply Forall_nil.
Qed.

Lemma idx_ok : forall A (l : list A) i, 0 <= i < Z.of_nat (length l) -> exists a, idx l i = Ok a /\ In a l.
Proof.
  intros A l i H. unfold idx. destruct (Z.ltb_spec i 0); [lia|].
  destruct (nth_error l (Z.to_nat i)) eqn:E.
  - exists a. split; auto. eapply nth_error_In; eauto.
  - apply nth_error_None in E. lia.
Qed.

Lemma boundary_len : forall ty, 0 < Z.of_nat (length (boundaryValues ty)) < 100.
Proof. destruct ty; vm_compute; auto. Qed.

Lemma boundary_draw : forall E ty (r : rst E), exists v r',
  gbind (getRandomSize 0 (Z.of_nat (length (boundaryValues ty)))) (fun i => gfail (idx (boundaryValues ty) i)) r
   = Ok (v, r') /\ In v (boundaryValues ty).
Proof.
  intros. pose proof (boundary_len ty). unfold gbind, getRandomSize.
  rewrite (wrapU_small 32 0) by lia. rewrite (wrapU_small 64) by lia. rewrite (wrapU_small 32) by lia.
  destruct (draw_ok E 0 (Z.of_nat (length (boundaryValues ty)) - 1) r ltac:(lia)) as [i [r' [E1 E2]]].
  rewrite E1. destruct (idx_ok _ (boundaryValues ty) i ltac:(lia)) as [a [E3 E4]].
  unfold gfail. rewrite E3. eauto.
Qed.

Lemma half_lim : d_to_uint64 (SFmul dprec demax d_2_64 d_half) = Ok (2 ^ 63).
Proof. vm_compute. reflexivity. Qed.

Lemma half_bool : forall E (r : rst E), exists b r', getRandomBool d_half r = Ok (b, r').
Proof.
  intros. unfold getRandomBool. change (SFeqb d_half d_one) with false. cbv iota. unfold gbind, next8U.
  destruct (draw_ok E 0 UINT64_MAX r ltac:(unfold UINT64_MAX; lia)) as [v [r' [E1 _]]]. rewrite E1.
  unfold gfail. rewrite half_lim. unfold gret. eauto.
Qed.

Lemma generateInteger_ok : forall E ty min max (r : rst E),
  tmin ty <= min -> min <= max -> max <= tmax ty -> ~ reversed_char ty min max ->
  returns (generateInteger ty min max) r (good_integer min max).
Proof.
  intros E ty min max r H1 H2 H3 Hc. unfold returns, generateInteger.
  destruct ((min =? tmin ty) && (max =? tmax ty)) eqn:Eb.
  - apply andb_true_iff in Eb. rewrite !Z.eqb_eq in Eb. destruct Eb as [E1 E2].
    unfold gbind at 1. destruct (half_bool E r) as [b [r1 Eh]]. rewrite Eh.
    destruct b.
    + unfold gbind at 1. destruct (boundary_draw E ty r1) as [v [r2 [Ed Hin]]]. rewrite Ed.
      apply boundary_range in Hin. destruct (gi_shrink_tail E ty min max v r2) as [t [Et [_ Hg]]]; try lia.
      rewrite Et. eauto.
    + unfold gbind at 1. destruct (getRandomT_ok E ty min max r1) as [v [r2 [Ed Hin]]]; auto. rewrite Ed.
      destruct (gi_shrink_tail E ty min max v r2) as [t [Et [_ Hg]]]; try lia. rewrite Et. eauto.
  - unfold gbind at 1. unfold gret at 1. unfold gbind at 1.
    destruct (getRandomT_ok E ty min max r) as [v [r2 [Ed Hin]]]; auto. rewrite Ed.
    destruct (gi_shrink_tail E ty min max v r2) as [t [Et [_ Hg]]]; try lia. rewrite Et. eauto.
Qed.

(* signed char with a range straddling zero *)
Lemma char_reversed_ub : forall E min max (r : rst E), -128 <= min -> min < 0 <= max -> max <= 127 ->
  ~ (min = -128 /\ max = 127) -> generateInteger TChar min max r = UB.
Proof.
  intros E min max r H1 H2 H3 Hne. unfold generateInteger.
  change (tmin TChar) with (-128). change (tmax TChar) with 127.
  destruct (Z.eqb_spec min (-128)); destruct (Z.eqb_spec max 127); try tauto; cbn [andb];
  unfold gbind at 1; unfold gret at 1; unfold gbind at 1; cbn [getRandomT]; unfold gbind at 1; unfold draw;
  rewrite (wrapU_small 8 max) by (simpl; lia);
  (replace (wrapU 8 min) with (min + 256);
   [destruct (Z.leb_spec (min + 256) max); [lia|reflexivity]
   | unfold wrapU; change (2 ^ 8) with 256; apply Z.mod_unique with (-1); lia]).
Qed.

(* an engine replaying a list of draws, used for witnesses *)
Definition replay_unif (a b : Z) (l : list Z) : Z * list Z :=
  match l with
  | [] => (a, [])
  | x :: r => (if (a <=? x) && (x <=? b) then x else a, r)
  end.
Lemma replay_range : forall a b l, a <= b -> a <= fst (replay_unif a b l) <= b.
Proof.
  intros a b [|x l] H; simpl; [lia|]. destruct ((a <=? x) && (x <=? b)) eqn:E; [|lia].
  apply andb_true_iff in E. rewrite !Z.leb_le in E. lia.
Qed.
Definition replay : engine := {| rst := list Z; unif := replay_unif; unif_range := replay_range |}.

Lemma char_full_ub : exists r : rst replay, arbi TChar r = UB.
Proof. exists [UINT64_MAX]. vm_compute. reflexivity. Qed.

Lemma boundary_reachable : forall ty x, In x (boundaryValues ty) ->
  exists r : rst replay, returns (arbi ty) r (fun t => root t = x).
Proof.
  intros ty x Hx. apply In_nth_error in Hx. destruct Hx as [n Hn].
  pose proof (boundary_len ty) as Hlen.
  assert (Hn2 : (n < length (boundaryValues ty))%nat) by (apply nth_error_Some; congruence).
  assert (Hr : tmin ty <= x <= tmax ty) by (apply boundary_range; eapply nth_error_In; eauto).
  exists [0; Z.of_nat n]. unfold arbi, generateInteger, returns. rewrite !Z.eqb_refl. cbn [andb].
  unfold gbind at 1. unfold getRandomBool. change (SFeqb d_half d_one) with false. cbv iota.
  unfold gbind at 1. unfold next8U, draw.
  change (0 <=? UINT64_MAX) with true. cbv iota. cbn [unif replay replay_unif].
  change ((0 <=? 0) && (0 <=? UINT64_MAX)) with true. cbv iota.
  unfold gbind at 1. unfold gfail at 1. rewrite half_lim. unfold gret at 1.
  change (0 <=? 2 ^ 63) with true. cbv iota.
  unfold gbind at 1. unfold gbind at 1. unfold getRandomSize, draw.
  rewrite (wrapU_small 32 0) by lia. rewrite (wrapU_small 64) by lia. rewrite (wrapU_small 32) by lia.
  destruct (Z.leb_spec 0 (Z.of_nat (length (boundaryValues ty)) - 1)); [|lia].
  cbn [unif replay replay_unif].
  destruct (Z.leb_spec 0 (Z.of_nat n)); [|lia].
  destruct (Z.leb_spec (Z.of_nat n) (Z.of_nat (length (boundaryValues ty)) - 1)); [|lia]. cbn [andb].
  unfold idx. destruct (Z.ltb_spec (Z.of_nat n) 0); [lia|]. rewrite Nat2Z.id, Hn. unfold gfail at 1.
  destruct (gi_shrink_tail replay ty (tmin ty) (tmax ty) x []) as [t [Et [Hroot _]]]; try lia.
  rewrite Et. eauto.
Qed.

(* every value of a range can be produced *)
Lemma value_reachable : forall ty min max x,
  tmin ty <= min -> min <= x <= max -> max <= tmax ty -> ~ reversed_char ty min max ->
  exists r : rst replay, returns (generateInteger ty min max) r (fun t => root t = x).
Proof.
  intros ty min max x H1 H2 H3 Hc.
  assert (Hdraw : forall l : list Z, exists w : Z, getRandomT (E := replay) ty min max (w :: l) = Ok (x, l)).
  { intros l.
    assert (Hgen : gbind (E := replay) (draw (castT ty min) (castT ty max)) (fun u => gret (castT ty u)) (x :: l) = Ok (x, l)).
    { rewrite !castT_small by lia. unfold gbind, draw. destruct (Z.leb_spec min max); [|lia].
      cbn. destruct (Z.leb_spec min x); [|lia]. destruct (Z.leb_spec x max); [|lia]. cbn [unif replay replay_unif andb].
      unfold gret. rewrite castT_small by lia. auto. }
    destruct ty; try (exists x; exact Hgen). clear Hgen. cbn [getRandomT].
    change (tmin TChar) with (-128) in *. change (tmax TChar) with 127 in *. unfold reversed_char in Hc.
    assert (Hw : forall x, -128 <= x < 0 -> wrapU 8 x = x + 256).
    { intros y Hy. unfold wrapU. change (2 ^ 8) with 256. symmetry. apply Z.mod_unique with (-1); lia. }
    exists (wrapU 8 x). unfold gbind, draw.
    assert (Hcast : castT TChar (wrapU 8 x) = x).
    { transitivity (castT TChar x); [|apply castT_small; change (tmin TChar) with (-128); change (tmax TChar) with 127; lia].
      apply castT_mod. change (2 ^ bits TChar) with (2 ^ 8). unfold wrapU.
      rewrite Zminus_mod, Z.mod_mod, Z.sub_diag; reflexivity || lia. }
    destruct (Z_lt_le_dec max 0).
    - rewrite !Hw in * by lia. destruct (Z.leb_spec (min + 256) (max + 256)); [|lia]. cbn [unif replay replay_unif andb].
      destruct (Z.leb_spec (min + 256) (x + 256)); [|lia]. destruct (Z.leb_spec (x + 256) (max + 256)); [|lia].
      cbn [andb]. unfold gret. rewrite Hcast. auto.
    - assert (0 <= min) by (destruct (Z_lt_le_dec min 0); [exfalso; apply Hc; auto|lia]). rewrite !wrapU_small in * by (simpl; lia). destruct (Z.leb_spec min max); [|lia]. cbn [unif replay replay_unif andb].
      destruct (Z.leb_spec min x); [|lia]. destruct (Z.leb_spec x max); [|lia].
      cbn [andb]. unfold gret. rewrite Hcast. auto. }
  unfold generateInteger, returns.
  destruct ((min =? tmin ty) && (max =? tmax ty)).
  - destruct (Hdraw []) as [w Hw]. exists [UINT64_MAX; w]. unfold gbind at 1.
    change (getRandomBool (E := replay) d_half [UINT64_MAX; w]) with (Ok (A := bool * list Z) (false, [w])).
    cbv iota beta. unfold gbind at 1. rewrite Hw.
    destruct (gi_shrink_tail replay ty min max x []) as [t [Et [Hroot _]]]; try lia. rewrite Et. eauto.
  - destruct (Hdraw []) as [w Hw]. exists [w]. unfold gbind at 1, gret at 1. unfold gbind at 1. rewrite Hw.
    destruct (gi_shrink_tail replay ty min max x []) as [t [Et [Hroot _]]]; try lia. rewrite Et. eauto.
Qed.

(* named generators *)
Lemma inRange_ok : forall E ty from to (r : rst E),
  tmin ty <= from -> from < to -> to <= tmax ty -> ~ reversed_char ty from (to - 1) ->
  returns (inRange ty from to) r (good_integer from (to - 1)).
Proof.
  intros E ty from to r H1 H2 H3 Hc. unfold inRange.
  assert (Ha : arith ty (to - 1) = Ok (to - 1)).
  { assert (tmin ty <= to - 1 <= tmax ty) by lia. unfold arith, tmin, tmax in *.
    destruct ty; cbn in *;
    repeat match goal with |- context [if ?b then _ else _] => destruct b eqn:? end; auto;
    try (f_equal; apply Z.mod_small; lia);
    rewrite ?andb_false_iff, ?Z.leb_gt in *; lia. }
  unfold returns, gbind, gfail. rewrite Ha. rewrite castT_small by lia.
  apply generateInteger_ok; auto; lia.
Qed.

(* the sum start + count can be formed without undefined behaviour *)
Definition sum_ok (ty : ity) (start count : Z) : Prop :=
  (bits ty < 32 \/ is_signed ty = false) \/ start + count <= tmax ty.

Lemma integers_ok : forall E ty start count (r : rst E),
  tmin ty <= start -> 1 <= count <= tmax ty -> start + count - 1 <= tmax ty -> sum_ok ty start count ->
  ~ reversed_char ty start (start + count - 1) ->
  returns (integers ty start count) r (good_integer start (start + count - 1)).
Proof.
  intros E ty start count r H1 H2 H3 Hs Hc. unfold integers, returns, gbind, gfail.
  assert (Ha : exists s, arith ty (start + count) = Ok s /\ exists m, arith ty (s - 1) = Ok m /\
               castT ty m = start + count - 1).
  { assert (Hcast : castT ty (start + count - 1) = start + count - 1) by (apply castT_small; lia).
    destruct (Z_lt_le_dec (tmax ty) (start + count)) as [Hover|Hfit].
    - destruct Hs as [[Hs|Hs]|Hs]; [| |lia].
      + exists (start + count). assert (Hb : 32 <= bits ty \/ arith ty (start + count) = Ok (start + count)
           /\ arith ty (start + count - 1) = Ok (start + count - 1)).
        { unfold arith, tmin, tmax in *. destruct ty; cbn in *; auto; right; split;
          repeat match goal with |- context [if ?b then _ else _] => destruct b eqn:? end; auto;
          rewrite ?andb_false_iff, ?Z.leb_gt in *; lia. }
        destruct Hb as [Hb|[Hb1 Hb2]]; [lia|]. split; auto. eexists. split; eauto.
      + assert (Hsum : start + count = 2 ^ bits ty).
        { unfold tmax in *. rewrite Hs in *. lia. }
        unfold arith, tmin, tmax in *. destruct ty; try discriminate; cbn in *.
        * exists 256. rewrite Hsum. split; [reflexivity|]. exists 255. split; [reflexivity|]. transitivity 255; [vm_compute; reflexivity|lia].
        * exists 65536. rewrite Hsum. split; [reflexivity|]. exists 65535. split; [reflexivity|]. transitivity 65535; [vm_compute; reflexivity|lia].
        * exists 0. rewrite Hsum. split; [reflexivity|]. exists 4294967295. split; [reflexivity|]. transitivity 4294967295; [vm_compute; reflexivity|lia].
        * exists 0. rewrite Hsum. split; [reflexivity|]. exists 18446744073709551615. split; [reflexivity|]. transitivity 18446744073709551615; [vm_compute; reflexivity|lia].
    - exists (start + count).
      assert (Hin : forall y, tmin ty <= y <= tmax ty -> arith ty y = Ok y).
      { intros y Hy. unfold arith, tmin, tmax in *. destruct ty; cbn in *;
        repeat match goal with |- context [if ?b then _ else _] => destruct b eqn:? end; auto;
        try (f_equal; apply Z.mod_small; lia);
        rewrite ?andb_false_iff, ?Z.leb_gt in *; lia. }
      split; [apply Hin; lia|]. eexists. split; [apply Hin; lia|]. auto. }
  destruct Ha as [s [Ha [m [Hm Hcast]]]]. rewrite Ha, Hm, Hcast.
  apply generateInteger_ok; auto; lia.
Qed.
