(** How likely the generators of sets and maps return. *)
From Coq Require Import List ZArith QArith Lia Lqa Bool Arith Permutation.
From Verif Require Import Base TreeModel BinSearchSpec RandomModel IntegralSpec ListModel ListSpec ListMainProof IntegralModel IntegralProof BinSearchProof ContainerModel ContainerSpec ContainerProof PropList ChanceSpec ChanceProof ChanceLawProof ChanceCombProof EndingSpec EndingProof BugChanceSpec BugChanceProof SetChanceSpec.
Import ListNotations.
Local Open Scope Q_scope.

(** ** Numbers *)
Lemma asQ_S : forall n, asQ (S n) == asQ n + 1.
Proof. intros n. unfold asQ. rewrite Nat2Z.inj_succ. unfold Z.succ. rewrite inject_Z_plus. reflexivity. Qed.
Lemma asQ_ge0 : forall n, 0 <= asQ n.
Proof. intros n. unfold asQ. change 0 with (inject_Z 0). rewrite <- Zle_Qle. lia. Qed.
Lemma asQ_le : forall a b, (a <= b)%nat -> asQ a <= asQ b.
Proof. intros a b H. unfold asQ. rewrite <- Zle_Qle. lia. Qed.
Lemma asQ_lt : forall a b, (a < b)%nat -> asQ a < asQ b.
Proof. intros a b H. unfold asQ. rewrite <- Zlt_Qlt. lia. Qed.
Lemma asQ_pos : forall n, (0 < n)%nat -> 0 < asQ n.
Proof. intros n H. apply (asQ_lt 0 n H). Qed.
Lemma asQ_plus : forall a b, asQ (a + b) == asQ a + asQ b.
Proof. intros a b. unfold asQ. rewrite Nat2Z.inj_add, inject_Z_plus. reflexivity. Qed.
Lemma asQ_mult : forall a b, asQ (a * b) == asQ a * asQ b.
Proof. intros a b. unfold asQ. rewrite Nat2Z.inj_mul, inject_Z_mult. reflexivity. Qed.
Lemma asQ_ratio : forall j n, (j <= n)%nat -> (0 < n)%nat -> 0 <= asQ j / asQ n <= 1.
Proof.
  intros j n H Hn. pose proof (asQ_pos n Hn). split.
  - apply Qle_shift_div_l; [assumption|]. rewrite Qmult_0_l. apply asQ_ge0.
  - apply Qle_shift_div_r; [assumption|]. rewrite Qmult_1_l. apply asQ_le, H.
Qed.

(** ** collects *)
Lemma collect_done : forall n k j m, (k <= j)%nat -> collects n k j m = 1.
Proof. intros n k j m H. destruct m; cbn [collects]; rewrite (proj2 (Nat.leb_le k j) H); reflexivity. Qed.
Lemma collect_step : forall n k j m, (j < k)%nat -> collects n k j (S m) = asQ j / asQ n * collects n k j m + (1 - asQ j / asQ n) * collects n k (S j) m.
Proof. intros n k j m H. cbn [collects]. rewrite (proj2 (Nat.leb_gt k j) H). reflexivity. Qed.
Lemma collect_zero : forall n k j, (j < k)%nat -> collects n k j 0 = 0.
Proof. intros n k j H. cbn [collects]. rewrite (proj2 (Nat.leb_gt k j) H). reflexivity. Qed.
Lemma collect_none : forall n k, (n < k)%nat -> forall m j, (j <= n)%nat -> (0 < n)%nat -> collects n k j m == 0.
Proof.
  intros n k H m. induction m as [|m IH]; intros j Hj Hn; [rewrite collect_zero by lia; reflexivity|].
  rewrite collect_step by lia. rewrite IH by lia. destruct (Nat.eq_dec j n) as [->|D].
  - assert (R : asQ n / asQ n == 1) by (field; intros X; pose proof (asQ_pos n Hn); lra). rewrite R. ring.
  - rewrite IH by lia. ring.
Qed.
Lemma collect_range : forall n k m j, (k <= n)%nat -> (0 < n)%nat -> 0 <= collects n k j m <= 1.
Proof.
  intros n k m. induction m as [|m IH]; intros j Hk Hn; (destruct (le_lt_dec k j); [rewrite collect_done by assumption; lra|]).
  - rewrite collect_zero by assumption. lra.
  - rewrite collect_step by assumption. pose proof (asQ_ratio j n ltac:(lia) Hn) as R. pose proof (IH j Hk Hn). pose proof (IH (S j) Hk Hn).
    set (a := asQ j / asQ n) in *. set (x := collects n k j m) in *. set (y := collects n k (S j) m) in *. split; nra.
Qed.
(** Having seen more does not hurt; more draws do not hurt. *)
Lemma collect_more : forall n k m j, (k <= n)%nat -> (0 < n)%nat -> collects n k j m <= collects n k (S j) m.
Proof.
  intros n k m. induction m as [|m IH]; intros j Hk Hn.
  - destruct (le_lt_dec k j); [rewrite !collect_done by lia; lra|]. rewrite collect_zero by assumption. apply collect_range; assumption.
  - destruct (le_lt_dec k j); [rewrite !collect_done by lia; lra|]. rewrite collect_step by assumption.
    destruct (le_lt_dec k (S j)) as [D|D].
    + rewrite !(collect_done n k (S j)) by assumption. pose proof (asQ_ratio j n ltac:(lia) Hn) as R. pose proof (collect_range n k m j Hk Hn).
      set (a := asQ j / asQ n) in *. set (x := collects n k j m) in *. nra.
    + rewrite collect_step by assumption. pose proof (asQ_ratio j n ltac:(lia) Hn) as R. pose proof (asQ_ratio (S j) n ltac:(lia) Hn) as R'.
      pose proof (IH j Hk Hn). pose proof (IH (S j) Hk Hn).
      set (a := asQ j / asQ n) in *. set (b := asQ (S j) / asQ n) in *. set (x := collects n k j m) in *. set (y := collects n k (S j) m) in *. set (z := collects n k (S (S j)) m) in *. nra.
Qed.
Lemma collect_longer : forall n k m j, (k <= n)%nat -> (0 < n)%nat -> collects n k j m <= collects n k j (S m).
Proof.
  intros n k m j Hk Hn. destruct (le_lt_dec k j); [rewrite !collect_done by lia; lra|]. rewrite collect_step by assumption.
  pose proof (asQ_ratio j n ltac:(lia) Hn) as R. pose proof (collect_more n k m j Hk Hn).
  set (a := asQ j / asQ n) in *. set (x := collects n k j m) in *. set (y := collects n k (S j) m) in *. nra.
Qed.

(** The time left when [j] of [k] have been seen. *)
Definition left_time (n k j : nat) : Q := waiting n k - waiting n j.
Lemma waiting_S : forall n j, waiting n (S j) = waiting n j + asQ n / (asQ n - asQ j).
Proof. reflexivity. Qed.
Lemma waiting_le : forall n k j, (j <= k)%nat -> (k <= n)%nat -> waiting n j <= waiting n k.
Proof.
  intros n k j H. induction H as [|k H IH]; intros Hk; [apply Qle_refl|]. rewrite waiting_S.
  assert (0 <= asQ n / (asQ n - asQ k)).
  { pose proof (asQ_lt k n ltac:(lia)). apply Qle_shift_div_l; [lra|]. rewrite Qmult_0_l. apply asQ_ge0. }
  specialize (IH ltac:(lia)). lra.
Qed.
Lemma missing_sum : forall n k, (k <= n)%nat -> (0 < n)%nat -> forall m j, (j <= k)%nat -> sum m (fun i => 1 - collects n k j i) <= left_time n k j.
Proof.
  intros n k Hk Hn m. induction m as [|m IH]; intros j Hj.
  - cbn [sum]. unfold left_time. pose proof (waiting_le n k j Hj Hk). lra.
  - destruct (Nat.eq_dec j k) as [->|D].
    + rewrite (sum_ext _ _ (fun _ => 0)); [|intros i _; rewrite collect_done by lia; ring]. rewrite sum_const. unfold left_time. lra.
    + assert (Sh : forall f, sum (S m) f == f O + sum m (fun i => f (S i))).
      { intros f. change (S m) with (1 + m)%nat. rewrite sum_split. cbn [sum]. rewrite Qplus_0_l. reflexivity. }
      rewrite Sh, collect_zero by lia.
      rewrite (sum_ext m _ (fun i => asQ j / asQ n * (1 - collects n k j i) + (1 - asQ j / asQ n) * (1 - collects n k (S j) i))).
      2:{ intros i _. rewrite collect_step by lia. ring. }
      rewrite sum_plus, !sum_scale. pose proof (IH j Hj) as I1. pose proof (IH (S j) ltac:(lia)) as I2. pose proof (asQ_ratio j n ltac:(lia) Hn) as R.
      assert (W : left_time n k j == asQ n / (asQ n - asQ j) + left_time n k (S j)) by (unfold left_time; rewrite waiting_S; ring).
      assert (X : (1 - asQ j / asQ n) * (asQ n / (asQ n - asQ j)) == 1).
      { pose proof (asQ_lt j n ltac:(lia)). pose proof (asQ_pos n Hn). field. split; lra. }
      set (a := asQ j / asQ n) in *. set (w := asQ n / (asQ n - asQ j)) in *. set (x := sum m (fun i => 1 - collects n k j i)) in *.
      set (y := sum m (fun i => 1 - collects n k (S j) i)) in *. nra.
Qed.
Lemma missing_bound : forall n k m, (k <= n)%nat -> (0 < n)%nat -> 1 - collects n k 0 m <= waiting n k / asQ (S m).
Proof.
  intros n k m Hk Hn. apply Qle_shift_div_l; [apply asQ_pos; lia|]. pose proof (missing_sum n k Hk Hn (S m) 0 ltac:(lia)) as H.
  unfold left_time in H. change (waiting n 0) with 0 in H.
  apply Qle_trans with (sum (S m) (fun i => 1 - collects n k 0 i)); [|lra].
  rewrite Qmult_comm. change (asQ (S m)) with (inject_Z (Z.of_nat (S m))). rewrite <- sum_const. apply sumQ_le. intros i Hi.
  assert (M : forall a d, collects n k 0 a <= collects n k 0 (d + a)%nat).
  { intros a d. induction d as [|d IH]; [apply Qle_refl|]. apply (Qle_trans _ _ _ IH). apply collect_longer; assumption. }
  specialize (M i (m - i)%nat). replace (m - i + i)%nat with m in M by lia. lra.
Qed.

(** One particular set of [k] values. *)
Fixpoint exactly (n k j m : nat) : Q :=
  if (k <=? j)%nat then 1
  else match m with
       | O => 0
       | S m' => asQ j / asQ n * exactly n k j m' + (asQ k - asQ j) / asQ n * exactly n k (S j) m'
       end.
Lemma choose_0 : forall n, choose n 0 = 1%nat.
Proof. intros [|n]; reflexivity. Qed.
Lemma choose_absorb : forall n k, (S k * choose (S n) (S k) = S n * choose n k)%nat.
Proof.
  induction n as [|n IH]; intros k; [destruct k as [|k]; [reflexivity|]; cbn [choose]; lia|].
  change (choose (S (S n)) (S k)) with (choose (S n) k + choose (S n) (S k))%nat. rewrite Nat.mul_add_distr_l, IH.
  destruct k as [|k]; [rewrite !choose_0; lia|].
  change (choose (S n) (S k)) with (choose n k + choose n (S k))%nat at 2.
  pose proof (IH k) as I. change (choose (S n) (S k)) with (choose n k + choose n (S k))%nat in *. nia.
Qed.
Lemma choose_pos : forall n k, (k <= n)%nat -> (0 < choose n k)%nat.
Proof. induction n as [|n IH]; intros [|k] H; cbn [choose]; try lia. specialize (IH k ltac:(lia)). lia. Qed.
Lemma exactly_collect : forall n k, (k <= n)%nat -> (0 < n)%nat -> forall m j, (j <= k)%nat -> exactly n k j m * asQ (choose (n - j) (k - j)) == collects n k j m.
Proof.
  intros n k Hk Hn m. induction m as [|m IH]; intros j Hj; cbn [exactly collects]; destruct (Nat.leb_spec k j) as [L|L].
  - replace (k - j)%nat with 0%nat by lia. rewrite choose_0. unfold asQ. cbn. ring.
  - ring.
  - replace (k - j)%nat with 0%nat by lia. rewrite choose_0. unfold asQ. cbn. ring.
  - rewrite <- (IH j) by lia. rewrite <- (IH (S j)) by lia.
    pose proof (choose_absorb (n - S j) (k - S j)) as C. replace (S (n - S j)) with (n - j)%nat in C by lia. replace (S (k - S j)) with (k - j)%nat in C by lia.
    assert (C' : (asQ k - asQ j) * asQ (choose (n - j) (k - j)) == (asQ n - asQ j) * asQ (choose (n - S j) (k - S j))).
    { assert (S1 : forall b, (j <= b)%nat -> asQ b - asQ j == asQ (b - j)).
      { intros b Hb. assert (X : asQ b == asQ (b - j) + asQ j) by (rewrite <- asQ_plus; replace (b - j + j)%nat with b by lia; reflexivity). lra. }
      rewrite !S1 by lia. rewrite <- !asQ_mult. rewrite C. reflexivity. }
    pose proof (asQ_pos n Hn) as N0. set (c := asQ (choose (n - j) (k - j))) in *. set (d := asQ (choose (n - S j) (k - S j))) in *.
    set (x := exactly n k j m). set (y := exactly n k (S j) m).
    assert (E1 : (asQ k - asQ j) / asQ n * y * c == ((asQ k - asQ j) * c) * y / asQ n) by (field; lra).
    rewrite Qmult_plus_distr_l, E1, C'. field. lra.
Qed.

(** ** Sets as ascending lists *)
Section Order.
  Variable A : Type.
  Variable lt : A -> A -> bool.
  Hypothesis so : strict_order lt.
  Hypothesis tot : forall a b, lt a b = false -> lt b a = false -> a = b.

  Definition eqv (a b : A) : bool := negb (lt a b) && negb (lt b a).
  Lemma eqv_true : forall a b, eqv a b = true <-> a = b.
  Proof.
    intros a b. unfold eqv. rewrite andb_true_iff, !negb_true_iff. split; [intros [H1 H2]; apply tot; assumption|]. intros ->. split; apply (so_irrefl lt so).
  Qed.
  Definition mem (a : A) (l : list A) : bool := existsb (eqv a) l.
  Lemma mem_in : forall a l, mem a l = true <-> In a l.
  Proof.
    intros a l. unfold mem. rewrite existsb_exists. split; [intros (x & Hx & E); apply eqv_true in E; subst; assumption|]. intros H. exists a. split; [assumption|]. apply eqv_true. reflexivity.
  Qed.
  Lemma mem_out : forall a l, mem a l = false <-> ~ In a l.
  Proof. intros a l. rewrite <- mem_in. destruct (mem a l); split; intros H; try reflexivity; try discriminate; try (intros X; discriminate). exfalso. apply H. reflexivity. Qed.
  Lemma ins_old : forall a l, ascending lt l -> In a l -> set_insert lt a l = l.
  Proof.
    intros a l. induction l as [|y l IH]; [intros _ []|]. intros Ha [H|H]; cbn [set_insert].
    - subst y. rewrite (so_irrefl lt so). reflexivity.
    - destruct Ha as [H1 H2]. rewrite Forall_forall in H1. specialize (H1 a H). rewrite (so_asym _ lt so _ _ H1), H1, IH by assumption. reflexivity.
  Qed.
  Lemma ins_new : forall a l, ~ In a l -> length (set_insert lt a l) = S (length l).
  Proof.
    intros a l. induction l as [|y l IH]; intros H; cbn [set_insert]; [reflexivity|]. destruct (lt a y) eqn:E1; [reflexivity|].
    destruct (lt y a) eqn:E2; [cbn [length]; rewrite IH; [reflexivity|intros X; apply H; right; exact X]|].
    exfalso. apply H. left. apply tot; assumption.
  Qed.
  Lemma asc_same : forall l l', ascending lt l -> ascending lt l' -> (forall x, In x l <-> In x l') -> l = l'.
  Proof.
    induction l as [|x l IH]; intros [|y l'] Ha Hb H; try reflexivity.
    - exfalso. apply (proj2 (H y)). left; reflexivity.
    - exfalso. apply (proj1 (H x)). left; reflexivity.
    - destruct Ha as [A1 A2], Hb as [B1 B2]. rewrite Forall_forall in A1, B1.
      assert (x = y).
      { destruct (proj1 (H x) (or_introl eq_refl)) as [E|E]; [auto|]. destruct (proj2 (H y) (or_introl eq_refl)) as [E'|E']; [auto|].
        pose proof (B1 x E) as L1. pose proof (A1 y E') as L2. rewrite (so_asym _ lt so _ _ L1) in L2. discriminate. }
      subst y. f_equal. apply IH; auto. intros z. split; intros Hz.
      + destruct (proj1 (H z) (or_intror Hz)) as [E|E]; auto. subst z. specialize (A1 x Hz). rewrite (so_irrefl lt so) in A1. discriminate.
      + destruct (proj2 (H z) (or_intror Hz)) as [E|E]; auto. subst z. specialize (B1 x Hz). rewrite (so_irrefl lt so) in B1. discriminate.
  Qed.
  Lemma asc_full : forall l l', ascending lt l -> ascending lt l' -> incl l l' -> (length l' <= length l)%nat -> l = l'.
  Proof.
    intros l l' Ha Hb Hi Hl. apply asc_same; auto. intros x. split; [apply Hi|]. apply NoDup_length_incl; auto. apply (ascending_NoDup _ lt); auto.
  Qed.

  (** Sums over the values. *)
  Lemma total_plus : forall (B : Type) (f g : B -> Q) l, total (map (fun a => f a + g a) l) == total (map f l) + total (map g l).
  Proof. intros B f g l. induction l as [|x l IH]; [reflexivity|]. cbn [map total fold_right]. unfold total in IH. rewrite IH. ring. Qed.
  Lemma total_scale : forall (B : Type) c (f : B -> Q) l, total (map (fun a => c * f a) l) == c * total (map f l).
  Proof. intros B c f l. induction l as [|x l IH]; [cbn; ring|]. cbn [map total fold_right]. unfold total in IH. rewrite IH. ring. Qed.
  Lemma total_ext : forall (B : Type) (f g : B -> Q) l, (forall a, In a l -> f a == g a) -> total (map f l) == total (map g l).
  Proof.
    intros B f g l. induction l as [|x l IH]; intros H; [reflexivity|]. cbn [map total fold_right]. unfold total in IH. rewrite IH, (H x); [reflexivity|left; reflexivity|]. intros a Ha. apply H. right; exact Ha.
  Qed.
  Lemma total_filter : forall (B : Type) (ev : B -> bool) l, total (map (tells ev) l) == asQ (length (filter ev l)).
  Proof.
    intros B ev l. induction l as [|x l IH]; [reflexivity|]. cbn [map total fold_right filter]. unfold total in IH. rewrite IH. unfold tells. destruct (ev x); [cbn [length]; rewrite asQ_S; ring|ring].
  Qed.
  Lemma total_mem : forall l vals, NoDup l -> NoDup vals -> incl l vals -> total (map (tells (fun a => mem a l)) vals) == asQ (length l).
  Proof.
    intros l vals H1 H2 H3. rewrite total_filter. rewrite (Permutation_length (l' := l)); [reflexivity|]. apply NoDup_Permutation; [apply NoDup_filter; assumption|assumption|].
    intros x. rewrite filter_In, mem_in. split; [tauto|]. intros H. split; [apply H3|]; assumption.
  Qed.
  Lemma total_one : forall (B : Type) (l : list B), total (map (fun _ => 1) l) == asQ (length l).
  Proof. intros B l. induction l as [|x l IH]; [reflexivity|]. cbn [map total fold_right length]. unfold total in IH. rewrite IH, asQ_S. ring. Qed.

  (** ** The loop *)
  Fixpoint fill_plan (m : nat) (p : plan A) (n : nat) (acc : list A) : plan (list A) :=
    if (length acc <? n)%nat
    then match m with
         | O => Ends OutOfFuel
         | S m' => pbind p (fun a => fill_plan m' p n (set_insert lt a acc))
         end
    else Ends (Ok acc).
  Lemma roots_insert : forall (e : tree A) acc, map root (set_insert (less_shr lt) e acc) = set_insert lt (root e) (map root acc).
  Proof.
    intros e acc. induction acc as [|y acc IH]; [reflexivity|]. cbn [set_insert map]. unfold less_shr at 1 2. destruct (lt (root e) (root y)); [reflexivity|].
    destruct (lt (root y) (root e)); [|reflexivity]. cbn [map]. rewrite IH. reflexivity.
  Qed.
  Lemma fill_fits : forall E (g : gen E A) p, fits root g p -> forall m n acc, fits (map root) (fillSet m lt g (Z.of_nat n) acc) (fill_plan m p n (map root acc)).
  Proof.
    intros E g p H m. induction m as [|m IH]; intros n acc; cbn [fillSet fill_plan]; unfold size; rewrite map_length;
      (destruct (Z.ltb_spec (Z.of_nat (length acc)) (Z.of_nat n)), (Nat.ltb_spec (length acc) n); try lia); try (apply fits_ret; reflexivity).
    - intros r. reflexivity.
    - apply (fits_bind' _ _ _ _ _ root (map root) _ _ p (fun a => fill_plan m p n (set_insert lt a (map root acc)))); [exact H|]. intros e. rewrite <- roots_insert. apply IH.
  Qed.
  Definition set_plan (m : nat) (p : plan A) (mn mx : Z) : plan (list A) := Draws mn mx (fun n => fill_plan m p (Z.to_nat n) []).
  Lemma set_law : forall (g : forall E, gen E A) p m mn mx, law g p -> (0 <= mn)%Z -> (mn <= mx)%Z -> (mx <= UINT32_MAX)%Z ->
    law (fun E => arbi_set m lt (g E) {| minSize := mn; maxSize := mx |}) (set_plan m p mn mx).
  Proof.
    intros g p m mn mx H H0 H1 H2 E r.
    transitivity (seen root (gbind (draw mn mx) (fun n => gbind (fillSet m lt (g E) n []) (fun cont => gfail (shrinkContainer lt cont mn))) r)).
    { unfold arbi_set, gbind. rewrite containerSize_eq by auto. reflexivity. }
    assert (Q1 : fits root (gbind (draw mn mx) (fun n => gbind (fillSet m lt (g E) n []) (fun cont => gfail (shrinkContainer lt cont mn))))
       (pbind (Draws mn mx (fun z => Ends (Ok z))) (fun n => pbind (fill_plan m p (Z.to_nat n) []) (fun l => Ends (Ok l))))).
    { apply (fits_bind _ _ _ _ _ same root (fun n => (mn <= n <= mx)%Z)); [apply fits_draw| |].
      - intros r0 x r' Hx. destruct (draw_ok E mn mx r0 H1) as (v & r1 & Ev & Hv). congruence.
      - intros n Hn. unfold same. apply (fits_bind _ _ _ _ _ (map root) root (fun cont => size cont = n /\ ascending lt (map root cont))).
        + pose proof (fill_fits E (g E) p (H E) m (Z.to_nat n) []) as F. rewrite Z2Nat.id in F by lia. exact F.
        + intros r0 cont r' Hx. apply fillSet_ok in Hx; auto. destruct Hx as [ts [F1 F2 F3 F4 F5 F6]]. split; [apply F6; unfold size; simpl; lia|]. apply ascending_shr. apply F2. simpl. auto.
        + intros cont [Hs Ha]. apply fits_fail. destruct (C17_set_subsets_once A lt cont (Z.to_nat mn) so Ha) as (t & E1 & E2 & _).
          { rewrite Hs. apply u32_int64. lia. } { unfold size in Hs. lia. }
          rewrite Z2Nat.id in E1 by auto. exists t. auto. }
    rewrite Q1. unfold set_plan. cbn [pbind play]. destruct (mn <=? mx)%Z; [|reflexivity]. apply pbind_ret.
  Qed.

  Lemma fill_leaves : forall m p n acc, (length acc <= n)%nat -> leaves (fun l => length l = n /\ incl acc l) (fill_plan m p n acc).
  Proof.
    intros m p n. induction m as [|m IH]; intros acc Hl; cbn [fill_plan]; destruct (Nat.ltb_spec (length acc) n) as [L|L]; cbn [leaves]; try exact I; try (split; [lia|apply incl_refl]).
    apply (leaves_bind _ _ (fun _ => True)); [apply leaves_true|]. intros a _.
    apply (leaves_weaken _ (fun l => length l = n /\ incl (set_insert lt a acc) l)).
    - intros l [H1 H2]. split; [exact H1|]. intros x Hx. apply H2. apply set_insert_keeps. exact Hx.
    - apply IH. pose proof (set_insert_size _ lt a acc). unfold size in *. lia.
  Qed.
  Lemma prob_leaves : forall (B : Type) (P : B -> Prop) (p : plan B) ev, leaves P p -> (forall a, P a -> ev a = false) -> prob p ev == 0.
  Proof.
    intros B P p ev H He. unfold prob. rewrite (mean_leaves _ P p _ (fun _ => 0) H); [apply mean_const| |].
    - intros a Ha. cbn [when]. rewrite He by exact Ha. reflexivity.
    - intros [a| | |] Hx; try reflexivity. exfalso. apply (Hx a). reflexivity.
  Qed.
  Lemma prob_bind : forall (B C : Type) (p : plan B) (k : B -> plan C) ev, prob (pbind p k) ev == mean p (onValue (fun a => prob (k a) ev)).
  Proof. intros B C p k ev. unfold prob. rewrite mean_bind. apply mean_ext. intros [a| | |]; reflexivity. Qed.

  Section Even.
    Variable vals : list A.
    Variable p : plan A.
    Hypothesis nd : NoDup vals.
    Hypothesis ne : vals <> [].
    Hypothesis even : forall f, mean p (onValue f) == total (map f vals) / asQ (length vals).
    Local Notation N := (length vals).
    Lemma N_pos : (0 < N)%nat.
    Proof. destruct vals; [contradiction|cbn; lia]. Qed.
    Lemma N_ne : ~ asQ N == 0.
    Proof. intros H. pose proof (asQ_pos N N_pos). lra. Qed.

    Lemma fill_prob : forall m n acc, ascending lt acc -> incl acc vals -> prob (fill_plan m p n acc) anything == collects N n (length acc) m.
    Proof.
      intros m n. induction m as [|m IH]; intros acc Ha Hi; cbn [fill_plan].
      - destruct (Nat.ltb_spec (length acc) n); [rewrite collect_zero by lia|rewrite collect_done by lia]; reflexivity.
      - destruct (Nat.ltb_spec (length acc) n) as [L|L]; [|rewrite collect_done by lia; reflexivity]. rewrite collect_step by lia. rewrite prob_bind, even.
        set (x := collects N n (length acc) m). set (y := collects N n (S (length acc)) m).
        rewrite (total_ext _ _ (fun a => (x - y) * tells (fun a => mem a acc) a + y * 1)).
        + rewrite total_plus, !total_scale, total_one, total_mem; auto; [field; apply N_ne|]. apply (ascending_NoDup _ lt); auto.
        + intros a Hv. unfold tells. destruct (mem a acc) eqn:M.
          * apply mem_in in M. rewrite ins_old by assumption. rewrite IH by assumption. fold x. ring.
          * apply mem_out in M. rewrite IH.
            -- rewrite ins_new by assumption. fold y. ring.
            -- apply set_insert_asc; assumption.
            -- intros z Hz. apply set_insert_in in Hz. destruct Hz as [->|Hz]; [exact Hv|apply Hi, Hz].
    Qed.
    Lemma fill_exact : forall goal (isGoal : list A -> bool), (forall l, isGoal l = true <-> l = goal) -> ascending lt goal -> incl goal vals ->
      forall m acc, ascending lt acc -> incl acc goal -> prob (fill_plan m p (length goal) acc) isGoal == exactly N (length goal) (length acc) m.
    Proof.
      intros goal isGoal HG Hg Hi m. assert (Gn : NoDup goal) by (apply (ascending_NoDup _ lt); auto).
      assert (F : forall acc, ascending lt acc -> incl acc goal -> (length goal <= length acc)%nat -> acc = goal) by (intros acc H1 H2 H3; apply asc_full; auto).
      assert (B : forall acc, ascending lt acc -> incl acc goal -> (length acc <= length goal)%nat).
      { intros acc H1 H2. apply NoDup_incl_length; auto. apply (ascending_NoDup _ lt); auto. }
      induction m as [|m IH]; intros acc Ha Hc; cbn [fill_plan exactly]; destruct (Nat.ltb_spec (length acc) (length goal)) as [L|L].
      - rewrite (proj2 (Nat.leb_gt _ _) L). reflexivity.
      - rewrite (proj2 (Nat.leb_le _ _) L). unfold prob. cbn [mean when]. rewrite (proj2 (HG acc) (F acc Ha Hc L)). reflexivity.
      - rewrite (proj2 (Nat.leb_gt _ _) L). rewrite prob_bind, even.
        set (x := exactly N (length goal) (length acc) m). set (y := exactly N (length goal) (S (length acc)) m).
        rewrite (total_ext _ _ (fun a => (x - y) * tells (fun a => mem a acc) a + y * tells (fun a => mem a goal) a)).
        + rewrite total_plus, !total_scale, !total_mem; auto; [field; apply N_ne| |].
          * apply (ascending_NoDup _ lt); auto.
          * intros z Hz. apply Hi, Hc, Hz.
        + intros a Hv. unfold tells. destruct (mem a goal) eqn:MG; destruct (mem a acc) eqn:M.
          * apply mem_in in M. rewrite ins_old by assumption. rewrite IH by assumption. fold x. ring.
          * apply mem_out in M. apply mem_in in MG. rewrite IH.
            -- rewrite ins_new by assumption. fold y. ring.
            -- apply set_insert_asc; assumption.
            -- intros z Hz. apply set_insert_in in Hz. destruct Hz as [->|Hz]; [exact MG|apply Hc, Hz].
          * exfalso. apply mem_out in MG. apply mem_in in M. apply MG, Hc, M.
          * apply mem_out in MG. rewrite (prob_leaves _ _ _ isGoal (fill_leaves m p (length goal) (set_insert lt a acc) ltac:(pose proof (set_insert_size _ lt a acc); unfold size in *; lia))); [ring|].
            intros l [_ Hl]. destruct (isGoal l) eqn:G; [|reflexivity]. exfalso. apply HG in G. subst l. apply MG, Hl.
            destruct (set_insert_covers _ lt a acc so) as (y0 & Hy & E1 & E2). rewrite <- (tot _ _ E1 E2) in Hy. exact Hy.
      - rewrite (proj2 (Nat.leb_le _ _) L). unfold prob. cbn [mean when]. rewrite (proj2 (HG acc) (F acc Ha Hc L)). reflexivity.
    Qed.
    Lemma set_prob : forall m mn mx, (mn <= mx)%Z -> prob (set_plan m p mn mx) anything == average mn mx (fun k => collects N (Z.to_nat k) 0 m).
    Proof.
      intros m mn mx H. unfold set_plan, prob. cbn [mean]. rewrite (proj2 (Z.leb_le mn mx) H). apply average_ext. intros z _.
      apply (fill_prob m (Z.to_nat z) []); [exact I|intros x []].
    Qed.
    Lemma set_exact : forall goal (isGoal : list A -> bool), (forall l, isGoal l = true <-> l = goal) -> ascending lt goal -> incl goal vals ->
      forall m mn mx, (0 <= mn)%Z -> (mn <= Z.of_nat (length goal) <= mx)%Z ->
      prob (set_plan m p mn mx) isGoal == collects N (length goal) 0 m / (asQ (choose N (length goal)) * inject_Z (mx - mn + 1)).
    Proof.
      intros goal isGoal HG Hg Hi m mn mx H0 H.
      assert (Hk : (length goal <= N)%nat) by (apply NoDup_incl_length; auto; apply (ascending_NoDup _ lt); auto).
      assert (E : exactly N (length goal) 0 m == collects N (length goal) 0 m / asQ (choose N (length goal))).
      { pose proof (exactly_collect N (length goal) Hk N_pos m 0 ltac:(lia)) as X. rewrite !Nat.sub_0_r in X. rewrite <- X. field.
        intros Z0. pose proof (asQ_pos _ (choose_pos N (length goal) Hk)). lra. }
      unfold set_plan, prob. cbn [mean]. destruct (Z.leb_spec mn mx); [|lia].
      rewrite (average_ext _ _ _ (fun z => if (z =? Z.of_nat (length goal))%Z then exactly N (length goal) 0 m else 0)).
      - rewrite average_single by exact H. rewrite E. field. split; [apply width_pos; lia|].
        intros Z0. pose proof (asQ_pos _ (choose_pos N (length goal) Hk)). lra.
      - intros z Hz. fold (prob (fill_plan m p (Z.to_nat z) []) isGoal). destruct (Z.eqb_spec z (Z.of_nat (length goal))) as [->|D].
        + rewrite Nat2Z.id. apply (fill_exact goal isGoal HG Hg Hi m []); [exact I|intros x []].
        + apply (prob_leaves _ _ _ isGoal (fill_leaves m p (Z.to_nat z) [] ltac:(cbn; lia))). intros l [Hl _].
          destruct (isGoal l) eqn:G; [|reflexivity]. apply HG in G. subst l. lia.
    Qed.
  End Even.
End Order.

(** ** Too few values *)
Lemma fill_within : forall A (lt : A -> A -> bool) vals, strict_order lt -> forall m p n acc, leaves (fun a => In a vals) p -> ascending lt acc -> incl acc vals ->
  leaves (fun l => ascending lt l /\ incl l vals) (fill_plan A lt m p n acc).
Proof.
  intros A lt vals so m p n. induction m as [|m IH]; intros acc Hp Ha Hi; cbn [fill_plan]; destruct (length acc <? n)%nat; cbn [leaves]; try exact I; try (split; assumption).
  apply (leaves_bind _ _ (fun a => In a vals)); [exact Hp|]. intros a Hv. apply IH; [exact Hp|apply set_insert_asc; assumption|].
  intros z Hz. apply set_insert_in in Hz. destruct Hz as [->|Hz]; [exact Hv|apply Hi, Hz].
Qed.
Lemma fill_few : forall A (lt : A -> A -> bool) vals, strict_order lt -> forall m p n, leaves (fun a => In a vals) p -> (length vals < n)%nat ->
  prob (fill_plan A lt m p n []) anything == 0.
Proof.
  intros A lt vals so m p n Hp Hn.
  apply (prob_leaves _ _ _ _ (leaves_and _ _ _ _ (fill_leaves A lt m p n [] ltac:(cbn; lia)) (fill_within A lt vals so m p n [] Hp I ltac:(intros x [])))).
  intros l [[Hl _] [Ha Hi]]. exfalso. pose proof (NoDup_incl_length (ascending_NoDup _ lt l so Ha) Hi). lia.
Qed.
Lemma average_upto : forall mn mx k, (mn <= k)%Z -> (k <= mx)%Z -> average mn mx (fun z => if (z <=? k)%Z then 1 else 0) == inject_Z (k + 1 - mn) / inject_Z (mx - mn + 1).
Proof.
  intros mn mx k H1 H2. unfold average. apply Qmult_comp; [|reflexivity].
  replace (Z.to_nat (mx - mn + 1)) with (Z.to_nat (k + 1 - mn) + Z.to_nat (mx - k))%nat by lia. rewrite sum_split.
  rewrite (sum_ext _ _ (fun _ => 1)), sum_const; [|intros i Hi; destruct (Z.leb_spec (mn + Z.of_nat i) k); [reflexivity|lia]].
  rewrite (sum_ext _ _ (fun _ => 0)), sum_const; [|intros i Hi; destruct (Z.leb_spec (mn + Z.of_nat (Z.to_nat (k + 1 - mn) + i)) k); [lia|reflexivity]].
  rewrite Z2Nat.id by lia. ring.
Qed.
Lemma set_few : forall A (lt : A -> A -> bool) vals, strict_order lt -> forall m p mn mx, leaves (fun a => In a vals) p -> (0 <= mn)%Z ->
  (mn <= Z.of_nat (length vals) <= mx)%Z -> prob (set_plan A lt m p mn mx) anything <= inject_Z (Z.of_nat (length vals) + 1 - mn) / inject_Z (mx - mn + 1).
Proof.
  intros A lt vals so m p mn mx Hp H0 [H1 H2]. rewrite <- average_upto by assumption. unfold set_plan, prob. cbn [mean]. rewrite (proj2 (Z.leb_le mn mx)) by lia.
  apply average_le; [lia|]. intros z Hz. fold (prob (fill_plan A lt m p (Z.to_nat z) []) anything). destruct (Z.leb_spec z (Z.of_nat (length vals))).
  - apply prob_range.
  - rewrite (fill_few A lt vals so m p (Z.to_nat z) Hp ltac:(lia)). apply Qle_refl.
Qed.

(** ** Integers of a range are equally likely *)
Lemma zseq_total : forall n lo (f : Z -> Q), total (map f (zseq lo n)) == sum n (fun i => f (lo + Z.of_nat i)%Z).
Proof.
  induction n as [|n IH]; intros lo f; [reflexivity|]. cbn [zseq map total fold_right]. change (S n) with (1 + n)%nat. rewrite sum_split. unfold total in IH. rewrite IH. cbn [sum].
  rewrite Z.add_0_r, Qplus_0_l. apply Qplus_comp; [reflexivity|]. apply sum_ext. intros i _. replace (lo + Z.of_nat (1 + i))%Z with (lo + 1 + Z.of_nat i)%Z by lia. reflexivity.
Qed.
Lemma zseq_len : forall n lo, length (zseq lo n) = n.
Proof. induction n as [|n IH]; intros lo; cbn [zseq length]; auto. Qed.
Lemma zseq_bounds : forall n lo x, In x (zseq lo n) -> (lo <= x)%Z.
Proof. induction n as [|n IH]; intros lo x H; [destruct H|]. destruct H as [->|H]; [lia|]. apply IH in H. lia. Qed.
Lemma zseq_nodup : forall n lo, NoDup (zseq lo n).
Proof. induction n as [|n IH]; intros lo; cbn [zseq]; constructor; auto. intros H. apply zseq_bounds in H. lia. Qed.
Lemma picked_mean : forall ty min max f, (tmin ty <= min)%Z -> (min <= max)%Z -> (max <= tmax ty)%Z -> ~ reversed_char ty min max ->
  mean (picked ty min max) (onValue f) == average min max f.
Proof.
  intros ty min max f H1 H2 H3 Hc.
  assert (G : mean (Draws (castT ty min) (castT ty max) (fun u => Ends (Ok (castT ty u)))) (onValue f) == average min max f).
  { rewrite !castT_small by lia. cbn [mean]. rewrite (proj2 (Z.leb_le min max) H2). apply average_ext. intros z Hz. cbn [onValue]. rewrite castT_small by lia. reflexivity. }
  destruct ty; try exact G. clear G. cbn [picked]. unfold reversed_char in Hc.
  change (tmin TChar) with (-128)%Z in *. change (tmax TChar) with 127%Z in *.
  assert (Hcase : (0 <= min \/ max < 0)%Z) by (destruct (Z_lt_le_dec max 0); [lia|]; destruct (Z_lt_le_dec min 0); [exfalso; apply Hc; auto|lia]).
  assert (C : forall x, (-128 <= x <= 127)%Z -> castT TChar x = x) by (intros x Hx; apply castT_small; exact Hx).
  cbn [mean]. destruct Hcase as [Hn|Hn].
  - rewrite !wrapU_small by (simpl; lia). rewrite (proj2 (Z.leb_le min max) H2). apply average_ext. intros z Hz. cbn [onValue]. rewrite C by lia. reflexivity.
  - assert (Hw : forall x, (-128 <= x < 0 -> wrapU 8 x = x + 256)%Z).
    { intros x Hx. unfold wrapU. change (2 ^ 8)%Z with 256%Z. symmetry. apply Z.mod_unique with (-1)%Z; lia. }
    rewrite !Hw by lia. destruct (Z.leb_spec (min + 256) (max + 256)); [|lia]. rewrite average_shift. apply average_ext. intros z Hz. cbn [onValue].
    replace (castT TChar (z + 256)) with z; [reflexivity|]. rewrite <- (C z) at 1 by lia. apply castT_mod. replace (z - (z + 256))%Z with (-256)%Z by lia. reflexivity.
Qed.
Lemma zrange_evenly : forall ty min max, (tmin ty <= min)%Z -> (min <= max)%Z -> (max <= tmax ty)%Z -> ~ reversed_char ty min max -> ~ (min = tmin ty /\ max = tmax ty) ->
  evenly (fun E => generateInteger ty min max) (zrange min max).
Proof.
  intros ty min max H1 H2 H3 H4 H5. unfold evenly, zrange. split; [apply zseq_nodup|]. split.
  - replace (Z.to_nat (max - min + 1)) with (S (Z.to_nat (max - min))) by lia. discriminate.
  - exists (picked ty min max). split; [apply integer_law; auto|]. intros f. rewrite picked_mean by auto. rewrite zseq_total, zseq_len. unfold average, asQ. rewrite Z2Nat.id by lia. reflexivity.
Qed.

(** ** Maps *)
Section Maps.
  Variables (K V : Type).
  Variable lt : K -> K -> bool.
  Hypothesis so : strict_order lt.
  Definition map_plan (m : nat) (pk : plan K) (pv : plan V) (mn mx : Z) : plan (list (K * V)) :=
    Draws mn mx (fun n => pbind (fill_plan K lt m pk (Z.to_nat n) []) (fun keys => pbind (times_plan (length keys) pv) (fun vs => Ends (Ok (combine keys vs))))).
  Lemma map_law : forall (gk : forall E, gen E K) (gv : forall E, gen E V) pk pv m mn mx, law gk pk -> law gv pv -> (0 <= mn)%Z -> (mn <= mx)%Z -> (mx <= UINT32_MAX)%Z ->
    law (fun E => arbi_map m lt (gk E) (gv E) {| minSize := mn; maxSize := mx |}) (map_plan m pk pv mn mx).
  Proof.
    intros gk gv pk pv m mn mx Hk Hv H0 H1 H2 E r.
    set (rest := fun n => gbind (fillSet m lt (gk E) n []) (fun keys => gbind (times (length keys) (gv E)) (fun elems =>
      gfail (shrinkMap lt (fold_left (fun m kv => map_insert (less_shr lt) kv m) (combine keys elems) []) mn)))).
    transitivity (seen root (gbind (draw mn mx) rest r)).
    { unfold arbi_map, gbind. rewrite containerSize_eq by auto. reflexivity. }
    assert (Q1 : fits root (gbind (draw mn mx) rest)
       (pbind (Draws mn mx (fun z => Ends (Ok z))) (fun n => pbind (fill_plan K lt m pk (Z.to_nat n) []) (fun keys => pbind (times_plan (length keys) pv) (fun vs => Ends (Ok (combine keys vs))))))).
    { apply (fits_bind _ _ _ _ _ same root (fun n => (mn <= n <= mx)%Z)); [apply fits_draw| |].
      - intros r0 x r' Hx. destruct (draw_ok E mn mx r0 H1) as (v & r1 & Ev & Hv'). congruence.
      - intros n Hn. unfold same, rest. apply (fits_bind _ _ _ _ _ (map root) root (fun cont => size cont = n /\ ascending lt (map root cont))).
        + pose proof (fill_fits K lt E (gk E) pk (Hk E) m (Z.to_nat n) []) as F. rewrite Z2Nat.id in F by lia. exact F.
        + intros r0 cont r' Hx. apply fillSet_ok in Hx; auto. destruct Hx as [ts [F1 F2 F3 F4 F5 F6]]. split; [apply F6; unfold size; simpl; lia|]. apply ascending_shr. apply F2. simpl. auto.
        + intros keys [Hs Ha]. rewrite map_length. apply (fits_bind _ _ _ _ _ (map root) root (fun elems => length elems = length keys)).
          * apply times_fits. exact (Hv E).
          * intros r0 elems r' Hx. apply times_ok in Hx. destruct Hx as [_ Hx]. exact Hx.
          * intros elems Hl. apply fits_fail. rewrite ContainerProof.fold_map_insert; auto using less_shr_order; cycle 1.
            { simpl. rewrite combine_fst by auto. apply ascending_shr; auto. }
            simpl. destruct (C18_map_prefixes K V lt (combine keys elems) (Z.to_nat mn) so) as [t' [E1 [E2 E3]]].
            { rewrite <- (map_map fst root). rewrite combine_fst by auto. auto. }
            { unfold size in *. rewrite combine_length. apply u32_int64. lia. }
            { unfold size in *. rewrite combine_length. lia. }
            rewrite Z2Nat.id in E1 by auto. exists t'. split; [exact E1|]. rewrite E2. apply combine_map2. }
    rewrite Q1. unfold map_plan. cbn [pbind play]. reflexivity.
  Qed.
  Lemma map_prob : forall m pk pv mn mx (evk : list K -> bool) (evv : list V -> bool), (0 <= mn)%Z -> (mn <= mx)%Z ->
    prob (map_plan m pk pv mn mx) (fun l => evk (map fst l) && evv (map snd l))%bool ==
    average mn mx (fun n => prob (fill_plan K lt m pk (Z.to_nat n) []) evk * prob (times_plan (Z.to_nat n) pv) evv).
  Proof.
    intros m pk pv mn mx evk evv H0 H. unfold map_plan. unfold prob at 1. cbn [mean]. rewrite (proj2 (Z.leb_le mn mx) H). apply average_ext. intros n Hn.
    fold (prob (pbind (fill_plan K lt m pk (Z.to_nat n) []) (fun keys => pbind (times_plan (length keys) pv) (fun vs => Ends (Ok (combine keys vs))))) (fun l => evk (map fst l) && evv (map snd l))%bool).
    rewrite prob_bind. rewrite (mean_leaves _ _ _ _ (fun x => prob (times_plan (Z.to_nat n) pv) evv * when evk x) (fill_leaves K lt m pk (Z.to_nat n) [] ltac:(cbn; lia))).
    - rewrite mean_scale. unfold prob. ring.
    - intros keys [Hl _]. cbn [onValue when]. rewrite Hl. rewrite prob_bind.
      rewrite (mean_leaves _ _ _ _ (fun x => (if evk keys then 1 else 0) * when evv x) (times_leaves _ pv (Z.to_nat n))).
      + rewrite mean_scale. unfold prob. destruct (evk keys); ring.
      + intros vs Hv. cbn [onValue]. unfold prob. cbn [mean when]. rewrite combine_fst by congruence.
        assert (Sn : forall (l : list K) (l' : list V), length l = length l' -> map snd (combine l l') = l').
        { induction l as [|a l IH]; intros [|b l'] X; try discriminate; auto. cbn [combine map snd]. rewrite IH; auto. }
        rewrite Sn by congruence. destruct (evk keys), (evv vs); cbn; ring.
      + intros [a| | |] Hx; cbn; try ring. exfalso. apply (Hx a). reflexivity.
    - intros [a| | |] Hx; cbn; try ring. exfalso. apply (Hx a). reflexivity.
  Qed.
  Lemma times_any : forall (pv : plan V) n, prob (times_plan n pv) anything == power (prob pv anything) n.
  Proof.
    intros pv n. rewrite <- times_all. apply prob_ext. intros l. symmetry. apply forallb_forall. reflexivity.
  Qed.
End Maps.
