(** How likely a generator which refers to itself returns. *)
From Coq Require Import List ZArith QArith Lia Lqa Bool Arith.
From Verif Require Import Base TreeModel TreeSpec TreeProof RandomModel ContainerModel GenModel RecursiveModel RecursiveSpec.
From Verif Require Import ChanceSpec ChanceProof ChanceLawProof ChanceCombProof EndingSpec.
Import ListNotations.
Local Open Scope Q_scope.

(** ** Averages *)
Lemma sumQ_le : forall n f g, (forall i, (i < n)%nat -> f i <= g i) -> sum n f <= sum n g.
Proof. induction n as [|n IH]; intros f g H; cbn [sum]; [lra|]. pose proof (IH f g ltac:(intros; apply H; lia)). pose proof (H n ltac:(lia)). lra. Qed.
Lemma width_gt : forall lo hi, (lo <= hi)%Z -> 0 < inject_Z (hi - lo + 1).
Proof. intros lo hi H. change 0 with (inject_Z 0). rewrite <- Zlt_Qlt. lia. Qed.
Lemma average_le : forall lo hi f g, (lo <= hi)%Z -> (forall z, (lo <= z <= hi)%Z -> f z <= g z) -> average lo hi f <= average lo hi g.
Proof.
  intros lo hi f g H0 H. unfold average, Qdiv. apply Qmult_le_compat_r; [apply sumQ_le; intros; apply H; lia|].
  apply Qlt_le_weak, Qinv_lt_0_compat, width_gt, H0.
Qed.
Lemma average_ge0 : forall lo hi f, (lo <= hi)%Z -> (forall z, (lo <= z <= hi)%Z -> 0 <= f z) -> 0 <= average lo hi f.
Proof. intros lo hi f H0 H. rewrite <- (average_const lo hi 0 H0). apply average_le; auto. Qed.
Lemma average_le1 : forall lo hi f c, (lo <= hi)%Z -> (forall z, (lo <= z <= hi)%Z -> f z <= c) -> average lo hi f <= c.
Proof. intros lo hi f c H0 H. rewrite <- (average_const lo hi c H0). apply average_le; auto. Qed.

(** ** Powers *)
Lemma power_ext : forall a b n, a == b -> power a n == power b n.
Proof. intros a b n H. induction n as [|n IH]; cbn [power]; [reflexivity|]. apply Qmult_comp; [exact H|exact IH]. Qed.
Lemma power_ge0 : forall a n, 0 <= a -> 0 <= power a n.
Proof. intros a n H. induction n as [|n IH]; cbn [power]; [lra|]. apply Qmult_le_0_compat; auto. Qed.
Lemma power_le : forall a b n, 0 <= a -> a <= b -> power a n <= power b n.
Proof.
  intros a b n H0 H. induction n as [|n IH]; cbn [power]; [lra|]. pose proof (power_ge0 a n H0).
  apply Qle_trans with (b * power a n); [apply Qmult_le_compat_r; auto|]. setoid_rewrite Qmult_comm. apply Qmult_le_compat_r; [exact IH|lra].
Qed.
Lemma power_one : forall n, power 1 n == 1.
Proof. induction n as [|n IH]; cbn [power]; [reflexivity|]. rewrite IH. reflexivity. Qed.
Lemma power_zero : forall n, (0 < n)%nat -> power 0 n == 0.
Proof. intros [|n] H; [lia|]. cbn [power]. ring. Qed.
Lemma power_le1 : forall a n, 0 <= a -> a <= 1 -> power a n <= 1.
Proof. intros a n H0 H. apply Qle_trans with (power 1 n); [apply power_le; auto|rewrite power_one; lra]. Qed.
Lemma power_plus : forall a n m, power a (n + m) == power a n * power a m.
Proof. intros a n m. induction n as [|n IH]; cbn [power Nat.add]; [ring|]. rewrite IH. ring. Qed.
Lemma sum_powers : forall a n, sum n (power a) * (1 - a) == 1 - power a n.
Proof.
  intros a n. induction n as [|n IH]; cbn [sum power]; [ring|]. setoid_replace ((sum n (power a) + power a n) * (1 - a)) with (sum n (power a) * (1 - a) + power a n * (1 - a)) by ring.
  rewrite IH. ring.
Qed.

(** ** The recursion *)
Section Sizes.
Variables mn mx : Z.
Hypothesis H0 : (0 <= mn)%Z.
Hypothesis H1 : (mn <= mx)%Z.
Lemma ending_range : forall n, 0 <= ending mn mx n <= 1.
Proof.
  induction n as [|n IH]; cbn [ending]; [lra|]. split.
  - apply average_ge0; auto. intros. apply power_ge0, IH.
  - apply average_le1; auto. intros. apply power_le1; apply IH.
Qed.
Lemma ending_step : forall n, ending mn mx n <= ending mn mx (S n).
Proof.
  induction n as [|n IH]; [apply ending_range|].
  change (average mn mx (fun k => power (ending mn mx n) (Z.to_nat k)) <= average mn mx (fun k => power (ending mn mx (S n)) (Z.to_nat k))).
  apply average_le; auto. intros. apply power_le; [apply ending_range|exact IH].
Qed.
Lemma ending_mono : forall n m, (n <= m)%nat -> ending mn mx n <= ending mn mx m.
Proof. intros n m H. induction H as [|m H IH]; [lra|]. eapply Qle_trans; [exact IH|apply ending_step]. Qed.
Lemma ending_below : forall c, 0 <= c -> average mn mx (fun k => power c (Z.to_nat k)) <= c -> forall n, ending mn mx n <= c.
Proof.
  intros c Hc H. induction n as [|n IH]; [exact Hc|]. cbn [ending]. eapply Qle_trans; [|exact H]. apply average_le; auto. intros. apply power_le; [apply ending_range|exact IH].
Qed.
Lemma ending_none : (1 <= mn)%Z -> forall n, ending mn mx n == 0.
Proof.
  intros H. induction n as [|n IH]; cbn [ending]; [reflexivity|]. apply average_none; auto. intros z Hz. rewrite (power_ext _ _ _ IH). apply power_zero. lia.
Qed.
End Sizes.

Lemma average_zero : forall mx (f : Z -> Q), average 0 mx f == sum (Z.to_nat (mx + 1)) (fun i => f (Z.of_nat i)) / inject_Z (mx + 1).
Proof. intros mx f. unfold average. rewrite Z.sub_0_r. reflexivity. Qed.
Lemma average_powers : forall mx c, average 0 mx (fun k => power c (Z.to_nat k)) == sum (Z.to_nat (mx + 1)) (power c) / inject_Z (mx + 1).
Proof.
  intros mx c. rewrite average_zero. unfold Qdiv. apply Qmult_comp; [|reflexivity]. apply sum_ext. intros i _. rewrite Nat2Z.id. reflexivity.
Qed.
Lemma ending_zero_zero : forall n, ending 0 0 (S n) == 1.
Proof. intros n. cbn [ending]. rewrite average_powers. change (Z.to_nat (0 + 1)) with 1%nat. cbn [sum power]. reflexivity. Qed.
Lemma ending_zero_one : forall n, ending 0 1 n == 1 - power (1 # 2) n.
Proof.
  induction n as [|n IH]; [cbn; reflexivity|]. cbn [ending]. rewrite average_powers. change (Z.to_nat (1 + 1)) with 2%nat. cbn [sum power]. rewrite IH.
  change (inject_Z (1 + 1)) with (2 # 1). field.
Qed.
Lemma ending_two_step : forall n, ending 0 2 (S n) == (1 + ending 0 2 n + ending 0 2 n * ending 0 2 n) / 3.
Proof.
  intros n. cbn [ending]. rewrite average_powers. change (Z.to_nat (2 + 1)) with 3%nat. cbn [sum power]. change (inject_Z (2 + 1)) with (3 # 1). field.
Qed.
Definition nat_Q (n : nat) : Q := inject_Z (Z.of_nat n).
Lemma nat_Q_S : forall n, nat_Q (S n) == nat_Q n + 1.
Proof. intros n. unfold nat_Q. rewrite Nat2Z.inj_succ. unfold Z.succ. rewrite inject_Z_plus. reflexivity. Qed.
Lemma nat_Q_ge0 : forall n, 0 <= nat_Q n.
Proof. intros n. unfold nat_Q. change 0 with (inject_Z 0). rewrite <- Zle_Qle. lia. Qed.
(** With up to two children: d' = d - d²/3 lies between the two hyperbolas. *)
Lemma ending_zero_two : forall n, 2 / (nat_Q n + 2) <= 1 - ending 0 2 n <= 3 / (nat_Q n + 3).
Proof.
  induction n as [|n [L U]]; [split; vm_compute; discriminate|]. rewrite ending_two_step. rewrite !nat_Q_S. pose proof (nat_Q_ge0 n) as N. set (x := nat_Q n) in *. clearbody x.
  pose proof (ending_range 0 2 ltac:(lia) n) as R. set (e := ending 0 2 n) in *. clearbody e.
  assert (Hd : exists d, e == 1 - d) by (exists (1 - e); ring). destruct Hd as [d Hd].
  assert (A : 0 < / (x + 2)) by (apply Qinv_lt_0_compat; lra). assert (B : 0 < / (x + 3)) by (apply Qinv_lt_0_compat; lra).
  assert (C : 0 < / (x + 1 + 3)) by (apply Qinv_lt_0_compat; lra). unfold Qdiv in *.
  setoid_replace (1 - (1 + e + e * e) * / 3) with (d - d * d * (1 # 3)) by (rewrite Hd; field).
  assert (L' : 2 * / (x + 2) <= d) by lra. assert (U' : d <= 3 * / (x + 3)) by lra. assert (R' : d <= 1) by lra.
  assert (M : forall a b, a <= b -> 0 <= a -> b <= 1 -> a - a * a * (1 # 3) <= b - b * b * (1 # 3)).
  { intros a b Hab Ha Hb. assert (0 <= (b - a) * (1 - (a + b) * (1 # 3))) by (apply Qmult_le_0_compat; lra). lra. }
  split.
  - apply Qle_trans with (2 * / (x + 2) - (2 * / (x + 2)) * (2 * / (x + 2)) * (1 # 3)).
    + setoid_replace (x + 1 + 2) with (x + 3) by ring.
      assert (E : 2 * / (x + 2) - (2 * / (x + 2)) * (2 * / (x + 2)) * (1 # 3) - 2 * / (x + 3) == (2 # 3) * x * (/ (x + 2) * / (x + 2) * / (x + 3))) by (field; split; lra).
      assert (0 <= (2 # 3) * x * (/ (x + 2) * / (x + 2) * / (x + 3))) by (repeat apply Qmult_le_0_compat; lra). lra.
    + apply M; auto. lra.
  - apply Qle_trans with (3 * / (x + 3) - (3 * / (x + 3)) * (3 * / (x + 3)) * (1 # 3)).
    + apply M; auto; try lra. apply Qmult_le_r with (x + 3); [lra|]. setoid_replace (3 * / (x + 3) * (x + 3)) with 3 by (field; lra). lra.
    + assert (E : 3 * / (x + 1 + 3) - (3 * / (x + 3) - (3 * / (x + 3)) * (3 * / (x + 3)) * (1 # 3)) == 3 * (/ (x + 3) * / (x + 3) * / (x + 1 + 3))) by (field; split; lra).
      assert (0 <= 3 * (/ (x + 3) * / (x + 3) * / (x + 1 + 3))) by (repeat apply Qmult_le_0_compat; lra). lra.
Qed.
Lemma ending_few : forall mx, (0 <= mx <= 2)%Z -> forall n, 1 - ending 0 mx n <= 3 / (nat_Q n + 3).
Proof.
  intros mx H n. assert (Z : (mx = 0 \/ mx = 1 \/ mx = 2)%Z) by lia. pose proof (nat_Q_ge0 n) as N. assert (B : 0 < / (nat_Q n + 3)) by (apply Qinv_lt_0_compat; lra).
  destruct Z as [-> |[-> | ->]]; [|clear|apply ending_zero_two].
  - destruct n as [|n]; [vm_compute; discriminate|]. rewrite ending_zero_zero. unfold Qdiv. assert (0 <= 3 * / (nat_Q (S n) + 3)) by (apply Qmult_le_0_compat; lra). lra.
  - rewrite ending_zero_one. apply Qle_shift_div_l; [pose proof (nat_Q_ge0 n); lra|]. induction n as [|n IH]; [vm_compute; discriminate|]. rewrite nat_Q_S. cbn [power].
    pose proof (power_ge0 (1 # 2) n ltac:(lra)) as P. pose proof (nat_Q_ge0 n) as N. assert (0 <= power (1 # 2) n * (nat_Q n + 2)) by (apply Qmult_le_0_compat; lra). lra.
Qed.
Lemma ending_first : forall mx n, (0 <= mx)%Z -> 1 / inject_Z (mx + 1) <= ending 0 mx (S n).
Proof.
  intros mx n H. apply Qle_trans with (ending 0 mx 1); [|apply ending_mono; lia]. cbn [ending]. rewrite average_powers. unfold Qdiv. apply Qmult_le_compat_r.
  - replace (Z.to_nat (mx + 1)) with (1 + Z.to_nat mx)%nat by lia. rewrite sum_split. cbn [sum power].
    assert (0 <= sum (Z.to_nat mx) (fun i => power 0 (1 + i))); [|lra]. rewrite <- (Qmult_0_r (inject_Z (Z.of_nat (Z.to_nat mx)))). rewrite <- sum_const. apply sumQ_le.
    intros. apply power_ge0. lra.
  - apply Qlt_le_weak, Qinv_lt_0_compat. change 0 with (inject_Z 0). rewrite <- Zlt_Qlt. lia.
Qed.
Lemma ending_wide : forall mx n, (3 <= mx)%Z -> ending 0 mx n <= 2 / inject_Z (mx + 1).
Proof.
  intros mx n H. assert (W : 4 <= inject_Z (mx + 1)) by (change 4 with (inject_Z 4); rewrite <- Zle_Qle; lia).
  assert (I : 0 < / inject_Z (mx + 1)) by (apply Qinv_lt_0_compat; lra).
  assert (C : 2 / inject_Z (mx + 1) <= 1 # 2).
  { unfold Qdiv. apply Qmult_le_r with (inject_Z (mx + 1)); [lra|]. setoid_replace (2 * / inject_Z (mx + 1) * inject_Z (mx + 1)) with 2 by (field; lra). lra. }
  assert (Z0 : 0 <= 2 / inject_Z (mx + 1)) by (unfold Qdiv; apply Qmult_le_0_compat; lra).
  apply ending_below; [lia|exact Z0|]. rewrite average_powers. set (c := 2 / inject_Z (mx + 1)) in *. pose proof (sum_powers c (Z.to_nat (mx + 1))) as S.
  pose proof (power_ge0 c (Z.to_nat (mx + 1)) Z0) as P. set (s := sum (Z.to_nat (mx + 1)) (power c)) in *.
  assert (B : s <= 2). { apply Qmult_le_r with (1 - c); [lra|]. rewrite S. lra. }
  unfold c, Qdiv. apply Qmult_le_compat_r; [exact B|lra].
Qed.

(** ** The plans of the generators *)
Fixpoint box_plan (mn mx : Z) (n : nat) : plan box := match n with O => Ends OutOfFuel | S n' => pmap Box (list_plan mn mx (box_plan mn mx n')) end.
Fixpoint level_plan (mn mx : Z) (n : nat) : plan box := match n with O => Ends (Ok (Box [])) | S n' => pmap Box (list_plan mn mx (level_plan mn mx n')) end.
Section Laws.
Variables mn mx : Z.
Hypothesis H0 : (0 <= mn)%Z.
Hypothesis H1 : (mn <= mx)%Z.
Hypothesis H2 : (mx <= UINT32_MAX)%Z.
Variable make : tree (list box) -> tree box.
Hypothesis Hm : forall t, root (make t) = Box (root t).
Lemma step_law : forall (g : forall E, gen E box) p, law g p ->
  law (fun E => gbind (arbi_vector (g E) {| minSize := mn; maxSize := mx |}) (fun t => gret (make t))) (pmap Box (list_plan mn mx p)).
Proof.
  intros g p H E. apply (fits_bind' _ _ _ _ _ root root _ _ (list_plan mn mx p) (fun a => Ends (Ok (Box a)))).
  - exact (vector_law box g p mn mx H H0 H1 H2 E).
  - intros t. apply fits_ret. apply Hm.
Qed.
Lemma box_law : forall n, law (fun E => boxGen n make {| minSize := mn; maxSize := mx |}) (box_plan mn mx n).
Proof.
  induction n as [|n IH]; [intros E r; reflexivity|]. exact (step_law (fun E => boxGen n make {| minSize := mn; maxSize := mx |}) _ IH).
Qed.
Lemma level_law : forall n, law (fun E => boxLevel n make {| minSize := mn; maxSize := mx |}) (level_plan mn mx n).
Proof.
  induction n as [|n IH]; [intros E r; reflexivity|]. exact (step_law (fun E => boxLevel n make {| minSize := mn; maxSize := mx |}) _ IH).
Qed.
End Laws.

(** ** Probabilities *)
Lemma times_all : forall A (p : plan A) ev n, prob (times_plan n p) (forallb ev) == power (prob p ev) n.
Proof.
  intros A p ev n. induction n as [|n IH]; cbn [times_plan power]; [reflexivity|].
  apply prob_bind_and. intros x. change (pbind (times_plan n p) (fun xs => Ends (Ok (x :: xs)))) with (pmap (cons x) (times_plan n p)). rewrite prob_map. cbn [forallb].
  rewrite (prob_ext _ _ _ (fun l => forallb ev l && ev x)%bool) by (intros; apply andb_comm). rewrite prob_and_const. destruct (ev x); [apply IH|reflexivity].
Qed.
Lemma list_all : forall A (p : plan A) ev mn mx, (mn <= mx)%Z -> prob (list_plan mn mx p) (forallb ev) == average mn mx (fun k => power (prob p ev) (Z.to_nat k)).
Proof.
  intros A p ev mn mx H. unfold list_plan, prob. cbn [mean]. destruct (Z.leb_spec mn mx); [|lia]. apply average_ext. intros z _. apply times_all.
Qed.
Lemma depth_forallb : forall cs n, (depth (Box cs) <=? S n)%nat = forallb (fun c => depth c <=? n)%nat cs.
Proof.
  intros cs n. change (depth (Box cs)) with (S (list_max (map depth cs))). cbn [Nat.leb]. induction cs as [|c cs IH]; [reflexivity|]. cbn [map list_max fold_right forallb].
  change (fold_right Nat.max 0%nat (map depth cs)) with (list_max (map depth cs)). rewrite <- IH.
  destruct (Nat.leb_spec (Nat.max (depth c) (list_max (map depth cs))) n), (Nat.leb_spec (depth c) n), (Nat.leb_spec (list_max (map depth cs)) n); try reflexivity; lia.
Qed.
Lemma box_depth_prob : forall mn mx, (mn <= mx)%Z -> forall m n, prob (box_plan mn mx m) (fun b => depth b <=? n)%nat == ending mn mx (Nat.min n m).
Proof.
  intros mn mx H m. induction m as [|m IH]; intros n.
  - rewrite Nat.min_0_r. reflexivity.
  - cbn [box_plan]. rewrite prob_map. destruct n as [|n].
    + apply prob_none. intros [|c cs]; reflexivity.
    + rewrite (prob_ext _ _ _ (forallb (fun c => depth c <=? n)%nat)) by (intros; apply depth_forallb). rewrite list_all by exact H. cbn [Nat.min ending].
      apply average_ext. intros z _. apply power_ext, IH.
Qed.
Lemma box_prob : forall mn mx, (mn <= mx)%Z -> forall n, prob (box_plan mn mx n) anything == ending mn mx n.
Proof.
  intros mn mx H. induction n as [|n IH]; [reflexivity|]. cbn [box_plan]. rewrite prob_map. rewrite (prob_ext _ _ _ (forallb anything)).
  - rewrite list_all by exact H. cbn [ending]. apply average_ext. intros z _. apply power_ext, IH.
  - intros l. induction l as [|a l IHl]; [reflexivity|exact IHl].
Qed.

Fixpoint box_eqb (b c : box) : bool :=
  match b, c with Box bs, Box cs =>
    (fix go (l m : list box) : bool := match l, m with [], [] => true | x :: l', y :: m' => (box_eqb x y && go l' m')%bool | _, _ => false end) bs cs end.
Lemma box_eqb_each : forall bs cs, box_eqb (Box bs) (Box cs) = each (map box_eqb bs) cs.
Proof.
  intros bs. cbn [box_eqb]. induction bs as [|b bs IH]; intros [|c cs]; try reflexivity. cbn [map each]. rewrite <- IH. reflexivity.
Qed.
Fixpoint box_ind' (P : box -> Prop) (H : forall cs, Forall P cs -> P (Box cs)) (b : box) : P b :=
  match b with Box cs => H cs ((fix go (l : list box) : Forall P l := match l with [] => Forall_nil P | c :: l' => Forall_cons c (box_ind' P H c) (go l') end) cs) end.
Lemma box_eqb_true : forall b c, box_eqb b c = true <-> c = b.
Proof.
  intros b. induction b as [bs IH] using box_ind'. intros [cs]. rewrite box_eqb_each. assert (K : each (map box_eqb bs) cs = true <-> cs = bs).
  { revert cs. induction IH as [|b bs Hb Hbs IHl]; intros [|c cs]; cbn [map each]; try (split; [discriminate|congruence]); [split; auto|].
    rewrite andb_true_iff, Hb, IHl. split; [intros [-> ->]; reflexivity|intros E; inversion E; auto]. }
  rewrite K. split; [intros ->; reflexivity|congruence].
Qed.
Lemma power_product : forall A (f : A -> Q) q h l, Forall (fun a => f a == power q (h a)) l -> product (map f l) == power q (list_sum (map h l)).
Proof.
  intros A f q h l H. induction H as [|a l Ha Hl IH]; [reflexivity|]. cbn [map]. change (list_sum (h a :: map h l)) with (h a + list_sum (map h l))%nat. rewrite power_plus, <- IH, <- Ha. reflexivity.
Qed.
Lemma box_value_prob : forall mn mx, (0 <= mn)%Z -> (mn <= mx)%Z -> forall n b, within mn mx b -> (depth b <= n)%nat ->
  prob (box_plan mn mx n) (box_eqb b) == power (1 / inject_Z (mx - mn + 1)) (boxes b).
Proof.
  intros mn mx H0 H1. induction n as [|n IH]; intros [bs] W D; [cbn [depth] in D; lia|]. inversion W as [cs L F E]; subst cs. cbn [box_plan]. rewrite prob_map.
  rewrite (prob_ext _ _ _ (each (map box_eqb bs))) by (intros; apply box_eqb_each). rewrite list_prob; [|exact H0|rewrite map_length; exact L].
  rewrite map_map. rewrite (power_product _ _ (1 / inject_Z (mx - mn + 1)) boxes).
  - change (boxes (Box bs)) with (S (list_sum (map boxes bs))). cbn [power]. field. apply width_pos, H1.
  - apply Forall_forall. intros b Hb. apply IH; [exact (proj1 (Forall_forall _ _) F b Hb)|].
    change (depth (Box bs)) with (S (list_max (map depth bs))) in D. pose proof (proj1 (list_max_le (map depth bs) n) ltac:(lia)) as M. rewrite Forall_forall in M. apply M, in_map, Hb.
Qed.

(** ** Whether it returns *)
Fixpoint pcatch {A} (p : plan A) : plan bool :=
  match p with Ends x => Ends (Ok (returns x)) | Draws lo hi next => if (lo <=? hi)%Z then Draws lo hi (fun z => pcatch (next z)) else Ends (Ok false) end.
Lemma pcatch_play : forall E A (p : plan A) (r : rst E), result (play (pcatch p) r) = Ok (returns (play p r)).
Proof.
  intros E A p. induction p as [x|lo hi next IH]; intros r; [destruct x; reflexivity|]. cbn [pcatch play]. destruct (lo <=? hi)%Z eqn:L; [|reflexivity].
  cbn [play]. rewrite L. apply IH.
Qed.
Lemma pcatch_prob : forall A (p : plan A), prob (pcatch p) (fun b => b) == prob p anything /\ prob (pcatch p) negb == 1 - prob p anything.
Proof.
  intros A p. unfold prob. induction p as [x|lo hi next IH]; [destruct x; split; reflexivity|]. cbn [pcatch mean]. destruct (lo <=? hi)%Z eqn:L; [|split; reflexivity].
  cbn [mean]. rewrite L. apply Z.leb_le in L. split.
  - apply average_ext. intros z _. apply IH.
  - rewrite (average_ext _ _ _ (fun z => 1 + -1 * mean (next z) (when anything))) by (intros z _; rewrite (proj2 (IH z)); ring).
    rewrite average_plus, average_scale, average_const by exact L. ring.
Qed.
Lemma returns_seen : forall X A S (see : X -> A) (x : res (X * S)), returns (seen see x) = returns x.
Proof. intros X A S see [[a s]| | |]; reflexivity. Qed.
Lemma likely_returns : forall A (g : forall E, gen E A) q, likely g anything q ->
  likelyResult (fun E r => Ok (returns (g E r))) (fun b => b) q /\ likelyResult (fun E r => Ok (returns (g E r))) negb (1 - q).
Proof.
  intros A g q (p & L & P). split; exists (pcatch p); (split; [intros E r; rewrite pcatch_play, <- (L E r), returns_seen; reflexivity|]); rewrite <- P; apply pcatch_prob.
Qed.

(** ** Means *)
Lemma mean_sum : forall A (p : plan A) f, prob p anything == 1 -> forall n,
  mean (times_plan n p) (onValue (fun l => total (map f l))) == nat_Q n * mean p (onValue f).
Proof.
  intros A p f H n. induction n as [|n IH]; cbn [times_plan].
  - cbn [mean onValue map total fold_right]. unfold nat_Q. cbn. ring.
  - rewrite mean_bind.
    assert (T : prob (times_plan n p) anything == 1).
    { rewrite (prob_ext _ _ _ (forallb anything)); [rewrite times_all, (power_ext _ _ _ H); apply power_one|]. intros l. induction l as [|a l IHl]; [reflexivity|exact IHl]. }
    rewrite (mean_ext _ _ _ (fun x => onValue f x + nat_Q n * mean p (onValue f) * when anything x)).
    + rewrite mean_plus, mean_scale. fold (prob p anything). rewrite H, nat_Q_S. ring.
    + intros [a| | |]; cbn [over onValue when anything]; try ring. rewrite mean_bind.
      rewrite (mean_ext _ _ _ (fun y => f a * when anything y + onValue (fun l => total (map f l)) y)).
      * rewrite mean_plus, mean_scale, IH. fold (prob (times_plan n p) anything). rewrite T. ring.
      * intros [l| | |]; cbn [over mean onValue when anything map]; try ring. unfold total. cbn [fold_right]. ring.
Qed.
Lemma sum_triangle : forall n (lo : Z), sum n (fun i => inject_Z (lo + Z.of_nat i)) == nat_Q n * inject_Z lo + nat_Q n * (nat_Q n - 1) / 2.
Proof.
  intros n lo. induction n as [|n IH]; cbn [sum]; [unfold nat_Q; cbn; field|]. rewrite IH, nat_Q_S, inject_Z_plus. unfold nat_Q. field.
Qed.
Lemma average_middle : forall lo hi, (lo <= hi)%Z -> average lo hi inject_Z == inject_Z (lo + hi) / 2.
Proof.
  intros lo hi H. unfold average. rewrite sum_triangle. unfold nat_Q. rewrite Z2Nat.id by lia. pose proof (width_pos lo hi H) as W.
  setoid_replace (inject_Z (lo + hi)) with (2 * inject_Z lo + (inject_Z (hi - lo + 1) - 1)); [field; exact W|].
  change 2 with (inject_Z 2). change 1 with (inject_Z 1). rewrite <- inject_Z_mult. unfold Qminus. rewrite <- inject_Z_opp, <- !inject_Z_plus. replace (lo + hi)%Z with (2 * lo + (hi - lo + 1 + - (1)))%Z by lia. reflexivity.
Qed.
Definition count (b : box) : Q := nat_Q (boxes b).
Lemma count_box : forall cs, count (Box cs) == 1 + total (map count cs).
Proof.
  intros cs. unfold count. change (boxes (Box cs)) with (S (list_sum (map boxes cs))). rewrite nat_Q_S. rewrite (Qplus_comm _ 1). apply Qplus_comp; [reflexivity|].
  induction cs as [|c cs IH]; [reflexivity|]. cbn [map]. change (list_sum (boxes c :: map boxes cs)) with (boxes c + list_sum (map boxes cs))%nat.
  unfold nat_Q in *. rewrite Nat2Z.inj_add, inject_Z_plus, IH. unfold total. cbn [fold_right]. reflexivity.
Qed.
Lemma level_mean : forall mn mx, (0 <= mn)%Z -> (mn <= mx)%Z -> forall n, prob (level_plan mn mx n) anything == 1 /\
  mean (level_plan mn mx n) (onValue count) == generations (inject_Z (mn + mx) / 2) n.
Proof.
  intros mn mx H0 H1. induction n as [|n [P M]]; [split; reflexivity|]. cbn [level_plan]. split.
  - rewrite prob_map. rewrite (prob_ext _ _ _ (forallb anything)).
    + rewrite list_all by exact H1. rewrite (average_ext _ _ _ (fun _ => 1)); [apply average_const, H1|]. intros z _. rewrite (power_ext _ _ _ P). apply power_one.
    + intros l. induction l as [|a l IHl]; [reflexivity|exact IHl].
  - unfold pmap. rewrite mean_bind. unfold list_plan. cbn [mean]. destruct (Z.leb_spec mn mx) as [_|]; [|lia].
    rewrite (average_ext _ _ _ (fun z => 1 + generations (inject_Z (mn + mx) / 2) n * inject_Z z)).
    + rewrite average_plus, average_const by exact H1. rewrite average_scale, average_middle by exact H1. cbn [generations]. field.
    + intros z Hz. rewrite (mean_ext _ _ _ (fun x => when anything x + onValue (fun l => total (map count l)) x)).
      * rewrite mean_plus. rewrite mean_sum by exact P. rewrite M.
        fold (prob (times_plan (Z.to_nat z) (level_plan mn mx n)) anything). rewrite (prob_ext _ _ _ (forallb anything)).
        -- rewrite times_all, (power_ext _ _ _ P), power_one. unfold nat_Q. rewrite Z2Nat.id by lia. ring.
        -- intros l. induction l as [|a l IHl]; [reflexivity|exact IHl].
      * intros [l| | |]; cbn [over mean onValue when anything]; try ring. rewrite count_box. reflexivity.
Qed.
