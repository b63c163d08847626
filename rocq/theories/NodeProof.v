(** Generators that refer to themselves in one of two alternatives. *)
From Coq Require Import List ZArith QArith Qround Lia Lqa Bool Arith Floats.SpecFloat.
From Verif Require Import Base TreeModel TreeSpec TreeProof RandomModel ContainerModel GenModel.
From Verif Require Import ChanceSpec ChanceProof ChanceLawProof ChanceCombProof PropChance EndingSpec EndingProof NodeModel NodeSpec.
Import ListNotations.
Local Open Scope Q_scope.

(** ** Laws *)
Lemma construct2_likely : forall A B C first (g1 : forall E, gen E A) (g2 : forall E, gen E B) (f : A -> B -> C) q1 q2, likely g1 anything q1 -> likely g2 anything q2 ->
  likely (fun E => construct2 first (g1 E) (g2 E) f) anything (q1 * q2).
Proof.
  intros A B C first g1 g2 f q1 q2 (p1 & L1 & Q1) (p2 & L2 & Q2). destruct first.
  - exists (pbind p1 (fun a => pbind p2 (fun b => Ends (Ok (f a b))))). split.
    + intros E. apply (fits_bind' _ _ _ _ _ root root _ _ p1 (fun a => pbind p2 (fun b => Ends (Ok (f a b))))); [exact (L1 E)|]. intros t.
      apply (fits_bind' _ _ _ _ _ root root _ _ p2 (fun b => Ends (Ok (f (root t) b)))); [exact (L2 E)|]. intros u. apply fits_ret. reflexivity.
    + rewrite (prob_bind_and _ _ p1 _ anything anything q2); [rewrite Q1; reflexivity|]. intros a. cbn [anything].
      change (prob (pmap (f a) p2) anything == q2). rewrite prob_map. exact Q2.
  - exists (pbind p2 (fun b => pbind p1 (fun a => Ends (Ok (f a b))))). split.
    + intros E. apply (fits_bind' _ _ _ _ _ root root _ _ p2 (fun b => pbind p1 (fun a => Ends (Ok (f a b))))); [exact (L2 E)|]. intros t.
      apply (fits_bind' _ _ _ _ _ root root _ _ p1 (fun a => Ends (Ok (f a (root t))))); [exact (L1 E)|]. intros u. apply fits_ret. reflexivity.
    + rewrite (prob_bind_and _ _ p2 _ anything anything q1); [rewrite Q2; ring|]. intros b. cbn [anything].
      change (prob (pmap (fun a => f a b) p1) anything == q1). rewrite prob_map. exact Q1.
Qed.
Lemma vector_returns : forall A (g : forall E, gen E A) q mn mx, likely g anything q -> (0 <= mn)%Z -> (mn <= mx)%Z -> (mx <= UINT32_MAX)%Z ->
  likely (fun E => arbi_vector (g E) {| minSize := mn; maxSize := mx |}) anything (average mn mx (fun k => power q (Z.to_nat k))).
Proof.
  intros A g q mn mx (p & L & P) H0 H1 H2. exists (list_plan mn mx p). split; [apply vector_law; auto|].
  rewrite (prob_ext _ _ _ (forallb anything)); [|intros l; induction l as [|a l IHl]; [reflexivity|exact IHl]].
  rewrite list_all by exact H1. apply average_ext. intros z _. apply power_ext, P.
Qed.
Lemma likely_ext : forall A (g : forall E, gen E A) ev q q', q == q' -> likely g ev q -> likely g ev q'.
Proof. intros A g ev q q' H (p & L & P). exists p. split; [exact L|]. rewrite P. exact H. Qed.
Lemma leaf_returns : forall ig, likely ig anything 1 -> likely (fun E => leafGen (ig E)) anything 1.
Proof.
  intros ig (p & L & P). exists (pbind p (fun z => Ends (Ok (Nd z [])))). split.
  - intros E. apply (fits_bind' _ _ _ _ _ root root _ _ p (fun z => Ends (Ok (Nd z [])))); [exact (L E)|]. intros t. apply fits_ret. reflexivity.
  - change (prob (pmap (fun z => Nd z []) p) anything == 1). rewrite prob_map. exact P.
Qed.
Lemma branch1_returns : forall first ig mn mx, likely ig anything 1 -> (0 <= mn)%Z -> (mn <= mx)%Z -> (mx <= UINT32_MAX)%Z ->
  likely (fun E => branch1Gen first (ig E) {| minSize := mn; maxSize := mx |}) anything 1.
Proof.
  intros first ig mn mx Hi H0 H1 H2. apply (likely_ext _ _ _ (1 * average mn mx (fun k => power 1 (Z.to_nat k)))).
  - rewrite (average_ext _ _ _ (fun _ => 1)); [rewrite average_const by exact H1; reflexivity|]. intros z _. apply power_one.
  - apply (construct2_likely _ _ _ first ig (fun E => arbi_vector (leafGen (ig E)) {| minSize := mn; maxSize := mx |}) Nd); [exact Hi|].
    apply (vector_returns _ (fun E => leafGen (ig E))); auto. apply leaf_returns, Hi.
Qed.

Lemma branching_ext : forall s s' g g' mn mx n, s == s' -> g == g' -> branching s g mn mx n == branching s' g' mn mx n.
Proof.
  intros s s' g g' mn mx n Hs Hg. induction n as [|n IH]; cbn [branching]; [reflexivity|]. apply average_ext. intros z _. apply power_ext, Qplus_comp; [exact Hs|]. apply Qmult_comp; [exact Hg|exact IH].
Qed.
Section Node.
Variables (mn mx : Z) (first : bool) (ig : forall E, gen E Z) (stop : forall E, gen E node) (w1 w2 a b : spec_float) (c1 c2 : Q).
Hypothesis H0 : (0 <= mn)%Z.
Hypothesis H1 : (mn <= mx)%Z.
Hypothesis H2 : (mx <= UINT32_MAX)%Z.
Hypothesis Hi : likely ig anything 1.
Hypothesis Hs : likely stop anything 1.
Hypothesis Hw : oneOfWeights [w1; w2] = Ok [a; b].
Hypothesis Ha : coin a c1.
Hypothesis Hb : coin b c2.
Hypothesis Hc : ~ c1 + c2 == 0.
Lemma node_returns : forall m n, likely (fun E => branchNGen n (S m) first (ig E) (stop E) w1 w2 {| minSize := mn; maxSize := mx |}) anything
  (branching ((1 - power (1 - (c1 + c2) / 2) m) * (c1 / (c1 + c2))) ((1 - power (1 - (c1 + c2) / 2) m) * (c2 / (c1 + c2))) mn mx n).
Proof.
  intros m n. set (h := 1 - power (1 - (c1 + c2) / 2) m). induction n as [|n IH].
  - exists (Ends OutOfFuel). split; [intros E r; reflexivity|reflexivity].
  - cbn [branching]. set (q := branching _ _ mn mx n) in *.
    destruct (C78_oneOf node [(stop, w1); (fun E => branchNGen n (S m) first (ig E) (stop E) w1 w2 {| minSize := mn; maxSize := mx |}, w2)] [a; b] [c1; c2] anything [1; q]) as (g & G1 & G2).
    + cbn [length]. lia.
    + cbn [length]. unfold UINT32_MAX. lia.
    + exact Hw.
    + constructor; [exact Ha|]. constructor; [exact Hb|]. constructor.
    + cbn [total fold_right]. intros Z. apply Hc. rewrite <- Z. ring.
    + constructor; [exact Hs|]. constructor; [exact IH|]. constructor.
    + specialize (G2 m). cbn [length] in G2.
      assert (K : h * (c1 / (c1 + c2)) + h * (c2 / (c1 + c2)) * q == (1 - power (1 - total [c1; c2] / inject_Z (Z.of_nat 2)) m) * (dot [c1; c2] [1; q] / total [c1; c2])).
      { cbn [total fold_right dot]. change (inject_Z (Z.of_nat 2)) with 2. unfold h. rewrite (power_ext (1 - (c1 + (c2 + 0)) / 2) (1 - (c1 + c2) / 2)); [|field].
        field. repeat split; auto. }
      apply (likely_ext _ _ _ _ _ (Qeq_sym _ _ K)) in G2.
      pose proof (construct2_likely _ _ _ first ig (fun E => arbi_vector (g E (S m)) {| minSize := mn; maxSize := mx |}) Nd _ _ Hi (vector_returns _ (fun E => g E (S m)) _ mn mx G2 H0 H1 H2)) as X.
      apply (likely_ext _ _ _ _ _ (Qmult_1_l _)) in X. destruct X as (p & L & P). exists p. split; [|exact P].
      intros E r. rewrite <- (L E r). cbn [branchNGen]. specialize (G1 E). cbn [map fst snd] in G1. rewrite G1. reflexivity.
Qed.
End Node.

(** ** Numbers *)
Lemma branching_range : forall s g mn mx, 0 <= s -> 0 <= g -> s + g <= 1 -> (mn <= mx)%Z -> forall n, 0 <= branching s g mn mx n <= 1.
Proof.
  intros s g mn mx Hs Hg H1 Hm. induction n as [|n IH]; cbn [branching]; [lra|].
  assert (B : 0 <= s + g * branching s g mn mx n <= 1) by nra. split.
  - apply average_ge0; auto. intros. apply power_ge0, B.
  - apply average_le1; auto. intros. apply power_le1; apply B.
Qed.
Lemma branching_limit : forall s g mn mx c, 0 <= s -> 0 <= g -> s + g <= 1 -> (mn <= mx)%Z -> 0 <= c ->
  average mn mx (fun k => power (s + g * c) (Z.to_nat k)) <= c -> forall n, branching s g mn mx n <= c.
Proof.
  intros s g mn mx c Hs Hg H1 Hm Hc H. induction n as [|n IH]; [exact Hc|]. cbn [branching]. eapply Qle_trans; [|exact H].
  pose proof (branching_range s g mn mx Hs Hg H1 Hm n). apply average_le; auto. intros. apply power_le; nra.
Qed.
(** (1 - x)^k lies between 1 - k x and 1 - k x + k^2 x^2. *)
Lemma power_below : forall x k, 0 <= x <= 1 -> 1 - inject_Z (Z.of_nat k) * x <= power (1 - x) k.
Proof.
  intros x k Hx. induction k as [|k IH]; [cbn [power]; change (inject_Z (Z.of_nat 0)) with 0; lra|]. cbn [power].
  replace (Z.of_nat (S k)) with (Z.of_nat k + 1)%Z by lia. rewrite inject_Z_plus. change (inject_Z 1) with 1.
  assert (0 <= inject_Z (Z.of_nat k)) by (change 0 with (inject_Z 0); rewrite <- Zle_Qle; lia). nra.
Qed.
Lemma power_above : forall x k, 0 <= x <= 1 -> power (1 - x) k <= 1 - inject_Z (Z.of_nat k) * x + inject_Z (Z.of_nat k) * inject_Z (Z.of_nat k) * (x * x).
Proof.
  intros x k Hx. induction k as [|k IH]; [cbn [power]; change (inject_Z (Z.of_nat 0)) with 0; lra|]. cbn [power].
  replace (Z.of_nat (S k)) with (Z.of_nat k + 1)%Z by lia. rewrite inject_Z_plus. change (inject_Z 1) with 1.
  assert (B : 0 <= inject_Z (Z.of_nat k)) by (change 0 with (inject_Z 0); rewrite <- Zle_Qle; lia). set (K := inject_Z (Z.of_nat k)) in *.
  apply Qle_trans with ((1 - x) * (1 - K * x + K * K * (x * x))).
  - setoid_rewrite Qmult_comm. apply Qmult_le_compat_r; [exact IH|lra].
  - assert (0 <= K * (x * x)) by (apply Qmult_le_0_compat; nra). assert (0 <= K * K * (x * x) * x) by (repeat apply Qmult_le_0_compat; lra). assert (0 <= x * x) by nra. lra.
Qed.
Lemma sum_numbers : forall n m, sum n (fun i => inject_Z (m + Z.of_nat i)) * 2 == inject_Z (Z.of_nat n * (2 * m + Z.of_nat n - 1)).
Proof.
  intros n m. induction n as [|n IH]; [reflexivity|]. cbn [sum]. rewrite Qmult_plus_distr_l, IH. change 2 with (inject_Z 2). rewrite <- inject_Z_mult, <- inject_Z_plus.
  replace (Z.of_nat (S n)) with (Z.of_nat n + 1)%Z by lia. apply inject_Z_injective. ring.
Qed.
Lemma average_numbers : forall mn mx, (mn <= mx)%Z -> average mn mx inject_Z == meanSize mn mx.
Proof.
  intros mn mx H. unfold average, meanSize. assert (W : ~ inject_Z (mx - mn + 1) == 0) by (apply width_pos, H).
  assert (X : sum (Z.to_nat (mx - mn + 1)) (fun i => inject_Z (mn + Z.of_nat i)) == inject_Z (mx - mn + 1) * inject_Z (mn + mx) / 2).
  { apply Qmult_inj_r with 2; [discriminate|]. rewrite sum_numbers. rewrite Z2Nat.id by lia. rewrite <- inject_Z_mult. replace (2 * mn + (mx - mn + 1) - 1)%Z with (mn + mx)%Z by ring. field. }
  rewrite X. field. exact W.
Qed.
Lemma mean_ge0 : forall mn mx, (0 <= mn)%Z -> (mn <= mx)%Z -> 0 <= meanSize mn mx.
Proof.
  intros mn mx H0 H1. unfold meanSize, Qdiv. apply Qmult_le_0_compat; [change 0 with (inject_Z 0); rewrite <- Zle_Qle; lia|discriminate].
Qed.
(** One step: what is missing is at most the mean number of children times what is missing for a child. *)
Lemma branching_step : forall s g mn mx, 0 <= s -> 0 <= g -> s + g <= 1 -> (0 <= mn)%Z -> (mn <= mx)%Z -> forall n,
  1 - branching s g mn mx (S n) <= meanSize mn mx * ((1 - s - g) + g * (1 - branching s g mn mx n)).
Proof.
  intros s g mn mx Hs Hg H1 H0 Hm n. pose proof (branching_range s g mn mx Hs Hg H1 Hm n) as B. cbn [branching]. set (f := branching s g mn mx n) in *.
  set (x := 1 - s - g + g * (1 - f)). assert (Hx : 0 <= x <= 1) by (unfold x; nra).
  assert (L : average mn mx (fun k => 1 + - x * inject_Z k) <= average mn mx (fun k => power (s + g * f) (Z.to_nat k))).
  { apply average_le; [exact Hm|]. intros z Hz. rewrite (power_ext (s + g * f) (1 - x)) by (unfold x; ring). pose proof (power_below x (Z.to_nat z) Hx) as P. rewrite Z2Nat.id in P by lia. lra. }
  rewrite average_plus, average_scale, average_const, average_numbers in L by exact Hm. lra.
Qed.
Lemma branching_rate : forall s g mn mx, 0 <= s -> 0 <= g -> s + g <= 1 -> (0 <= mn)%Z -> (mn <= mx)%Z -> meanSize mn mx * g < 1 -> forall n,
  1 - branching s g mn mx n <= power (meanSize mn mx * g) n + meanSize mn mx * (1 - s - g) / (1 - meanSize mn mx * g).
Proof.
  intros s g mn mx Hs Hg H1 H0 Hm Hr. pose proof (mean_ge0 mn mx H0 Hm) as K0. set (K := meanSize mn mx) in *. set (e := K * (1 - s - g) / (1 - K * g)).
  assert (E : e * (1 - K * g) == K * (1 - s - g)) by (unfold e; field; lra).
  assert (E0 : 0 <= e) by (unfold e; apply Qle_shift_div_l; [lra|nra]).
  induction n as [|n IH]; [cbn [branching power]; lra|]. eapply Qle_trans; [apply branching_step; auto|]. fold K. cbn [power].
  assert (G : 0 <= K * g) by nra. set (f := branching s g mn mx n) in *. set (P := power (K * g) n) in *.
  assert (X : K * g * (1 - f) <= K * g * (P + e)) by (setoid_rewrite (Qmult_comm (K * g)); apply Qmult_le_compat_r; auto). lra.
Qed.
(** More than one child with a family on average: some bound below 1 is never passed. *)
Lemma branching_bound : forall s g mn mx, 0 <= s -> 0 <= g -> s + g == 1 -> (0 <= mn)%Z -> (mn <= mx)%Z -> 1 < meanSize mn mx * g -> forall n,
  branching s g mn mx n <= 1 - (meanSize mn mx * g - 1) / inject_Z (mx * mx).
Proof.
  intros s g mn mx Hs Hg H1 H0 Hm Hr n.
  assert (X1 : (1 <= mx)%Z).
  { destruct (Z_le_gt_dec 1 mx) as [A|A]; [exact A|]. exfalso. assert (mn = 0 /\ mx = 0)%Z as [-> ->] by lia. assert (Z : meanSize 0 0 * g == 0) by (change (meanSize 0 0) with (0 / 2); field). lra. }
  assert (X : 1 <= inject_Z mx) by (change 1 with (inject_Z 1); rewrite <- Zle_Qle; exact X1).
  assert (KM : meanSize mn mx <= inject_Z mx).
  { unfold meanSize. apply Qle_shift_div_r; [reflexivity|]. change 2 with (inject_Z 2). rewrite <- inject_Z_mult, <- Zle_Qle. lia. }
  pose proof (mean_ge0 mn mx H0 Hm) as K0. set (K := meanSize mn mx) in *. set (M := inject_Z mx) in *.
  assert (MM : inject_Z (mx * mx) == M * M) by (unfold M; rewrite inject_Z_mult; reflexivity).
  set (d := (K * g - 1) / inject_Z (mx * mx)).
  assert (D : d * (M * M) == K * g - 1) by (unfold d; rewrite MM; field; lra).
  assert (D0 : 0 <= d) by (unfold d; apply Qle_shift_div_l; [rewrite MM; nra|lra]).
  assert (G1 : g <= 1) by lra. assert (KG : K * g <= M) by nra.
  assert (D1 : d <= 1) by (unfold d; apply Qle_shift_div_r; rewrite ?MM; nra).
  apply branching_limit; auto; try lra.
  assert (Hx : 0 <= g * d <= 1) by nra. set (x := g * d) in *.
  assert (L : average mn mx (fun k => power (s + g * (1 - d)) (Z.to_nat k)) <= average mn mx (fun k => (1 + M * M * (x * x)) + - x * inject_Z k)).
  { apply average_le; [exact Hm|]. intros z Hz. assert (PE : power (s + g * (1 - d)) (Z.to_nat z) == power (1 - x) (Z.to_nat z)) by (apply power_ext; unfold x; lra).
    pose proof (power_above x (Z.to_nat z) Hx) as P. rewrite Z2Nat.id in P by lia.
    assert (Z0 : 0 <= inject_Z z) by (change 0 with (inject_Z 0); rewrite <- Zle_Qle; lia). assert (Z1 : inject_Z z <= M) by (unfold M; rewrite <- Zle_Qle; lia).
    assert (inject_Z z * inject_Z z <= M * M) by nra. assert (0 <= x * x) by nra.
    assert (inject_Z z * inject_Z z * (x * x) <= M * M * (x * x)) by (apply Qmult_le_compat_r; auto). lra. }
  rewrite average_plus, average_scale, average_const, average_numbers in L by exact Hm. fold K in L.
  assert (XX : M * M * (x * x) <= d * (K * g - 1)).
  { rewrite <- D. unfold x. assert (0 <= M * M * (d * d)) by nra. assert (g * g <= 1) by nra.
    setoid_replace (M * M * (g * d * (g * d))) with (g * g * (M * M * (d * d))) by ring. setoid_replace (d * (d * (M * M))) with (1 * (M * M * (d * d))) by ring. apply Qmult_le_compat_r; auto. }
  eapply Qle_trans; [exact L|]. unfold x in *. lra.
Qed.

Lemma branching_mono : forall s s' g g' mn mx, 0 <= s -> s <= s' -> 0 <= g -> g <= g' -> s' + g' <= 1 -> (mn <= mx)%Z -> forall n, branching s g mn mx n <= branching s' g' mn mx n.
Proof.
  intros s s' g g' mn mx Hs Hs' Hg Hg' H1 Hm. induction n as [|n IH]; cbn [branching]; [lra|]. pose proof (branching_range s g mn mx Hs Hg ltac:(lra) Hm n) as B.
  apply average_le; [exact Hm|]. intros z _. apply power_le; nra.
Qed.
Lemma power_falls : forall r n, 0 <= r <= 1 -> power r n * (1 + inject_Z (Z.of_nat n) * (1 - r)) <= 1.
Proof.
  intros r n Hr. induction n as [|n IH]; [cbn [power]; change (inject_Z (Z.of_nat 0)) with 0; lra|]. cbn [power]. eapply Qle_trans; [|exact IH].
  replace (Z.of_nat (S n)) with (Z.of_nat n + 1)%Z by lia. rewrite inject_Z_plus. change (inject_Z 1) with 1.
  assert (B : 0 <= inject_Z (Z.of_nat n)) by (change 0 with (inject_Z 0); rewrite <- Zle_Qle; lia). set (N := inject_Z (Z.of_nat n)) in *.
  pose proof (power_ge0 r n ltac:(lra)) as P. set (p := power r n) in *.
  assert (X : r * (1 + (N + 1) * (1 - r)) <= 1 + N * (1 - r)) by (assert (0 <= (N + 1) * ((1 - r) * (1 - r))) by (apply Qmult_le_0_compat; nra); lra).
  setoid_replace (r * p * (1 + (N + 1) * (1 - r))) with (r * (1 + (N + 1) * (1 - r)) * p) by ring. setoid_replace (p * (1 + N * (1 - r))) with ((1 + N * (1 - r)) * p) by ring.
  apply Qmult_le_compat_r; auto.
Qed.
Lemma power_vanishes : forall r eps, 0 <= r -> r < 1 -> 0 < eps -> exists n, power r n < eps.
Proof.
  intros r eps H0 H1 He. set (y := / (eps * (1 - r))). exists (Z.to_nat (Qround.Qceiling y)).
  assert (D : 0 < eps * (1 - r)) by nra. assert (Y : 0 < y) by (apply Qinv_lt_0_compat, D).
  pose proof (Qround.Qle_ceiling y) as C. set (n := Qround.Qceiling y) in *.
  assert (N : (0 <= n)%Z) by (rewrite Zle_Qle; change (inject_Z 0) with 0; lra).
  pose proof (power_falls r (Z.to_nat n) ltac:(lra)) as F. rewrite Z2Nat.id in F by exact N. pose proof (power_ge0 r (Z.to_nat n) H0) as P. set (p := power r (Z.to_nat n)) in *.
  assert (YD : y * (eps * (1 - r)) == 1) by (unfold y; field; split; lra).
  destruct (Qlt_le_dec p eps) as [L|L]; [exact L|]. exfalso.
  assert (A1 : 1 <= inject_Z n * (eps * (1 - r))) by (apply Qle_trans with (y * (eps * (1 - r))); [lra|apply Qmult_le_compat_r; lra]).
  assert (A2 : 0 <= inject_Z n * (1 - r)) by (apply Qmult_le_0_compat; lra).
  assert (A3 : eps * (inject_Z n * (1 - r)) <= p * (inject_Z n * (1 - r))) by (apply Qmult_le_compat_r; auto). lra.
Qed.
Lemma coin_range : forall w c, coin w c -> 0 <= c <= 1.
Proof. intros w c (p & _ & P & _). rewrite <- P. apply prob_range. Qed.
