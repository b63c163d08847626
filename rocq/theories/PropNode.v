(** C87: how likely it is that a generator which refers to itself in one of two alternatives of oneOf returns. *)
From Coq Require Import List ZArith QArith Lia Lqa Bool Arith Floats.SpecFloat.
From Verif Require Import Base TreeModel RandomModel ContainerModel GenModel IntegralModel ChanceSpec ChanceProof ChanceLawProof PropChance EndingSpec EndingProof NodeModel NodeSpec NodeProof NodeEdgeProof.
Import ListNotations.
Local Open Scope Q_scope.

(** It returns, with so many calls inside each other and so many tries of oneOf, with the probability of the family tree. *)
Theorem C87_returns : forall mn mx first ig stop w1 w2 a b c1 c2, (0 <= mn)%Z -> (mn <= mx)%Z -> (mx <= UINT32_MAX)%Z -> likely ig anything 1 -> likely stop anything 1 ->
  oneOfWeights [w1; w2] = Ok [a; b] -> coin a c1 -> coin b c2 -> ~ c1 + c2 == 0 -> forall n m,
  let g := fun E => branchNGen n (S m) first (ig E) (stop E) w1 w2 {| minSize := mn; maxSize := mx |} in
  let q := branching ((1 - miss c1 c2 m) * (c1 / (c1 + c2))) ((1 - miss c1 c2 m) * again c1 c2) mn mx n in
  likely g anything q /\ likelyResult (fun E r => Ok (returns (g E r))) negb (1 - q).
Proof.
  intros mn mx first ig stop w1 w2 a b c1 c2 H0 H1 H2 Hi Hs Hw Ha Hb Hc n m g q.
  assert (L : likely g anything q) by (apply (node_returns mn mx first ig stop w1 w2 a b c1 c2); auto).
  split; [exact L|apply (likely_returns node g), L].
Qed.

Section Chances.
Variables (c1 c2 : Q).
Hypothesis R1 : 0 <= c1 <= 1.
Hypothesis R2 : 0 <= c2 <= 1.
Hypothesis Hc : ~ c1 + c2 == 0.
Lemma shares : c1 / (c1 + c2) + again c1 c2 == 1 /\ 0 <= c1 / (c1 + c2) /\ 0 <= again c1 c2.
Proof.
  assert (P : 0 < c1 + c2) by (destruct (Qlt_le_dec 0 (c1 + c2)) as [A|A]; [exact A|exfalso; apply Hc; lra]). unfold again.
  split; [field; exact Hc|]. split; (apply Qle_shift_div_l; [exact P|lra]).
Qed.
Lemma miss_range : forall m, 0 <= miss c1 c2 m <= 1.
Proof. intros m. unfold miss. assert (B : 0 <= 1 - (c1 + c2) / 2 <= 1) by (unfold Qdiv; change (/ 2) with (1 # 2); lra). split; [apply power_ge0|apply power_le1]; apply B. Qed.
Lemma scaled : forall m, let h := 1 - miss c1 c2 m in 0 <= h <= 1 /\ 0 <= h * (c1 / (c1 + c2)) /\ 0 <= h * again c1 c2 /\ h * (c1 / (c1 + c2)) + h * again c1 c2 == h.
Proof.
  intros m h. destruct shares as (S1 & S2 & S3). pose proof (miss_range m) as M. assert (Hh : 0 <= h <= 1) by (unfold h; lra).
  split; [exact Hh|]. split; [apply Qmult_le_0_compat; lra|]. split; [apply Qmult_le_0_compat; lra|]. rewrite <- Qmult_plus_distr_r, S1. ring.
Qed.
End Chances.

(** Less than one nested call on average: it does not return within [n] calls inside each other and [m] tries with a probability that falls with both. *)
Theorem C87_rate : forall mn mx c1 c2, (0 <= mn)%Z -> (mn <= mx)%Z -> 0 <= c1 <= 1 -> 0 <= c2 <= 1 -> ~ c1 + c2 == 0 -> meanSize mn mx * again c1 c2 < 1 -> forall n m,
  1 - branching ((1 - miss c1 c2 m) * (c1 / (c1 + c2))) ((1 - miss c1 c2 m) * again c1 c2) mn mx n <=
  power (meanSize mn mx * again c1 c2) n + meanSize mn mx * miss c1 c2 m / (1 - meanSize mn mx * again c1 c2).
Proof.
  intros mn mx c1 c2 H0 H1 R1 R2 Hc Hr n m. destruct (scaled c1 c2 R1 R2 Hc m) as (S0 & S1 & S2 & S3). destruct (shares c1 c2 R1 R2 Hc) as (T1 & T2 & T3).
  pose proof (mean_ge0 mn mx H0 H1) as K0. pose proof (miss_range c1 c2 R1 R2 m) as M.
  set (h := 1 - miss c1 c2 m) in *. set (s := h * (c1 / (c1 + c2))) in *. set (g := h * again c1 c2) in *. set (K := meanSize mn mx) in *. set (t := again c1 c2) in *.
  assert (G : g <= t) by (unfold g; nra). assert (KG : K * g <= K * t) by nra.
  pose proof (branching_rate s g mn mx S1 S2 ltac:(lra) H0 H1 ltac:(fold K; lra) n) as B. fold K in B.
  eapply Qle_trans; [exact B|]. assert (KG0 : 0 <= K * g) by nra. pose proof (power_le (K * g) (K * t) n KG0 KG).
  assert (E : 1 - s - g == miss c1 c2 m) by (unfold h in S3; lra).
  assert (X : K * (1 - s - g) / (1 - K * g) <= K * miss c1 c2 m / (1 - K * t)).
  { rewrite E. assert (0 <= K * miss c1 c2 m) by nra. set (v := K * miss c1 c2 m) in *. apply Qle_shift_div_r; [lra|].
    assert (V : v == v / (1 - K * t) * (1 - K * t)) by (field; lra). assert (0 <= v / (1 - K * t)) by (apply Qle_shift_div_l; lra). set (u := v / (1 - K * t)) in *.
    rewrite V. setoid_rewrite (Qmult_comm u). apply Qmult_le_compat_r; lra. }
  lra.
Qed.
(** More than one: a bound below 1 is never passed, whatever the stack and the number of tries. *)
Theorem C87_bound : forall mn mx c1 c2, (0 <= mn)%Z -> (mn <= mx)%Z -> 0 <= c1 <= 1 -> 0 <= c2 <= 1 -> ~ c1 + c2 == 0 -> 1 < meanSize mn mx * again c1 c2 -> forall n m,
  branching ((1 - miss c1 c2 m) * (c1 / (c1 + c2))) ((1 - miss c1 c2 m) * again c1 c2) mn mx n <= 1 - (meanSize mn mx * again c1 c2 - 1) / inject_Z (mx * mx).
Proof.
  intros mn mx c1 c2 H0 H1 R1 R2 Hc Hr n m. destruct (scaled c1 c2 R1 R2 Hc m) as (S0 & S1 & S2 & S3). destruct (shares c1 c2 R1 R2 Hc) as (T1 & T2 & T3).
  eapply Qle_trans; [apply (branching_mono _ (c1 / (c1 + c2)) _ (again c1 c2)); auto; [nra|nra|lra]|]. apply branching_bound; auto.
Qed.
(** So it returns with certainty, up to stack depth, if there is less than one nested call on average, and not if there is more than one. *)
Theorem C87_surely : forall mn mx first ig stop w1 w2 a b c1 c2, (0 <= mn)%Z -> (mn <= mx)%Z -> (mx <= UINT32_MAX)%Z -> likely ig anything 1 -> likely stop anything 1 ->
  oneOfWeights [w1; w2] = Ok [a; b] -> coin a c1 -> coin b c2 -> ~ c1 + c2 == 0 ->
  let g := fun n m E => branchNGen n (S m) first (ig E) (stop E) w1 w2 {| minSize := mn; maxSize := mx |} in
  (meanSize mn mx * again c1 c2 < 1 -> surely2 g) /\ (1 < meanSize mn mx * again c1 c2 -> ~ surely2 g).
Proof.
  intros mn mx first ig stop w1 w2 a b c1 c2 H0 H1 H2 Hi Hs Hw Ha Hb Hc g. pose proof (coin_range _ _ Ha) as R1. pose proof (coin_range _ _ Hb) as R2.
  assert (L : forall n m, likely (g n m) anything (branching ((1 - miss c1 c2 m) * (c1 / (c1 + c2))) ((1 - miss c1 c2 m) * again c1 c2) mn mx n)).
  { intros n m. apply (C87_returns mn mx first ig stop w1 w2 a b c1 c2); auto. }
  destruct (shares c1 c2 R1 R2 Hc) as (T1 & T2 & T3). pose proof (mean_ge0 mn mx H0 H1) as K0. split; intros Hr.
  - intros eps He. set (r := meanSize mn mx * again c1 c2) in *. assert (r0 : 0 <= r) by (unfold r; nra).
    destruct (power_vanishes r (eps / 2) r0 Hr) as (n & N); [unfold Qdiv; change (/ 2) with (1 # 2); lra|].
    set (K := meanSize mn mx) in *. set (d := (eps / 2) * (1 - r) / (K + 1)).
    assert (D : 0 < d) by (unfold d; apply Qlt_shift_div_l; [lra|]; unfold Qdiv; change (/ 2) with (1 # 2); nra).
    assert (P : 0 < c1 + c2) by (destruct (Qlt_le_dec 0 (c1 + c2)) as [A|A]; [exact A|exfalso; apply Hc; lra]).
    destruct (power_vanishes (1 - (c1 + c2) / 2) d) as (m & M); [unfold Qdiv; change (/ 2) with (1 # 2); lra|unfold Qdiv; change (/ 2) with (1 # 2); lra|exact D|].
    exists n, m. eexists. split; [apply L|]. pose proof (C87_rate mn mx c1 c2 H0 H1 R1 R2 Hc Hr n m) as X. fold K in X. fold r in X. change (power (1 - (c1 + c2) / 2) m) with (miss c1 c2 m) in M.
    pose proof (miss_range c1 c2 R1 R2 m) as MR. set (v := miss c1 c2 m) in *.
    assert (Y : K * v / (1 - r) <= eps / 2).
    { apply Qle_shift_div_r; [lra|]. assert (DK : d * (K + 1) == eps / 2 * (1 - r)) by (unfold d; field; lra). rewrite <- DK. nra. }
    assert (H : eps / 2 == (1 # 2) * eps) by (unfold Qdiv; change (/ 2) with (1 # 2); ring). lra.
  - intros S. set (d := (meanSize mn mx * again c1 c2 - 1) / inject_Z (mx * mx)).
    assert (X1 : (1 <= mx)%Z).
    { destruct (Z_le_gt_dec 1 mx) as [A|A]; [exact A|]. exfalso. assert (mn = 0 /\ mx = 0)%Z as [-> ->] by lia. assert (Z : meanSize 0 0 * again c1 c2 == 0) by (change (meanSize 0 0) with (0 / 2); field). lra. }
    assert (D : 0 < d) by (unfold d; apply Qlt_shift_div_l; [change 0 with (inject_Z 0); rewrite <- Zlt_Qlt; nia|lra]).
    destruct (S d D) as (n & m & q & Lq & B). destruct (C78_unique _ _ _ _ _ Lq (L n m)) as [X _]. pose proof (C87_bound mn mx c1 c2 H0 H1 R1 R2 Hc Hr n m) as Y. fold d in Y. lra.
Qed.

(** With exactly one, it does if there may be two children.  (Otherwise there is always one child, which always goes on.) *)
Theorem C87_certain : forall mn mx first ig stop w1 w2 a b c1 c2, (0 <= mn)%Z -> (mn <= mx)%Z -> (mx <= UINT32_MAX)%Z -> likely ig anything 1 -> likely stop anything 1 ->
  oneOfWeights [w1; w2] = Ok [a; b] -> coin a c1 -> coin b c2 -> ~ c1 + c2 == 0 ->
  (surely2 (fun n m E => branchNGen n (S m) first (ig E) (stop E) w1 w2 {| minSize := mn; maxSize := mx |}) <->
   meanSize mn mx * again c1 c2 < 1 \/ meanSize mn mx * again c1 c2 == 1 /\ (2 <= mx)%Z).
Proof.
  intros mn mx first ig stop w1 w2 a b c1 c2 H0 H1 H2 Hi Hs Hw Ha Hb Hc. pose proof (coin_range _ _ Ha) as R1. pose proof (coin_range _ _ Hb) as R2.
  destruct (C87_surely mn mx first ig stop w1 w2 a b c1 c2 H0 H1 H2 Hi Hs Hw Ha Hb Hc) as [A B]. cbv zeta in A, B.
  set (g := fun n m E => branchNGen n (S m) first (ig E) (stop E) w1 w2 {| minSize := mn; maxSize := mx |}) in *.
  assert (L : forall n m, likely (g n m) anything (branching ((1 - miss c1 c2 m) * (c1 / (c1 + c2))) ((1 - miss c1 c2 m) * again c1 c2) mn mx n)).
  { intros n m. apply (C87_returns mn mx first ig stop w1 w2 a b c1 c2); auto. }
  destruct (shares c1 c2 R1 R2 Hc) as (T1 & T2 & T3). pose proof (mean_ge0 mn mx H0 H1) as K0. split.
  - intros S. destruct (Qlt_le_dec (meanSize mn mx * again c1 c2) 1) as [X|X]; [left; exact X|]. right.
    assert (E : meanSize mn mx * again c1 c2 == 1).
    { destruct (Qlt_le_dec 1 (meanSize mn mx * again c1 c2)) as [Y|Y]; [destruct (B Y S)|lra]. }
    split; [exact E|]. destruct (Z_le_gt_dec 2 mx) as [Y|Y]; [exact Y|]. exfalso.
    assert (X1 : (mn = 1 /\ mx = 1)%Z).
    { assert (KK : 1 <= meanSize mn mx) by nra. destruct (Z_le_gt_dec 2 (mn + mx)) as [V|V]; [lia|]. exfalso.
      assert (W : inject_Z (mn + mx) <= 1) by (change 1 with (inject_Z 1); rewrite <- Zle_Qle; lia). unfold meanSize, Qdiv in KK. change (/ 2) with (1 # 2) in KK. lra. }
    destruct X1 as [-> ->]. assert (K1 : meanSize 1 1 == 1) by reflexivity. rewrite K1 in E. assert (S0 : c1 / (c1 + c2) == 0) by lra.
    destruct (S (1 # 2) ltac:(lra)) as (n & m & q & Lq & Q). destruct (C78_unique _ _ _ _ _ Lq (L n m)) as [U _].
    destruct (scaled c1 c2 R1 R2 Hc m) as (A0 & A1 & A2 & A3). set (h := 1 - miss c1 c2 m) in *.
    assert (Z : branching (h * (c1 / (c1 + c2))) (h * again c1 c2) 1 1 n <= 0).
    { apply branching_limit; auto; try lra; try lia. change (average 1 1 (fun k => power (h * (c1 / (c1 + c2)) + h * again c1 c2 * 0) (Z.to_nat k)))
        with ((0 + (h * (c1 / (c1 + c2)) + h * again c1 c2 * 0) * 1) / inject_Z 1).
      rewrite S0. setoid_replace ((0 + (h * 0 + h * again c1 c2 * 0) * 1) / inject_Z 1) with 0 by field. lra. }
    lra.
  - intros [X|[X Y]]; [apply A, X|]. intros eps He.
    assert (H2e : 0 < eps / 2 /\ eps == eps / 2 + eps / 2) by (unfold Qdiv; change (/ 2) with (1 # 2); split; lra). destruct H2e as [E1 E2]. set (e := eps / 2) in *.
    destruct (edge_vanishes (c1 / (c1 + c2)) (again c1 c2) mn mx T2 T3 T1 H0 H1 Y X (e / 2)) as (n & N); [unfold Qdiv; change (/ 2) with (1 # 2); lra|].
    set (v := inject_Z (Z.of_nat n) * meanSize mn mx + 1). pose proof (nat_ge0 n) as N0. assert (V : 0 < v) by (unfold v; nra).
    assert (P : 0 < c1 + c2) by (destruct (Qlt_le_dec 0 (c1 + c2)) as [D|D]; [exact D|exfalso; apply Hc; lra]).
    destruct (power_vanishes (1 - (c1 + c2) / 2) (e / v)) as (m & M); [unfold Qdiv; change (/ 2) with (1 # 2); lra|unfold Qdiv; change (/ 2) with (1 # 2); lra|apply Qlt_shift_div_l; lra|].
    change (power (1 - (c1 + c2) / 2) m) with (miss c1 c2 m) in M. pose proof (miss_range c1 c2 R1 R2 m) as MR.
    exists n, m. eexists. split; [apply L|].
    pose proof (edge_near (c1 / (c1 + c2)) (again c1 c2) mn mx T2 T3 T1 H0 H1 X (1 - miss c1 c2 m) ltac:(lra) n) as D.
    set (f := branching (c1 / (c1 + c2)) (again c1 c2) mn mx n) in *. set (f' := branching _ _ mn mx n) in *.
    assert (G : miss c1 c2 m * v < e) by (assert (EV : e / v * v == e) by (field; lra); rewrite <- EV; apply Qmult_lt_compat_r; auto).
    assert (H : e / 2 < e) by (unfold Qdiv; change (/ 2) with (1 # 2); lra). unfold v in G.
    set (z := miss c1 c2 m) in *. assert (W : inject_Z (Z.of_nat n) * (meanSize mn mx * (1 - (1 - z))) == z * (inject_Z (Z.of_nat n) * meanSize mn mx + 1) - z) by ring. lra.
Qed.

(** Without weights. *)
Lemma half_weights : oneOfWeights [d_zero; d_zero] = Ok [d_half; d_half].
Proof. vm_compute. reflexivity. Qed.
Definition half : Q := odds (2 ^ 63).
Lemma half_range : 1 # 2 <= half <= 1.
Proof. unfold half, odds. vm_compute. split; discriminate. Qed.
Lemma half_share : again half half == 1 # 2 /\ ~ half + half == 0.
Proof. split; vm_compute; [reflexivity|discriminate]. Qed.
Lemma half_miss : forall m, miss half half m <= power (1 # 2) m.
Proof. intros m. unfold miss. apply power_le; vm_compute; discriminate. Qed.
(** The generator of the test (sizes 1 to 2): returns but for (3/4)^n + 6/2^m. *)
Theorem C87_test : forall first ig, likely ig anything 1 -> forall n m, exists q,
  likely (fun E => branchNGen n (S m) first (ig E) (branch1Gen first (ig E) {| minSize := 1; maxSize := 2 |}) d_zero d_zero {| minSize := 1; maxSize := 2 |}) anything q /\
  1 - q <= power (3 # 4) n + 6 * power (1 # 2) m.
Proof.
  intros first ig Hi n m. eexists. split.
  - refine (proj1 (C87_returns 1 2 first ig (fun E => branch1Gen first (ig E) {| minSize := 1; maxSize := 2 |}) d_zero d_zero d_half d_half half half _ _ _ Hi _ half_weights coin_half coin_half (proj2 half_share) n m)); try lia.
    + vm_compute. discriminate.
    + apply branch1_returns; auto; try lia. vm_compute. discriminate.
  - destruct half_share as [S1 S2]. pose proof half_range as R. assert (K : meanSize 1 2 * again half half == 3 # 4) by (rewrite S1; reflexivity).
    pose proof (C87_rate 1 2 half half ltac:(lia) ltac:(lia) ltac:(lra) ltac:(lra) S2 ltac:(rewrite K; reflexivity) n m) as X. eapply Qle_trans; [exact X|].
    apply Qplus_le_compat; [apply Qle_lteq; right; apply power_ext, K|]. rewrite K. change (meanSize 1 2) with (3 / 2). pose proof (half_miss m).
    setoid_replace (3 / 2 * miss half half m / (1 - (3 # 4))) with (6 * miss half half m) by field. lra.
Qed.
(** The same without setSize, that is 0 to 200 children: comes back less than once in 99 times, whatever the stack and the number of tries. *)
Theorem C87_default : forall first ig stop, likely ig anything 1 -> likely stop anything 1 -> forall n m, exists q,
  likely (fun E => branchNGen n (S m) first (ig E) (stop E) d_zero d_zero {| minSize := 0; maxSize := 200 |}) anything q /\ q <= 1 # 99.
Proof.
  intros first ig stop Hi Hs n m. eexists. split.
  - refine (proj1 (C87_returns 0 200 first ig stop d_zero d_zero d_half d_half half half _ _ _ Hi Hs half_weights coin_half coin_half (proj2 half_share) n m)); try lia. vm_compute. discriminate.
  - destruct half_share as [S1 S2]. pose proof half_range as R. assert (T : half / (half + half) == 1 # 2) by (exact S1).
    destruct (scaled half half ltac:(lra) ltac:(lra) S2 m) as (A0 & A1 & A2 & A3).
    eapply Qle_trans; [apply (branching_mono _ (1 # 2) _ (1 # 2)); auto; [rewrite T; lra|rewrite S1; lra|lra|lia]|].
    apply branching_limit; try lra; try lia. set (u := (1 # 2) + (1 # 2) * (1 # 99)). rewrite average_powers. apply Qle_shift_div_r; [reflexivity|].
    pose proof (sum_powers u (Z.to_nat (200 + 1))) as P. assert (0 <= u) by (vm_compute; discriminate). pose proof (power_ge0 u (Z.to_nat (200 + 1)) H) as G.
    set (y := sum (Z.to_nat (200 + 1)) (power u)) in *. set (z := power u (Z.to_nat (200 + 1))) in *. assert (U : 1 - u == 49 # 99) by (vm_compute; reflexivity).
    rewrite U in P. change (inject_Z (200 + 1)) with (201 # 1). lra.
Qed.

(** ** Examples *)
Definition dice (E : engine) : gen E Z := interval TI32 1 6.
Lemma dice_returns : likely dice anything 1.
Proof.
  destruct (C78_integer TI32 1 6 anything) as (p & L & Q); try (cbn; lia); [intros [H _]; discriminate|]. exists p. split; [exact L|]. rewrite Q. vm_compute. reflexivity.
Qed.
Definition nodes (n m : nat) (mn mx : Z) : forall E, gen E node :=
  fun E => branchNGen n (S m) true (dice E) (branch1Gen true (dice E) {| minSize := mn; maxSize := mx |}) d_zero d_zero {| minSize := mn; maxSize := mx |}.
(* one child each, two calls, one try: half/2 + half/2 * (half/2) *)
Example C87_returns_ex : likely (nodes 2 1 1 1) anything (half / 2 + half / 2 * (half / 2)).
Proof.
  apply (likely_ext _ _ _ (branching ((1 - miss half half 1) * (half / (half + half))) ((1 - miss half half 1) * again half half) 1 1 2)); [vm_compute; reflexivity|].
  refine (proj1 (C87_returns 1 1 true dice (fun E => branch1Gen true (dice E) {| minSize := 1; maxSize := 1 |}) d_zero d_zero d_half d_half half half _ _ _ dice_returns _ half_weights coin_half coin_half (proj2 half_share) 2 1)); try lia.
  - vm_compute. discriminate.
  - apply branch1_returns; try lia; [exact dice_returns|vm_compute; discriminate].
Qed.
(* up to three children, one in four with a family *)
Example C87_rate_ex : forall n m, 1 - branching ((1 - miss (3 # 4) (1 # 4) m) * ((3 # 4) / ((3 # 4) + (1 # 4)))) ((1 - miss (3 # 4) (1 # 4) m) * again (3 # 4) (1 # 4)) 0 3 n <=
  power (meanSize 0 3 * again (3 # 4) (1 # 4)) n + meanSize 0 3 * miss (3 # 4) (1 # 4) m / (1 - meanSize 0 3 * again (3 # 4) (1 # 4)).
Proof. apply C87_rate; try lia; try lra; vm_compute; reflexivity. Qed.
(* up to four children, one in two with a family *)
Example C87_bound_ex : forall n m, branching ((1 - miss (1 # 2) (1 # 2) m) * ((1 # 2) / ((1 # 2) + (1 # 2)))) ((1 - miss (1 # 2) (1 # 2) m) * again (1 # 2) (1 # 2)) 1 4 n <= 63 # 64.
Proof.
  intros n m. eapply Qle_trans; [apply C87_bound; try lia; try lra; vm_compute; reflexivity|]. vm_compute. discriminate.
Qed.
Example C87_surely_ex : surely2 (fun n m => nodes n m 1 2) /\ ~ surely2 (fun n m => nodes n m 1 4).
Proof.
  split.
  - refine (proj1 (C87_surely 1 2 true dice (fun E => branch1Gen true (dice E) {| minSize := 1; maxSize := 2 |}) d_zero d_zero d_half d_half half half _ _ _ dice_returns _ half_weights coin_half coin_half (proj2 half_share)) _); try lia.
    + vm_compute. discriminate.
    + apply branch1_returns; try lia; [exact dice_returns|vm_compute; discriminate].
    + vm_compute. reflexivity.
  - refine (proj2 (C87_surely 1 4 true dice (fun E => branch1Gen true (dice E) {| minSize := 1; maxSize := 4 |}) d_zero d_zero d_half d_half half half _ _ _ dice_returns _ half_weights coin_half coin_half (proj2 half_share)) _); try lia.
    + vm_compute. discriminate.
    + apply branch1_returns; try lia; [exact dice_returns|vm_compute; discriminate].
    + vm_compute. reflexivity.
Qed.
(* two children each, of which one goes on on average; two or three *)
Example C87_certain_ex : surely2 (fun n m => nodes n m 2 2) /\ ~ surely2 (fun n m => nodes n m 2 3).
Proof.
  split.
  - refine (proj2 (C87_certain 2 2 true dice (fun E => branch1Gen true (dice E) {| minSize := 2; maxSize := 2 |}) d_zero d_zero d_half d_half half half _ _ _ dice_returns _ half_weights coin_half coin_half (proj2 half_share)) _); try lia.
    + vm_compute. discriminate.
    + apply branch1_returns; try lia; [exact dice_returns|vm_compute; discriminate].
    + right. split; [vm_compute; reflexivity|lia].
  - intros S. refine (_ (proj1 (C87_certain 2 3 true dice (fun E => branch1Gen true (dice E) {| minSize := 2; maxSize := 3 |}) d_zero d_zero d_half d_half half half _ _ _ dice_returns _ half_weights coin_half coin_half (proj2 half_share)) S)); try lia.
    + intros [X|[X _]]; vm_compute in X; discriminate.
    + vm_compute. discriminate.
    + apply branch1_returns; try lia; [exact dice_returns|vm_compute; discriminate].
Qed.
Example C87_test_ex : exists q, likely (nodes 10 8 1 2) anything q /\ 9 # 10 <= q.
Proof.
  destruct (C87_test true dice dice_returns 10 8) as (q & L & B). exists q. split; [exact L|].
  assert (P : power (3 # 4) 10 + 6 * power (1 # 2) 8 <= 1 # 10) by (vm_compute; discriminate). lra.
Qed.
(* with Arbi<int> for the values, as in the test *)
Lemma ints_return : likely (fun E => arbi TI32) anything 1.
Proof.
  destruct (C78_any_integer TI32 anything) as (p & L & Q); [discriminate|]. exists p. split; [exact L|]. rewrite Q.
  rewrite (average_ext _ _ (tells anything) (fun _ => 1)) by reflexivity. rewrite average_const by (cbn; lia). vm_compute. reflexivity.
Qed.
Example C87_real_ex : forall first, exists q, likely (fun E => branchNGen 20 13 first (arbi TI32) (branch1Gen first (arbi TI32) {| minSize := 1; maxSize := 2 |}) d_zero d_zero {| minSize := 1; maxSize := 2 |}) anything q /\
  99 # 100 <= q.
Proof.
  intros first. destruct (C87_test first (fun E => arbi TI32) ints_return 20 12) as (q & L & B). exists q. split; [exact L|].
  assert (P : power (3 # 4) 20 + 6 * power (1 # 2) 12 <= 1 # 100) by (vm_compute; discriminate). lra.
Qed.
Example C87_default_ex : forall n m, exists q, likelyResult (fun E r => Ok (returns (nodes n m 0 200 E r))) negb (1 - q) /\ q <= 1 # 99.
Proof.
  intros n m. destruct (C87_default true dice (fun E => branch1Gen true (dice E) {| minSize := 0; maxSize := 200 |}) dice_returns) with n m as (q & L & B).
  - apply branch1_returns; try lia; [exact dice_returns|vm_compute; discriminate].
  - exists q. split; [apply (likely_returns node (nodes n m 0 200)), L|exact B].
Qed.

Print Assumptions C87_returns.
Print Assumptions C87_rate.
Print Assumptions C87_bound.
Print Assumptions C87_surely.
Print Assumptions C87_certain.
Print Assumptions C87_test.
Print Assumptions C87_default.
