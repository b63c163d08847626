(** One nested call on average: the family tree ends with certainty if there may be two children. *)
From Coq Require Import List ZArith QArith Qround Lia Lqa Bool Arith.
From Verif Require Import Base ChanceSpec ChanceProof EndingSpec EndingProof NodeSpec NodeProof.
Import ListNotations.
Local Open Scope Q_scope.

Lemma nat_ge0 : forall k, 0 <= inject_Z (Z.of_nat k).
Proof. intros k. change 0 with (inject_Z 0). rewrite <- Zle_Qle. lia. Qed.
Lemma nat_S : forall k, inject_Z (Z.of_nat (S k)) == inject_Z (Z.of_nat k) + 1.
Proof. intros k. replace (Z.of_nat (S k)) with (Z.of_nat k + 1)%Z by lia. rewrite inject_Z_plus. reflexivity. Qed.
(** (1 - x)^k is at least 1 - k x + (k - 1) x^2. *)
Lemma power_curved : forall x k, 0 <= x <= 1 -> 1 - inject_Z (Z.of_nat (S k)) * x + inject_Z (Z.of_nat k) * (x * x) <= power (1 - x) (S k).
Proof.
  intros x k Hx. induction k as [|k IH]; [cbn [power]; change (inject_Z (Z.of_nat 1)) with 1; change (inject_Z (Z.of_nat 0)) with 0; lra|].
  change (power (1 - x) (S (S k))) with ((1 - x) * power (1 - x) (S k)). pose proof (nat_ge0 k) as B.
  assert (E2 : inject_Z (Z.of_nat (S (S k))) == inject_Z (Z.of_nat k) + 2) by (rewrite nat_S, nat_S; ring). rewrite E2. rewrite nat_S in *. set (K := inject_Z (Z.of_nat k)) in *.
  apply Qle_trans with ((1 - x) * (1 - (K + 1) * x + K * (x * x))).
  - assert (0 <= K * (x * x) * (1 - x)) by (repeat apply Qmult_le_0_compat; lra). lra.
  - setoid_rewrite (Qmult_comm (1 - x)). apply Qmult_le_compat_r; [exact IH|lra].
Qed.
Section Edge.
Variables (s g : Q) (mn mx : Z).
Hypothesis Hs : 0 <= s.
Hypothesis Hg : 0 <= g.
Hypothesis H1 : s + g == 1.
Hypothesis H0 : (0 <= mn)%Z.
Hypothesis Hm : (mn <= mx)%Z.
Hypothesis H2 : (2 <= mx)%Z.
Hypothesis Hr : meanSize mn mx * g == 1.
Definition bend : Q := g * g / inject_Z (mx - mn + 1).
Lemma bend_pos : 0 < bend.
Proof.
  unfold bend. apply Qlt_shift_div_l; [apply width_gt, Hm|]. assert (G : 0 < g) by (destruct (Qlt_le_dec 0 g) as [A|A]; [exact A|exfalso; assert (Z : g == 0) by lra; rewrite Z in Hr; lra]). nra.
Qed.
Lemma edge_step : forall n, let d := 1 - branching s g mn mx n in 1 - branching s g mn mx (S n) <= d - bend * (d * d).
Proof.
  intros n d. pose proof (branching_range s g mn mx Hs Hg ltac:(lra) Hm n) as B. cbn [branching]. unfold d in *. clear d. set (f := branching s g mn mx n) in *.
  set (x := g * (1 - f)). assert (Hx : 0 <= x <= 1) by (unfold x; nra).
  assert (L : average mn mx (fun k => (1 + - x * inject_Z k) + (if (k =? mx)%Z then x * x else 0)) <= average mn mx (fun k => power (s + g * f) (Z.to_nat k))).
  { apply average_le; [exact Hm|]. intros z Hz. assert (PE : power (s + g * f) (Z.to_nat z) == power (1 - x) (Z.to_nat z)) by (apply power_ext; unfold x; lra).
    rewrite PE. destruct (Z.eqb_spec z mx) as [->|N].
    - destruct (Z.to_nat mx) as [|[|k]] eqn:E; [lia|lia|]. pose proof (power_curved x (S k) Hx) as P. assert (ZE : mx = Z.of_nat (S (S k))) by lia. rewrite ZE.
      assert (X1 : 1 * (x * x) <= inject_Z (Z.of_nat (S k)) * (x * x)) by (apply Qmult_le_compat_r; [rewrite nat_S; pose proof (nat_ge0 k); lra|nra]). lra.
    - pose proof (power_below x (Z.to_nat z) Hx) as P. rewrite Z2Nat.id in P by lia. lra. }
  rewrite average_plus, average_single, average_plus, average_scale, average_const, average_numbers in L by (try exact Hm; lia).
  assert (X2 : meanSize mn mx * x == 1 - f) by (unfold x; rewrite Qmult_assoc, Hr; ring).
  assert (X3 : x * x / inject_Z (mx - mn + 1) == bend * ((1 - f) * (1 - f))) by (unfold x, bend; field; apply width_pos, Hm). lra.
Qed.
Lemma edge_falls : forall eps, 0 < eps -> forall n, let d := 1 - branching s g mn mx n in d <= eps \/ d <= 1 - inject_Z (Z.of_nat n) * (bend * (eps * eps)).
Proof.
  intros eps He n. induction n as [|n IH]; intros d.
  - right. unfold d. cbn [branching]. change (inject_Z (Z.of_nat 0)) with 0. lra.
  - pose proof (edge_step n) as S. cbv zeta in S, IH. fold d in S. pose proof (branching_range s g mn mx Hs Hg ltac:(lra) Hm n) as B. pose proof bend_pos as C.
    set (y := 1 - branching s g mn mx n) in *. assert (Y : 0 <= y) by (unfold y; lra).
    destruct (Qlt_le_dec eps y) as [A|A]; [|left; assert (0 <= bend * (y * y)) by (apply Qmult_le_0_compat; nra); lra].
    destruct IH as [I|I]; [lra|]. right. rewrite nat_S.
    assert (X : bend * (eps * eps) <= bend * (y * y)) by (setoid_rewrite (Qmult_comm bend); apply Qmult_le_compat_r; nra). lra.
Qed.
Lemma edge_vanishes : forall eps, 0 < eps -> exists n, 1 - branching s g mn mx n <= eps.
Proof.
  intros eps He. set (c := bend * (eps * eps)). assert (C : 0 < c) by (unfold c; apply Qmult_lt_0_compat; [exact bend_pos|apply Qmult_lt_0_compat; exact He]). exists (Z.to_nat (Qceiling (/ c))).
  assert (Y : 0 < / c) by (apply Qinv_lt_0_compat, C). pose proof (Qle_ceiling (/ c)) as L. set (n := Qceiling (/ c)) in *.
  assert (N : (0 <= n)%Z) by (rewrite Zle_Qle; change (inject_Z 0) with 0; lra).
  destruct (edge_falls eps He (Z.to_nat n)) as [A|A]; [exact A|]. rewrite Z2Nat.id in A by exact N. fold c in A. eapply Qle_trans; [exact A|].
  assert (X : / c * c <= inject_Z n * c) by (apply Qmult_le_compat_r; lra). assert (Z : / c * c == 1) by (field; lra). lra.
Qed.
(** Misses of oneOf cost at most their chance times mean size, once for each generation. *)
Lemma power_near : forall u v k, 0 <= v -> v <= u -> u <= 1 -> power u k - power v k <= inject_Z (Z.of_nat k) * (u - v).
Proof.
  intros u v k H3 H4 H5. induction k as [|k IH]; [cbn [power]; change (inject_Z (Z.of_nat 0)) with 0; lra|]. rewrite nat_S. cbn [power].
  pose proof (power_le1 v k H3 ltac:(lra)) as P1. pose proof (power_ge0 v k H3) as P0. pose proof (power_le v u k H3 H4) as P2. pose proof (nat_ge0 k) as B.
  assert (X1 : u * (power u k - power v k) <= 1 * (power u k - power v k)) by (apply Qmult_le_compat_r; lra).
  assert (X2 : power v k * (u - v) <= 1 * (u - v)) by (apply Qmult_le_compat_r; lra). lra.
Qed.
Lemma edge_near : forall h, 0 <= h <= 1 -> forall n, branching s g mn mx n - branching (h * s) (h * g) mn mx n <= inject_Z (Z.of_nat n) * (meanSize mn mx * (1 - h)).
Proof.
  intros h Hh. assert (A1 : 0 <= h * s) by nra. assert (A2 : 0 <= h * g) by nra. assert (A3 : h * s + h * g <= 1) by (assert (h * s + h * g == h) by (rewrite <- Qmult_plus_distr_r, H1; ring); lra).
  induction n as [|n IH]; [cbn [branching]; change (inject_Z (Z.of_nat 0)) with 0; lra|]. rewrite nat_S.
  pose proof (branching_range s g mn mx Hs Hg ltac:(lra) Hm n) as B. pose proof (branching_range (h * s) (h * g) mn mx A1 A2 A3 Hm n) as B'.
  pose proof (branching_mono (h * s) s (h * g) g mn mx A1 ltac:(nra) A2 ltac:(nra) ltac:(lra) Hm n) as M.
  cbn [branching]. set (f := branching s g mn mx n) in *. set (f' := branching (h * s) (h * g) mn mx n) in *.
  set (u := s + g * f). set (v := h * s + h * g * f').
  assert (V0 : 0 <= v) by (unfold v; nra). assert (U1 : u <= 1) by (unfold u; nra).
  assert (GF : g * f' <= g * f) by nra. assert (GF0 : 0 <= g * f') by nra.
  assert (VU : v <= u) by (unfold u, v; setoid_replace (h * s + h * g * f') with (h * (s + g * f')) by ring; nra).
  assert (D : u - v <= (1 - h) + g * (f - f')).
  { unfold u, v. assert (g * f' <= g) by nra. assert ((1 - h) * (s + g * f') <= (1 - h) * 1) by (setoid_rewrite (Qmult_comm (1 - h)); apply Qmult_le_compat_r; lra). lra. }
  assert (L : average mn mx (fun k => power u (Z.to_nat k)) <= average mn mx (fun k => power v (Z.to_nat k) + (u - v) * inject_Z k)).
  { apply average_le; [exact Hm|]. intros z Hz. pose proof (power_near u v (Z.to_nat z) V0 VU U1) as P. rewrite Z2Nat.id in P by lia. lra. }
  rewrite average_plus, average_scale, average_numbers in L by exact Hm. pose proof (mean_ge0 mn mx H0 Hm) as K0. set (K := meanSize mn mx) in *.
  assert (X : (u - v) * K <= ((1 - h) + g * (f - f')) * K) by (apply Qmult_le_compat_r; auto).
  assert (Y : g * (f - f') * K == f - f') by (setoid_replace (g * (f - f') * K) with (K * g * (f - f')) by ring; rewrite Hr; ring). lra.
Qed.
End Edge.
