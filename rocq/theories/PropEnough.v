(** C93, continued: how many runs are enough. *)
From Coq Require Import String List ZArith QArith Lia Lqa Bool Arith Permutation SpecFloat.
From Verif Require Import Base TreeModel RandomModel TupleModel IntegralModel IntegralSpec IntegralProof ContainerModel EffModel ContextModel RunnerModel RunnerSpec SearchSpec SearchProof PropRun PropSearch PropListSearch.
From Verif Require Import ChanceSpec ChanceProof EndingProof PropChance ReportChanceSpec PropReportChance.
Import ListNotations.
Local Open Scope list_scope.

Lemma power_enough : forall q n, (0 <= q -> q <= 1 -> power q n * (1 + inject_Z (Z.of_nat n) * (1 - q)) <= 1)%Q.
Proof.
  intros q n H0 H1. induction n as [|n IH]; [cbn [power]; change (inject_Z (Z.of_nat 0)) with 0%Q; lra|]. cbn [power].
  assert (N : (inject_Z (Z.of_nat (S n)) == inject_Z (Z.of_nat n) + 1)%Q) by (rewrite Nat2Z.inj_succ, <- Z.add_1_r, inject_Z_plus; reflexivity).
  rewrite N. pose proof (power_ge0 q n H0) as G. set (x := inject_Z (Z.of_nat n)) in *.
  assert (X0 : (0 <= x)%Q) by (unfold x; change 0%Q with (inject_Z 0); rewrite <- Zle_Qle; lia).
  set (a := power q n) in *.
  assert (D : (q * a * (1 + (x + 1) * (1 - q)) == a * (1 + x * (1 - q)) - a * ((x + 1) * ((1 - q) * (1 - q))))%Q) by ring.
  assert (P : (0 <= a * ((x + 1) * ((1 - q) * (1 - q))))%Q).
  { apply Qmult_le_0_compat; [exact G|]. apply Qmult_le_0_compat; [lra|]. apply Qmult_le_0_compat; lra. }
  rewrite D. lra.
Qed.

(** If every failing value is reported as [best], then [best] is reported with a probability of at least 1 - eps once the number of runs n is such that
    eps * (1 + n * (1 - q)) >= 1, however small the probability 1 - q of a failing value is. *)
Theorem C93_enough : forall A V W (ev : setting) (g : forall E, gen E A) (inj : A -> V) (P : forall E, property E V W) beh ok q n fuel w best eps (event : option (list V) -> bool), likely g ok q ->
  (forall E, order 1 (ord_call (ev E)) /\ order 1 (ord_regen (ev E)) /\ order 1 (ord_shrinks (ev E)) /\ order 1 (ord_each (ev E))) ->
  (forall E r, exists t r', g E r = Ok (t, r')) ->
  (forall E, gens (P E) = [treeArg inj (g E)] /\ pure_property (P E) beh /\ tame (P E) /\ maxDurationMs (P E) = 0%Z /\ numRuns (P E) = n) ->
  no_leak beh -> decides beh inj ok -> (n < fuel)%nat ->
  (forall E r k why rep s', runForAll fuel (starting r (ev E)) (P E) w = Ok (VFalsified k why rep, s') -> simplest_args rep = best) ->
  (1 <= eps * (1 + inject_Z (Z.of_nat n) * (1 - q)))%Q -> event (Some best) = true ->
  exists p, likelyResult (fun E r => told (runForAll fuel (starting r (ev E)) (P E) w)) event p /\ (1 - eps <= p)%Q.
Proof.
  intros A V W ev g inj P beh ok q n fuel w best eps event LQ HO HT HP HL HD HF HB HE Ev.
  pose proof (C93_two A V W ev g inj P beh ok q n fuel w best LQ HO HT HP HL HD HF HB event) as X.
  exists (split (power q n) (event None) (event (Some best))). split; [exact X|].
  destruct (C78_unique A g ok q q LQ LQ) as [_ [Q0 Q1]]. pose proof (power_enough q n Q0 Q1) as B. pose proof (power_ge0 q n Q0) as G.
  set (y := (1 + inject_Z (Z.of_nat n) * (1 - q))%Q) in *.
  assert (Y : (1 <= y)%Q).
  { unfold y. assert (0 <= inject_Z (Z.of_nat n) * (1 - q))%Q; [|lra]. apply Qmult_le_0_compat; [|lra]. change 0%Q with (inject_Z 0). rewrite <- Zle_Qle. lia. }
  assert (L : (power q n <= eps)%Q) by (apply (Qmult_le_r _ _ y); lra).
  unfold split. rewrite Ev. destruct (event None); lra.
Qed.

(** The property of C93_upward_ex with any number of runs. *)
Definition prop93n (n : nat) : forall E, property E Z unit := fun E =>
  {| func := fun args w => (fst (beh93 args), snd (beh93 args), w); gens := [intArg (fun x => x) TI32 0 999]; onStartup := None; onCleanup := None; numRuns := n; maxDurationMs := 0; seed := 0 |}.
(** With 990 runs or more, 900 is reported with a probability of at least 99/100. *)
Example C93_enough_ex : forall (ev : setting) n, order93 ev -> (990 <= n)%nat -> exists p,
  likelyResult (fun E r => told (runForAll (S n) (starting r (ev E)) (prop93n n E) tt)) (fun x => match x with Some [m] => (m =? 900)%Z | _ => false end) p /\ (99 # 100 <= p)%Q.
Proof.
  intros ev n HO Hn. pose proof usable93 as (U1 & U2 & U3 & U4).
  assert (TM : forall E, tame (prop93n n E)) by (intros E; repeat split; intros; discriminate).
  assert (PP : forall E, pure_property (prop93n n E) beh93) by (intros E; repeat split).
  assert (NL : no_leak beh93) by (intros args H; exfalso; apply H; reflexivity).
  destruct (C93_enough Z Z unit ev (fun E => interval TI32 0 999) (fun x => x) (prop93n n) beh93 (fun x => x <? 900)%Z (900 # 1000) n (S n) tt [900%Z] (1 # 100)
    (fun x => match x with Some [m] => (m =? 900)%Z | _ => false end)) as (p & L & B); auto.
  - destruct (C78_integer TI32 0 999 (fun x => x <? 900)%Z U1 U2 U3 U4) as (p & L & Q); [intros [H _]; discriminate|]. exists p. split; [exact L|]. rewrite Q. vm_compute. reflexivity.
  - intros E r. destruct (generateInteger_ok E TI32 0 999 r U1 U2 U3 U4) as (t & r' & X & _). exists t, r'. exact X.
  - apply decides93.
  - intros E r k why rep s' X. destruct (HO E) as (O1 & O2 & O3 & O4).
    destruct (C66_one E Z unit (S n) (starting r (ev E)) (prop93n n E) beh93 tt k why rep s' (fun x => x) TI32 0 999 (PP E) NL O1 O2 O4 usable93 eq_refl) as (m & M1 & M2 & M3 & M4); auto.
    + intros x y Hx Hy Hr Hb. apply (decides93 y). apply (decides93 x) in Hb. apply Z.ltb_ge in Hb. apply Z.ltb_ge. unfold nearer in Hr. change (nearest_zero 0 999) with 0%Z in Hr. lia.
    + rewrite M1. destruct (Z.eq_dec m 900) as [->|Ne]; [reflexivity|]. exfalso. apply (decides93 m) in M3. apply Z.ltb_ge in M3.
      change (nearest_zero 0 999) with 0%Z in M4. apply (M4 900%Z); [lia|lia|]. apply (decides93 900%Z). reflexivity.
  - assert (inject_Z 990 <= inject_Z (Z.of_nat n))%Q by (rewrite <- Zle_Qle; lia). change (inject_Z 990) with (990 # 1)%Q in H. lra.
  - exists p. split; [exact L|]. lra.
Qed.

Print Assumptions C93_enough.
