(** Every weight can win: facts behind the values oneOf is able to produce. *)
From Coq Require Import List ZArith Bool Lia Lqa QArith Qabs SpecFloat.
From Verif Require Import Base TreeModel RandomModel IntegralModel IntegralSpec ContainerModel GenModel GenSpec GenProof IntegralProof BinSearchProof BoolProof PropInt PropGen
  FloatModel FloatSpec FloatProof FloatPrintModel FloatPrintSpec FloatPrintProof RoundProof PercentProof WeightSpec WeightProof SupportSpec SupportProof.
Import ListNotations.
Local Open Scope Z_scope.

Lemma minus_small : forall s m e, nn s -> (fval s < 1)%Q -> SFsub 53 1024 one s = S754_finite false m e -> (V m e <= 1)%Q.
Proof.
  intros s m e Ns L H. assert (One : (V 4503599627370496 (-52) == 1)%Q) by (vm_compute; reflexivity). destruct Ns as [->|(ms & es & -> & Vd)].
  - injection H as <- <-. rewrite One. apply Qle_refl.
  - rewrite fval_pos in L. assert (P : (V ms es < V 4503599627370496 (-52))%Q) by (rewrite One; exact L). pose proof (sub_rnd b64 ltac:(fmt) _ _ _ _ P) as R.
    change (SFsub (prec b64) (emax b64)) with (SFsub 53 1024) in R. rewrite H in R.
    pose proof (rnd_below b64 ltac:(fmt) _ _ one R ltac:(discriminate) nn_one) as Bl. rewrite fval_one, fval_pos, One in Bl. apply Bl. pose proof (V_pos ms es). lra.
Qed.
Lemma share_small : forall s n, nn s -> (fval s < 1)%Q -> 0 < n < 2 ^ 64 -> okWeight (SFdiv 53 1024 (SFsub 53 1024 one s) (toDouble n)).
Proof.
  intros s n Ns L Hn. destruct (one_minus s Ns L) as (mc & ec & Ec & Bc & Wc). destruct (toDouble_ok n Hn) as (mt & et & kt & Et & _ & _ & _ & _ & Kt & [Bt1 Bt2] & Wt).
  assert (Bt : (B 0 <= V mt et <= B 64)%Q) by (split; [eapply Qle_trans; [|exact Bt1]; apply B_le; lia|eapply Qle_trans; [exact Bt2|]; apply B_le; lia]).
  pose proof (minus_small _ _ _ Ns L Ec) as Sm. destruct (div_gen _ _ _ _ Bc Bt) as (m & e & k & E & Vd & R & _ & _ & _). rewrite Ec, Et, E. right. exists m, e. split; [reflexivity|]. split; [exact Vd|].
  pose proof (rnd_below b64 ltac:(fmt) _ _ one R ltac:(discriminate) nn_one) as Bl. rewrite fval_one, fval_pos in Bl. apply Bl.
  destruct Bt as [Bt _]. rewrite B_0 in Bt. pose proof (V_pos mt et) as Pt. apply (Qmult_le_r _ _ (V mt et)); [exact Pt|]. rewrite (div_back _ _ Pt). lra.
Qed.

Lemma proper_or_one : forall m e, valid binary64 (S754_finite false m e) -> (V m e <= 1)%Q -> proper_threshold (S754_finite false m e) m e \/ S754_finite false m e = d_one.
Proof.
  intros m e Vd L. destruct (valid_facts _ _ Vd) as (F1 & F2 & F3). destruct (Qlt_le_dec (V m e) 1) as [G|G].
  - left. assert (Ee : e <= -53).
    { destruct (Z_le_gt_dec e (-53)); auto. exfalso. specialize (F2 ltac:(lia)). assert (P : (B (-52) <= B e)%Q) by (apply B_le; lia). change (B (-52)) with (1 # 4503599627370496)%Q in P.
      assert (L2 : (inject_Z (2 ^ 52) <= inject_Z (Zpos m))%Q) by (rewrite <- Zle_Qle; lia). change (inject_Z (2 ^ 52)) with 4503599627370496%Q in L2.
      assert (inject_Z (Zpos m) * (1 # 4503599627370496) <= V m e)%Q by (apply Qmult_le_l; [lra|exact P]). lra. }
    split; auto. split; auto. split; [lia|]. rewrite Zlt_Qlt, <- (B_int (- e)) by lia. apply (Qmult_lt_r _ _ (B e)); [apply B_pos|]. rewrite B_inv. exact G.
  - right. assert (D : Zpos (digits2_pos m) + e = 1). { destruct (digits_mag m e 0 1) as [D1 D2]; [rewrite B_0; exact G|change (B 1) with 2%Q; lra|lia]. }
    assert (Ee : e = -52). { apply valid_iff in Vd. destruct Vd as [V1 _]. rewrite D in V1. rewrite <- V1. reflexivity. }
    subst e. change (B (-52)) with (1 # 4503599627370496)%Q in G, L. assert (Em : Zpos m = 2 ^ 52).
    { apply Z.le_antisymm; rewrite Zle_Qle; change (inject_Z (2 ^ 52)) with 4503599627370496%Q; lra. }
    change (2 ^ 52) with (Zpos 4503599627370496) in Em. injection Em as ->. reflexivity.
Qed.

(** The draw 0, or no draw at all, makes the coin come up true. *)
Lemma can_win : forall w, okWeight w -> exists l, yields (getRandomBool w) l true.
Proof.
  intros w [[s ->]|(m & e & -> & Vd & L)].
  - exists [0]. destruct s; intros rest; reflexivity.
  - destruct (proper_or_one m e Vd L) as [Pr|E].
    + exists [0]. intros rest. rewrite (coin_exact replay _ m e _ Pr). cbn [app unif replay replay_unif]. change ((0 <=? 0) && (0 <=? UINT64_MAX)) with true. cbv iota.
      destruct (lim_exact _ _ _ Pr) as [_ [Lm _]]. destruct (Z.leb_spec 0 (Zpos m * 2 ^ 64 / 2 ^ (- e))); [reflexivity|lia].
    + exists []. rewrite E. intros rest. reflexivity.
Qed.

Lemma ok_weight : forall w, valid binary64 w -> w <> S754_nan -> legal_weight w -> okWeight w.
Proof.
  intros w V1 V2 (V3 & V4). destruct w as [s|s| |s m e]; [left; eauto|destruct s; discriminate|congruence|].
  destruct s; [discriminate|]. right. exists m, e. split; auto. split; auto. destruct (Qlt_le_dec 1 (V m e)) as [G|]; auto. exfalso.
  assert (SFltb d_one (S754_finite false m e) = true); [|congruence]. apply above_one; auto.
Qed.
Lemma ok_weights : forall ws ws', Forall (fun w => valid binary64 w /\ w <> S754_nan /\ legal_weight w) ws -> Z.of_nat (length ws) < 2 ^ 64 -> oneOfWeights ws = Ok ws' -> Forall okWeight ws'.
Proof.
  intros ws ws' H Hl O. assert (OkW : Forall okWeight ws) by (eapply Forall_impl; [|exact H]; intros w (V1 & V2 & V3); apply ok_weight; auto).
  assert (Sh : SFltb (weight_sum ws) d_one = true -> 0 < Z.of_nat (length (filter unassigned ws)) ->
    okWeight (SFdiv dprec demax (SFsub dprec demax d_one (weight_sum ws)) (binary_normalize dprec demax (Z.of_nat (length (filter unassigned ws))) 0 false))).
  { intros Hs Hp. destruct (sum_ok ws (S754_zero false) (or_introl eq_refl) OkW Hs) as (S1 & S2 & S3 & S4). cbv zeta in *. change (fold_left (SFadd 53 1024) ws (S754_zero false)) with (weight_sum ws) in *.
    apply share_small; auto. split; auto. assert (length (filter unassigned ws) <= length ws)%nat by (clear; induction ws; cbn; [lia|destruct (unassigned a); cbn; lia]). lia. }
  destruct (C25_weights _ _ O) as [Hl' Hw]. apply Forall_forall. intros w' Hin. apply In_nth_error in Hin. destruct Hin as [i Hi].
  assert (Hlt : (i < length ws')%nat) by (apply nth_error_Some; congruence). destruct (nth_error ws i) as [w|] eqn:Ew; [|apply nth_error_None in Ew; lia].
  rewrite (Hw _ _ Ew) in Hi. injection Hi as <-. rewrite Forall_forall in OkW. apply nth_error_In in Ew. destruct (unassigned w) eqn:U; [|apply OkW; exact Ew].
  destruct (SFltb (weight_sum ws) d_one) eqn:S; [|apply OkW; exact Ew]. apply Sh; auto. assert (In w (filter unassigned ws)) by (apply filter_In; auto). destruct (filter unassigned ws); [contradiction|]. cbn [length]. lia.
Qed.

Lemma spec_eq_one : forall p, p = d_one \/ p <> d_one.
Proof. intros p. destruct p as [s|s| |s m e]; try (right; discriminate). destruct s; [right; discriminate|]. destruct (Pos.eq_dec m 4503599627370496) as [->|N]; [|right; intros E; injection E; auto]. destruct (Z.eq_dec e (-52)) as [->|N]; [left; reflexivity|right; intros E; injection E; auto]. Qed.

(** The draw 2^64 - 1 makes the coin come up false, unless it is certain. *)
Lemma can_lose : forall w, okWeight w -> w <> d_one -> exists l, yields (getRandomBool w) l false.
Proof.
  intros w [[s ->]|(m & e & -> & Vd & L)] N.
  - exists [UINT64_MAX]. destruct s; intros rest; reflexivity.
  - destruct (proper_or_one m e Vd L) as [Pr|E]; [|contradiction]. exists [UINT64_MAX]. intros rest. rewrite (coin_exact replay _ m e _ Pr).
    cbn [app unif replay replay_unif]. change ((0 <=? UINT64_MAX) && (UINT64_MAX <=? UINT64_MAX)) with true. cbv iota.
    destruct (valid_facts _ _ Vd) as (F1 & F2 & F3). destruct Pr as (_ & _ & P3 & P4).
    assert (Q : Zpos m * 2 ^ 64 / 2 ^ (- e) < UINT64_MAX); [|destruct (Z.leb_spec UINT64_MAX (Zpos m * 2 ^ 64 / 2 ^ (- e))); [lia|reflexivity]].
    apply Z.div_lt_upper_bound; [apply Z.pow_pos_nonneg; lia|]. destruct (Z_le_gt_dec 54 (- e)) as [G|G].
    + assert (2 ^ 54 <= 2 ^ (- e)) by (apply Z.pow_le_mono_r; lia). unfold UINT64_MAX. lia.
    + assert (53 <= - e) by (destruct (Z_le_gt_dec 53 (- e)); [lia|]; specialize (F2 ltac:(lia)); assert (2 ^ (- e) <= 2 ^ 52) by (apply Z.pow_le_mono_r; lia); lia). assert (- e = 53) as -> by lia. unfold UINT64_MAX. lia.
Qed.
