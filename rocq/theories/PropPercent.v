(** C73: the percentages of the summary of tags. *)
From Coq Require Import String List ZArith Bool Lia Lqa QArith Qabs Qpower SpecFloat.
From Verif Require Import Base ListSpec PrintModel PrintSpec PrintProof ContextModel ContextSpec ContextProof PropContext FloatModel FloatSpec FloatPrintModel FloatPrintSpec FloatPrintProof FloatPrintNearProof PropFloatPrint RoundProof PercentProof.
Import ListNotations.
Local Open Scope Z_scope.

(** The number printed for c of t is within 1/199998 of the exact percentage. *)
Theorem C73_near : forall c t, 0 < c < 2 ^ 64 -> 0 < t < 2 ^ 64 -> exists D, standsFor (showFloat (percentage c t)) false D /\
  (let p := inject_Z (100 * c) / inject_Z t in Qabs (D - p) <= (1 # 199998) * p)%Q.
Proof.
  intros c t Hc Ht. destruct (percentage_ok c t Hc Ht) as (m & e & -> & [W1 W2]). destruct (C72_nearest false m e) as (D & S & _ & _ & Er).
  exists D. split; [exact S|]. cbv zeta. pose proof (inj_pos c ltac:(lia)) as Pc. pose proof (inj_pos t ltac:(lia)) as Pt.
  assert (Ep : (inject_Z (100 * c) / inject_Z t == inject_Z c / inject_Z t * 100)%Q) by (rewrite inject_Z_mult; change (inject_Z 100) with 100%Q; field; lra).
  assert (Pp : (0 < inject_Z c / inject_Z t)%Q) by (unfold Qdiv; setoid_replace 0%Q with (0 * / inject_Z t)%Q by ring; apply Qmult_lt_r; [apply Qinv_lt_0_compat|]; auto).
  rewrite Ep. set (p := (inject_Z c / inject_Z t * 100)%Q) in *. change (fval (S754_finite false m e)) with (V m e) in Er. pose proof (V_pos m e) as Pv.
  assert (Pd : (0 < D)%Q).
  { pose proof (stands_fun _ _ _ _ S (printed_stands false m e)) as E. pose proof (printed_sign false m e) as Sg. rewrite E. cbn [sgn] in Sg. change (inject_Z 1) with 1%Q in Sg. lra. }
  rewrite (Qabs_pos D) in Er by lra. apply Qabs_Qle_condition in Er. apply Qabs_Qle_condition. assert (0 < p)%Q by (unfold p; lra). split; lra.
Qed.
Example C73_near_ex : showFloat (percentage 1 3) = lit "33.3333" /\ showFloat (percentage 2 3) = lit "66.6667" /\ showFloat (percentage 1 1000000) = lit "0.0001" /\
  showFloat (percentage 1 18446744073709551615) = lit "5.42101e-18" /\ showFloat (percentage 7 14) = lit "50".
Proof. vm_compute. auto. Qed.

(** A larger count never has a smaller percentage printed. *)
Theorem C73_monotone : forall c c' t x y, 0 < c <= c' -> c' < 2 ^ 64 -> 0 < t < 2 ^ 64 ->
  standsFor (showFloat (percentage c t)) false x -> standsFor (showFloat (percentage c' t)) false y -> (x <= y)%Q.
Proof.
  intros c c' t x y Hc Hc' Ht Hx Hy. apply (C72_monotone (percentage c t) (percentage c' t) false false); auto.
  - destruct (percentage_ok c t ltac:(lia) Ht) as (m & e & -> & _). exact I.
  - destruct (percentage_ok c' t ltac:(lia) Ht) as (m & e & -> & _). exact I.
  - apply percentage_mono; auto.
Qed.
Example C73_monotone_ex : standsFor (showFloat (percentage 1 3)) false (333333 # 10000) /\ standsFor (showFloat (percentage 2 3)) false (666667 # 10000).
Proof.
  split; [exists (lit "33.3333"), (lit "33"), (lit "3333"), 0|exists (lit "66.6667"), (lit "66"), (lit "6667"), 0]; repeat split; vm_compute; reflexivity.
Qed.

(** 100 is printed if all are counted; it may be printed if not all are, but then hardly any are missing.  0 is printed for
    none only. *)
Theorem C73_all : forall t, 0 < t < 2 ^ 64 -> showFloat (percentage t t) = lit "100".
Proof. intros t Ht. rewrite percentage_all by auto. vm_compute. reflexivity. Qed.
Theorem C73_all_refuted : exists c t, 0 < c < t /\ t < 2 ^ 64 /\ showFloat (percentage c t) = lit "100".
Proof. exists 9999999, 10000000. split; [lia|]. split; [lia|vm_compute; reflexivity]. Qed.
Theorem C73_almost : forall c t, 0 < c < 2 ^ 64 -> 0 < t < 2 ^ 64 -> showFloat (percentage c t) = lit "100" -> 199998 * t <= 199999 * c.
Proof.
  intros c t Hc Ht E. destruct (C73_near c t Hc Ht) as (D & S & N). cbv zeta in N. rewrite E in S.
  assert (S' : standsFor (lit "100") false 100) by (exists (lit "100"), (lit "100"), [], 0; repeat split; vm_compute; reflexivity).
  pose proof (stands_fun _ _ _ _ S S') as Ed. rewrite Ed in N. apply Qabs_Qle_condition in N.
  pose proof (inj_pos t ltac:(lia)) as Pt. set (p := (inject_Z (100 * c) / inject_Z t)%Q) in *.
  assert (L : (100 * 199998 <= 199999 * p)%Q) by lra. assert (Ep : (p * inject_Z t == inject_Z (100 * c))%Q) by (apply div_back; auto).
  assert (L2 : (100 * 199998 * inject_Z t <= 199999 * p * inject_Z t)%Q) by (apply Qmult_le_compat_r; lra).
  assert (L3 : (inject_Z (19999800 * t) <= inject_Z (19999900 * c))%Q).
  { assert (E1 : (inject_Z (19999800 * t) == 19999800 * inject_Z t)%Q) by (rewrite inject_Z_mult; reflexivity).
    assert (E2 : (inject_Z (19999900 * c) == 199999 * inject_Z (100 * c))%Q) by (replace (19999900 * c) with (199999 * (100 * c)) by lia; rewrite inject_Z_mult; reflexivity).
    rewrite E1, E2, <- Ep. lra. }
  rewrite <- Zle_Qle in L3. lia.
Qed.
Theorem C73_none : forall c t, 0 <= c < 2 ^ 64 -> 0 < t < 2 ^ 64 -> showFloat (percentage c t) = lit "0" <-> c = 0.
Proof.
  intros c t Hc Ht. split.
  - intros E. destruct (Z.eq_dec c 0) as [|N]; auto. exfalso. destruct (percentage_ok c t ltac:(lia) Ht) as (m & e & Ep & _).
    pose proof (printed_stands false m e) as S. rewrite <- Ep, E in S. pose proof (stands_fun _ _ _ _ S (stands_zero false)) as E0.
    pose proof (printed_sign false m e) as Sg. rewrite E0 in Sg. discriminate.
  - intros ->. destruct (toDouble_ok t Ht) as (m & e & k & E & _). unfold percentage. rewrite E. vm_compute. reflexivity.
Qed.
Example C73_all_ex : showFloat (percentage 9999999 10000000) = lit "100" /\ showFloat (percentage 999999 1000000) = lit "99.9999" /\ 199998 * 10000000 <= 199999 * 9999999.
Proof. split; [vm_compute; reflexivity|]. split; [vm_compute; reflexivity|lia]. Qed.

(** The lines printed: for every key tagged in the scope one line with its name, for every value of it one with how often it
    was tagged, how often the key was, and the percentage; nothing else. *)
Definition countLine (v : string) (n t : nat) (p : text) : text :=
  lit "    " ++ lit v ++ lit ": " ++ dec (Z.of_nat n) ++ lit "/" ++ dec (Z.of_nat t) ++ lit " (" ++ p ++ lit "%)".
Definition isPercent (p : text) (n t : nat) : Prop :=
  exists D, standsFor p false D /\ (let x := inject_Z (100 * Z.of_nat n) / inject_Z (Z.of_nat t) in Qabs (D - x) <= (1 # 199998) * x)%Q.
Lemma percents : forall n t, (0 < n <= t)%nat -> Z.of_nat t < 2 ^ 64 -> isPercent (showFloat (percentage (Z.of_nat n) (Z.of_nat t))) n t.
Proof. intros n t Hn Ht. destruct (C73_near (Z.of_nat n) (Z.of_nat t) ltac:(lia) ltac:(lia)) as (D & S & N). exists D. auto. Qed.

Lemma times_le : forall k v body, (times_tagged k v body <= times_key k body)%nat.
Proof.
  intros k v body. unfold times_tagged, times_key. induction body as [|o body IH]; auto. cbn [filter]. destruct o; auto.
  destruct (String.eqb k key); cbn [andb]; [|exact IH]. destruct (String.eqb v value); cbn [length]; lia.
Qed.
Lemma sfind_of : forall A k (a : A) m, ascending String.ltb (map fst m) -> In (k, a) m -> sfind k m = Some a.
Proof.
  intros A k a. induction m as [|[q b] m IH]; intros Ha I; [destruct I|]. cbn in Ha. destruct Ha as [H1 H2]. cbn [sfind]. destruct I as [E|I].
  - inversion E; subst. rewrite String.eqb_refl. reflexivity.
  - destruct (String.eqb_spec k q) as [->|]; [|auto]. exfalso. apply (in_map fst) in I. rewrite Forall_forall in H1. apply H1 in I. cbn [fst] in I. rewrite ltb_refl in I. discriminate.
Qed.
Theorem C73_lines : forall body g c, scope_context body g c -> (forall k, Z.of_nat (times_key k body) < 2 ^ 64) ->
  (forall k, (0 < times_key k body)%nat -> In (lit "  " ++ lit k ++ lit ": ") (summaryLines c)) /\
  (forall k v, (0 < times_tagged k v body)%nat -> exists p, In (countLine v (times_tagged k v body) (times_key k body) p) (summaryLines c) /\ isPercent p (times_tagged k v body) (times_key k body)) /\
  (forall l, In l (summaryLines c) -> exists k, (0 < times_key k body)%nat /\ (l = lit "  " ++ lit k ++ lit ": " \/
     exists v p, (0 < times_tagged k v body)%nat /\ l = countLine v (times_tagged k v body) (times_key k body) p /\ isPercent p (times_tagged k v body) (times_key k body))).
Proof.
  intros body g c H Hb.
  assert (Su : forall k t vs, In (k, t, vs) (printSummary c) <-> summary_of c k = Some (t, vs)).
  { pose proof H as H'. apply scope_context_eq in H'. subst c.
    assert (Hw : wf_tags (tags (apply_ops body newctx))) by (apply wf_ops; split; simpl; auto).
    intros k t vs. rewrite summary_of_eq. unfold printSummary. destruct Hw as [Hw _]. rewrite in_map_iff. split.
    - intros [[k' m] [E I]]. cbn [fst snd] in E. inversion E; subst. rewrite (sfind_of _ k m) by auto. reflexivity.
    - destruct (sfind k (tags (apply_ops body newctx))) as [m|] eqn:E; [|discriminate]. intros E1. inversion E1; subst. exists (k, m). split; [reflexivity|]. apply sfind_in. exact E. }
  assert (Cs : forall k t vs, In (k, t, vs) (printSummary c) -> t = times_key k body /\ (0 < t)%nat /\ (forall v n, In (v, n) vs <-> n = times_tagged k v body /\ (0 < n)%nat)).
  { intros k t vs I. apply Su in I. pose proof (C39_summary body g c k H) as S. rewrite I in S. tauto. }
  assert (Cn : forall k, (0 < times_key k body)%nat -> exists vs, In (k, times_key k body, vs) (printSummary c)).
  { intros k Hk. pose proof (C39_summary body g c k H) as S. destruct (summary_of c k) as [[t vs]|] eqn:E; [|lia]. exists vs. apply Su. destruct S as [<- _]. exact E. }
  unfold summaryLines. split; [|split].
  - intros k Hk. destruct (Cn k Hk) as [vs I]. apply in_flat_map. exists (k, times_key k body, vs). split; [exact I|]. left. reflexivity.
  - intros k v Hv. pose proof (times_le k v body) as L. destruct (Cn k ltac:(lia)) as [vs I]. destruct (Cs _ _ _ I) as (_ & _ & Iv).
    exists (showFloat (percentage (Z.of_nat (times_tagged k v body)) (Z.of_nat (times_key k body)))). split; [|apply percents; [lia|apply Hb]].
    apply in_flat_map. exists (k, times_key k body, vs). split; [exact I|]. right. apply in_map_iff. exists (v, times_tagged k v body). split; [reflexivity|]. apply Iv. auto.
  - intros l Il. apply in_flat_map in Il. destruct Il as [[[k t] vs] [I Il]]. destruct (Cs _ _ _ I) as (-> & Hk & Iv). exists k. split; [exact Hk|]. destruct Il as [<-|Il]; [left; reflexivity|].
    right. apply in_map_iff in Il. destruct Il as [[v n] [<- In1]]. apply Iv in In1. destruct In1 as [-> Hn]. exists v. eexists. split; [exact Hn|]. split; [reflexivity|].
    apply percents; [pose proof (times_le k v body); lia|apply Hb].
Qed.
Example C73_lines_ex : scope_context outer {| heap := [(newctx, None)]; cur := Some 0%nat |} (apply_ops outer newctx) /\
  summaryLines (apply_ops outer newctx) = [lit "  sign: "; lit "    neg: 1/3 (33.3333%)"; lit "    pos: 2/3 (66.6667%)"; lit "  size: "; lit "    big: 2/2 (100%)"] /\
  (forall k, Z.of_nat (times_key k outer) < 2 ^ 64).
Proof.
  split; [eexists; split; vm_compute; reflexivity|]. split; [vm_compute; reflexivity|]. intros k.
  assert (L : (times_key k outer <= length outer)%nat) by (clear; unfold times_key; induction outer as [|o l IH]; [auto|cbn [filter length]; destruct o as [? ? k0 ?| |]; try (cbn [length]; lia); destruct (String.eqb k k0); cbn [length]; lia]). change (length outer) with 8%nat in L. lia.
Qed.

Print Assumptions C73_near.
Print Assumptions C73_monotone.
Print Assumptions C73_all.
Print Assumptions C73_all_refuted.
Print Assumptions C73_almost.
Print Assumptions C73_none.
Print Assumptions C73_lines.
