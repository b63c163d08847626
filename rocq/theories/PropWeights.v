(** C74: weights of oneOf, intervals and uintervals as numbers. *)
From Coq Require Import List ZArith Bool Lia Lqa QArith Qabs SpecFloat.
From Verif Require Import Base TreeModel RandomModel IntegralModel IntegralSpec ContainerModel GenModel GenSpec GenProof IntegralProof BinSearchProof BoolProof PropInt PropGen
  FloatModel FloatSpec FloatProof FloatPrintModel FloatPrintSpec FloatPrintProof RoundProof PercentProof WeightSpec WeightProof.
Import ListNotations.
Local Open Scope Z_scope.

Definition size_of (signed : bool) : Z * Z -> res Z := if signed then interval_size else uinterval_size.
Lemma choice_eq : forall E sg is, choice (E := E) sg is = intervalsOf (if sg then TI64 else TU64) (size_of sg) is.
Proof. intros E [|] is; reflexivity. Qed.
Lemma size_ok : forall sg i, legal sg i -> size_of sg i = Ok (width i) /\ 0 < width i < 2 ^ 64.
Proof.
  intros [|] i (H1 & H2 & H3 & H4); unfold size_of, width.
  - unfold interval_size, chk64. unfold INT64_MIN, INT64_MAX in *.
    rewrite (proj2 (Z.leb_le _ (snd i - fst i))), (proj2 (Z.leb_le (snd i - fst i) _)) by lia. cbn [andb bind].
    rewrite (proj2 (Z.leb_le _ (snd i - fst i + 1))), (proj2 (Z.leb_le (snd i - fst i + 1) _)) by lia. cbn [andb]. split; [reflexivity|lia].
  - unfold uinterval_size. unfold UINT64_MAX in *. rewrite (wrapU_small 64 (snd i - fst i)) by lia. rewrite wrapU_small by lia. split; [reflexivity|lia].
Qed.
Lemma total_zsum : forall is, total is = zsum (map width is).
Proof. induction is as [|i is IH]; [reflexivity|]. cbn [total fold_right map zsum]. fold (total is). rewrite IH. reflexivity. Qed.
Lemma total_pos : forall sg is, Forall (legal sg) is -> 0 <= total is.
Proof.
  intros sg is H. rewrite total_zsum. apply zsum_pos. apply Forall_map. eapply Forall_impl; [|exact H]. intros i Hi. apply size_ok in Hi. cbn. lia.
Qed.
Lemma sum_sizes : forall sg is acc, Forall (legal sg) is -> 0 <= acc -> acc + total is < 2 ^ 64 -> sumSizes (size_of sg) is acc = Ok (acc + total is).
Proof.
  intros sg is. induction is as [|i is IH]; intros acc H Ha Hs; cbn [sumSizes total fold_right] in *; [rewrite Z.add_0_r; reflexivity|]. fold (total is) in *.
  inversion H as [|? ? Hi Hr]; subst. destruct (size_ok _ _ Hi) as [E P]. pose proof (total_pos _ _ Hr). rewrite E. cbn [bind]. destruct (Z.eqb_spec (width i) 0); [lia|].
  rewrite wrapU_small by lia. rewrite IH by (auto; lia). f_equal. lia.
Qed.
Lemma weights_eq : forall sg is t, Forall (legal sg) is -> intervalWeights (size_of sg) is t = Ok (map (fun s => ratio s t) (map width is)).
Proof.
  intros sg is t H. unfold intervalWeights. induction H as [|i is Hi Hr IH]; [reflexivity|]. cbn [mapM map]. destruct (size_ok _ _ Hi) as [E _]. rewrite E. cbn [bind].
  rewrite IH. reflexivity.
Qed.
Lemma choice_oneOf : forall E sg is, Forall (legal sg) is -> total is < 2 ^ 64 ->
  choice (E := E) sg is = oneOf (combine (each sg is) (map (fun s => ratio s (total is)) (map width is))).
Proof.
  intros E sg is H Ht. rewrite choice_eq. unfold intervalsOf. rewrite sum_sizes by (auto; lia). cbn [bind]. rewrite Z.add_0_l, weights_eq by auto. reflexivity.
Qed.
Lemma combine_snd : forall A B (l : list A) (m : list B), length l = length m -> map snd (combine l m) = m.
Proof. induction l as [|a l IH]; intros [|b m] H; try discriminate; auto. cbn [combine map snd]. rewrite IH; auto. Qed.
Lemma width_le : forall sg is i, Forall (legal sg) is -> In i is -> 0 < width i <= total is.
Proof.
  intros sg is i H. induction H as [|j is Hj Hr IH]; intros I; [destruct I|]. cbn [total fold_right]. fold (total is). pose proof (size_ok _ _ Hj) as [_ P]. pose proof (total_pos _ _ Hr).
  destruct I as [->|I]; [lia|]. specialize (IH I). lia.
Qed.
Lemma legal_weights : forall sg is, Forall (legal sg) is -> total is < 2 ^ 64 -> Forall (fun w => legal_weight w /\ unassigned w = false) (map (fun s => ratio s (total is)) (map width is)).
Proof.
  intros sg is H Ht. rewrite map_map. apply Forall_map. apply Forall_forall. intros i I. pose proof (width_le _ _ _ H I) as W.
  destruct (ratio_ok (width i) (total is) ltac:(lia) Ht) as (m & e & x & E & Vd & _ & L & _). rewrite E. split; [|reflexivity]. split; [reflexivity|].
  apply not_above_one; [right; eauto|]. rewrite fval_pos. exact L.
Qed.
Lemma accepted_iff : forall E sg is, Forall (legal sg) is -> total is < 2 ^ 64 ->
  let ok := SFltb d_one (weight_sum (map (fun s => ratio s (total is)) (map width is))) in
  (ok = false -> accepted (choice (E := E) sg is)) /\ (ok = true -> choice (E := E) sg is = Throw ERuntime).
Proof.
  intros E sg is H Ht. cbv zeta. rewrite choice_oneOf by auto. pose proof (legal_weights _ _ H Ht) as L. set (ws := map (fun s => ratio s (total is)) (map width is)) in *.
  assert (Sn : map snd (combine (each (E := E) sg is) ws) = ws) by (apply combine_snd; unfold each, ws; rewrite !map_length; reflexivity).
  destruct (C25_rejects E Z (combine (each sg is) ws)) as [A R]. unfold weighted in A, R. rewrite Sn in A, R.
  assert (Lw : Forall legal_weight ws) by (eapply Forall_impl; [|exact L]; cbn; tauto). split; intros O.
  - apply A. split; auto.
  - apply R. rewrite O. intros [_ D]. discriminate.
Qed.

(** One interval is never refused. *)
Theorem C74_one : forall E sg i, legal sg i -> accepted (choice (E := E) sg [i]).
Proof.
  intros E sg i H. destruct (size_ok _ _ H) as [_ W]. apply accepted_iff; [auto|cbn [total fold_right]; lia|]. cbn [map total fold_right]. rewrite Z.add_0_r.
  rewrite one_ok by exact W. reflexivity.
Qed.
(** Two intervals are never refused while they hold at most 2^53 integers. *)
Theorem C74_two : forall E sg i j, legal sg i -> legal sg j -> width i + width j <= 2 ^ 53 -> accepted (choice (E := E) sg [i; j]).
Proof.
  intros E sg i j Hi Hj H. destruct (size_ok _ _ Hi) as [_ Wi]. destruct (size_ok _ _ Hj) as [_ Wj]. apply accepted_iff; [auto|cbn [total fold_right]; lia|].
  cbn [map total fold_right]. rewrite Z.add_0_r. apply two_ok; lia.
Qed.
(** Any number of intervals is accepted when together they hold 2^k integers, k at most 53. *)
Theorem C74_power_of_two : forall E sg is k, Forall (legal sg) is -> 0 <= k <= 53 -> total is = 2 ^ k -> accepted (choice (E := E) sg is).
Proof.
  intros E sg is k H Hk Ht. assert (2 ^ k <= 2 ^ 53) by (apply Z.pow_le_mono_r; lia). apply accepted_iff; [auto|lia|]. rewrite Ht.
  assert (P : Forall (fun z => 0 < z) (map width is)) by (apply Forall_map; eapply Forall_impl; [|exact H]; intros i Hi; apply size_ok in Hi; cbn; lia).
  destruct (pow_ok k (map width is) (S754_zero false) 0 Hk P) as [N F]; [left; reflexivity|lia|change (fval (S754_zero false)) with 0%Q; change (inject_Z 0) with 0%Q; ring|rewrite <- total_zsum; lia|].
  apply not_above_one; [exact N|]. unfold weight_sum. change (fold_left (SFadd dprec demax)) with (fold_left (SFadd 53 1024)). rewrite F, Z.add_0_l, <- total_zsum, Ht, <- (B_int k) by lia.
  rewrite Qmult_comm, B_inv. lra.
Qed.
(** For intervals of one common width only their number matters: n times the double nearest to 1/n. *)
Theorem C74_equal : forall E sg is s n, n = Z.of_nat (length is) -> 0 < n -> Forall (fun i => legal sg i /\ width i = s) is -> n * s <= 2 ^ 53 ->
  let ok := SFltb d_one (weight_sum (repeat (SFdiv 53 1024 (toDouble 1) (toDouble n)) (length is))) in
  (ok = false -> accepted (choice (E := E) sg is)) /\ (ok = true -> choice (E := E) sg is = Throw ERuntime).
Proof.
  intros E sg is s n Hn Hp H Hs. cbv zeta. assert (L : Forall (legal sg) is) by (eapply Forall_impl; [|exact H]; cbn; tauto).
  assert (T : total is = n * s).
  { clear - H Hn. subst n. induction H as [|i is [_ Hi] Hr IH]; [reflexivity|]. cbn [total fold_right length]. fold (total is). rewrite IH, Hi, Nat2Z.inj_succ. lia. }
  assert (S0 : 0 < s). { destruct is as [|i is]; [cbn in Hn; lia|]. inversion H as [|? ? [Hi Hw] _]; subst. apply size_ok in Hi. lia. }
  destruct (accepted_iff E sg is L ltac:(lia)) as [A R]. cbv zeta in A, R.
  assert (Ew : map (fun s0 => ratio s0 (total is)) (map width is) = repeat (SFdiv 53 1024 (toDouble 1) (toDouble n)) (length is)).
  { change (SFdiv 53 1024 (toDouble 1) (toDouble n)) with (ratio 1 n). rewrite <- (equal_ratio s n) by lia. rewrite <- T. rewrite map_map. clear - H. generalize (total is). intros t.
    induction H as [|i is [_ Hi] Hr IH]; [reflexivity|]. cbn [map length repeat]. rewrite IH, Hi. reflexivity. }
  rewrite Ew in A, R. auto.
Qed.
(** The numbers of equal intervals up to fifty that are refused. *)
Definition refused : list nat := [9; 11; 18; 20; 21; 25; 35; 36; 39; 40; 41; 42; 43; 45; 47; 48; 49; 50]%nat.
Theorem C74_equal_refused : forall E sg is s, Forall (fun i => legal sg i /\ width i = s) is -> (0 < length is <= 50)%nat -> Z.of_nat (length is) * s <= 2 ^ 53 ->
  (In (length is) refused -> choice (E := E) sg is = Throw ERuntime) /\ (~ In (length is) refused -> accepted (choice (E := E) sg is)).
Proof.
  intros E sg is s H Hl Hs. destruct (C74_equal E sg is s _ eq_refl ltac:(lia) H Hs) as [A R]. cbv zeta in A, R.
  assert (T : forall n, (0 < n <= 50)%nat -> SFltb d_one (weight_sum (repeat (SFdiv 53 1024 (toDouble 1) (toDouble (Z.of_nat n))) n)) = existsb (Nat.eqb n) refused).
  { clear. assert (C : forallb (fun n => Bool.eqb (SFltb d_one (weight_sum (repeat (SFdiv 53 1024 (toDouble 1) (toDouble (Z.of_nat n))) n))) (existsb (Nat.eqb n) refused)) (seq 1 50) = true) by (vm_compute; reflexivity).
    rewrite forallb_forall in C. intros n Hn. apply Bool.eqb_prop, C, in_seq. lia. }
  rewrite (T _ Hl) in A, R. split; intros I.
  - apply R. apply existsb_exists. exists (length is). split; auto. apply Nat.eqb_refl.
  - apply A. destruct (existsb (Nat.eqb (length is)) refused) eqn:Eb; auto. exfalso. apply I. apply existsb_exists in Eb. destruct Eb as (x & X1 & X2). apply Nat.eqb_eq in X2. subst x. exact X1.
Qed.
(** Three small intervals can be refused, and two wide ones. *)
Theorem C74_three_refuted : ~ (forall E sg i j k, legal sg i -> legal sg j -> legal sg k -> width i + width j + width k <= 30 -> accepted (choice (E := E) sg [i; j; k])).
Proof.
  intros H. destruct (H replay true (1, 6) (11, 33) (40, 40)) as [g Hg]; try (unfold legal, INT64_MIN, INT64_MAX; cbn; lia).
  assert (E : choice (E := replay) true [(1, 6); (11, 33); (40, 40)] = Throw ERuntime) by (vm_compute; reflexivity). congruence.
Qed.
Theorem C74_two_refuted : ~ (forall E sg i j, legal sg i -> legal sg j -> width i + width j < 2 ^ 62 -> accepted (choice (E := E) sg [i; j])).
Proof.
  intros H. destruct (H replay true (1, 3076014870289029454) (-998400453619385670, -1)) as [g Hg]; try (unfold legal, INT64_MIN, INT64_MAX; cbn; lia).
  assert (E : choice (E := replay) true [(1, 3076014870289029454); (-998400453619385670, -1)] = Throw ERuntime) by (vm_compute; reflexivity). congruence.
Qed.

(** The weights: each is width/total up to a relative error of 2^-51, and these are the weights oneOf works with. *)
Theorem C74_weights : forall E sg is, Forall (legal sg) is -> total is < 2 ^ 64 -> exists ws,
  choice (E := E) sg is = oneOf (combine (each sg is) ws) /\ (forall ws', oneOfWeights ws = Ok ws' -> ws' = ws) /\
  Forall2 (fun i w => (0 < fval w /\ fval w <= 1 /\ Qabs (fval w * inject_Z (total is) - inject_Z (width i)) <= inject_Z (width i) * (1 # 2251799813685248))%Q) is ws.
Proof.
  intros E sg is H Ht. exists (map (fun s => ratio s (total is)) (map width is)). split; [apply choice_oneOf; auto|]. split.
  - intros ws' O. destruct (C25_weights _ _ O) as [Hl Hw]. pose proof (legal_weights _ _ H Ht) as L. set (ws := map (fun s => ratio s (total is)) (map width is)) in *.
    apply nth_ext_error. intros n. destruct (nth_error ws n) as [w|] eqn:En.
    + rewrite (Hw _ _ En). rewrite Forall_forall in L. apply nth_error_In in En. destruct (L _ En) as [_ U]. rewrite U. reflexivity.
    + apply nth_error_None. apply nth_error_None in En. lia.
  - rewrite map_map. assert (G : forall l, incl l is -> Forall2 (fun i w => (0 < fval w /\ fval w <= 1 /\ Qabs (fval w * inject_Z (total is) - inject_Z (width i)) <= inject_Z (width i) * (1 # 2251799813685248))%Q) l (map (fun x => ratio (width x) (total is)) l)).
    { induction l as [|i l IH]; intros I; [constructor|]. cbn [map]. constructor; [|apply IH; intros z Z; apply I; right; auto].
      pose proof (width_le _ _ i H ltac:(apply I; left; auto)) as W. destruct (ratio_ok (width i) (total is) ltac:(lia) Ht) as (m & e & x & Ew & Vd & _ & L & G & Wi & _).
      rewrite Ew. rewrite !fval_pos. split; [apply V_pos|]. split; [exact L|]. destruct Wi as [W1 W2]. pose proof (inj_pos (total is) ltac:(lia)) as Pt. pose proof (inj_pos (width i) ltac:(lia)) as Pw.
      assert (Eq : (inject_Z (width i) / inject_Z (total is) * inject_Z (total is) == inject_Z (width i))%Q) by (apply div_back; exact Pt).
      set (y := (inject_Z (width i) / inject_Z (total is))%Q) in *. assert (A1 : ((1 - four) * y * inject_Z (total is) <= V m e * inject_Z (total is))%Q) by (apply Qmult_le_compat_r; lra).
      assert (A2 : (V m e * inject_Z (total is) <= (1 + four) * y * inject_Z (total is))%Q) by (apply Qmult_le_compat_r; lra).
      rewrite <- Qmult_assoc, Eq in A1. rewrite <- (Qmult_assoc (1 + four) y), Eq in A2. unfold four in *. apply Qabs_Qle_condition. lra. }
    apply G. intros z Z. exact Z.
Qed.
Lemma coin_form : forall m e s t, valid binary64 (S754_finite false m e) -> (V m e <= 1)%Q -> 0 < s <= t -> t < 2 ^ 64 ->
  within (V m e) (inject_Z s / inject_Z t) (1 - four) (1 + four) -> exists c, 1 <= c <= 2 ^ 64 /\ Z.abs (c * t - s * 2 ^ 64) <= s * 2 ^ 13 + t /\
    (S754_finite false m e = d_one /\ c = 2 ^ 64 \/ proper_threshold (S754_finite false m e) m e /\ c = Zpos m * 2 ^ 64 / 2 ^ (- e) + 1).
Proof.
  intros m e s t Vd L Hs Ht [W1 W2]. pose proof (inj_pos s ltac:(lia)) as Ps. pose proof (inj_pos t ltac:(lia)) as Pt.
  assert (Eq : (inject_Z s / inject_Z t * inject_Z t == inject_Z s)%Q) by (apply div_back; exact Pt). set (y := (inject_Z s / inject_Z t)%Q) in *.
  assert (A1 : ((1 - four) * y * inject_Z t <= V m e * inject_Z t)%Q) by (apply Qmult_le_compat_r; lra). assert (A2 : (V m e * inject_Z t <= (1 + four) * y * inject_Z t)%Q) by (apply Qmult_le_compat_r; lra).
  rewrite <- Qmult_assoc, Eq in A1. rewrite <- (Qmult_assoc (1 + four) y), Eq in A2. unfold four in *. destruct (valid_facts _ _ Vd) as (F1 & F2 & F3).
  assert (Z64 : forall c, (inject_Z (c * 2 ^ 64) == inject_Z c * 18446744073709551616)%Q) by (intros; rewrite inject_Z_mult; reflexivity).
  assert (Z13 : forall c, (inject_Z (c * 2 ^ 13) == inject_Z c * 8192)%Q) by (intros; rewrite inject_Z_mult; reflexivity).
  assert (Fin : forall c, (V m e * 18446744073709551616 <= inject_Z c <= V m e * 18446744073709551616 + 1)%Q -> Z.abs (c * t - s * 2 ^ 64) <= s * 2 ^ 13 + t).
  { intros c [C1 C2]. assert (D1 : (V m e * 18446744073709551616 * inject_Z t <= inject_Z c * inject_Z t)%Q) by (apply Qmult_le_compat_r; lra).
    assert (D2 : (inject_Z c * inject_Z t <= (V m e * 18446744073709551616 + 1) * inject_Z t)%Q) by (apply Qmult_le_compat_r; lra).
    set (v := (V m e * inject_Z t)%Q) in *. setoid_replace (V m e * 18446744073709551616 * inject_Z t)%Q with (v * 18446744073709551616)%Q in D1 by (unfold v; ring).
    setoid_replace ((V m e * 18446744073709551616 + 1) * inject_Z t)%Q with (v * 18446744073709551616 + inject_Z t)%Q in D2 by (unfold v; ring).
    apply Z.abs_le. split; rewrite Zle_Qle.
    - rewrite inject_Z_opp. unfold Z.sub. rewrite !inject_Z_plus, inject_Z_opp, Z64, Z13, inject_Z_mult. lra.
    - unfold Z.sub. rewrite !inject_Z_plus, inject_Z_opp, Z64, Z13, inject_Z_mult. lra. }
  destruct (Qlt_le_dec (V m e) 1) as [G|G].
  - assert (Ee : e <= -53).
    { destruct (Z_le_gt_dec e (-53)); auto. exfalso. specialize (F2 ltac:(lia)). assert (P : (B (-52) <= B e)%Q) by (apply B_le; lia). change (B (-52)) with (1 # 4503599627370496)%Q in P.
      assert (L2 : (inject_Z (2 ^ 52) <= inject_Z (Zpos m))%Q) by (rewrite <- Zle_Qle; lia). change (inject_Z (2 ^ 52)) with 4503599627370496%Q in L2.
      assert (inject_Z (Zpos m) * (1 # 4503599627370496) <= V m e)%Q by (apply Qmult_le_l; [lra|exact P]). lra. }
    assert (Pr : proper_threshold (S754_finite false m e) m e).
    { split; auto. split; auto. split; [lia|]. rewrite Zlt_Qlt, <- (B_int (- e)) by lia. apply (Qmult_lt_r _ _ (B e)); [apply B_pos|]. rewrite B_inv. exact G. }
    assert (Cx : exists c, 1 <= c <= 2 ^ 64 /\ Zpos m * 2 ^ 64 < c * 2 ^ (- e) <= Zpos m * 2 ^ 64 + 2 ^ (- e) /\ c = Zpos m * 2 ^ 64 / 2 ^ (- e) + 1).
    { exists (Zpos m * 2 ^ 64 / 2 ^ (- e) + 1). assert (Hpos : 0 < 2 ^ (- e)) by (apply Z.pow_pos_nonneg; lia).
      destruct Pr as (Pr1 & Pr2 & Pr3 & Pr4). split; [|split; [|reflexivity]].
      - pose proof (Z.div_pos (Zpos m * 2 ^ 64) (2 ^ (- e)) ltac:(lia) Hpos). pose proof (Z.div_lt_upper_bound (Zpos m * 2 ^ 64) (2 ^ (- e)) (2 ^ 64) Hpos ltac:(nia)). lia.
      - pose proof (Z.div_mod (Zpos m * 2 ^ 64) (2 ^ (- e)) ltac:(lia)). pose proof (Z.mod_pos_bound (Zpos m * 2 ^ 64) (2 ^ (- e)) Hpos). lia. }
    destruct Cx as (c & C1 & [C2 C3] & C4). exists c. split; [exact C1|]. split; [|right; split; [exact Pr|exact C4]]. apply Fin.
    assert (Bi : (B e * B (- e) == 1)%Q) by (rewrite Qmult_comm; apply B_inv). assert (I : (inject_Z (2 ^ (- e)) == B (- e))%Q) by (rewrite <- (B_int (- e)) by lia; reflexivity).
    rewrite Zlt_Qlt, Z64, inject_Z_mult, I in C2. rewrite Zle_Qle, inject_Z_plus, Z64, inject_Z_mult, I in C3. pose proof (B_pos (- e)) as Pb. split.
    + apply (Qmult_le_r _ _ (B (- e))); auto. setoid_replace (V m e * 18446744073709551616 * B (- e))%Q with (inject_Z (Zpos m) * 18446744073709551616 * (B e * B (- e)))%Q by ring. rewrite Bi. lra.
    + apply (Qmult_le_r _ _ (B (- e))); auto. setoid_replace ((V m e * 18446744073709551616 + 1) * B (- e))%Q with (inject_Z (Zpos m) * 18446744073709551616 * (B e * B (- e)) + B (- e))%Q by ring. rewrite Bi. lra.
  - assert (D : Zpos (digits2_pos m) + e = 1). { destruct (digits_mag m e 0 1) as [D1 D2]; [rewrite B_0; exact G|change (B 1) with 2%Q; lra|lia]. }
    assert (Ee : e = -52). { apply valid_iff in Vd. destruct Vd as [V1 _]. rewrite D in V1. rewrite <- V1. reflexivity. }
    subst e. change (B (-52)) with (1 # 4503599627370496)%Q in G, L. assert (Em : Zpos m = 2 ^ 52).
    { apply Z.le_antisymm; rewrite Zle_Qle; change (inject_Z (2 ^ 52)) with 4503599627370496%Q; lra. }
    change (2 ^ 52) with (Zpos 4503599627370496) in Em. injection Em as Em. exists (2 ^ 64). split; [lia|]. split.
    + apply Fin. change (inject_Z (2 ^ 64)) with 18446744073709551616%Q. change (B (-52)) with (1 # 4503599627370496)%Q. lra.
    + left. split; [|reflexivity]. rewrite Em. reflexivity.
Qed.
Lemma coin_share : forall E m e s t, valid binary64 (S754_finite false m e) -> (V m e <= 1)%Q -> 0 < s <= t -> t < 2 ^ 64 ->
  within (V m e) (inject_Z s / inject_Z t) (1 - four) (1 + four) -> exists c, 1 <= c <= 2 ^ 64 /\ Z.abs (c * t - s * 2 ^ 64) <= s * 2 ^ 13 + t /\ wins (E := E) (S754_finite false m e) c.
Proof.
  intros E m e s t H1 H2 H3 H4 H5. destruct (coin_form m e s t H1 H2 H3 H4 H5) as (c & C1 & C2 & [[Ew Ec]|[Pr Ec]]); exists c; split; auto; split; auto.
  - left. split; [exact Ec|]. intros r. rewrite Ew. reflexivity.
  - right. intros r u r' Hu. destruct (C57_coin_exact E _ m e r Pr) as [Hc _]. rewrite Hc, Hu, Ec. f_equal. f_equal.
    destruct (Z.leb_spec u (Zpos m * 2 ^ 64 / 2 ^ (- e))); destruct (Z.ltb_spec u (Zpos m * 2 ^ 64 / 2 ^ (- e) + 1)); auto; lia.
Qed.
(** The chance: the coin tossed when interval i has been picked comes up true for c_i of the 2^64 engine values, and c_i/2^64 is
    width/total up to one part in 2^51 of itself and one engine value. *)
Theorem C74_chance : forall E sg is, Forall (legal sg) is -> total is < 2 ^ 64 -> exists ws, choice (E := E) sg is = oneOf (combine (each sg is) ws) /\
  Forall2 (fun i w => exists c, 1 <= c <= 2 ^ 64 /\ Z.abs (c * total is - width i * 2 ^ 64) <= width i * 2 ^ 13 + total is /\ wins (E := E) w c) is ws.
Proof.
  intros E sg is H Ht. exists (map (fun s => ratio s (total is)) (map width is)). split; [apply choice_oneOf; auto|].
  rewrite map_map. assert (G : forall l, incl l is -> Forall2 (fun i w => exists c, 1 <= c <= 2 ^ 64 /\ Z.abs (c * total is - width i * 2 ^ 64) <= width i * 2 ^ 13 + total is /\ wins (E := E) w c) l (map (fun x => ratio (width x) (total is)) l)).
  { induction l as [|i l IH]; intros I; [constructor|]. cbn [map]. constructor; [|apply IH; intros z Z; apply I; right; auto].
    pose proof (width_le _ _ i H ltac:(apply I; left; auto)) as W. destruct (ratio_ok (width i) (total is) ltac:(lia) Ht) as (m & e & x & Ew & Vd & _ & L & G & Wi & _).
    rewrite Ew. exact (coin_share E m e (width i) (total is) Vd L ltac:(lia) Ht Wi). }
  apply G. intros z Z. exact Z.
Qed.
(** The generators without weight share what is left of 1 evenly. *)
Theorem C74_share : forall ws, Forall (fun w => valid binary64 w /\ w <> S754_nan /\ legal_weight w) ws -> SFltb (weight_sum ws) d_one = true ->
  let n := Z.of_nat (length (filter unassigned ws)) in 0 < n < 2 ^ 64 ->
  exists ws' share, oneOfWeights ws = Ok ws' /\ (forall i w, nth_error ws i = Some w -> nth_error ws' i = Some (if unassigned w then share else w)) /\
    (0 < fval share /\ Qabs (inject_Z n * fval share - (1 - exact_sum ws)) <= (1 # 2251799813685248) + inject_Z (Z.of_nat (length ws)) * (1 # 18014398509481984))%Q.
Proof.
  intros ws H Hs n Hn. assert (OkW : Forall okWeight ws).
  { eapply Forall_impl; [|exact H]. intros w (V1 & V2 & V3 & V4). destruct w as [s|s| |s m e]; [left; eauto|destruct s; discriminate|congruence|].
    destruct s; [discriminate|]. right. exists m, e. split; auto. split; auto. destruct (Qlt_le_dec 1 (V m e)) as [G|]; auto. exfalso.
    assert (SFltb d_one (S754_finite false m e) = true); [|congruence]. apply above_one; auto. }
  assert (Lw : Forall legal_weight ws) by (eapply Forall_impl; [|exact H]; cbn; tauto).
  destruct (sum_ok ws (S754_zero false) (or_introl eq_refl) OkW Hs) as (S1 & S2 & S3 & S4). cbv zeta in *. change (fold_left (SFadd 53 1024) ws (S754_zero false)) with (weight_sum ws) in *.
  destruct (share_ok _ n S1 S3 Hn) as (m & e & E & Vd & [W1 W2]).
  assert (O : exists ws', oneOfWeights ws = Ok ws').
  { unfold oneOfWeights. rewrite scan_ok by auto. cbn [bind]. change (fold_left (SFadd dprec demax) ws d_zero) with (weight_sum ws).
    rewrite not_above_one by (auto; lra). destruct (_ && _); eauto. }
  destruct O as [ws' O]. exists ws', (S754_finite false m e). split; [exact O|]. split.
  - intros i w Hi. destruct (C25_weights _ _ O) as [_ Hw]. rewrite (Hw _ _ Hi), Hs, andb_true_r. destruct (unassigned w); auto. f_equal. exact E.
  - rewrite !fval_pos. split; [apply V_pos|]. pose proof (inj_pos n ltac:(lia)) as Pn.
    assert (Eq : ((1 - fval (weight_sum ws)) / inject_Z n * inject_Z n == 1 - fval (weight_sum ws))%Q) by (apply div_back; exact Pn).
    set (y := ((1 - fval (weight_sum ws)) / inject_Z n)%Q) in *. assert (A1 : ((1 - four) * y * inject_Z n <= V m e * inject_Z n)%Q) by (apply Qmult_le_compat_r; lra).
    assert (A2 : (V m e * inject_Z n <= (1 + four) * y * inject_Z n)%Q) by (apply Qmult_le_compat_r; lra).
    rewrite <- Qmult_assoc, Eq in A1. rewrite <- (Qmult_assoc (1 + four) y), Eq in A2. unfold four in *.
    assert (Es : (exact_sum ws == qsum ws)%Q) by (clear; induction ws as [|w ws IH]; [reflexivity|]; cbn [exact_sum fold_right qsum]; fold (exact_sum ws); rewrite IH; reflexivity).
    rewrite Es. change (fval (S754_zero false)) with 0%Q in *. change (B (-54)) with (1 # 18014398509481984)%Q in S4. apply Qabs_Qle_condition in S4. apply Qabs_Qle_condition.
    set (L := (inject_Z (Z.of_nat (length ws)) * (1 # 18014398509481984))%Q) in *. set (t := fval (weight_sum ws)) in *. split; lra.
Qed.

Example C74_ex_legal : legal true (-5, 7) /\ legal false (3, UINT64_MAX) /\ total [(-5, 7); (0, 1)] = 15.
Proof. unfold legal, UINT64_MAX, INT64_MIN, INT64_MAX. cbn. lia. Qed.
(* three weights given, two missing: 0.5, -, 0.25, -, 0.125 *)
Example C74_share_ex : exists ws', oneOfWeights [d_half; S754_zero false; S754_finite false 4503599627370496 (-54); S754_zero true; S754_finite false 4503599627370496 (-55)] = Ok ws' /\
  map fval ws' = map fval [d_half; S754_finite false 4503599627370496 (-56); S754_finite false 4503599627370496 (-54); S754_finite false 4503599627370496 (-56); S754_finite false 4503599627370496 (-55)].
Proof. eexists. split; vm_compute; reflexivity. Qed.
(* three missing out of four: 1/3 of 0.9 is inexact *)
Example C74_share_ex2 : exists ws', oneOfWeights [S754_finite false 7205759403792794 (-56); S754_zero false; S754_zero false; S754_zero false] = Ok ws' /\
  nth_error ws' 1 = Some (S754_finite false 5404319552844595 (-54)).
Proof. eexists. split; vm_compute; reflexivity. Qed.
Example C74_nine_ex : choice (E := replay) true [(1, 1); (3, 3); (5, 5); (7, 7); (9, 9); (11, 11); (13, 13); (15, 15); (17, 17)] = Throw ERuntime /\
  choice (E := replay) false [(0, 4); (10, 14); (20, 24); (30, 34); (40, 44); (50, 54); (60, 64); (70, 74); (80, 84)] = Throw ERuntime.
Proof. split; vm_compute; reflexivity. Qed.
Lemma accepted_by : forall E sg is, Forall (legal sg) is -> total is < 2 ^ 64 ->
  SFltb d_one (weight_sum (map (fun s => ratio s (total is)) (map width is))) = false -> accepted (choice (E := E) sg is).
Proof. intros E sg is H Ht. exact (proj1 (accepted_iff E sg is H Ht)). Qed.
Example C74_ten_ex : accepted (choice (E := replay) true [(1, 1); (3, 3); (5, 5); (7, 7); (9, 9); (11, 11); (13, 13); (15, 15); (17, 17); (19, 19)]) /\
  accepted (choice (E := replay) true [(1, 7); (100, 100)]) /\ accepted (choice (E := replay) true [(1, 7); (100, 100); (-40, -38); (40, 44)]).
Proof.
  split; [|split]; (apply accepted_by; [repeat constructor; cbn; unfold INT64_MIN, INT64_MAX; lia|vm_compute; reflexivity|vm_compute; reflexivity]).
Qed.
(* the weights of two intervals of widths 1 and 2: 1/3 and 2/3 *)
Example C74_weights_ex : accepted (choice (E := replay) true [(5, 5); (8, 9)]) /\
  oneOfWeights [SFdiv 53 1024 (toDouble 1) (toDouble 3); SFdiv 53 1024 (toDouble 2) (toDouble 3)] = Ok [S754_finite false 6004799503160661 (-54); S754_finite false 6004799503160661 (-53)].
Proof. split; [apply accepted_by; [repeat constructor; cbn; unfold INT64_MIN, INT64_MAX; lia|vm_compute; reflexivity|vm_compute; reflexivity]|]. vm_compute. reflexivity. Qed.

Print Assumptions C74_one.
Print Assumptions C74_two.
Print Assumptions C74_power_of_two.
Print Assumptions C74_equal.
Print Assumptions C74_equal_refused.
Print Assumptions C74_three_refuted.
Print Assumptions C74_two_refuted.
Print Assumptions C74_weights.
Print Assumptions C74_chance.
Print Assumptions C74_share.
