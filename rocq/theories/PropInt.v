(** Properties C06-C11 and C57: integer shrinking, integer generation, booleans. *)
From Coq Require Import List ZArith Lia Bool Permutation SpecFloat.
From Verif Require Import Base TreeModel TreeSpec TreeProof BinSearchModel BinSearchSpec BinSearchProof
  RandomModel IntegralModel IntegralSpec IntegralProof BoundarySpec BoundaryProof BoolModel BoolProof.
Import ListNotations.
Local Open Scope Z_scope.

(** * C06 *)

Theorem C06_signed_shrink : forall v, in_int64 v ->
  exists t, binarySearch v = Ok t /\ root t = v /\
    Permutation (values t) (v :: sign_range v) /\
    toward_zero t /\
    (v <> 0 -> exists r, shrinks t = Node 0 [] :: r) /\
    (tdepth t <= 64)%nat /\ width_le 65 t.
Proof.
  intros v H. destruct (binarySearch_main v H) as [t [A [B [C [D [_ [F [G I]]]]]]]]. exists t. auto 10.
Qed.

(** Each value from zero up to the original occurs at exactly one place of the tree; nothing else occurs. *)
Theorem C06_signed_shrink_once : forall v t, in_int64 v -> binarySearch v = Ok t ->
  NoDup (values t) /\ (forall x, In x (values t) <-> (0 <= x <= v \/ v <= x <= 0)).
Proof.
  intros v t H Ht. destruct (binarySearch_main v H) as [t' [A [_ [C _]]]]. rewrite A in Ht. inversion Ht; subst t'.
  assert (Hin : forall x, In x (sign_range v) <-> (0 <= x < v \/ v < x <= 0)).
  { intros x. unfold sign_range. destruct (Z.leb_spec 0 v); rewrite zrange_In; lia. }
  split.
  - eapply Permutation_NoDup; [apply Permutation_sym; exact C|]. constructor.
    + rewrite Hin. lia.
    + unfold sign_range. destruct (0 <=? v); apply zrange_NoDup.
  - intros x. rewrite (Permutation_in' eq_refl C). simpl. rewrite Hin. lia.
Qed.

(** Candidates offered together come in order of increasing magnitude. *)
Theorem C06_signed_shrink_order : forall v t, in_int64 v -> binarySearch v = Ok t ->
  all_nodes (fun s => increasing_abs (shrinks s)) t.
Proof.
  intros v t H Ht. destruct (binarySearch_main v H) as [t' [A [_ [_ [_ [C _]]]]]]. rewrite A in Ht.
  inversion Ht; subst; auto.
Qed.

Example C06_ex : in_int64 INT64_MIN /\ in_int64 INT64_MAX /\ in_int64 (-5) /\
  binarySearch (-5) =
    Ok (Node (-5) [Node 0 []; Node (-2) [Node (-1) []]; Node (-3) []; Node (-4) []]) /\
  binarySearch 8 =
    Ok (Node 8 [Node 0 []; Node 4 [Node 2 [Node 1 []]; Node 3 []]; Node 6 [Node 5 []]; Node 7 []]).
Proof. unfold in_int64, INT64_MIN, INT64_MAX. repeat split; vm_compute; try discriminate; reflexivity. Qed.

(** * C07 *)

Theorem C07_unsigned_shrink : forall v, in_uint64 v ->
  exists t, binarySearchU v = Ok t /\ root t = v /\
    Permutation (values t) (v :: zrange 0 (v - 1)) /\
    toward_zero t /\
    (v <> 0 -> exists r, shrinks t = Node 0 [] :: r) /\
    (tdepth t <= 64)%nat /\ width_le 65 t.
Proof.
  intros v H. destruct (binarySearchU_main v H) as [t [A [B [C [D [_ [F [G I]]]]]]]]. exists t. auto 10.
Qed.

Theorem C07_unsigned_shrink_once : forall v t, in_uint64 v -> binarySearchU v = Ok t ->
  NoDup (values t) /\ (forall x, In x (values t) <-> 0 <= x <= v).
Proof.
  intros v t H Ht. destruct (binarySearchU_main v H) as [t' [A [_ [C _]]]]. rewrite A in Ht. inversion Ht; subst t'.
  split.
  - eapply Permutation_NoDup; [apply Permutation_sym; exact C|]. constructor; [rewrite zrange_In; lia|apply zrange_NoDup].
  - intros x. rewrite (Permutation_in' eq_refl C). simpl. rewrite zrange_In. destruct H. lia.
Qed.

Theorem C07_unsigned_shrink_order : forall v t, in_uint64 v -> binarySearchU v = Ok t ->
  all_nodes (fun s => increasing_abs (shrinks s)) t.
Proof.
  intros v t H Ht. destruct (binarySearchU_main v H) as [t' [A [_ [_ [_ [C _]]]]]]. rewrite A in Ht.
  inversion Ht; subst; auto.
Qed.

Example C07_ex : in_uint64 UINT64_MAX /\ in_uint64 5 /\
  binarySearchU 5 = Ok (Node 5 [Node 0 []; Node 2 [Node 1 []]; Node 3 []; Node 4 []]).
Proof. unfold in_uint64, UINT64_MAX. repeat split; vm_compute; try discriminate; reflexivity. Qed.

(** * C08 *)

Theorem C08_generated_in_range : forall E ty min max (r : rst E),
  tmin ty <= min -> min <= max -> max <= tmax ty -> ~ (ty = TChar /\ min < 0 <= max) ->
  returns (generateInteger ty min max) r (fun t => min <= root t <= max).
Proof.
  intros E ty min max r H1 H2 H3 H4. destruct (generateInteger_ok E ty min max r H1 H2 H3 H4) as [t [r' [A B]]].
  exists t, r'. split; auto. apply B.
Qed.

(** Every value of the range can come out. *)
Theorem C08_every_value_possible : forall ty min max x,
  tmin ty <= min -> min <= x <= max -> max <= tmax ty -> ~ (ty = TChar /\ min < 0 <= max) ->
  exists E (r : rst E), returns (generateInteger ty min max) r (fun t => root t = x).
Proof.
  intros ty min max x H1 H2 H3 H4. exists replay. apply value_reachable; auto.
Qed.

(** The exception: a char range straddling zero passes reversed bounds to the distribution, whatever the engine;
    for the full char range this happens whenever the boundary table is not used. *)
Theorem C08_char_straddling_zero_undefined : forall E min max (r : rst E),
  tmin TChar <= min -> min < 0 <= max -> max <= tmax TChar -> ~ (min = tmin TChar /\ max = tmax TChar) ->
  generateInteger TChar min max r = UB.
Proof. intros. apply char_reversed_ub; auto. Qed.

Theorem C08_arbitrary_char_refuted : exists E (r : rst E), arbi TChar r = UB.
Proof. exists replay. apply char_full_ub. Qed.

Example C08_ex : tmin TI16 <= -7 /\ -7 <= 300 /\ 300 <= tmax TI16 /\
  (exists t r', generateInteger (E := replay) TI16 (-7) 300 [299; 5] = Ok (t, r') /\ root t = 299 /\ r' = [5]) /\
  tmin TChar <= 65 /\ 90 <= tmax TChar /\ ~ (TChar = TChar /\ 65 < 0 <= 90) /\
  (exists t r', generateInteger (E := replay) TChar (-90) (-65) [180] = Ok (t, r') /\ root t = -76).
Proof.
  repeat split; try (vm_compute; discriminate).
  - do 2 eexists. vm_compute. auto.
  - intros [_ H]. lia.
  - do 2 eexists. vm_compute. auto.
Qed.

(** * C09 *)

Theorem C09_shrinks_in_range_complete : forall E ty min max (r : rst E),
  tmin ty <= min -> min <= max -> max <= tmax ty -> ~ (ty = TChar /\ min < 0 <= max) ->
  returns (generateInteger ty min max) r (good_integer min max).
Proof. intros. apply generateInteger_ok; auto. Qed.

(** The same without the engine: any tree that comes out, whatever the value drawn. *)
Theorem C09_reachable_values : forall E ty min max (r r' : rst E) t x,
  tmin ty <= min -> min <= max -> max <= tmax ty -> ~ (ty = TChar /\ min < 0 <= max) ->
  generateInteger ty min max r = Ok (t, r') ->
  NoDup (values t) /\
  (In x (values t) <-> (nearest_zero min max <= x <= root t \/ root t <= x <= nearest_zero min max)) /\
  (In x (values t) -> min <= x <= max).
Proof.
  intros E ty min max r r' t x H1 H2 H3 H4 Ht.
  destruct (generateInteger_ok E ty min max r H1 H2 H3 H4) as [t' [r2 [A [B C _ _]]]].
  rewrite A in Ht. inversion Ht; subst t' r2. clear Ht.
  set (z := nearest_zero min max) in *.
  assert (Hz : min <= z <= max) by (unfold z, nearest_zero; lia).
  assert (Hin : forall y, In y (between z (root t)) <-> (z <= y < root t \/ root t < y <= z)).
  { intros y. unfold between. destruct (Z.leb_spec z (root t)); rewrite zrange_In; lia. }
  assert (Hx : In x (values t) <-> (z <= x <= root t \/ root t <= x <= z)).
  { rewrite (Permutation_in' eq_refl C). simpl. rewrite Hin. lia. }
  split; [|split; [exact Hx|]].
  - eapply Permutation_NoDup; [apply Permutation_sym; exact C|]. constructor; [rewrite Hin; lia|].
    unfold between. destruct (z <=? root t); apply zrange_NoDup.
  - rewrite Hx. lia.
Qed.

Example C09_ex : exists t r',
  generateInteger (E := replay) TI8 (-9) (-4) [-8] = Ok (t, r') /\ values t = [-8; -4; -6; -5; -7] /\
  nearest_zero (-9) (-4) = -4.
Proof. do 2 eexists. vm_compute. auto. Qed.

(** * C10 *)

Theorem C10_interval : forall E ty min max (r : rst E),
  tmin ty <= min -> min <= max -> max <= tmax ty -> ~ (ty = TChar /\ min < 0 <= max) ->
  returns (interval ty min max) r (good_integer min max).
Proof. intros. apply generateInteger_ok; auto. Qed.

Theorem C10_inRange : forall E ty from to (r : rst E),
  tmin ty <= from -> from < to -> to <= tmax ty -> ~ (ty = TChar /\ from < 0 <= to - 1) ->
  returns (inRange ty from to) r (good_integer from (to - 1)).
Proof. intros. apply inRange_ok; auto. Qed.

Theorem C10_natural : forall E ty max (r : rst E), 1 <= max <= tmax ty ->
  returns (natural ty max) r (good_integer 1 max).
Proof.
  intros E ty max r [H1 H2]. apply generateInteger_ok; auto.
  - destruct ty; vm_compute; discriminate.
  - intros [_ H]. lia.
Qed.

Theorem C10_nonNegative : forall E ty max (r : rst E), 0 <= max <= tmax ty ->
  returns (nonNegative ty max) r (good_integer 0 max).
Proof.
  intros E ty max r [H1 H2]. apply generateInteger_ok; auto.
  - destruct ty; vm_compute; discriminate.
  - intros [_ H]. lia.
Qed.

(** start + count itself must not overflow when the type is int32_t or int64_t. *)
Theorem C10_integers : forall E ty start count (r : rst E),
  tmin ty <= start -> 1 <= count <= tmax ty -> start + count - 1 <= tmax ty ->
  (bits ty < 32 \/ is_signed ty = false) \/ start + count <= tmax ty ->
  ~ (ty = TChar /\ start < 0 <= start + count - 1) ->
  returns (integers ty start count) r (good_integer start (start + count - 1)).
Proof. intros. apply integers_ok; auto. Qed.

(** A representable range whose exclusive upper end is not representable is undefined for int32_t. *)
Theorem C10_integers_end_overflow_refuted : forall E (r : rst E) count,
  1 <= count <= tmax TI32 -> integers TI32 (tmax TI32 - count + 1) count r = UB.
Proof.
  intros E r count H. unfold integers, gbind, gfail.
  replace (tmax TI32 - count + 1 + count) with (2 ^ 31) by (change (tmax TI32) with (2 ^ 31 - 1); lia).
  reflexivity.
Qed.

(** A range that does not fit wraps: for the narrow types the bounds come out reversed. *)
Theorem C10_integers_wrap_refuted : forall E (r : rst E),
  integers TI8 100 100 r = UB /\ integers TU8 200 100 r = UB /\ integers TU32 (tmax TU32) 2 r = UB.
Proof. intros. repeat split; reflexivity. Qed.

Example C10_ex :
  returns (E := replay) (integers TI16 (-3) 6) [1] (fun t => values t = [1; 0]) /\
  returns (E := replay) (inRange TU8 10 13) [12] (fun t => values t = [12; 10; 11]) /\
  returns (E := replay) (natural TI32 (tmax TI32)) [3] (fun t => values t = [3; 1; 2]) /\
  returns (E := replay) (nonNegative TI64 9) [2] (fun t => values t = [2; 0; 1]) /\
  (1 <= 1 <= tmax TI32) /\ (tmin TU64 <= 5 /\ 1 <= tmax TU64 - 4 <= tmax TU64).
Proof.
  repeat split; try (vm_compute; discriminate); do 2 eexists; vm_compute; auto.
Qed.

(** * C11 *)

Theorem C11_tables_representable : forall ty x, In x (boundaryValues ty) -> tmin ty <= x <= tmax ty.
Proof. exact boundary_range. Qed.

(** The table lookup of generateInteger never leaves the table, whatever the engine draws. *)
Theorem C11_index_in_table : forall E ty (r : rst E),
  returns (gbind (getRandomSize 0 (Z.of_nat (length (boundaryValues ty)))) (fun i =>
           gfail (idx (boundaryValues ty) i))) r (fun v => In v (boundaryValues ty)).
Proof. intros. destruct (boundary_draw E ty r) as [v [r' H]]. exists v, r'. auto. Qed.

Theorem C11_every_entry_possible : forall ty x, In x (boundaryValues ty) ->
  exists E (r : rst E), returns (arbi ty) r (fun t => root t = x).
Proof. intros ty x H. exists replay. apply boundary_reachable; auto. Qed.

(** The extreme values and zero of each type other than char are in its table. *)
Theorem C11_extremes_listed : forall ty, ty <> TChar ->
  In (tmin ty) (boundaryValues ty) /\ In (tmax ty) (boundaryValues ty) /\ In 0 (boundaryValues ty).
Proof. intros ty H. destruct ty; try congruence; vm_compute; tauto. Qed.

(** The tables hold the boundary values, each once. *)
Theorem C11_table : forall ty, ty <> TChar -> NoDup (boundaryValues ty) /\ forall x, In x (boundaryValues ty) <-> boundary ty x.
Proof. exact boundary_table. Qed.
Example C11_table_ex : boundary TI64 (-2147483647) /\ boundary TU32 2147483648 /\ ~ boundary TU64 9223372036854775808 /\ boundary TU8 39 /\ ~ boundary TU16 39.
Proof.
  split; [apply C11_table; [discriminate|vm_compute; tauto]|]. split; [apply C11_table; [discriminate|vm_compute; tauto]|].
  split; [intros H; apply C11_table in H; [|discriminate]; vm_compute in H; intuition discriminate|].
  split; [apply C11_table; [discriminate|vm_compute; tauto]|intros H; apply C11_table in H; [|discriminate]; vm_compute in H; intuition discriminate].
Qed.

Theorem C11_char_extremes_refuted : ~ In (tmin TChar) (boundaryValues TChar) /\ ~ In (tmax TChar) (boundaryValues TChar).
Proof. split; vm_compute; intros [H|H]; auto; discriminate. Qed.

Example C11_ex : In 65536 (boundaryValues TI32) /\
  returns (E := replay) (arbi TI8) [17; 5] (fun t => values t = [-2; 0; -1]).
Proof. split; [vm_compute; tauto|do 2 eexists; vm_compute; auto]. Qed.

(** * C57 *)

Theorem C57_bool_shrink : forall b, values (shrinkBool b) = if b then [true; false] else [false].
Proof. destruct b; reflexivity. Qed.

Theorem C57_bool_generated_shrink : forall E t (r r' : rst E) s, arbi_bool t r = Ok (s, r') ->
  s = Node true [Node false []] \/ s = Node false [].
Proof.
  intros E t r r' s. unfold arbi_bool, gbind, gret. destruct (getRandomBool t r) as [[b r1]| | |]; try discriminate.
  intros H. inversion H. destruct b; auto.
Qed.

Theorem C57_probability_one : forall E (r : rst E), getRandomBool d_one r = Ok (true, r).
Proof. reflexivity. Qed.

(** For a threshold strictly between 0 and 1, m*2^e exactly, the coin accepts the engine output u exactly when
    u <= floor(2^64 * threshold): the double arithmetic is exact and the conversion is always defined. *)
Theorem C57_coin_exact : forall E t m e (r : rst E), proper_threshold t m e ->
  getRandomBool t r = (let '(u, r') := unif E 0 UINT64_MAX r in Ok (u <=? Zpos m * 2 ^ 64 / 2 ^ (- e), r')) /\
  0 <= Zpos m * 2 ^ 64 / 2 ^ (- e) <= UINT64_MAX.
Proof. intros. split; [apply coin_exact; auto|eapply lim_exact; eauto]. Qed.

(** Monotone in the threshold: with the same engine state a larger threshold keeps a true outcome. *)
Theorem C57_coin_monotone : forall E t1 m1 e1 t2 m2 e2 (r r1 : rst E),
  proper_threshold t1 m1 e1 -> proper_threshold t2 m2 e2 ->
  Zpos m1 * 2 ^ (- e2) <= Zpos m2 * 2 ^ (- e1) ->
  getRandomBool t1 r = Ok (true, r1) -> getRandomBool t2 r = Ok (true, r1).
Proof.
  intros E t1 m1 e1 t2 m2 e2 r r1 H1 H2 H. rewrite (coin_exact E t1 m1 e1), (coin_exact E t2 m2 e2) by auto.
  destruct H1 as [_ [_ [H1 _]]]. destruct H2 as [_ [_ [H2 _]]].
  pose proof (lim_mono m1 e1 m2 e2 H1 H2 H) as Hm.
  destruct (unif E 0 UINT64_MAX r) as [u r'].
  destruct (Z.leb_spec u (Zpos m1 * 2 ^ 64 / 2 ^ (- e1))); [|discriminate].
  destruct (Z.leb_spec u (Zpos m2 * 2 ^ 64 / 2 ^ (- e2))); [auto|lia].
Qed.

(** With threshold 0 the output 0 is accepted, and only that one. *)
Theorem C57_probability_zero : forall E (r : rst E),
  getRandomBool d_zero r = (let '(u, r') := unif E 0 UINT64_MAX r in Ok (u <=? 0, r')).
Proof.
  intros. unfold getRandomBool. change (SFeqb d_zero d_one) with false. cbv iota.
  unfold gbind, next8U, draw. change (0 <=? UINT64_MAX) with true. cbv iota.
  destruct (unif E 0 UINT64_MAX r) as [u r']. reflexivity.
Qed.

Theorem C57_probability_zero_can_be_true_refuted : exists E (r r' : rst E), getRandomBool d_zero r = Ok (true, r').
Proof. exists replay, [0], []. reflexivity. Qed.

(** Outside [0,1] the conversion is undefined: e.g. thresholds 2 and -1 and NaN. *)
Theorem C57_out_of_range_threshold_undefined : forall E (r : rst E),
  getRandomBool (S754_finite false 4503599627370496 (-51)) r = UB /\
  getRandomBool (S754_finite true 4503599627370496 (-52)) r = UB /\
  getRandomBool S754_nan r = UB.
Proof.
  intros. repeat split; cbv - [unif UINT64_MAX Z.leb]; change (0 <=? UINT64_MAX) with true; cbv iota;
  destruct (unif E 0 UINT64_MAX r) as [u r']; reflexivity.
Qed.

Example C57_ex : proper_threshold d_half 4503599627370496 (-53) /\
  proper_threshold (S754_finite false 1 (-1074)) 1 (-1074) /\
  proper_threshold (S754_finite false 9007199254740991 (-53)) 9007199254740991 (-53) /\
  getRandomBool (E := replay) d_half [2 ^ 63] = Ok (true, []) /\
  getRandomBool (E := replay) d_half [2 ^ 63 + 1] = Ok (false, []).
Proof. unfold proper_threshold. repeat split; reflexivity. Qed.

Print Assumptions C06_signed_shrink.
Print Assumptions C06_signed_shrink_once.
Print Assumptions C06_signed_shrink_order.
Print Assumptions C07_unsigned_shrink.
Print Assumptions C07_unsigned_shrink_once.
Print Assumptions C07_unsigned_shrink_order.
Print Assumptions C08_generated_in_range.
Print Assumptions C08_every_value_possible.
Print Assumptions C08_char_straddling_zero_undefined.
Print Assumptions C08_arbitrary_char_refuted.
Print Assumptions C09_shrinks_in_range_complete.
Print Assumptions C09_reachable_values.
Print Assumptions C10_interval.
Print Assumptions C10_inRange.
Print Assumptions C10_natural.
Print Assumptions C10_nonNegative.
Print Assumptions C10_integers.
Print Assumptions C10_integers_end_overflow_refuted.
Print Assumptions C10_integers_wrap_refuted.
Print Assumptions C11_tables_representable.
Print Assumptions C11_index_in_table.
Print Assumptions C11_every_entry_possible.
Print Assumptions C11_extremes_listed.
Print Assumptions C11_table.
Print Assumptions C11_char_extremes_refuted.
Print Assumptions C57_bool_shrink.
Print Assumptions C57_bool_generated_shrink.
Print Assumptions C57_probability_one.
Print Assumptions C57_coin_exact.
Print Assumptions C57_coin_monotone.
Print Assumptions C57_probability_zero.
Print Assumptions C57_probability_zero_can_be_true_refuted.
Print Assumptions C57_out_of_range_threshold_undefined.
