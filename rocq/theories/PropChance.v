(** C78: how likely generated values, and failures found by forAll, are. *)
From Coq Require Import List ZArith QArith Lia Lqa Bool SpecFloat Permutation.
From Verif Require Import Base TreeModel TreeSpec TreeProof RandomModel BoolModel IntegralModel IntegralSpec IntegralProof BoolProof TupleModel TupleGenModel ContainerModel GenModel GenProof PointerModel
  EffModel ContextModel RunnerModel RunnerSpec.
From Verif Require WeightSpec WeightProof PropWeights PropGen ChanceWeightProof.
From Verif Require Import ChanceSpec ChanceProof ChanceLawProof ChanceCombProof ChanceRunProof.
Import ListNotations.
Local Open Scope Q_scope.

(** ** A probability is determined by the generator *)
Lemma law_unique : forall A (g : forall E, gen E A) p p' ev, law g p -> law g p' -> prob p ev == prob p' ev.
Proof.
  intros A g p p' ev H H'. apply (mean_unique A p p' []). intros s. unfold out. rewrite <- (H (chosen_by s) []), <- (H' (chosen_by s) []). reflexivity.
Qed.
Theorem C78_unique : forall A (g : forall E, gen E A) ev q q', likely g ev q -> likely g ev q' -> q == q' /\ 0 <= q <= 1.
Proof.
  intros A g ev q q' (p & L & <-) (p' & L' & <-). split; [exact (law_unique A g p p' ev L L')|]. apply prob_range.
Qed.
Theorem C78_unique_result : forall A (o : forall E, rst E -> res A) ev q q', likelyResult o ev q -> likelyResult o ev q' -> q == q' /\ 0 <= q <= 1.
Proof.
  intros A o ev q q' (p & L & <-) (p' & L' & <-). split; [|apply prob_range]. apply (mean_unique A p p' []). intros s. unfold out.
  rewrite <- (L (chosen_by s) []), <- (L' (chosen_by s) []). reflexivity.
Qed.
Lemma likely_at : forall A (g : forall E, gen E A) p ev q, law g p -> likely g ev q -> prob p ev == q.
Proof. intros A g p ev q H (p' & L & <-). exact (law_unique A g p p' ev H L). Qed.

(** ** Coins and bool *)
Theorem C78_coin : (forall w m e, proper_threshold w m e -> coin w (odds (Zpos m * 2 ^ 64 / 2 ^ (- e)))) /\ coin d_one 1 /\ coin d_zero (odds 0).
Proof. split; [exact coin_proper|]. split; [exact coin_one|exact coin_zero]. Qed.
Theorem C78_bool : forall w c, coin w c -> likely (fun E => arbi_bool w) (fun b => b) c /\ likely (fun E => arbi_bool w) negb (1 - c).
Proof.
  intros w c (p & H & H1 & H2). assert (L : law (fun E => arbi_bool w) p).
  { intros E r. unfold arbi_bool. rewrite <- (pbind_ret E _ p). revert r. apply (fits_bind' _ _ _ _ _ same root _ _ p (fun a => Ends (Ok a))); [apply fits_same, H|].
    intros b. apply fits_ret. destruct b; reflexivity. }
  split; exists p; auto.
Qed.
Example C78_bool_ex : likely (fun E => arbi_bool d_half) (fun b => b) (inject_Z 9223372036854775809 / inject_Z (2 ^ 64)) /\ likely (fun E => arbi_bool d_zero) (fun b => b) (inject_Z 1 / inject_Z (2 ^ 64)) /\
  proper_threshold d_095 8556839292003942 (-53).
Proof. split; [exact (proj1 (C78_bool _ _ coin_half))|]. split; [exact (proj1 (C78_bool _ _ coin_zero))|]. split; [reflexivity|]. split; [vm_compute; reflexivity|]. split; [lia|]. vm_compute. reflexivity. Qed.

(** ** Integers *)
Theorem C78_integer : forall ty min max ev, (tmin ty <= min)%Z -> (min <= max)%Z -> (max <= tmax ty)%Z -> ~ reversed_char ty min max -> ~ (min = tmin ty /\ max = tmax ty) ->
  likely (fun E => interval ty min max) ev (average min max (tells ev)).
Proof. intros ty min max ev H1 H2 H3 H4 H5. exists (picked ty min max). split; [apply integer_law; auto|apply picked_prob; auto]. Qed.
(** In particular every number of the range is equally likely. *)
Theorem C78_integer_uniform : forall ty min max v, (tmin ty <= min)%Z -> (min <= v <= max)%Z -> (max <= tmax ty)%Z -> ~ reversed_char ty min max -> ~ (min = tmin ty /\ max = tmax ty) ->
  likely (fun E => interval ty min max) (fun x => Z.eqb x v) (1 / inject_Z (max - min + 1)).
Proof.
  intros ty min max v H1 H2 H3 H4 H5. destruct (C78_integer ty min max (fun x => Z.eqb x v) H1 ltac:(lia) H3 H4 H5) as (p & L & Q). exists p. split; [exact L|]. rewrite Q.
  apply (average_single min max v 1 H2).
Qed.
Lemma die : likely (fun E => interval TI32 1 6) (fun x => Z.eqb x 6) (1 # 6).
Proof. refine (C78_integer_uniform TI32 1 6 6 _ _ _ _ _); cbn; try lia. - intros [H _]. discriminate. Qed.
Example C78_integer_ex : likely (fun E => interval TI32 1 6) (fun x => Z.eqb x 6) (1 # 6) /\ likely (fun E => interval TI32 1 6) (fun x => Z.ltb x 3) (1 # 3).
Proof.
  split; [exact die|]. destruct (C78_integer TI32 1 6 (fun x => Z.ltb x 3)) as (p & L & Q); try (cbn; lia); [intros [H _]; discriminate|].
  exists p. split; [exact L|]. rewrite Q. vm_compute. reflexivity.
Qed.
Example C78_unique_ex : ~ likely (fun E => interval TI32 1 6) (fun x => Z.eqb x 6) (1 # 5).
Proof. intros H. destruct (C78_unique _ _ _ _ _ die H) as [E _]. vm_compute in E. discriminate. Qed.
(** The whole type: with probability (2^63+1)/2^64 one of the boundary values, otherwise any value of the type. *)
Theorem C78_any_integer : forall ty ev, ty <> TChar ->
  likely (fun E => arbi ty) ev (odds (2 ^ 63) * share ev (boundaryValues ty) + (1 - odds (2 ^ 63)) * average (tmin ty) (tmax ty) (tells ev)).
Proof. intros ty ev H. exists (any_plan ty). split; [apply any_law|apply any_prob, H]. Qed.
Theorem C78_any_value : forall ty v, ty <> TChar -> (tmin ty <= v <= tmax ty)%Z ->
  likely (fun E => arbi ty) (fun x => Z.eqb x v) (odds (2 ^ 63) * share (fun x => Z.eqb x v) (boundaryValues ty) + (1 - odds (2 ^ 63)) / inject_Z (tmax ty - tmin ty + 1)).
Proof.
  intros ty v H Hv. destruct (C78_any_integer ty (fun x => Z.eqb x v) H) as (p & L & Q). exists p. split; [exact L|]. rewrite Q. unfold tells.
  rewrite (average_single (tmin ty) (tmax ty) v 1 Hv). field. apply width_pos. apply tmin_le_tmax.
Qed.
Example C78_any_value_ex : likely (fun E => arbi TI32) (fun x => Z.eqb x 0) (odds (2 ^ 63) * (inject_Z 1 / inject_Z (Z.of_nat (length (boundaryValues TI32)))) + (1 - odds (2 ^ 63)) / inject_Z (2 ^ 32)) /\
  likely (fun E => arbi TI32) (fun x => Z.eqb x 1000000007) (odds (2 ^ 63) * 0 + (1 - odds (2 ^ 63)) / inject_Z (2 ^ 32)).
Proof.
  split.
  - destruct (C78_any_value TI32 0) as (p & L & Q); [discriminate|cbn; lia|]. exists p. split; [exact L|]. rewrite Q.
    assert (S : share (fun x => Z.eqb x 0) (boundaryValues TI32) == inject_Z 1 / inject_Z (Z.of_nat (length (boundaryValues TI32)))) by (vm_compute; reflexivity). rewrite S. reflexivity.
  - destruct (C78_any_value TI32 1000000007) as (p & L & Q); [discriminate|cbn; lia|]. exists p. split; [exact L|]. rewrite Q.
    assert (S : share (fun x => Z.eqb x 1000000007) (boundaryValues TI32) == 0) by (vm_compute; reflexivity). rewrite S. reflexivity.
Qed.
(** char: with probability (2^63+1)/2^64 the value is 0; otherwise nothing is produced (the bounds are taken as unsigned in the wrong order). *)
Theorem C78_char : forall ev, likely (fun E => arbi TChar) ev (if ev 0%Z then odds (2 ^ 63) else 0).
Proof.
  intros ev. exists (any_plan TChar). split; [apply any_law|]. destruct half_prob as [B1 B2]. unfold any_plan. rewrite (prob_if _ half_plan _ _ _ ev B1 B2).
  change (boundaryValues TChar) with [0%Z]. rewrite prob_nth by (cbn; lia). assert (P : prob (picked TChar (tmin TChar) (tmax TChar)) ev == 0) by (vm_compute; reflexivity). rewrite P.
  unfold share. cbn [filter]. destruct (ev 0%Z); cbn [length]; change (inject_Z (Z.of_nat 1)) with 1; change (inject_Z (Z.of_nat 0)) with 0; field.
Qed.
Example C78_char_ex : likely (fun E => arbi TChar) (fun x => Z.eqb x 65) 0.
Proof. exact (C78_char (fun x => Z.eqb x 65)). Qed.

(** ** transform, pairs, tuples *)
Theorem C78_transform : forall A B (g : forall E, gen E A) (h : A -> B) ev q, likely g (fun a => ev (h a)) q -> likely (fun E => transformGen (g E) h) ev q.
Proof. intros A B g h ev q (p & L & Q). exists (pmap h p). split; [apply transform_law, L|]. rewrite prob_map. exact Q. Qed.
Example C78_transform_ex : likely (fun E => transformGen (interval TI32 1 6) (fun x => (x * x)%Z)) (fun y => Z.eqb y 36) (1 # 6).
Proof.
  apply C78_transform. destruct (C78_integer TI32 1 6 (fun x => Z.eqb (x * x) 36)) as (p & L & Q); try (cbn; lia); [intros [H _]; discriminate|].
  exists p. split; [exact L|]. rewrite Q. vm_compute. reflexivity.
Qed.
(** The components are independent, in whichever order they are drawn. *)
Theorem C78_pair : forall A B b (g1 : forall E, gen E A) (g2 : forall E, gen E B) ev1 ev2 q1 q2, likely g1 ev1 q1 -> likely g2 ev2 q2 ->
  likely (fun E => pairOf b (g1 E) (g2 E)) (fun xy => ev1 (fst xy) && ev2 (snd xy))%bool (q1 * q2).
Proof.
  intros A B b g1 g2 ev1 ev2 q1 q2 (p1 & L1 & Q1) (p2 & L2 & Q2). exists (pair_plan b p1 p2). split; [apply pair_law; auto|]. rewrite pair_prob, Q1, Q2. reflexivity.
Qed.
Example C78_pair_ex : forall b, likely (fun E => pairOf b (interval TI32 1 6) (interval TI32 1 6)) (fun xy => (fst xy =? 6) && (snd xy =? 6))%Z%bool (1 # 36).
Proof.
  intros b. exact (C78_pair Z Z b (fun E => interval TI32 1 6) (fun E => interval TI32 1 6) (fun x => Z.eqb x 6) (fun x => Z.eqb x 6) (1 # 6) (1 # 6) die die).
Qed.
Theorem C78_tuple : forall A (l : list ((forall E, gen E A) * (A -> bool) * Q)) ord, order (length l) ord -> Forall (fun x => likely (fst (fst x)) (snd (fst x)) (snd x)) l ->
  likely (fun E => tupleOf ord (map (fun x => fst (fst x) E) l)) (each (map (fun x => snd (fst x)) l)) (product (map snd l)).
Proof.
  intros A l ord O H.
  assert (X : exists ps, length ps = length l /\ Forall (fun gp => law (fst gp) (snd gp)) (combine (map (fun x => fst (fst x)) l) ps) /\
    product (map (fun pe => prob (fst pe) (snd pe)) (combine ps (map (fun x => snd (fst x)) l))) == product (map snd l)).
  { clear O ord. induction H as [|[[g ev] q] l (p & L & Q) H (ps & Hl & Hf & Hp)]; [exists []; repeat split; constructor|]. cbn [fst snd] in L, Q.
    exists (p :: ps). split; [cbn; lia|]. split; [constructor; auto|]. cbn [map combine fst snd]. unfold product in *. cbn [fold_right]. rewrite Hp, Q. reflexivity. }
  destruct X as (ps & Hl & Hf & Hp). exists (tuple_plan ord ps). split.
  - pose proof (tuple_law A (combine (map (fun x => fst (fst x)) l) ps) ord Hf) as T. intros E. specialize (T E). cbn beta in T.
    replace (map snd (combine (map (fun x => fst (fst x)) l) ps)) with ps in T.
    2: { clear - Hl. revert ps Hl. induction l as [|x l IH]; intros [|p ps] Hl; cbn in *; try discriminate; auto. f_equal. apply IH. lia. }
    replace (map (fun gp => fst gp E) (combine (map (fun x => fst (fst x)) l) ps)) with (map (fun x => fst (fst x) E) l) in T; [exact T|].
    clear - Hl. revert ps Hl. induction l as [|x l IH]; intros [|p ps] Hl; cbn in *; try discriminate; auto. f_equal. apply IH. lia.
  - rewrite tuple_prob; [exact Hp|rewrite Hl; exact O|rewrite map_length; lia].
Qed.
Example C78_tuple_ex : likely (fun E => tupleOf [2; 0; 1]%nat [interval TI32 1 6; interval TI32 1 6; interval TI32 1 6]) (each [fun x => Z.eqb x 6; fun x => Z.eqb x 6; fun x => Z.eqb x 6]) (1 # 216).
Proof.
  exact (C78_tuple Z [(fun E => interval TI32 1 6, fun x => Z.eqb x 6, 1 # 6); (fun E => interval TI32 1 6, fun x => Z.eqb x 6, 1 # 6); (fun E => interval TI32 1 6, fun x => Z.eqb x 6, 1 # 6)] [2; 0; 1]%nat
    (Permutation_trans (perm_swap 0 2 [1])%nat (perm_skip 0 (perm_swap 1 2 []))%nat) ltac:(repeat constructor; exact die)).
Qed.

(** ** Lists and strings: the length is any of the allowed ones, the elements are independent *)
Lemma products : forall A (g : forall E, gen E A) p l, law g p -> Forall (fun evq => likely g (fst evq) (snd evq)) l -> product (map (prob p) (map fst l)) == product (map snd l).
Proof.
  intros A g p l L Hl. induction Hl as [|[ev q] l Hx Hl IH]; [reflexivity|]. cbn [map fst snd]. unfold product in *. cbn [fold_right]. rewrite IH.
  rewrite (likely_at _ _ _ _ _ L Hx). reflexivity.
Qed.
Theorem C78_vector : forall A (g : forall E, gen E A) mn mx l, lawful g -> (0 <= mn)%Z -> (mn <= Z.of_nat (length l) <= mx)%Z -> (mx <= UINT32_MAX)%Z ->
  Forall (fun evq => likely g (fst evq) (snd evq)) l ->
  likely (fun E => arbi_vector (g E) {| minSize := mn; maxSize := mx |}) (each (map fst l)) (product (map snd l) / inject_Z (mx - mn + 1)).
Proof.
  intros A g mn mx l (p & L) H0 H1 H2 H. exists (list_plan mn mx p). split; [apply vector_law; auto; lia|]. rewrite list_prob by (rewrite ?map_length; auto).
  rewrite (products _ _ _ _ L H). reflexivity.
Qed.
Theorem C78_string : forall A (g : forall E, gen E A) mn mx l, lawful g -> (0 <= mn)%Z -> (mn <= Z.of_nat (length l) <= mx)%Z -> (mx <= UINT32_MAX)%Z ->
  Forall (fun evq => likely g (fst evq) (snd evq)) l ->
  likely (fun E => arbi_string (g E) {| minSize := mn; maxSize := mx |}) (each (map fst l)) (product (map snd l) / inject_Z (mx - mn + 1)).
Proof.
  intros A g mn mx l (p & L) H0 H1 H2 H. exists (list_plan mn mx p). split; [apply string_law; auto; lia|]. rewrite list_prob by (rewrite ?map_length; auto).
  rewrite (products _ _ _ _ L H). reflexivity.
Qed.
Lemma die_lawful : lawful (fun E => interval TI32 1 6).
Proof. destruct die as (p & L & _). exists p. exact L. Qed.
Example C78_vector_ex : likely (fun E => arbi_vector (interval TI32 1 6) {| minSize := 0; maxSize := 3 |}) (each [fun x => Z.eqb x 6; fun x => Z.eqb x 6]) (1 # 144) /\
  likely (fun E => arbi_vector (interval TI32 1 6) {| minSize := 0; maxSize := 3 |}) (each []) (1 # 4) /\
  likely (fun E => arbi_string (interval TI32 1 6) {| minSize := 2; maxSize := 3 |}) (each [fun x => Z.eqb x 6; fun x => Z.eqb x 6]) (1 # 72).
Proof.
  assert (F : Forall (fun evq => likely (fun E => interval TI32 1 6) (fst evq) (snd evq)) [(fun x => Z.eqb x 6, 1 # 6); (fun x => Z.eqb x 6, 1 # 6)]) by (repeat constructor; exact die).
  split; [|split].
  - exact (C78_vector Z (fun E => interval TI32 1 6) 0 3 [(fun x => Z.eqb x 6, 1 # 6); (fun x => Z.eqb x 6, 1 # 6)] die_lawful ltac:(lia) ltac:(cbn; lia) ltac:(unfold UINT32_MAX; lia) F).
  - exact (C78_vector Z (fun E => interval TI32 1 6) 0 3 [] die_lawful ltac:(lia) ltac:(cbn; lia) ltac:(unfold UINT32_MAX; lia) (Forall_nil _)).
  - exact (C78_string Z (fun E => interval TI32 1 6) 2 3 [(fun x => Z.eqb x 6, 1 # 6); (fun x => Z.eqb x 6, 1 # 6)] die_lawful ltac:(lia) ltac:(cbn; lia) ltac:(unfold UINT32_MAX; lia) F).
Qed.

(** ** filter: the conditional probability, up to the chance that the first [m] values are all refused *)
Lemma series_power : forall q n, series q n * (1 - q) == 1 - power q n.
Proof. intros q n. induction n as [|n IH]; cbn [series power]; [ring|]. transitivity (1 - q + q * (series q n * (1 - q))); [ring|]. rewrite IH. ring. Qed.
Theorem C78_filter : forall A (g : forall E, gen E A) crit ev c q m, likely g crit c -> likely g (fun a => negb (crit a)) (1 - c) -> ~ c == 0 -> likely g (fun a => ev a && crit a)%bool q ->
  likely (fun E => filterGen m (g E) crit) ev ((1 - power (1 - c) m) * (q / c)).
Proof.
  intros A g crit ev c q m (p & L & Qc) Hn Hc Hq. exists (filter_plan m p crit). split; [apply filter_law, L|]. rewrite filter_prob.
  rewrite (likely_at _ _ _ _ _ L Hq). assert (E : prob p (fun a => negb (crit a)) == 1 - c) by exact (likely_at _ _ _ _ _ L Hn).
  rewrite <- series_power. transitivity (series (1 - c) m * q); [|field; exact Hc]. apply Qmult_comp; [|reflexivity].
  clear - E. induction m as [|m IH]; cbn [series]; [reflexivity|]. rewrite IH, E. reflexivity.
Qed.
Example C78_filter_ex : forall m, likely (fun E => filterGen m (interval TI32 1 6) Z.even) (fun x => Z.eqb x 6) ((1 - power (1 # 2) m) * (1 # 3)).
Proof.
  intros m. assert (I : forall ev q, average 1 6 (tells ev) == q -> likely (fun E => interval TI32 1 6) ev q).
  { intros ev q H. destruct (C78_integer TI32 1 6 ev) as (p & L & Q); try (cbn; lia); [intros [X _]; discriminate|]. exists p. split; [exact L|]. rewrite Q. exact H. }
  assert (X : likely (fun E => filterGen m (interval TI32 1 6) Z.even) (fun x => Z.eqb x 6) ((1 - power (1 - (1 # 2)) m) * ((1 # 6) / (1 # 2)))).
  { apply (C78_filter Z (fun E => interval TI32 1 6) Z.even (fun x => Z.eqb x 6) (1 # 2) (1 # 6) m); try (apply I; vm_compute; reflexivity). lra. }
  destruct X as (p & L & Q). exists p. split; [exact L|]. rewrite Q. apply Qmult_comp; [|reflexivity]. reflexivity.
Qed.

(** ** oneOf: each alternative by its share of the weights, up to the chance that [m] times none is taken *)
Lemma oneOf_likely : forall A (alts : list ((forall E, gen E A) * spec_float)) ws cs ev qs, (0 < length alts)%nat -> (Z.of_nat (length alts) <= UINT32_MAX + 1)%Z ->
  length ws = length alts -> Forall2 coin ws cs -> ~ total cs == 0 -> Forall2 (fun alt q => likely (fst alt) ev q) alts qs ->
  forall m, likely (fun E => oneOfLoop (S m) (combine (map (fun alt => no_discard (fst alt E)) alts) ws)) ev ((1 - power (1 - total cs / inject_Z (Z.of_nat (length alts))) m) * (dot cs qs / total cs)).
Proof.
  intros A alts ws cs ev qs H0 H1 Lw Hc Ht Hq.
  intros m.
  assert (X : exists full : list ((forall E, gen E A) * spec_float * (plan A * plan bool)), length full = length alts /\
    (forall E, map (fun x => (no_discard (fst (fst x) E), snd (fst x))) full = combine (map (fun alt => no_discard (fst alt E)) alts) ws) /\
    Forall (fun x => law (fst (fst x)) (fst (snd x)) /\ forall E (r : rst E), getRandomBool (snd (fst x)) r = play (snd (snd x)) r) full /\
    Forall2 (fun pc c => prob (snd pc) (fun b => b) == c /\ prob (snd pc) negb == 1 - c) (map snd full) cs /\
    dot cs (map (fun pc => prob (fst pc) ev) (map snd full)) == dot cs qs).
  { clear H0 H1 Ht m. revert ws cs Lw Hc. induction Hq as [|[g w0] q alts qs (p & L & Q) Hq IH]; intros ws cs Lw Hc.
    - destruct ws; [|discriminate]. inversion Hc. subst. exists []. split; [reflexivity|]. split; [reflexivity|]. split; [constructor|]. split; [constructor|reflexivity].
    - destruct ws as [|w ws]; [discriminate|]. inversion Hc as [|? c ? cs' (pc & P1 & P2 & P3) Hc']. subst. destruct (IH ws cs') as (full & F1 & F2 & F3 & F4 & F5); [cbn in Lw; lia|exact Hc'|].
      exists ((g, w, (p, pc)) :: full). split; [cbn; lia|]. split; [intros E; cbn [map combine fst snd]; rewrite F2; reflexivity|]. split; [constructor; auto|].
      split; [constructor; auto|]. cbn [map dot fst snd]. rewrite F5. cbn [fst] in Q. rewrite Q. reflexivity. }
  destruct X as (full & F1 & F2 & F3 & F4 & F5). exists (oneOf_plan (S m) (map snd full)). split.
  - intros E. pose proof (oneOf_law A full ltac:(lia) ltac:(lia) F3 (S m) E) as O. cbn beta in O. rewrite F2 in O. exact O.
  - rewrite (oneOf_prob A (map snd full) cs ev m ltac:(rewrite map_length; lia) F4). rewrite map_length, F1, F5.
    set (n := inject_Z (Z.of_nat (length alts))). assert (Hn : ~ n == 0) by (intros Z; apply (inject_Z_injective (Z.of_nat (length alts)) 0) in Z; lia).
    rewrite <- series_power. field. split; assumption.
Qed.
Theorem C78_oneOf : forall A (alts : list ((forall E, gen E A) * spec_float)) ws cs ev qs, (0 < length alts)%nat -> (Z.of_nat (length alts) <= UINT32_MAX + 1)%Z ->
  oneOfWeights (map snd alts) = Ok ws -> Forall2 coin ws cs -> ~ total cs == 0 -> Forall2 (fun alt q => likely (fst alt) ev q) alts qs ->
  exists g : forall E, nat -> gen E A, (forall E, oneOf (map (fun alt => (no_discard (fst alt E), snd alt)) alts) = Ok (g E)) /\
    forall m, likely (fun E => g E (S m)) ev ((1 - power (1 - total cs / inject_Z (Z.of_nat (length alts))) m) * (dot cs qs / total cs)).
Proof.
  intros A alts ws cs ev qs H0 H1 Hw Hc Ht Hq.
  exists (fun E fuel => oneOfLoop fuel (combine (map (fun alt => no_discard (fst alt E)) alts) ws)). split.
  { intros E. unfold oneOf. assert (S1 : forall (l : list ((forall E, gen E A) * spec_float)), map snd (map (fun alt => (no_discard (fst alt E), snd alt)) l) = map snd l) by (intros l; rewrite map_map; reflexivity).
    unfold weighted. rewrite S1, Hw. cbn [bind]. do 2 f_equal. rewrite map_map. reflexivity. }
  apply oneOf_likely; auto. destruct (PropGen.C25_weights _ _ Hw) as [Hl _]. rewrite Hl, map_length. reflexivity.
Qed.
Lemma just_law : forall A (v : A), law (fun E => just v) (Ends (Ok v)).
Proof. intros A v E r. reflexivity. Qed.
Lemma likely_just : forall A (v : A) ev, likely (fun E => just v) ev (tells ev v).
Proof. intros A v ev. exists (Ends (Ok v)). split; [apply just_law|reflexivity]. Qed.
Definition d_quarter : spec_float := S754_finite false 4503599627370496 (-54).
Lemma coin_quarter : coin d_quarter (odds (2 ^ 62)).
Proof. apply (coin_proper d_quarter 4503599627370496 (-54)). split; [reflexivity|]. split; [vm_compute; reflexivity|]. split; [lia|]. vm_compute. reflexivity. Qed.
(* 1 with weight 1/2, 2 and 3 without weight: 1/4 each *)
Example C78_oneOf_ex : exists g : forall E, nat -> gen E Z, (forall E, oneOf [(no_discard (just 1%Z), d_half); (no_discard (just 2%Z), d_zero); (no_discard (just 3%Z), d_zero)] = Ok (g E)) /\
  forall m, likely (fun E => g E (S m)) (fun x => Z.eqb x 2)
    ((1 - power (1 - total [odds (2 ^ 63); odds (2 ^ 62); odds (2 ^ 62)] / inject_Z 3) m) * (dot [odds (2 ^ 63); odds (2 ^ 62); odds (2 ^ 62)] [0; 1; 0] / total [odds (2 ^ 63); odds (2 ^ 62); odds (2 ^ 62)])).
Proof.
  exact (C78_oneOf Z [(fun E => just 1%Z, d_half); (fun E => just 2%Z, d_zero); (fun E => just 3%Z, d_zero)] [d_half; d_quarter; d_quarter] [odds (2 ^ 63); odds (2 ^ 62); odds (2 ^ 62)] (fun x => Z.eqb x 2) [0; 1; 0]
    ltac:(cbn; lia) ltac:(cbn; unfold UINT32_MAX; lia) ltac:(vm_compute; reflexivity)
    (Forall2_cons _ _ coin_half (Forall2_cons _ _ coin_quarter (Forall2_cons _ _ coin_quarter (Forall2_nil _))))
    ltac:(vm_compute; discriminate)
    ltac:(repeat constructor; [exact (likely_just Z 1%Z _)|exact (likely_just Z 2%Z _)|exact (likely_just Z 3%Z _)])).
Qed.

(** Without weights every element is equally likely. *)
Lemma scan_zero : forall X (l : list X) k, scanWeights (map (fun _ => d_zero) l) d_zero k = Ok (d_zero, (k + Z.of_nat (length l))%Z).
Proof.
  intros X l. induction l as [|x l IH]; intros k; cbn [map scanWeights]; [cbn [length]; do 2 f_equal; lia|].
  change (SFltb d_zero d_zero || SFltb d_one d_zero)%bool with false. change (d_add d_zero d_zero) with d_zero. change (SFeqb d_zero d_zero) with true. cbv iota. rewrite IH. cbn [length]. do 2 f_equal. lia.
Qed.
Lemma equal_weights : forall X (l : list X), (0 < length l)%nat -> oneOfWeights (map (fun _ => d_zero) l) = Ok (map (fun _ => WeightProof.ratio 1 (Z.of_nat (length l))) l).
Proof.
  intros X l H. unfold oneOfWeights. rewrite scan_zero. cbn [bind]. change (SFltb d_one d_zero) with false. change (SFltb d_zero d_one) with true. cbv iota.
  rewrite Z.add_0_l. destruct (Z.ltb_spec 0 (Z.of_nat (length l))); [|lia]. cbn [andb]. rewrite map_map. f_equal.
Qed.
Theorem C78_elementOf : forall A (vals : list A), (0 < length vals)%nat -> (Z.of_nat (length vals) <= UINT32_MAX + 1)%Z ->
  exists (g : forall E, nat -> gen E A) c, (forall E, elementOf (map (fun v => (v, d_zero)) vals) = Ok (g E)) /\ 0 < c <= 1 /\
    forall ev m, likely (fun E => g E (S m)) ev ((1 - power (1 - c) m) * share ev vals).
Proof.
  intros A vals H0 H1. destruct (ChanceWeightProof.ratio_coin 1 (Z.of_nat (length vals)) ltac:(lia) ltac:(unfold UINT32_MAX in H1; lia)) as (c & C1 & _ & C2).
  set (q := inject_Z c / inject_Z (2 ^ 64)) in *.
  assert (Pq : 0 < q <= 1).
  { unfold q. split; [apply Qlt_shift_div_l; [reflexivity|]; rewrite Qmult_0_l; change 0 with (inject_Z 0); rewrite <- Zlt_Qlt; lia|].
    apply Qle_shift_div_r; [reflexivity|]. rewrite Qmult_1_l. rewrite <- Zle_Qle. lia. }
  assert (E0 : forall E, elementOf (E := E) (map (fun v => (v, d_zero)) vals) = Ok (fun fuel => oneOfLoop fuel (combine (map (fun v => no_discard (just v)) vals) (map (fun _ => WeightProof.ratio 1 (Z.of_nat (length vals))) vals)))).
  { intros E. unfold elementOf, oneOf. assert (S1 : map snd (map (fun vw : A * spec_float => (no_discard (E := E) (just (fst vw)), snd vw)) (map (fun v => (v, d_zero)) vals)) = map (fun _ => d_zero) vals) by (rewrite !map_map; reflexivity).
    unfold weighted. rewrite S1, equal_weights by exact H0. cbn [bind]. rewrite !map_map. reflexivity. }
  exists (fun E fuel => oneOfLoop fuel (combine (map (fun v => no_discard (just v)) vals) (map (fun _ => WeightProof.ratio 1 (Z.of_nat (length vals))) vals))), q.
  split; [exact E0|]. split; [exact Pq|]. intros ev m.
  assert (Tq : total (map (fun _ => q) vals) == inject_Z (Z.of_nat (length vals)) * q).
  { clear. induction vals as [|v vals IH]; [reflexivity|]. cbn [map length]. unfold total in *. cbn [fold_right]. rewrite IH, Nat2Z.inj_succ. unfold Z.succ. rewrite inject_Z_plus. change (inject_Z 1) with 1. ring. }
  assert (Dq : dot (map (fun _ => q) vals) (map (tells ev) vals) == q * inject_Z (Z.of_nat (length (filter ev vals)))).
  { clear. induction vals as [|v vals IH]; [cbn; ring|]. cbn [map dot filter]. rewrite IH. unfold tells at 1. destruct (ev v); cbn [length]; [|ring]. rewrite Nat2Z.inj_succ. unfold Z.succ. rewrite inject_Z_plus. change (inject_Z 1) with 1. ring. }
  assert (Nn : ~ inject_Z (Z.of_nat (length vals)) == 0) by (intros Z; apply (inject_Z_injective (Z.of_nat (length vals)) 0) in Z; lia).
  assert (Nq : ~ q == 0) by lra.
  assert (O : forall m, likely (fun E => oneOfLoop (S m) (combine (map (fun alt => no_discard (fst alt E)) (map (fun v => ((fun E => just v) : (forall E, gen E A), d_zero)) vals)) (map (fun _ => WeightProof.ratio 1 (Z.of_nat (length vals))) vals))) ev
     ((1 - power (1 - total (map (fun _ => q) vals) / inject_Z (Z.of_nat (length (map (fun v => ((fun E => just v) : (forall E, gen E A), d_zero)) vals)))) m) * (dot (map (fun _ => q) vals) (map (tells ev) vals) / total (map (fun _ => q) vals)))).
  { apply oneOf_likely; rewrite ?map_length; auto.
    - clear - C2. generalize (WeightProof.ratio 1 (Z.of_nat (length vals))) as w, C2. clear C2. intros w C2. induction vals; cbn [map]; constructor; auto.
    - rewrite Tq. intros Z. apply Qmult_integral in Z. tauto.
    - clear. induction vals; cbn [map]; constructor; auto. apply likely_just. }
  destruct (O m) as (p & L & Q). exists p. split.
  - intros E r. rewrite <- (L E r). rewrite map_map. reflexivity.
  - rewrite Q. rewrite map_length, Dq. unfold share. apply Qmult_comp.
    + assert (Pw : forall a b k, a == b -> power a k == power b k) by (intros a b k Hab; induction k as [|k IH]; cbn [power]; [reflexivity|apply Qmult_comp; assumption]).
      rewrite (Pw _ (1 - q)); [reflexivity|]. rewrite Tq. field. exact Nn.
    + rewrite Tq. field. split; assumption.
Qed.
Example C78_elementOf_ex : exists (g : forall E, nat -> gen E Z) c, (forall E, elementOf [(10, d_zero); (20, d_zero); (20, d_zero)]%Z = Ok (g E)) /\ 0 < c <= 1 /\
  forall m, likely (fun E => g E (S m)) (fun x => Z.eqb x 20) ((1 - power (1 - c) m) * (2 # 3)).
Proof.
  destruct (C78_elementOf Z [10; 20; 20]%Z ltac:(cbn; lia) ltac:(cbn; unfold UINT32_MAX; lia)) as (g & c & G1 & G2 & G3). exists g, c. split; [exact G1|]. split; [exact G2|].
  intros m. exact (G3 (fun x => Z.eqb x 20) m).
Qed.
(** intervals and uintervals: each interval by its share of the coins, which are as the widths (see C74); inside an interval all numbers alike. *)
Theorem C78_intervals : forall sg is, is <> [] -> (Z.of_nat (length is) <= UINT32_MAX + 1)%Z -> Forall (WeightSpec.legal sg) is -> (WeightSpec.total is < 2 ^ 64)%Z -> WeightSpec.accepted (WeightSpec.choice (E := replay) sg is) ->
  exists (g : forall E, nat -> gen E Z) cs, (forall E, WeightSpec.choice sg is = Ok (g E)) /\
    Forall2 (fun i c => exists k, c == inject_Z k / inject_Z (2 ^ 64) /\ (1 <= k <= 2 ^ 64 /\ Z.abs (k * WeightSpec.total is - WeightSpec.width i * 2 ^ 64) <= WeightSpec.width i * 2 ^ 13 + WeightSpec.total is)%Z) is cs /\
    forall ev m, likely (fun E => g E (S m)) ev
      ((1 - power (1 - total cs / inject_Z (Z.of_nat (length is))) m) * (dot cs (map (fun i => average (fst i) (snd i) (tells ev)) is) / total cs)).
Proof.
  intros sg is Hne Hlen Hl Ht Ha. set (ws := map (fun s => WeightProof.ratio s (WeightSpec.total is)) (map WeightSpec.width is)).
  assert (W : oneOfWeights ws = Ok ws).
  { destruct (PropWeights.C74_weights replay sg is Hl Ht) as (ws0 & E0 & E1 & _). rewrite (PropWeights.choice_oneOf replay sg is Hl Ht) in Ha. fold ws in Ha. destruct Ha as [g Hg].
    unfold oneOf in Hg. assert (S1 : map snd (combine (WeightSpec.each (E := replay) sg is) ws) = ws) by (apply PropWeights.combine_snd; unfold WeightSpec.each, ws; rewrite !map_length; reflexivity).
    unfold weighted in Hg. rewrite S1 in Hg. destruct (oneOfWeights ws) as [ws'| | |] eqn:Ew; try discriminate. f_equal.
    destruct (PropGen.C25_weights _ _ Ew) as [L N]. pose proof (PropWeights.legal_weights _ _ Hl Ht) as Lw. fold ws in Lw. clear - L N Lw.
    apply WeightProof.nth_ext_error. intros n. destruct (nth_error ws n) as [w|] eqn:En.
    - rewrite (N _ _ En). rewrite Forall_forall in Lw. rewrite (proj2 (Lw w (nth_error_In _ _ En))). reflexivity.
    - apply nth_error_None in En. apply nth_error_None. lia. }
  assert (Cs : exists cs, Forall2 coin ws cs /\ Forall2 (fun i c => exists k, c == inject_Z k / inject_Z (2 ^ 64) /\ (1 <= k <= 2 ^ 64 /\ Z.abs (k * WeightSpec.total is - WeightSpec.width i * 2 ^ 64) <= WeightSpec.width i * 2 ^ 13 + WeightSpec.total is)%Z) is cs).
  { assert (G : forall l, incl l is -> exists cs, Forall2 coin (map (fun s => WeightProof.ratio s (WeightSpec.total is)) (map WeightSpec.width l)) cs /\ Forall2 (fun i c => exists k, c == inject_Z k / inject_Z (2 ^ 64) /\ (1 <= k <= 2 ^ 64 /\ Z.abs (k * WeightSpec.total is - WeightSpec.width i * 2 ^ 64) <= WeightSpec.width i * 2 ^ 13 + WeightSpec.total is)%Z) l cs).
    { induction l as [|i l IH]; intros I; [exists []; split; constructor|]. destruct IH as (cs & I1 & I2); [intros z Z; apply I; right; exact Z|].
      pose proof (PropWeights.width_le _ _ i Hl ltac:(apply I; left; auto)) as Wd. destruct (ChanceWeightProof.ratio_coin (WeightSpec.width i) (WeightSpec.total is) Wd Ht) as (k & K1 & K2 & K3).
      exists ((inject_Z k / inject_Z (2 ^ 64)) :: cs). split; [constructor; auto|]. constructor; [|exact I2]. exists k. split; [reflexivity|]. split; assumption. }
    apply G. intros z Z. exact Z. }
  destruct Cs as (cs & Cs1 & Cs2). set (ty := if sg then TI64 else TU64).
  set (alts := combine (map (fun i => ((fun E => interval ty (fst i) (snd i)) : forall E, gen E Z)) is) ws).
  assert (La : length alts = length is) by (unfold alts, ws; rewrite combine_length, !map_length; lia).
  assert (Ma : forall E, map (fun alt => no_discard (fst alt E)) alts = WeightSpec.each sg is).
  { intros E. unfold alts, ws, WeightSpec.each. rewrite map_map. fold ty. generalize (WeightSpec.total is). intros t. clear. induction is as [|i l IH]; [reflexivity|]. cbn [map combine fst]. rewrite IH. reflexivity. }
  exists (fun E fuel => oneOfLoop fuel (combine (WeightSpec.each sg is) ws)), cs. split; [|split; [exact Cs2|]].
  - intros E. rewrite PropWeights.choice_oneOf by auto. fold ws. unfold oneOf. assert (S1 : map snd (combine (WeightSpec.each (E := E) sg is) ws) = ws) by (apply PropWeights.combine_snd; unfold WeightSpec.each, ws; rewrite !map_length; reflexivity).
    unfold weighted. rewrite S1, W. cbn [bind]. do 2 f_equal. assert (S2 : forall X Y (l : list X) (l' : list Y), length l = length l' -> map fst (combine l l') = l).
    { clear. intros X Y l. induction l as [|x l IH]; intros [|y l'] H; try discriminate; auto. cbn [combine map fst]. rewrite IH; auto. }
    rewrite S2 by (unfold WeightSpec.each, ws; rewrite !map_length; reflexivity). reflexivity.
  - intros ev m. assert (Tc : 0 < total cs).
    { assert (P : forall l c, Forall2 (fun (i : Z * Z) c => exists k, c == inject_Z k / inject_Z (2 ^ 64) /\ (1 <= k <= 2 ^ 64 /\ Z.abs (k * WeightSpec.total is - WeightSpec.width i * 2 ^ 64) <= WeightSpec.width i * 2 ^ 13 + WeightSpec.total is)%Z) l c -> 0 <= total c /\ (l <> [] -> 0 < total c)).
      { intros l c H. induction H as [|i c0 l c (k & K1 & K2 & _) H [I1 I2]]; [split; [apply Qle_refl|congruence]|].
        assert (Kp : 0 < c0). { rewrite K1. apply Qlt_shift_div_l; [reflexivity|]. rewrite Qmult_0_l. change 0 with (inject_Z 0). rewrite <- Zlt_Qlt. lia. }
        unfold total in *. cbn [fold_right]. split; [|intros _]; lra. }
      apply (P is cs Cs2). exact Hne. }
    assert (O : likely (fun E => oneOfLoop (S m) (combine (map (fun alt => no_discard (fst alt E)) alts) ws)) ev
      ((1 - power (1 - total cs / inject_Z (Z.of_nat (length alts))) m) * (dot cs (map (fun i => average (fst i) (snd i) (tells ev)) is) / total cs))).
    { apply oneOf_likely; rewrite ?La; auto; [destruct is; [congruence|cbn; lia]|unfold ws; rewrite !map_length; reflexivity|intros Z; lra|].
      clear - Hl. unfold alts, ws. generalize (WeightSpec.total is). intros t. induction Hl as [|i l Hi Hr IH]; cbn [map combine]; constructor; [|exact IH].
      cbn [fst]. destruct Hi as (I1 & I2 & I3 & I4). unfold ty. destruct sg; [pose proof (eq_refl : tmin TI64 = INT64_MIN) as T1; pose proof (eq_refl : tmax TI64 = INT64_MAX) as T2|pose proof (eq_refl : tmin TU64 = 0%Z) as T1; pose proof (eq_refl : tmax TU64 = UINT64_MAX) as T2];
        (apply C78_integer; rewrite ?T1, ?T2; [exact I1|exact I2|exact I3|intros [X _]; discriminate X|intros [X Y]; unfold INT64_MIN, INT64_MAX, UINT64_MAX in *; lia]). }
    destruct O as (p & L & Q). exists p. split; [|rewrite Q, La; reflexivity]. intros E r. rewrite <- (L E r). rewrite Ma. reflexivity.
Qed.
Example C78_intervals_ex : exists (g : forall E, nat -> gen E Z) cs, (forall E, intervals [(1, 6); (10, 11)]%Z = Ok (g E)) /\ length cs = 2%nat /\
  forall m, likely (fun E => g E (S m)) (fun x => Z.eqb x 3) ((1 - power (1 - total cs / inject_Z 2) m) * (dot cs [1 # 6; 0] / total cs)).
Proof.
  destruct (C78_intervals true [(1, 6); (10, 11)]%Z) as (g & cs & G1 & G2 & G3); try discriminate.
  - repeat constructor; cbn; unfold INT64_MIN, INT64_MAX; lia.
  - reflexivity.
  - apply PropWeights.C74_two; [..|vm_compute; discriminate]; unfold WeightSpec.legal, INT64_MIN, INT64_MAX; cbn; lia.
  - exists g, cs. split; [exact G1|]. assert (L : length cs = 2%nat) by (inversion G2 as [|? ? ? ? _ G4]; inversion G4 as [|? ? ? ? _ G5]; inversion G5; reflexivity). split; [exact L|].
    intros m. destruct (G3 (fun x => Z.eqb x 3) m) as (p & Lp & Q). exists p. split; [exact Lp|]. rewrite Q. destruct cs as [|a [|b [|? ?]]]; try discriminate L. apply Qmult_comp; [reflexivity|].
    cbn [map dot fst snd]. assert (A1 : average 1 6 (tells (fun x => Z.eqb x 3)) == 1 # 6) by (vm_compute; reflexivity). assert (A2 : average 10 11 (tells (fun x => Z.eqb x 3)) == 0) by (vm_compute; reflexivity). rewrite A1, A2. reflexivity.
Qed.

(** ** Nullable: null with probability 1 - c, where c = (8556839292003942 * 2^11 + 1) / 2^64 (about 0.95) *)
Theorem C78_nullable : forall A (g : forall E, gen E A) ev q (null : bool), likely g ev q ->
  let c := odds (8556839292003942 * 2 ^ 11) in
  likely (fun E => arbi_nullable (g E) (ptr_default (g E))) (fun o => match o with Some a => ev a | None => null end) (c * q + (1 - c) * (if null then 1 else 0)).
Proof.
  intros A g ev q null (p & L & Q) c. assert (C : coin d_095 c) by exact (coin_proper d_095 8556839292003942 (-53) (proj2 (proj2 C78_bool_ex))).
  destruct C as (pc & P1 & P2 & P3). exists (pbind pc (fun b => if b then pmap Some p else Ends (Ok None))). split; [apply nullable_law; auto|].
  rewrite (prob_if _ pc _ _ _ _ P2 P3), prob_map, Q. unfold prob. cbn [mean when]. reflexivity.
Qed.
Example C78_nullable_ex : likely (fun E => arbi_nullable (interval TI32 1 6) (ptr_default (interval TI32 1 6))) (fun o => match o with Some a => Z.eqb a 6 | None => false end)
  (odds (8556839292003942 * 2 ^ 11) * (1 # 6) + (1 - odds (8556839292003942 * 2 ^ 11)) * 0).
Proof. exact (C78_nullable Z (fun E => interval TI32 1 6) (fun x => Z.eqb x 6) (1 # 6) false die). Qed.

(** ** forAll *)

(** The arguments of a run are independent, in whichever order they are drawn. *)
Theorem C78_arguments : forall V W (ev : setting) (P : forall E, property E V W) (args : list ((forall E, xgen E V) * plan (V + err))) ord,
  Forall (fun x => argumentFollows (fst x) (snd x)) args -> (forall E, ord_call (ev E) = ord /\ gens (P E) = map (fun x => fst x E) args) -> order (length args) ord ->
  exists p, inputsFollow ev P p /\ forall evs, length evs = length args ->
    prob p (left (each evs)) == product (map (fun xe => prob (snd (fst xe)) (left (snd xe))) (combine args evs)).
Proof.
  intros V W ev P args ord Ha HP O. exists (all_plan ord (map snd args)). split.
  - intros E. destruct (HP E) as [-> ->]. apply all_fits. clear - Ha. induction Ha as [|x l Hx Hl IH]; cbn [map]; constructor; [exact (Hx E)|exact IH].
  - intros evs L. rewrite all_prob by (rewrite map_length; assumption). clear - L. revert evs L. induction args as [|x args IH]; intros [|ev evs] L; try discriminate; [reflexivity|].
    cbn [map combine fst snd]. unfold product in *. cbn [fold_right]. rewrite IH by (cbn in L; lia). reflexivity.
Qed.
(** Each of the [n] runs passes with the probability that one of its attempts passes before [fuel] of them have been discarded. *)
Theorem C78_forAll : forall V W (ev : setting) (P : forall E, property E V W) beh p fuel n w,
  (forall E, pure_property (P E) beh /\ maxDurationMs (P E) = 0%Z /\ numRuns (P E) = n) -> no_leak beh -> inputsFollow ev P p ->
  let pass := power (series (prob p (discarding beh)) fuel * prob p (passing beh)) n in
  likelyResult (fun E r => Ok (returnedTrue (runForAll fuel (starting r (ev E)) (P E) w))) (fun b => b) pass /\
  likelyResult (fun E r => Ok (returnedTrue (runForAll fuel (starting r (ev E)) (P E) w))) negb (1 - pass).
Proof.
  intros V W ev P beh p fuel n w HP HL Hp pass.
  assert (R : prob (runs_plan fuel p (judgeInput beh) n) (fun b => b) == pass).
  { rewrite runs_prob. unfold pass. assert (Pw : forall a b k, a == b -> power a k == power b k) by (intros a b k Hab; induction k as [|k IH]; cbn [power]; [reflexivity|apply Qmult_comp; assumption]).
    apply Pw. assert (E1 : prob p (fun x => judged (judgeInput beh x) true) == prob p (passing beh)) by (apply prob_ext; intros a; unfold passing; destruct (judgeInput beh a); reflexivity).
    assert (E2 : prob p (fun x => judged (judgeInput beh x) false) == prob p (discarding beh)) by (apply prob_ext; intros a; unfold discarding; destruct (judgeInput beh a); reflexivity).
    rewrite E1. apply Qmult_comp; [|reflexivity]. clear - E2. induction fuel as [|f IH]; cbn [series]; [reflexivity|]. rewrite IH, E2. reflexivity. }
  assert (L : forall E r, Ok (returnedTrue (runForAll fuel (starting r (ev E)) (P E) w)) = result (play (E := E) (runs_plan fuel p (judgeInput beh) n) r)).
  { intros E r. destruct (HP E) as (H1 & H2 & H3). unfold runForAll. rewrite H3.
    exact (runs_fits (starting r (ev E)) (P E) beh p H1 HL (Hp E) H2 fuel n 0 {| rnd := r; cx := newctx; wd := w; lg := [] |} eq_refl). }
  split; exists (runs_plan fuel p (judgeInput beh) n); (split; [exact L|]); [exact R|]. rewrite sure_not by apply runs_sure. rewrite R. reflexivity.
Qed.
(** A property that never discards, on arguments failing it with probability [q]: [n] runs find a failure with probability 1 - (1 - q)^n. *)
Theorem C78_detection : forall V W (ev : setting) (P : forall E, property E V W) beh p fuel n w q,
  (forall E, pure_property (P E) beh /\ maxDurationMs (P E) = 0%Z /\ numRuns (P E) = n) -> no_leak beh -> inputsFollow ev P p ->
  prob p (discarding beh) == 0 -> prob p (passing beh) == 1 - q ->
  likelyResult (fun E r => Ok (returnedTrue (runForAll (S fuel) (starting r (ev E)) (P E) w))) negb (1 - power (1 - q) n).
Proof.
  intros V W ev P beh p fuel n w q HP HL Hp Hd Hq. destruct (C78_forAll V W ev P beh p (S fuel) n w HP HL Hp) as [_ (pl & L & Q)]. exists pl. split; [exact L|]. rewrite Q.
  assert (Pw : forall a b k, a == b -> power a k == power b k) by (intros a b k Hab; induction k as [|k IH]; cbn [power]; [reflexivity|apply Qmult_comp; assumption]).
  rewrite (Pw _ (1 - q)); [reflexivity|]. rewrite Hq. cbn [series]. generalize (series (prob p (discarding beh)) fuel). intros x. rewrite Hd. ring.
Qed.
(** With discards: the more attempts are allowed for, the closer a run comes to the conditional probability of passing. *)
Lemma discards_closed : forall d s n, series d n * s * (1 - d) == s * (1 - power d n).
Proof. intros d s n. rewrite <- series_power. ring. Qed.

(** Two dice; failing on (6, 6), and discarding unequal pairs or not. *)
Definition dieArgument : forall E, xgen E Z := fun E => gbind (interval TI32 1 6) (fun t => gret (inl (elift t))).
Definition diePlan : plan (Z + err) := pmap inl (picked TI32 1 6).
Lemma eroot_elift : forall E A (t : tree A), eroot (elift (E := E) t) = root t.
Proof. intros E A [a ts]. reflexivity. Qed.
Lemma dieFollows : argumentFollows dieArgument diePlan.
Proof.
  intros E. apply (fits_bind' _ _ _ _ _ root (onLeft eroot) _ _ (picked TI32 1 6) (fun a => Ends (Ok (inl a)))).
  - refine (integer_law TI32 1 6 _ _ _ _ _ E); try (cbn; lia). intros [X _]. discriminate.
  - intros t. apply fits_ret. cbn [onLeft]. rewrite eroot_elift. reflexivity.
Qed.
Definition dice (beh : list Z -> list op * ures) (n : nat) : forall E, property E Z unit := fun E =>
  {| func := fun args w => (fst (beh args), snd (beh args), w); gens := [dieArgument E; dieArgument E]; onStartup := None; onCleanup := None; numRuns := n; maxDurationMs := 0; seed := 0 |}.
Definition noBox (args : list Z) : list op * ures := ([], URet (negb (each [Z.eqb 6; Z.eqb 6] args))).
Definition equalDice (args : list Z) : list op * ures := match args with [a; b] => if Z.eqb a b then ([], URet (negb (Z.eqb a 6))) else ([], UThrow EDiscard) | _ => ([], URet true) end.
Definition twoDice : plan (list Z + err) := all_plan [1; 0]%nat [diePlan; diePlan].
Lemma two_follow : forall beh n (ev : setting), (forall E, ord_call (ev E) = [1; 0]%nat) -> inputsFollow ev (dice beh n) twoDice.
Proof. intros beh n ev H E. rewrite H. apply all_fits. repeat constructor; exact (dieFollows E). Qed.
Example C78_arguments_ex : forall n (ev : setting), (forall E, ord_call (ev E) = [1; 0]%nat) -> exists p, inputsFollow ev (dice noBox n) p /\
  prob p (left (each [Z.eqb 6; Z.eqb 6])) == 1 # 36.
Proof.
  intros n ev H. destruct (C78_arguments Z unit ev (dice noBox n) [(dieArgument, diePlan); (dieArgument, diePlan)] [1; 0]%nat) as (p & P1 & P2).
  - repeat constructor; exact dieFollows.
  - intros E. split; [apply H|reflexivity].
  - apply perm_swap.
  - exists p. split; [exact P1|]. rewrite P2 by reflexivity. vm_compute. reflexivity.
Qed.
(* 24 throws of two dice show a double six with probability 1 - (35/36)^24: just below one half *)
Example C78_detection_ex : forall (ev : setting), (forall E, ord_call (ev E) = [1; 0]%nat) ->
  likelyResult (fun E r => Ok (returnedTrue (runForAll 1 (starting r (ev E)) (dice noBox 24 E) tt))) negb (1 - power (1 - (1 # 36)) 24) /\ 1 - power (1 - (1 # 36)) 24 < 1 # 2 /\ 1 # 2 < 1 - power (1 - (1 # 36)) 25.
Proof.
  intros ev H. split; [|split; vm_compute; reflexivity].
  apply (C78_detection Z unit ev (dice noBox 24) noBox twoDice 0 24 tt (1 # 36)); [intros E; repeat split|intros args A; exfalso; apply A; reflexivity|apply two_follow, H|vm_compute; reflexivity|vm_compute; reflexivity].
Qed.
(* a setting with this order of evaluation *)
Definition lastFirst : setting := fun _ => {| ord_call := [1; 0]%nat; ord_regen := [1; 0]%nat; ord_shrinks := [0; 1]%nat; ord_each := [0; 1]%nat; seeded := fun _ => (tt : rst unseeded); elapsed := fun _ => 0%Z |}.
Example C78_dice_ex : likelyResult (fun E r => Ok (returnedTrue (runForAll 1 (starting r (lastFirst E)) (dice noBox 24 E) tt))) negb (1 - power (1 - (1 # 36)) 24).
Proof. apply (C78_detection_ex lastFirst). intros E. reflexivity. Qed.
(* equal dice only: one run is retried at most twice; it passes with probability 5/36 * (1 + 30/36 + (30/36)^2) *)
Example C78_forAll_ex : forall (ev : setting), (forall E, ord_call (ev E) = [1; 0]%nat) ->
  likelyResult (fun E r => Ok (returnedTrue (runForAll 3 (starting r (ev E)) (dice equalDice 2 E) tt))) (fun b => b) (power (series (30 # 36) 3 * (5 # 36)) 2).
Proof.
  intros ev H. destruct (C78_forAll Z unit ev (dice equalDice 2) equalDice twoDice 3 2 tt) as [(p & L & Q) _].
  - intros E. repeat split.
  - intros args A. exfalso. apply A. unfold equalDice. destruct args as [|a [|b [|c l]]]; try reflexivity. destruct (Z.eqb a b); reflexivity.
  - apply two_follow, H.
  - exists p. split; [exact L|]. rewrite Q. vm_compute. reflexivity.
Qed.

Print Assumptions C78_unique.
Print Assumptions C78_unique_result.
Print Assumptions C78_coin.
Print Assumptions C78_bool.
Print Assumptions C78_integer.
Print Assumptions C78_integer_uniform.
Print Assumptions C78_any_integer.
Print Assumptions C78_any_value.
Print Assumptions C78_char.
Print Assumptions C78_transform.
Print Assumptions C78_pair.
Print Assumptions C78_tuple.
Print Assumptions C78_vector.
Print Assumptions C78_string.
Print Assumptions C78_filter.
Print Assumptions C78_oneOf.
Print Assumptions C78_elementOf.
Print Assumptions C78_intervals.
Print Assumptions C78_nullable.
Print Assumptions C78_arguments.
Print Assumptions C78_forAll.
Print Assumptions C78_detection.
