(** C24, C25, C26, C30, C31: filter, oneOf, elementOf, just, lazy, transform, intervals. *)
From Coq Require Import List ZArith Lia Bool Arith Permutation SpecFloat.
From Verif Require Import Base TreeModel TreeSpec TreeProof BinSearchProof RandomModel IntegralModel IntegralSpec IntegralProof BoolModel BoolProof PropTree PropInt
  ListModel TupleProof ContainerModel ContainerSpec ContainerProof GenModel GenSpec GenProof.
Import ListNotations.
Local Open Scope Z_scope.

(** * C24: filter *)

(** A filtered generator returns exactly when the underlying generator, run repeatedly, yields some values that
    fail the predicate and then one that satisfies it; that one is returned, its shrinks filtered. *)
Theorem C24_filter_returns : forall E A (g : gen E A) (crit : A -> bool) r t r',
  (exists fuel, filterGen fuel g crit r = Ok (t, r')) <->
  exists rej r1 t0, draws g r rej r1 /\ Forall (fun s => crit (root s) = false) rej /\
    g r1 = Ok (t0, r') /\ crit (root t0) = true /\ filter_tol (tsize t0) crit 1 t0 = Ok t.
Proof.
  intros E A g crit r t r'. split.
  - intros [fuel H]. apply filterGen_fwd in H. destruct H as [rej [r1 [t0 [D [F [L [G1 [C1 T1]]]]]]]].
    exists rej, r1, t0. auto.
  - intros [rej [r1 [t0 [D [F [G1 [C1 T1]]]]]]]. exists (S (length rej)). eapply filterGen_bwd; eauto.
Qed.

(** More attempts allowed do not change what is returned. *)
Theorem C24_filter_deterministic : forall E A (g : gen E A) (crit : A -> bool) f1 f2 r x,
  filterGen f1 g crit r = Ok x -> (f1 <= f2)%nat -> filterGen f2 g crit r = Ok x.
Proof.
  intros E A g crit f1 f2 r [t r'] H L. apply filterGen_fwd in H. destruct H as [rej [r1 [t0 [D [F [L1 [G1 [C1 T1]]]]]]]].
  eapply filterGen_bwd; eauto. lia.
Qed.

Theorem C24_filter_sound : forall E A (g : gen E A) (crit : A -> bool) fuel r t r',
  filterGen fuel g crit r = Ok (t, r') ->
  all_values (fun v => crit v = true) t /\
  exists r1 t0, g r1 = Ok (t0, r') /\ root t = root t0 /\ all_values (fun v => In v (values t0)) t.
Proof.
  intros E A g crit fuel r t r' H. apply filterGen_fwd in H. destruct H as [rej [r1 [t0 [D [F [L [G1 [C1 T1]]]]]]]].
  destruct (C04_filter_tolerance_exact A crit 1 t0 (tsize t0)) as [t' [E1 E2]]; auto.
  change (tnodes t0) with (tsize t0) in T1. rewrite E1 in T1. inversion T1; subst t'.
  pose proof (C04_filter_tolerance_sound A crit 1 t0 t E2) as S.
  split; [|exists r1, t0; split; auto; split].
  - apply all_values_values. eapply Forall_impl; [|exact S]. simpl. tauto.
  - inversion E2; subst. auto.
  - apply all_values_values. eapply Forall_impl; [|exact S]. simpl. tauto.
Qed.

(** Once an acceptable value is drawn, filter returns. *)
Theorem C24_filter_total : forall E A (g : gen E A) (crit : A -> bool) r rej r1 t0 r',
  draws g r rej r1 -> Forall (fun s => crit (root s) = false) rej -> g r1 = Ok (t0, r') -> crit (root t0) = true ->
  exists t, filterGen (S (length rej)) g crit r = Ok (t, r').
Proof.
  intros E A g crit r rej r1 t0 r' D F G1 C1.
  destruct (C04_filter_tolerance_exact A crit 1 t0 (tsize t0)) as [t' [E1 E2]]; auto.
  exists t'. eapply filterGen_bwd; eauto.
Qed.

Theorem C24_filter_never_returns : forall E A (g : gen E A) (crit : A -> bool),
  (forall r, exists t r', g r = Ok (t, r') /\ crit (root t) = false) ->
  forall fuel r, filterGen fuel g crit r = OutOfFuel.
Proof. exact filterGen_never. Qed.

Definition C24_int : gen replay Z := generateInteger TI32 0 9.
Example C24_ex : exists t, filterGen 3 C24_int Z.even [3; 7; 8; 4] = Ok (t, [4]) /\ root t = 8 /\ In 2 (values t) /\ ~ In 3 (values t).
Proof.
  eexists. split; [vm_compute; reflexivity|]. split; [reflexivity|]. split; [simpl; tauto|].
  intros H. vm_compute in H. intuition discriminate.
Qed.
Example C24_ex_never : forall fuel r, filterGen (E := replay) fuel (just 3) Z.even r = OutOfFuel.
Proof. intros. apply C24_filter_never_returns. intros r0. exists (Node 3 []), r0. auto. Qed.

(** * C25: oneOf *)

(** Construction is refused exactly when a weight lies outside [0,1] or their sum (in doubles) exceeds 1. *)
Theorem C25_rejects : forall E A (gws : list (weighted E A)),
  (Forall legal_weight (map snd gws) /\ SFltb d_one (weight_sum (map snd gws)) = false ->
     exists g, oneOf gws = Ok g) /\
  (~ (Forall legal_weight (map snd gws) /\ SFltb d_one (weight_sum (map snd gws)) = false) ->
     oneOf gws = Throw ERuntime).
Proof.
  intros E A gws. unfold oneOf, oneOfWeights. destruct (legal_dec (map snd gws)) as [L|L].
  - rewrite scan_ok by auto. cbn [bind]. fold (weight_sum (map snd gws)). change d_zero with (S754_zero false) in *.
    fold (weight_sum (map snd gws)). split.
    + intros [_ Hs]. rewrite Hs. destruct (_ && _); cbn [bind]; eauto.
    + intros Hn. destruct (SFltb d_one (weight_sum (map snd gws))) eqn:Es; [reflexivity|].
      exfalso. apply Hn. auto.
  - rewrite scan_bad by auto. cbn [bind]. split; [tauto|auto].
Qed.

(** Explicit weights are kept; what is left is divided evenly over the generators without weight (unless
    nothing is left, when they keep weight zero). *)
Theorem C25_weights : forall ws ws', oneOfWeights ws = Ok ws' ->
  length ws' = length ws /\
  forall i w, nth_error ws i = Some w ->
    nth_error ws' i = Some (if unassigned w && SFltb (weight_sum ws) d_one
                            then SFdiv dprec demax (SFsub dprec demax d_one (weight_sum ws))
                                   (binary_normalize dprec demax (Z.of_nat (length (filter unassigned ws))) 0 false)
                            else w).
Proof.
  intros ws ws' H. unfold oneOfWeights in H. destruct (legal_dec ws) as [L|L].
  2:{ rewrite scan_bad in H by auto. discriminate. }
  rewrite scan_ok in H by auto. cbn [bind] in H. change d_zero with (S754_zero false) in *.
  fold (weight_sum ws) in H. destruct (SFltb d_one (weight_sum ws)) eqn:Es; [discriminate|].
  destruct (SFltb (weight_sum ws) d_one) eqn:E1.
  - rewrite andb_true_r in H. destruct (Z.ltb_spec 0 (0 + Z.of_nat (length (filter unassigned ws)))) as [Hn|Hn].
    + inversion H; subst. split; [apply map_length|]. intros i w Hi. rewrite andb_true_r.
      rewrite nth_error_map, Hi. reflexivity.
    + inversion H; subst. split; auto. intros i w Hi. rewrite andb_true_r. destruct (unassigned w) eqn:Ew; auto.
      assert (Hin : In w (filter unassigned ws')) by (apply filter_In; split; auto; eapply nth_error_In; eauto).
      destruct (filter unassigned ws'); [destruct Hin|simpl in Hn; lia].
  - rewrite andb_false_r in H. inversion H; subst. split; auto. intros i w Hi. rewrite andb_false_r. auto.
Qed.

(** A value is produced exactly as follows: rounds of drawing an index and flipping a coin with that index's
    weight are rejected; the first accepted round selects a generator, which is run again as long as it throws
    Discard, and whose shrinkable is returned unchanged. *)
Theorem C25_first_accepted : forall E A (gws : list (weighted E A)) g ws,
  (0 < length gws)%nat -> Z.of_nat (length gws) <= UINT32_MAX + 1 ->
  oneOf gws = Ok g -> oneOfWeights (map snd gws) = Ok ws ->
  forall r t r', (exists fuel, g fuel r = Ok (t, r')) <->
    exists i gi discarded r1 r2, chosen ws r i r1 /\ nth_error (map fst gws) i = Some gi /\
      draws gi r1 discarded r2 /\ Forall (fun o => o = None) discarded /\ gi r2 = Ok (Some t, r').
Proof.
  intros E A gws g ws Hp Hm Ho Hw r t r'. unfold weighted in *. unfold oneOf in Ho. rewrite Hw in Ho. cbn [bind] in Ho.
  injection Ho as Hg. subst g. destruct (C25_weights _ _ Hw) as [Hl _]. rewrite map_length in Hl.
  assert (Hlen : length (map fst gws) = length ws) by (rewrite map_length; lia).
  split.
  - intros [fuel H]. exact (loop_fwd (map fst gws) ws Hlen ltac:(lia) ltac:(lia) fuel r t r' H).
  - intros [i [gi [l [r1 [r2 [HC [Hn [D [F G1]]]]]]]]].
    destruct (loop_bwd (map fst gws) ws Hlen ltac:(lia) ltac:(lia) r i r1 gi l r2 t r' HC Hn D F G1) as [f0 H].
    exists f0. apply H. lia.
Qed.

(** The coin for weight m*2^e accepts c of the 2^64 equally likely engine outputs (those up to c-1), where c is
    2^64 times the weight rounded up to at most one more: acceptance counts are proportional to the weights up
    to one part in 2^64. *)
Theorem C25_acceptance_counts : forall E w m e (r : rst E), proper_threshold w m e ->
  exists c, (forall u r', unif E 0 UINT64_MAX r = (u, r') -> getRandomBool w r = Ok (u <? c, r')) /\
    1 <= c <= 2 ^ 64 /\ Zpos m * 2 ^ 64 < c * 2 ^ (- e) <= Zpos m * 2 ^ 64 + 2 ^ (- e).
Proof.
  intros E w m e r H. destruct (C57_coin_exact E w m e r H) as [Hc Hb].
  exists (Zpos m * 2 ^ 64 / 2 ^ (- e) + 1). destruct H as [_ [_ [He _]]].
  assert (Hpos : 0 < 2 ^ (- e)) by (apply Z.pow_pos_nonneg; lia). split; [|split].
  - intros u r' Hu. rewrite Hc, Hu. f_equal. f_equal. destruct (Z.leb_spec u (Zpos m * 2 ^ 64 / 2 ^ (- e)));
    destruct (Z.ltb_spec u (Zpos m * 2 ^ 64 / 2 ^ (- e) + 1)); auto; lia.
  - unfold UINT64_MAX in Hb. lia.
  - pose proof (Z.div_mod (Zpos m * 2 ^ 64) (2 ^ (- e)) ltac:(lia)).
    pose proof (Z.mod_pos_bound (Zpos m * 2 ^ 64) (2 ^ (- e)) Hpos). lia.
Qed.

(** A weight that is not a number passes the checks and makes generation undefined. *)
Theorem C25_nan_weight_accepted : exists E A (gws : list (weighted E A)) g r,
  oneOf gws = Ok g /\ forall fuel, g (S fuel) r = UB.
Proof.
  exists replay, Z, [(no_discard (just 1), S754_nan)], (fun fuel => oneOfLoop fuel [(no_discard (just 1), S754_nan)]), [].
  split; [reflexivity|]. intros fuel. reflexivity.
Qed.

(** oneOf of no generators reads outside the vector. *)
Theorem C25_no_generators_undefined : forall E A, exists g, oneOf (E := E) (A := A) [] = Ok g /\
  forall fuel r, g (S fuel) r = UB.
Proof.
  intros E A. exists (fun fuel => oneOfLoop fuel []). split; [reflexivity|]. intros fuel r. cbn [oneOfLoop].
  unfold gbind. destruct (getRandomSize 0 (Z.of_nat (length ([] : list (weighted E A)))) r) as [[v r']| | |] eqn:Ed.
  - unfold idx, gfail. destruct (v <? 0); auto. destruct (Z.to_nat v); auto.
  - auto.
  - unfold getRandomSize, draw in Ed. destruct (_ <=? _); discriminate.
  - unfold getRandomSize, draw in Ed. destruct (_ <=? _); discriminate.
Qed.

(** 0.75 *)
Definition d_threequarters : spec_float := S754_finite false 6755399441055744 (-53).
Example C25_ex : exists g, oneOf (E := replay) [(no_discard (just 1), d_zero); (no_discard (just 2), d_half); (fun r => Ok (None, r), d_zero)] = Ok g /\
  (* index 1, coin fails; index 0, coin succeeds *)
  g 9%nat [1; UINT64_MAX; 0; 7; 42] = Ok (Node 1 [], [42]).
Proof. eexists. split; [reflexivity|vm_compute; reflexivity]. Qed.
Example C25_ex_quarter : oneOfWeights [d_zero; d_half; d_zero] = Ok [S754_finite false 4503599627370496 (-54); d_half; S754_finite false 4503599627370496 (-54)].
Proof. vm_compute. reflexivity. Qed.
Example C25_ex_reject : oneOf (E := replay) [(no_discard (just 1), d_threequarters); (no_discard (just 2), d_half)] = Throw ERuntime.
Proof. vm_compute. reflexivity. Qed.
Example C25_ex_proper : proper_threshold d_threequarters 6755399441055744 (-53).
Proof. repeat split; vm_compute; reflexivity. Qed.

(** * C26: elementOf, just, lazy *)

Theorem C26_elementOf_only_listed : forall E A (vals : list (A * spec_float)) g fuel r t r',
  (0 < length vals)%nat -> Z.of_nat (length vals) <= UINT32_MAX + 1 ->
  elementOf (E := E) vals = Ok g -> g fuel r = Ok (t, r') ->
  exists v w, In (v, w) vals /\ t = Node v [].
Proof.
  intros E A vals g fuel r t r' Hp Hm He H. unfold elementOf in He.
  set (gws := map (fun vw : A * spec_float => (no_discard (E := E) (just (fst vw)), snd vw)) vals) in *.
  assert (Hl1 : length gws = length vals) by (unfold gws; apply map_length).
  destruct (oneOfWeights (map snd gws)) as [ws| | |] eqn:Ew; try (unfold oneOf in He; rewrite Ew in He; discriminate).
  destruct (C25_first_accepted E A gws g ws) with (r := r) (t := t) (r' := r') as [Hf _]; auto;
    unfold weighted; try rewrite Hl1; auto.
  destruct Hf as [i [gi [l [r1 [r2 [_ [Hn [_ [_ G1]]]]]]]]]; eauto.
  unfold gws in Hn. rewrite map_map, nth_error_map in Hn. destruct (nth_error vals i) as [[v w]|] eqn:Ei; [|discriminate].
  inversion Hn; subst gi. exists v, w. split; [eapply nth_error_In; eauto|]. unfold no_discard, just, gbind, gret in G1. cbn in G1.
  inversion G1. auto.
Qed.

(** Each listed value can be produced: when its index is drawn and the coin succeeds. *)
Theorem C26_elementOf_each : forall A (vals : list (A * spec_float)) g v w i ws,
  Z.of_nat (length vals) <= UINT32_MAX + 1 ->
  elementOf (E := replay) vals = Ok g -> nth_error vals i = Some (v, w) ->
  oneOfWeights (map snd vals) = Ok ws ->
  (exists w' m e, nth_error ws i = Some w' /\ (w' = d_one \/ w' = d_zero \/ proper_threshold w' m e)) ->
  exists fuel r r', g fuel r = Ok (Node v [], r').
Proof.
  intros A vals g v w i ws Hm He Hi Hw [w' [m [e [Hn Hc]]]]. unfold elementOf in He.
  assert (Hlt : (i < length vals)%nat) by (apply nth_error_Some; congruence).
  assert (Ew : oneOfWeights (map snd (map (fun vw : A * spec_float => (no_discard (E := replay) (just (fst vw)), snd vw)) vals)) = Ok ws).
  { rewrite map_map. exact Hw. }
  destruct (C25_weights _ _ Hw) as [Hl _]. rewrite map_length in Hl.
  assert (Hcoin : exists q, getRandomBool (E := replay) w' [0] = Ok (true, q)).
  { destruct Hc as [->|[->|Hc]]; [eexists; reflexivity|eexists; reflexivity|].
    destruct (C57_coin_exact replay w' m e [0] Hc) as [-> Hb]. cbn [unif replay replay_unif]. cbv iota.
    change ((0 <=? 0) && (0 <=? UINT64_MAX)) with true. cbv iota. exists [].
    destruct (Z.leb_spec 0 (Zpos m * 2 ^ 64 / 2 ^ (- e))); [auto|lia]. }
  destruct Hcoin as [q Hq].
  destruct (C25_first_accepted replay A (map (fun vw : A * spec_float => (no_discard (E := replay) (just (fst vw)), snd vw)) vals) g ws)
    with (r := [Z.of_nat i; 0]) (t := Node v []) (r' := q) as [_ Hb]; auto;
    unfold weighted; try rewrite map_length; auto; try lia.
  destruct Hb as [fuel Hf].
  { exists i, (no_discard (just v)), [], q, q. split.
    - exists [], [Z.of_nat i; 0], [0], w'. split; [constructor|]. split; [|auto].
      unfold draw. destruct (Z.leb_spec 0 (Z.of_nat (length ws) - 1)); [|lia]. cbn [unif replay replay_unif].
      replace ((0 <=? Z.of_nat i) && (Z.of_nat i <=? Z.of_nat (length ws) - 1)) with true; auto.
      symmetry. apply andb_true_iff. rewrite !Z.leb_le. lia.
    - rewrite map_map, nth_error_map, Hi. split; [reflexivity|]. split; [constructor|]. split; [constructor|].
      reflexivity. }
  eauto.
Qed.

Theorem C26_elementOf_rejects : forall E A (vals : list (A * spec_float)),
  ~ (Forall legal_weight (map snd vals) /\ SFltb d_one (weight_sum (map snd vals)) = false) ->
  elementOf (E := E) vals = Throw ERuntime.
Proof.
  intros E A vals H. unfold elementOf.
  apply C25_rejects. rewrite map_map. cbn [snd]. exact H.
Qed.

Theorem C26_just : forall E A (a : A) (r : rst E), just a r = Ok (Node a [], r).
Proof. reflexivity. Qed.

(** lazy runs the function once per generation and nothing else. *)
Theorem C26_lazy : forall E A (f : G E A) r t r', lazyGen f r = Ok (t, r') <-> exists a, f r = Ok (a, r') /\ t = Node a [].
Proof.
  intros E A f r t r'. unfold lazyGen. split.
  - intros H. apply gbind_ok in H. destruct H as [a [r1 [H1 H2]]]. inversion H2; subst. eauto.
  - intros [a [H ->]]. erewrite gbind_eq by eauto. auto.
Qed.

Example C26_ex : exists g, elementOf (E := replay) [(10, d_zero); (20, d_half); (30, d_zero)] = Ok g /\
  g 5%nat [2; 5; 99] = Ok (Node 30 [], [99]) /\ g 5%nat [1; 5] = Ok (Node 20 [], []).
Proof. eexists. split; [reflexivity|]. split; vm_compute; reflexivity. Qed.
(** A counter evaluated lazily. *)
Example C26_ex_lazy : let f : G replay nat := fun r => match r : list Z with x :: q => Ok (Z.to_nat x, q) | [] => Ok (0%nat, r) end in
  lazyGen f [4; 6] = Ok (Node 4%nat [], [6]) /\ lazyGen f [6] = Ok (Node 6%nat [], []).
Proof. split; reflexivity. Qed.

(** * C30: transform *)

(** Same randomness, image of the same tree: a transformed generator returns exactly when the original does,
    ends in the same state, and its shrink tree has the same shape with every value mapped. *)
Theorem C30_transform : forall E A B (g : gen E A) (f : A -> B) r t' r',
  transformGen g f r = Ok (t', r') <->
  exists t, g r = Ok (t, r') /\ (forall p, value_at t' p = option_map f (value_at t p)) /\
            (forall p, width_at t' p = width_at t p) /\ t' = map_tree f t.
Proof.
  intros E A B g f r t' r'. unfold transformGen. split.
  - intros H. apply gbind_ok in H. destruct H as [t [r1 [H1 H2]]]. inversion H2; subst.
    exists t. split; auto. split; [intros p; apply C02_map_pathwise|]. split; auto. intros p. unfold width_at.
    rewrite node_at_map. destruct (node_at t p) as [[a ts]|]; auto. cbn. rewrite map_length. auto.
  - intros [t [H1 [_ [_ ->]]]]. erewrite gbind_eq by eauto. auto.
Qed.

Theorem C30_transform_invariant : forall E A B (g : gen E A) (f : A -> B) (P : A -> Prop) (Q : B -> Prop) r t r',
  (forall a, P a -> Q (f a)) -> (forall t r', g r = Ok (t, r') -> all_values P t) ->
  transformGen g f r = Ok (t, r') -> all_values Q t.
Proof.
  intros E A B g f P Q r t r' Hpq Hg H. apply C30_transform in H. destruct H as [t0 [H1 [_ [_ ->]]]].
  apply Hg in H1. apply all_values_values in H1. apply all_values_values. rewrite values_map. apply Forall_map.
  eapply Forall_impl; [|exact H1]. auto.
Qed.

(** Exceptions and undefined behaviour pass through. *)
Theorem C30_transform_failures : forall E A B (g : gen E A) (f : A -> B) r,
  (forall x, g r <> Ok x) -> match g r with UB => transformGen g f r = UB | Throw e => transformGen g f r = Throw e
                             | OutOfFuel => transformGen g f r = OutOfFuel | Ok _ => False end.
Proof. intros E A B g f r H. unfold transformGen, gbind. destruct (g r) as [x| | |]; auto. apply (H x); auto. Qed.

Example C30_ex : exists t, transformGen C24_int (fun x => (x, x * x)) [5; 1] = Ok (t, [1]) /\ root t = (5, 25) /\ In (2, 4) (values t).
Proof. eexists. split; [vm_compute; reflexivity|]. split; [reflexivity|simpl; tauto]. Qed.

(** * C31: intervals *)

Lemma nth_combine_fst : forall A B (l : list A) (l' : list B) i x, nth_error (map fst (combine l l')) i = Some x -> nth_error l i = Some x.
Proof.
  intros A B l l' i x H. rewrite nth_error_map in H. destruct (nth_error (combine l l') i) as [[a b]|] eqn:E; [|discriminate].
  apply nth_combine in E. inversion H; subst. tauto.
Qed.

Lemma intervalsOf_sound : forall E ty sz is g fuel r t r',
  is <> [] -> Z.of_nat (length is) <= UINT32_MAX + 1 ->
  Forall (fun i => tmin ty <= fst i /\ fst i <= snd i /\ snd i <= tmax ty /\ ~ reversed_char ty (fst i) (snd i)) is ->
  intervalsOf (E := E) ty sz is = Ok g -> g fuel r = Ok (t, r') ->
  exists i, In i is /\ good_integer (fst i) (snd i) t.
Proof.
  intros E ty sz is g fuel r t r' Hne Hm Hl H Hg. unfold intervalsOf in H.
  destruct (sumSizes sz is 0) as [sum| | |]; try discriminate. cbn [bind] in H.
  destruct (intervalWeights sz is sum) as [ws| | |] eqn:Ew; try discriminate. cbn [bind] in H.
  assert (Hlw : length ws = length is).
  { unfold intervalWeights in Ew. clear -Ew. revert ws Ew. induction is as [|i is IH]; simpl; intros ws E; [inversion E; auto|].
    destruct (do s <- sz i; Ok (d_div (d_of_Z s) (d_of_Z sum))); try discriminate. cbn [bind] in E.
    destruct (mapM (fun i0 => do s <- sz i0; Ok (d_div (d_of_Z s) (d_of_Z sum))) is) eqn:E2; try discriminate. cbn [bind] in E.
    inversion E; subst. simpl. f_equal. auto. }
  set (gws := combine (map (fun i => no_discard (E := E) (interval ty (fst i) (snd i))) is) ws) in *.
  assert (Hlg : length gws = length is) by (unfold gws; rewrite combine_length, map_length; lia).
  assert (Hpos : (0 < length is)%nat) by (destruct is; [congruence|simpl; lia]).
  destruct (oneOfWeights (map snd gws)) as [ws'| | |] eqn:Eo; try (unfold oneOf in H; rewrite Eo in H; discriminate).
  destruct (C25_first_accepted E Z gws g ws') with (r := r) (t := t) (r' := r') as [Hf _]; auto;
    unfold weighted; try rewrite Hlg; auto.
  destruct Hf as [i [gi [l [r1 [r2 [_ [Hn [_ [_ G1]]]]]]]]]; eauto.
  apply nth_combine_fst in Hn. rewrite nth_error_map in Hn. destruct (nth_error is i) as [iv|] eqn:Ei; [|discriminate].
  inversion Hn; subst gi. apply nth_error_In in Ei. exists iv. split; auto.
  rewrite Forall_forall in Hl. destruct (Hl iv Ei) as [L1 [L2 [L3 L4]]].
  destruct (generateInteger_ok E ty (fst iv) (snd iv) r2 L1 L2 L3 L4) as [t0 [r3 [H1 H2]]].
  unfold no_discard, interval in G1. erewrite gbind_eq in G1 by eauto. inversion G1; subst. auto.
Qed.

(** What is generated lies in one of the intervals and shrinks inside it, towards its element nearest zero. *)
Theorem C31_intervals_sound : forall E is g fuel r t r',
  is <> [] -> Z.of_nat (length is) <= UINT32_MAX + 1 ->
  Forall (fun i => INT64_MIN <= fst i /\ fst i <= snd i /\ snd i <= INT64_MAX) is ->
  intervals (E := E) is = Ok g -> g fuel r = Ok (t, r') ->
  exists i, In i is /\ good_integer (fst i) (snd i) t.
Proof.
  intros. eapply intervalsOf_sound; eauto. eapply Forall_impl; [|eassumption]. simpl.
  unfold reversed_char. intros i [A1 [A2 A3]]. repeat split; auto. intros [B _]. discriminate.
Qed.

Theorem C31_uintervals_sound : forall E is g fuel r t r',
  is <> [] -> Z.of_nat (length is) <= UINT32_MAX + 1 ->
  Forall (fun i => 0 <= fst i /\ fst i <= snd i /\ snd i <= UINT64_MAX) is ->
  uintervals (E := E) is = Ok g -> g fuel r = Ok (t, r') ->
  exists i, In i is /\ good_integer (fst i) (snd i) t.
Proof.
  intros. eapply intervalsOf_sound; eauto. eapply Forall_impl; [|eassumption]. simpl.
  unfold reversed_char. intros i [A1 [A2 A3]]. repeat split; auto. intros [B _]. discriminate.
Qed.

(** An empty interval is rejected (unless an earlier size computation overflowed). *)
Theorem C31_empty_interval_rejected : forall E a lo b, INT64_MIN < lo <= INT64_MAX ->
  Forall (fun i => INT64_MIN <= fst i /\ fst i <= snd i /\ snd i <= INT64_MAX /\ snd i - fst i < INT64_MAX) a ->
  intervals (E := E) (a ++ (lo, lo - 1) :: b) = Throw ERuntime.
Proof.
  intros E a lo b Hlo Ha. unfold intervals, intervalsOf.
  assert (H : forall sum, sumSizes interval_size (a ++ (lo, lo - 1) :: b) sum = Throw ERuntime).
  { induction Ha as [|i a [H1 [H2 [H3 H4]]] Ha IH]; intros sum; cbn [sumSizes app].
    - unfold interval_size, chk64. cbn [fst snd]. replace (lo - 1 - lo) with (-1) by lia. reflexivity.
    - assert (Ei : interval_size i = Ok (snd i - fst i + 1)).
      { unfold interval_size, chk64.
        destruct (Z.leb_spec INT64_MIN (snd i - fst i)); [|unfold INT64_MIN in *; lia].
        destruct (Z.leb_spec (snd i - fst i) INT64_MAX); [|lia]. cbn [andb bind].
        destruct (Z.leb_spec INT64_MIN (snd i - fst i + 1)); [|unfold INT64_MIN in *; lia].
        destruct (Z.leb_spec (snd i - fst i + 1) INT64_MAX); [auto|lia]. }
      rewrite Ei. cbn [bind]. destruct (Z.eqb_spec (snd i - fst i + 1) 0); [lia|]. apply IH. }
  rewrite H. reflexivity.
Qed.

(** An interval of 2^63 or more integers overflows int64_t while its size is computed. *)
Theorem C31_wide_interval_undefined : forall E lo hi rest, INT64_MIN <= lo -> hi <= INT64_MAX -> INT64_MAX <= hi - lo ->
  intervals (E := E) ((lo, hi) :: rest) = UB.
Proof.
  intros E lo hi rest H1 H2 H3. unfold intervals, intervalsOf. cbn [sumSizes]. unfold interval_size, chk64. cbn [fst snd].
  destruct (Z.leb_spec INT64_MIN (hi - lo)); [|unfold INT64_MIN, INT64_MAX in *; lia].
  destruct (Z.leb_spec (hi - lo) INT64_MAX); [|reflexivity]. cbn [andb bind].
  destruct (Z.leb_spec (hi - lo + 1) INT64_MAX); [lia|]. rewrite andb_false_r. reflexivity.
Qed.

(** The full unsigned range is taken for an empty interval. *)
Theorem C31_full_unsigned_range_rejected : forall E rest, uintervals (E := E) ((0, UINT64_MAX) :: rest) = Throw ERuntime.
Proof. intros. reflexivity. Qed.

(** A legal set of five small disjoint intervals is refused because their rounded weights add up to more than 1. *)
Theorem C31_legal_intervals_accepted_refuted : ~ (forall E is,
  is <> [] -> Forall (fun i => INT64_MIN <= fst i /\ fst i <= snd i /\ snd i <= INT64_MAX /\ snd i - fst i < INT64_MAX) is ->
  exists g, intervals (E := E) is = Ok g).
Proof.
  intros H. destruct (H replay [(0, 0); (10, 12); (20, 22); (30, 32); (40, 42)]) as [g Hg]; [discriminate| |].
  - repeat constructor; cbn; unfold INT64_MIN, INT64_MAX; lia.
  - assert (E : intervals (E := replay) [(0, 0); (10, 12); (20, 22); (30, 32); (40, 42)] = Throw ERuntime) by (vm_compute; reflexivity).
    congruence.
Qed.

Example C31_ex : exists g, intervals (E := replay) [(-10, -3); (5, 12)] = Ok g /\
  exists t, g 4%nat [1; UINT64_MAX; 0; 3; -7; 99] = Ok (t, [99]) /\ root t = -7 /\ values t = [-7; -3; -5; -4; -6].
Proof.
  eexists. split; [reflexivity|]. eexists. split; [vm_compute; reflexivity|]. split; reflexivity.
Qed.

Print Assumptions C24_filter_returns.
Print Assumptions C24_filter_deterministic.
Print Assumptions C24_filter_sound.
Print Assumptions C24_filter_total.
Print Assumptions C24_filter_never_returns.
Print Assumptions C25_rejects.
Print Assumptions C25_weights.
Print Assumptions C25_first_accepted.
Print Assumptions C25_acceptance_counts.
Print Assumptions C25_nan_weight_accepted.
Print Assumptions C25_no_generators_undefined.
Print Assumptions C26_elementOf_only_listed.
Print Assumptions C26_elementOf_each.
Print Assumptions C26_elementOf_rejects.
Print Assumptions C26_just.
Print Assumptions C26_lazy.
Print Assumptions C30_transform.
Print Assumptions C30_transform_invariant.
Print Assumptions C30_transform_failures.
Print Assumptions C31_intervals_sound.
Print Assumptions C31_uintervals_sound.
Print Assumptions C31_empty_interval_rejected.
Print Assumptions C31_wide_interval_undefined.
Print Assumptions C31_full_unsigned_range_rejected.
Print Assumptions C31_legal_intervals_accepted_refuted.
