(** Property C59: generators of Nullable and shared_ptr. *)
From Coq Require Import List ZArith Lia Bool SpecFloat.
From Verif Require Import Base TreeModel TreeSpec TreeProof RandomModel ContainerModel ContainerProof IntegralModel IntegralSpec IntegralProof BoolProof GenModel TupleProof
  PointerModel PointerSpec.
Import ListNotations.
Local Open Scope Z_scope.

Lemma d095_proper : proper_threshold d_095 8556839292003942 (-53).
Proof. unfold proper_threshold. repeat split; reflexivity. Qed.
Lemma d095_coin : forall E (r : rst E), getRandomBool d_095 r = (let '(u, r') := unif E 0 UINT64_MAX r in Ok (u <=? not_null_limit, r')).
Proof. intros. rewrite (coin_exact E _ _ _ _ d095_proper). reflexivity. Qed.

Lemma mapShrinkable_some : forall A (t : tree A), mapShrinkable (fun shr => make_shrinkable (Some (root shr))) t = map_tree (@Some A) t.
Proof.
  intros *. induction t as [a ts IH] using tree_ind'. rewrite map_tree_eq. cbn [mapShrinkable with_ make_shrinkable root]. unfold with_, make_shrinkable. f_equal.
  apply map_ext_in. intros x Hx. rewrite Forall_forall in IH. exact (IH x Hx).
Qed.
Lemma width_at_map : forall A B (f : A -> B) p t, width_at (map_tree f t) p = width_at t p.
Proof.
  intros A B f. unfold width_at. induction p as [|i p IH]; intros [a ts].
  - simpl. rewrite map_length. auto.
  - simpl. rewrite nth_error_map. destruct (nth_error ts i); simpl; auto.
Qed.
Lemma points_map : forall A (t : tree A), points_into (map_tree (@Some A) t) t.
Proof. intros A t p. split; [apply value_at_map|apply width_at_map]. Qed.

(** One draw decides between null and a value.  A null has no shrinks.  A value is what the default element generator gives from the state after
    that draw; the shrinks are its shrinks, place for place. *)
Theorem C59_nullable : forall E A (dflt : gen E A) self r t r', arbi_nullable dflt self r = Ok (t, r') ->
  let '(u, r1) := unif E 0 UINT64_MAX r in
  (not_null_limit < u /\ t = Node None [] /\ r' = r1) \/
  (u <= not_null_limit /\ exists t0, dflt r1 = Ok (t0, r') /\ points_into t t0).
Proof.
  intros E A dflt self r t r' H. unfold arbi_nullable, gbind at 1 in H. rewrite d095_coin in H. destruct (unif E 0 UINT64_MAX r) as [u r1].
  destruct (Z.leb_spec u not_null_limit) as [L|L].
  - right. split; auto. unfold gbind in H. destruct (dflt r1) as [[t0 r2]| | |]; try discriminate. inversion H; subst. exists t0. split; auto.
    rewrite mapShrinkable_some. apply points_map.
  - left. inversion H. auto.
Qed.

(** Shrinking never turns a value into null nor null into a value: whatever is reached is null exactly if the draw was above the limit. *)
Theorem C59_nullable_shrink : forall E A (dflt : gen E A) self r t r' s, arbi_nullable dflt self r = Ok (t, r') -> reach t s ->
  isNull (root s) = (not_null_limit <? fst (unif E 0 UINT64_MAX r)) /\ (isNull (root s) = true <-> root s = None).
Proof.
  intros E A dflt self r t r' s H Hr. split; [|unfold isNull; destruct (root s); split; intros; discriminate || reflexivity].
  unfold arbi_nullable, gbind at 1 in H. rewrite d095_coin in H. destruct (unif E 0 UINT64_MAX r) as [u r1].
  cbn [fst]. rewrite Z.ltb_antisym. destruct (u <=? not_null_limit).
  - unfold gbind in H. destruct (dflt r1) as [[t0 r2]| | |]; try discriminate. inversion H; subst. rewrite mapShrinkable_some in *.
    destruct (reach_map_inv _ _ _ _ _ Hr) as [q [_ ->]]. rewrite !root_map. reflexivity.
  - inversion H; subst. inversion Hr; subst; [auto|simpl in *; tauto].
Qed.

(** It fails only if the default element generator does; from the state after the draw. *)
Theorem C59_nullable_total : forall E A (dflt : gen E A) self r, (forall r1, exists t0 r2, dflt r1 = Ok (t0, r2)) ->
  exists t r', arbi_nullable dflt self r = Ok (t, r').
Proof.
  intros E A dflt self r H. unfold arbi_nullable, gbind at 1. rewrite d095_coin. destruct (unif E 0 UINT64_MAX r) as [u r1].
  destruct (u <=? not_null_limit); [|unfold gret; eauto]. unfold gbind. destruct (H r1) as [t0 [r2 ->]]. unfold gret. eauto.
Qed.

(** Null can be generated whatever the element generator; so can each value the default element generator can give first. *)
Theorem C59_null_possible : forall A (dflt : gen replay A) self, exists r r', arbi_nullable dflt self r = Ok (Node None [], r').
Proof.
  intros. exists [UINT64_MAX], []. unfold arbi_nullable, gbind at 1. rewrite d095_coin. reflexivity.
Qed.
Theorem C59_value_possible : forall A (dflt : gen replay A) self r t0 r', dflt r = Ok (t0, r') ->
  exists r0 t, arbi_nullable dflt self r0 = Ok (t, r') /\ points_into t t0.
Proof.
  intros A dflt self r t0 r' H. exists (0 :: r). unfold arbi_nullable, gbind at 1. rewrite d095_coin. cbn [unif replay replay_unif].
  change (0 <=? 0) with true. change (0 <=? UINT64_MAX) with true. cbn [andb]. cbv iota.
  change (0 <=? not_null_limit) with true. cbv iota. unfold gbind. rewrite H. unfold gret. eexists. split; eauto. rewrite mapShrinkable_some. apply points_map.
Qed.

(** A shared_ptr is never null; it points to what the default element generator gives, and its shrinks to the shrinks of that. *)
Theorem C59_shared_ptr : forall E A (dflt : gen E A) self r,
  match dflt r with
  | Ok (t0, r') => exists t, arbi_shared_ptr dflt self r = Ok (t, r') /\ points_into t t0 /\ (forall s, reach t s -> isNull (root s) = false)
  | UB => arbi_shared_ptr dflt self r = UB
  | Throw e => arbi_shared_ptr dflt self r = Throw e
  | OutOfFuel => arbi_shared_ptr dflt self r = OutOfFuel
  end.
Proof.
  intros. unfold arbi_shared_ptr, gbind, gret. destruct (dflt r) as [[t0 r']| | |]; auto. eexists. split; [reflexivity|].
  split; [apply points_map|]. intros s Hs. apply reach_map_inv in Hs. destruct Hs as [q [_ ->]]. rewrite root_map. auto.
Qed.

(** The claim one would expect, that a configured element generator is used, is false of both: configured with a generator of constant 7 they
    still give what the default one gives. *)
Definition uses_configured (mk : forall E A, gen E A -> arbi_ptr E A -> gen E (option A)) : Prop :=
  forall E A (dflt g : gen E A) r t r', mk E A dflt (ptr_of g) r = Ok (t, r') ->
  root t = None \/ exists r1 t0, g r1 = Ok (t0, r') /\ root t = Some (root t0).
Theorem C59_nullable_configured_refuted : ~ uses_configured (@arbi_nullable).
Proof.
  intros H. destruct (H replay Z (arbi TU8) (just 7) [0; UINT64_MAX; 3] (map_tree (@Some Z) (Node 3 [Node 0 []; Node 1 []; Node 2 []])) []) as [E|[r1 [t0 [E1 E2]]]].
  - unfold arbi_nullable, gbind at 1. rewrite d095_coin. cbn [unif replay replay_unif]. vm_compute. reflexivity.
  - discriminate E.
  - inversion E1; subst. discriminate E2.
Qed.
Theorem C59_shared_ptr_configured_refuted : ~ uses_configured (@arbi_shared_ptr).
Proof.
  intros H. destruct (H replay Z (arbi TU8) (just 7) [UINT64_MAX; 3] (map_tree (@Some Z) (Node 3 [Node 0 []; Node 1 []; Node 2 []])) []) as [E|[r1 [t0 [E1 E2]]]].
  - vm_compute. reflexivity.
  - discriminate E.
  - inversion E1; subst. discriminate E2.
Qed.

Example C59_ex : not_null_limit = 17524406870024073216 /\
  arbi_nullable (E := replay) (arbi TU8) (ptr_of (just 7)) [not_null_limit; UINT64_MAX; 2] = Ok (Node (Some 2) [Node (Some 0) []; Node (Some 1) []], []) /\
  arbi_nullable (E := replay) (arbi TU8) (ptr_default (arbi TU8)) [not_null_limit + 1; UINT64_MAX; 2] = Ok (Node None [], [UINT64_MAX; 2]) /\
  arbi_shared_ptr (E := replay) (arbi TU8) (ptr_default (arbi TU8)) [UINT64_MAX; 2] = Ok (Node (Some 2) [Node (Some 0) []; Node (Some 1) []], []).
Proof. repeat split; vm_compute; reflexivity. Qed.
Example C59_total_ex : (forall r1 : rst replay, exists t0 r2, just (E := replay) 4 r1 = Ok (t0, r2)) /\ just (E := replay) 4 [8] = Ok (Node 4 [], [8]).
Proof. split; [unfold just, gret; eauto|reflexivity]. Qed.

Print Assumptions C59_nullable.
Print Assumptions C59_nullable_shrink.
Print Assumptions C59_nullable_total.
Print Assumptions C59_null_possible.
Print Assumptions C59_value_possible.
Print Assumptions C59_shared_ptr.
Print Assumptions C59_nullable_configured_refuted.
Print Assumptions C59_shared_ptr_configured_refuted.
