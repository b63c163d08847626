(** C69: generators that refer to themselves.
    [boxGen fuel make sizes] is the generator whose element generator is a reference() to itself, with at most [fuel] calls inside each other; [OutOfFuel] says that
    more are needed. *)
From Coq Require Import List ZArith Bool Lia Arith.
From Verif Require Import Base TreeModel TreeSpec TreeProof RandomModel ListModel ListSpec ContainerModel GenModel IntegralProof RecursiveModel RecursiveSpec RecursiveProof.
Import ListNotations.
Local Open Scope Z_scope.

(** The generator returns exactly the box spelled by the draws, if the box is not deeper than the calls may be; and it leaves the engine right after the last draw
    of the box.  Nothing else can happen than a value or too deep a recursion. *)
Theorem C69_value : forall E mn mx make, 0 <= mn -> mn <= mx -> mx <= UINT32_MAX -> (forall t, root (make t) = Box (root t)) -> forall n (r : rst E),
  (forall b r', (exists T, boxGen n make {| minSize := mn; maxSize := mx |} r = Ok (T, r') /\ root T = b) <-> grown mn mx r [b] r' /\ (depth b <= n)%nat) /\
  (boxGen n make {| minSize := mn; maxSize := mx |} r = OutOfFuel \/ exists T r', boxGen n make {| minSize := mn; maxSize := mx |} r = Ok (T, r')).
Proof.
  intros E mn mx make H0 H1 H2 Hm n r. split; [intros; apply gen_iff; auto|].
  pose proof (gen_fine mn mx H0 H1 H2 make n r) as F. destruct (boxGen n make {| minSize := mn; maxSize := mx |} r) as [[T r']| | |]; try contradiction; eauto.
Qed.

(** It ends exactly when, counting each drawn number less one, the sum gets to -1; the first time it does is the number of boxes, which is the number of draws. *)
Theorem C69_ends : forall E mn mx make, 0 <= mn -> mn <= mx -> mx <= UINT32_MAX -> (forall t, root (make t) = Box (root t)) -> forall (r : rst E),
  ((exists n T r', boxGen n make {| minSize := mn; maxSize := mx |} r = Ok (T, r')) <-> exists k, balance mn mx r k = -1) /\
  forall n T r', boxGen n make {| minSize := mn; maxSize := mx |} r = Ok (T, r') ->
    r' = after mn mx r (boxes (root T)) /\ balance mn mx r (boxes (root T)) = -1 /\ forall j, (j < boxes (root T))%nat -> balance mn mx r j > -1.
Proof.
  intros E mn mx make H0 H1 H2 Hm r.
  assert (K : forall n T r', boxGen n make {| minSize := mn; maxSize := mx |} r = Ok (T, r') ->
    r' = after mn mx r (boxes (root T)) /\ balance mn mx r (boxes (root T)) = -1 /\ forall j, (j < boxes (root T))%nat -> balance mn mx r j > -1).
  { intros n T r' H. apply (gen_grown mn mx H0 H1 H2 make Hm) in H. destruct H as [H _]. apply grown_balance in H; auto. cbn [map length] in H.
    change (list_sum [boxes (root T)]) with (boxes (root T) + 0)%nat in H. rewrite Nat.add_0_r in H. apply H. }
  split; [|exact K]. split.
  - intros [n [T [r' H]]]. exists (boxes (root T)). apply (K _ _ _ H).
  - intros [k Hk]. destruct (balance_least mn mx H1 H0 k r Hk) as [j [_ [Hj Hl]]].
    destruct (balance_grown mn mx H1 H0 j 1 r Hj Hl) as [l [L G]]. destruct l as [|b [|]]; try discriminate.
    destruct (proj2 (gen_iff mn mx H0 H1 H2 make Hm (depth b) r b (after mn mx r j))) as [T [HT _]]; [split; auto|]. eauto.
Qed.

(** When each box has at least one child, the recursion never ends. *)
Theorem C69_never : forall E mn mx make, 1 <= mn -> mn <= mx -> mx <= UINT32_MAX -> (forall t, root (make t) = Box (root t)) -> forall n (r : rst E),
  boxGen n make {| minSize := mn; maxSize := mx |} r = OutOfFuel.
Proof.
  intros E mn mx make H0 H1 H2 Hm n r. assert (H0' : 0 <= mn) by lia.
  destruct (C69_value E mn mx make H0' H1 H2 Hm n r) as [_ [K|[T [r' K]]]]; auto. exfalso.
  destruct (C69_ends E mn mx make H0' H1 H2 Hm r) as [_ E2]. destruct (E2 _ _ _ K) as [_ [B _]].
  assert (P : forall k, 0 <= balance mn mx r k). { induction k as [|k IH]; cbn [balance]; [lia|]. pose proof (drawn_bounds mn mx H1 r k). lia. }
  specialize (P (boxes (root T))). lia.
Qed.

(** Even when boxes may be empty: no number of calls inside each other suffices for all seeds ... *)
Theorem C69_bounded_refuted : forall mx make, 1 <= mx -> mx <= UINT32_MAX -> (forall t, root (make t) = Box (root t)) ->
  ~ exists n, forall r : rst replay, exists T r', boxGen n make {| minSize := 0; maxSize := mx |} r = Ok (T, r').
Proof.
  intros mx make H1 H2 Hm [n H]. specialize (H (repeat 1 n : rst replay)). destruct H as [T [r' H]].
  apply (gen_grown 0 mx ltac:(lia) ltac:(lia) H2 make Hm) in H. destruct H as [G D].
  assert (K : forall k b q, @grown replay 0 mx (repeat 1 k : rst replay) [b] q -> (depth b > k)%nat).
  { clear - H1. induction k as [|k IH]; intros b q G; destruct b as [cs]; [cbn [depth]; lia|].
    apply grown_inv in G. destruct G as [m [r1 [cs' [r2 [Eb [Hd [Hc [Hl _]]]]]]]]. inversion Eb; subst cs'.
    cbn [repeat] in Hd. unfold draw in Hd. destruct (Z.leb_spec 0 mx); [|lia]. cbn in Hd. destruct (Z.leb_spec 1 mx); [|lia]. injection Hd as Hd1 Hd2. subst r1. rewrite <- Hd1 in Hl.
    destruct cs as [|c [|]]; try (cbn in Hl; lia). specialize (IH _ _ Hc). cbn [depth map list_max fold_right]. lia. }
  specialize (K _ _ _ G). lia.
Qed.

(** ... and an engine within its contract may keep it from ending at all. *)
Definition C69_highest : engine := {| rst := unit; unif := fun a b r => (b, r); unif_range := fun a b r H => conj H (Z.le_refl b) |}.
Theorem C69_ends_refuted : forall mx make, 1 <= mx -> mx <= UINT32_MAX -> (forall t, root (make t) = Box (root t)) ->
  forall n, boxGen n make {| minSize := 0; maxSize := mx |} (tt : rst C69_highest) = OutOfFuel.
Proof.
  intros mx make H1 H2 Hm n. destruct (C69_value C69_highest 0 mx make ltac:(lia) ltac:(lia) H2 Hm n tt) as [_ [K|[T [r' K]]]]; auto. exfalso.
  destruct (C69_ends C69_highest 0 mx make ltac:(lia) ltac:(lia) H2 Hm tt) as [_ E2]. destruct (E2 _ _ _ K) as [_ [B _]].
  assert (P : forall k, 0 <= @balance C69_highest 0 mx tt k). { induction k as [|k IH]; cbn [balance]; [lia|]. unfold drawn. cbn. lia. }
  specialize (P (boxes (root T))). lia.
Qed.

(** Shrinks: with the method map they take boxes out, at any depth, never below the minimum number of children or beyond the maximum; all ways to take children out
    of the outermost box are there.  With construct there are none. *)
Theorem C69_shrinks : forall E mn mx, 0 <= mn -> mn <= mx -> mx <= UINT32_MAX -> forall n (r : rst E) T r',
  boxGen n byMap {| minSize := mn; maxSize := mx |} r = Ok (T, r') ->
  all_values (fun v => pruned (root T) v /\ within mn mx v) T /\
  forall cs sub, root T = Box cs -> In sub (sublists cs) -> mn <= Z.of_nat (length sub) -> In (Box sub) (values T).
Proof. intros E mn mx H0 H1 H2 n r T r' H. eapply gen_shrinks; eauto. Qed.
Theorem C69_construct_no_shrinks : forall E s n (r : rst E) T r', boxGen n byConstruct s r = Ok (T, r') -> shrinks T = [].
Proof.
  intros E s n r T r' H. destruct n; [discriminate|]. cbn [boxGen] in H. unfold gbind, gret in H. destruct (arbi_vector (boxGen n byConstruct s) s r) as [[t r1]| | |]; try discriminate.
  inversion H; subst. reflexivity.
Qed.

(** With a level that counts down it always returns: boxes at the level are empty, all above have a number of children within the bounds as the engine draws it,
    and so do the shrinks. *)
Theorem C69_level : forall E mn mx make, 0 <= mn -> mn <= mx -> mx <= UINT32_MAX -> (forall t, root (make t) = Box (root t)) -> forall level (r : rst E),
  exists T r', boxLevel level make {| minSize := mn; maxSize := mx |} r = Ok (T, r') /\ grownTo mn mx level r [root T] r' /\ leveled mn mx level (root T) /\
    (depth (root T) <= S level)%nat /\ (boxes (root T) <= powers (Z.to_nat mx) level)%nat.
Proof.
  intros E mn mx make H0 H1 H2 Hm level r. destruct (level_total mn mx H0 H1 H2 make level r) as [T [r' H]]. exists T, r'. split; auto.
  apply (level_grown mn mx H0 H1 H2 make Hm) in H. split; auto. apply grownTo_leveled in H; auto. inversion H; subst. split; auto. split; [eapply leveled_depth|eapply leveled_boxes]; eauto.
Qed.
Theorem C69_level_shrinks : forall E mn mx, 0 <= mn -> mn <= mx -> mx <= UINT32_MAX -> forall level (r : rst E) T r',
  boxLevel level byMap {| minSize := mn; maxSize := mx |} r = Ok (T, r') ->
  all_values (fun v => pruned (root T) v /\ leveled mn mx level v) T /\
  ((level > 0)%nat -> forall cs sub, root T = Box cs -> In sub (sublists cs) -> mn <= Z.of_nat (length sub) -> In (Box sub) (values T)).
Proof. intros E mn mx H0 H1 H2 level r T r' H. eapply level_shrinks; eauto. Qed.

(** Two children, the first with one child: four draws 2 1 0 0; what follows is left for others. *)
Definition C69_box : box := Box [Box [Box []]; Box []].
Example C69_ex : exists T, boxGen 3 byMap {| minSize := 0; maxSize := 2 |} ([2; 1; 0; 0; 7] : rst replay) = Ok (T, [7]) /\ root T = C69_box /\
  In (Box [Box []]) (values T) /\ In (Box []) (values T) /\ boxes C69_box = 4%nat /\ depth C69_box = 3%nat /\
  boxGen 2 byMap {| minSize := 0; maxSize := 2 |} ([2; 1; 0; 0; 7] : rst replay) = OutOfFuel.
Proof. eexists. split; [vm_compute; reflexivity|]. vm_compute. auto 15. Qed.
Example C69_grown_ex : @grown replay 0 2 [2; 1; 0; 0; 7] [C69_box] [7] /\ map (@balance replay 0 2 [2; 1; 0; 0; 7]) [0; 1; 2; 3; 4]%nat = [0; 1; 1; 0; -1].
Proof.
  split; [|vm_compute; reflexivity]. unfold C69_box.
  repeat (first [apply grown_nil | eapply grown_cons; [vm_compute; reflexivity| |reflexivity|]]).
Qed.
Example C69_construct_ex : boxGen 3 byConstruct {| minSize := 0; maxSize := 2 |} ([2; 1; 0; 0; 7] : rst replay) = Ok (Node C69_box [], [7]).
Proof. vm_compute. reflexivity. Qed.
Example C69_level_ex : exists T, boxLevel 1 byMap {| minSize := 1; maxSize := 3 |} ([2; 9; 7] : rst replay) = Ok (T, [9; 7]) /\ root T = Box [Box []; Box []] /\
  values T = [Box [Box []; Box []]; Box [Box []]; Box [Box []]].
Proof. eexists. split; [vm_compute; reflexivity|]. vm_compute. auto. Qed.

Print Assumptions C69_value.
Print Assumptions C69_ends.
Print Assumptions C69_never.
Print Assumptions C69_bounded_refuted.
Print Assumptions C69_ends_refuted.
Print Assumptions C69_shrinks.
Print Assumptions C69_construct_no_shrinks.
Print Assumptions C69_level.
Print Assumptions C69_level_shrinks.
