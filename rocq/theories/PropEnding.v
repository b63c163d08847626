(** C85: how likely it is that a generator which refers to itself returns.
    The recursion is a family tree (C69): it ends when the tree does.  [boxGen n] allows [n] calls inside each other. *)
From Coq Require Import List ZArith QArith Lia Lqa Bool Arith.
From Verif Require Import Base TreeModel RandomModel ContainerModel GenModel RecursiveModel RecursiveSpec ChanceSpec ChanceProof PropChance EndingSpec EndingProof.
Import ListNotations.
Local Open Scope Q_scope.

(** The probability that the value is at most [n] deep; and that the generator returns at all, with so many calls inside each other, or does not. *)
Theorem C85_depth : forall mn mx make, (0 <= mn)%Z -> (mn <= mx)%Z -> (mx <= UINT32_MAX)%Z -> (forall t, root (make t) = Box (root t)) -> forall m n,
  likely (fun E => boxGen m make {| minSize := mn; maxSize := mx |}) (fun b => depth b <=? n)%nat (ending mn mx (Nat.min n m)).
Proof. intros mn mx make H0 H1 H2 Hm m n. exists (box_plan mn mx m). split; [apply box_law; auto|apply box_depth_prob; exact H1]. Qed.
Theorem C85_returns : forall mn mx make, (0 <= mn)%Z -> (mn <= mx)%Z -> (mx <= UINT32_MAX)%Z -> (forall t, root (make t) = Box (root t)) -> forall n,
  likelyResult (fun E r => Ok (returns (boxGen n make {| minSize := mn; maxSize := mx |} r))) (fun b => b) (ending mn mx n) /\
  likelyResult (fun E r => Ok (returns (boxGen n make {| minSize := mn; maxSize := mx |} r))) negb (1 - ending mn mx n).
Proof.
  intros mn mx make H0 H1 H2 Hm n. apply (likely_returns box (fun E => boxGen n make {| minSize := mn; maxSize := mx |})).
  exists (box_plan mn mx n). split; [apply box_law; auto|apply box_prob; exact H1].
Qed.
(** The probability of each single value: one factor for each box. *)
Theorem C85_value : forall mn mx make, (0 <= mn)%Z -> (mn <= mx)%Z -> (mx <= UINT32_MAX)%Z -> (forall t, root (make t) = Box (root t)) ->
  forall n b isb, within mn mx b -> (depth b <= n)%nat -> (forall c, isb c = true <-> c = b) ->
  likely (fun E => boxGen n make {| minSize := mn; maxSize := mx |}) isb (power (1 / inject_Z (mx - mn + 1)) (boxes b)).
Proof.
  intros mn mx make H0 H1 H2 Hm n b isb W D I. exists (box_plan mn mx n). split; [apply box_law; auto|]. rewrite <- (box_value_prob mn mx H0 H1 n b W D).
  apply prob_ext. intros c. apply eq_true_iff_eq. rewrite I, box_eqb_true. reflexivity.
Qed.

(** More calls do not hurt; no probability [c] that reproduces itself is ever passed. *)
Theorem C85_monotone : forall mn mx, (0 <= mn)%Z -> (mn <= mx)%Z -> forall n m, (n <= m)%nat -> 0 <= ending mn mx n /\ ending mn mx n <= ending mn mx m /\ ending mn mx m <= 1.
Proof. intros mn mx H0 H1 n m H. split; [apply ending_range; auto|]. split; [apply ending_mono; auto|apply ending_range; auto]. Qed.
Theorem C85_limit : forall mn mx c, (0 <= mn)%Z -> (mn <= mx)%Z -> 0 <= c -> average mn mx (fun k => power c (Z.to_nat k)) <= c -> forall n, ending mn mx n <= c.
Proof. intros mn mx c H0 H1. apply ending_below; auto. Qed.

(** One child at most: returns within [n] calls but once in 2^n.  Two at most, as documented: needs more than [n] calls inside each other with a
    probability between 2/(n+2) and 3/(n+3). *)
Theorem C85_one : forall n, ending 0 1 n == 1 - power (1 # 2) n.
Proof. exact ending_zero_one. Qed.
Theorem C85_two : forall n, let x := inject_Z (Z.of_nat n) in 2 / (x + 2) <= 1 - ending 0 2 n /\ 1 - ending 0 2 n <= 3 / (x + 3).
Proof. exact ending_zero_two. Qed.
(** Three or more: whatever the depth allowed, it returns with probability 2/(mx+1) at most; an empty box alone makes half of that. *)
Theorem C85_wide : forall mx n, (3 <= mx)%Z -> 1 / inject_Z (mx + 1) <= ending 0 mx (S n) /\ ending 0 mx (S n) <= 2 / inject_Z (mx + 1).
Proof. intros mx n H. split; [apply ending_first; lia|apply ending_wide; exact H]. Qed.

(** It returns with certainty, up to stack depth, exactly if boxes may be empty and have two children at most. *)
Theorem C85_surely : forall mn mx make, (0 <= mn)%Z -> (mn <= mx)%Z -> (mx <= UINT32_MAX)%Z -> (forall t, root (make t) = Box (root t)) ->
  surely (fun n E => boxGen n make {| minSize := mn; maxSize := mx |}) <-> (mn = 0 /\ mx <= 2)%Z.
Proof.
  intros mn mx make H0 H1 H2 Hm.
  assert (P : forall n, likely (fun E => boxGen n make {| minSize := mn; maxSize := mx |}) anything (ending mn mx n)).
  { intros n. exists (box_plan mn mx n). split; [apply box_law; auto|apply box_prob; exact H1]. }
  split.
  - intros S. destruct (Z_lt_le_dec 0 mn) as [A|A].
    + exfalso. destruct (S (1 # 2) ltac:(lra)) as (n & q & L & B). destruct (C78_unique _ _ _ _ _ L (P n)) as [X _]. rewrite (ending_none mn mx H1 ltac:(lia) n) in X. lra.
    + assert (mn = 0)%Z by lia. subst mn. split; [reflexivity|]. destruct (Z_le_gt_dec mx 2) as [B|B]; [exact B|]. exfalso.
      destruct (S (1 # 2) ltac:(lra)) as (n & q & L & C). destruct (C78_unique _ _ _ _ _ L (P n)) as [X _]. pose proof (ending_wide mx n ltac:(lia)) as W.
      assert (V : 4 <= inject_Z (mx + 1)) by (change 4 with (inject_Z 4); rewrite <- Zle_Qle; lia).
      assert (D : 2 / inject_Z (mx + 1) <= 1 # 2).
      { unfold Qdiv. apply Qmult_le_r with (inject_Z (mx + 1)); [lra|]. setoid_replace (2 * / inject_Z (mx + 1) * inject_Z (mx + 1)) with 2 by (field; lra). lra. }
      lra.
  - intros [-> Hx] [a b] He. exists (3 * Pos.to_nat b)%nat, (ending 0 mx (3 * Pos.to_nat b)). split; [apply P|].
    pose proof (ending_few mx ltac:(lia) (3 * Pos.to_nat b)) as F. assert (B : nat_Q (3 * Pos.to_nat b) == 3 * (Zpos b # 1)).
    { unfold nat_Q. replace (Z.of_nat (3 * Pos.to_nat b)) with (3 * Zpos b)%Z by lia. rewrite inject_Z_mult. reflexivity. }
    rewrite B in F. assert (A : 0 < (Zpos b # 1)) by reflexivity.
    assert (C : 3 / (3 * (Zpos b # 1) + 3) < a # b); [|lra]. apply Qlt_le_trans with (1 # b).
    + apply Qlt_shift_div_r; [lra|]. setoid_replace ((1 # b) * (3 * (Zpos b # 1) + 3)) with (3 + 3 * (1 # b)); [assert (0 < (1 # b)) by reflexivity; lra|].
      setoid_replace (1 # b) with (/ (Zpos b # 1)) by reflexivity. field. lra.
    + unfold Qlt in He. unfold Qle. cbn [Qnum Qden] in *. nia.
Qed.
(** With the default sizes, 0 to 200 children, it comes back less than once in a hundred times, whatever the stack. *)
Theorem C85_default : forall n, ending 0 200 n <= 2 # 201.
Proof. intros n. exact (ending_wide 200 n ltac:(lia)). Qed.

(** With a level it always returns; but the mean number of boxes is 1 + m + ... + m^level, where m is the mean number of children. *)
Theorem C85_level : forall mn mx make, (0 <= mn)%Z -> (mn <= mx)%Z -> (mx <= UINT32_MAX)%Z -> (forall t, root (make t) = Box (root t)) -> forall level,
  meanValue (fun E => boxLevel level make {| minSize := mn; maxSize := mx |}) (fun b => inject_Z (Z.of_nat (boxes b))) (generations (inject_Z (mn + mx) / 2) level).
Proof. intros mn mx make H0 H1 H2 Hm level. exists (level_plan mn mx level). split; [apply level_law; auto|apply level_mean; auto]. Qed.
Theorem C85_mean_unique : forall A (g : forall E, gen E A) f q q', meanValue g f q -> meanValue g f q' -> q == q'.
Proof.
  intros A g f q q' (p & L & _ & <-) (p' & L' & _ & <-). apply (mean_unique A p p' []). intros s. unfold out. rewrite <- (L (chosen_by s) []), <- (L' (chosen_by s) []). reflexivity.
Qed.

(** ** Examples *)
(** The documented generator (reference.hpp:21): a box without children comes once in three times, two nested boxes once in nine. *)
Example C85_depth_ex : likely (fun E => boxGen 5 byConstruct {| minSize := 0; maxSize := 2 |}) (fun b => depth b <=? 2)%nat (13 # 27).
Proof.
  assert (X : ending 0 2 2 == 13 # 27) by (vm_compute; reflexivity).
  destruct (C85_depth 0 2 byConstruct ltac:(lia) ltac:(lia) ltac:(vm_compute; discriminate) (fun t => eq_refl) 5 2) as (p & L & P).
  exists p. split; [exact L|]. rewrite P. exact X.
Qed.
Definition isFork (b : box) : bool := match b with Box [Box []; Box []] => true | _ => false end.
Example C85_value_ex : likely (fun E => boxGen 5 byMap {| minSize := 0; maxSize := 2 |}) isFork (1 # 27).
Proof.
  destruct (C85_value 0 2 byMap ltac:(lia) ltac:(lia) ltac:(vm_compute; discriminate) (fun t => TreeProof.root_map _ _ _ _) 5 (Box [Box []; Box []]) isFork) as (p & L & P).
  - repeat (constructor; cbn; try lia).
  - cbn. lia.
  - intros [[|[[|a l]] [|[[|c m]] [|d k]]]]; cbn; split; congruence.
  - exists p. split; [exact L|]. rewrite P. vm_compute. reflexivity.
Qed.
(** A stack that holds 998 nested calls is too small for the documented generator at least once in 500 calls. *)
Example C85_two_ex : likelyResult (fun E r => Ok (returns (boxGen 998 byConstruct {| minSize := 0; maxSize := 2 |} r))) negb (1 - ending 0 2 998) /\
  1 # 500 <= 1 - ending 0 2 998.
Proof.
  split; [exact (proj2 (C85_returns 0 2 byConstruct ltac:(lia) ltac:(lia) ltac:(vm_compute; discriminate) (fun t => eq_refl) 998))|].
  pose proof (proj1 (C85_two 998)) as H. cbv zeta in H.
  eapply Qle_trans; [|exact H]. replace (Z.of_nat 998) with 998%Z by (vm_compute; reflexivity). unfold Qle. cbn. lia.
Qed.
Example C85_wide_ex : forall n, 1 # 4 <= ending 0 3 (S n) /\ ending 0 3 (S n) <= 1 # 2.
Proof.
  intros n. destruct (C85_wide 3 n ltac:(lia)) as [L U]. split; [exact L|]. eapply Qle_trans; [exact U|]. vm_compute. discriminate.
Qed.
Example C85_limit_ex : forall n, ending 0 4 n <= 3 # 10.
Proof. apply C85_limit; try lia; vm_compute; discriminate. Qed.
Example C85_surely_ex : surely (fun n E => boxGen n byConstruct {| minSize := 0; maxSize := 2 |}) /\ ~ surely (fun n E => boxGen n byConstruct {| minSize := 0; maxSize := 3 |}).
Proof.
  split; [apply (C85_surely 0 2 byConstruct); try lia; [vm_compute; discriminate|reflexivity]|].
  intros H. apply (C85_surely 0 3 byConstruct) in H; try lia; [vm_compute; discriminate|reflexivity].
Qed.
Example C85_default_ex : forall n, likelyResult (fun E r => Ok (returns (boxGen n byConstruct {| minSize := 0; maxSize := 200 |} r))) negb (1 - ending 0 200 n) /\
  99 # 100 < 1 - ending 0 200 n.
Proof.
  intros n. split; [exact (proj2 (C85_returns 0 200 byConstruct ltac:(lia) ltac:(lia) ltac:(vm_compute; discriminate) (fun t => eq_refl) n))|].
  pose proof (C85_default n) as H. lra.
Qed.
(** BoxGen(4) with up to ten children (test_combinator2.cpp:477-497): 781 boxes in the mean. *)
Example C85_level_ex : meanValue (fun E => boxLevel 4 byConstruct {| minSize := 0; maxSize := 10 |}) (fun b => inject_Z (Z.of_nat (boxes b))) 781.
Proof.
  destruct (C85_level 0 10 byConstruct ltac:(lia) ltac:(lia) ltac:(vm_compute; discriminate) (fun t => eq_refl) 4) as (p & L & P & M).
  exists p. split; [exact L|]. split; [exact P|]. rewrite M. vm_compute. reflexivity.
Qed.

Print Assumptions C85_depth.
Print Assumptions C85_returns.
Print Assumptions C85_value.
Print Assumptions C85_monotone.
Print Assumptions C85_limit.
Print Assumptions C85_one.
Print Assumptions C85_two.
Print Assumptions C85_wide.
Print Assumptions C85_surely.
Print Assumptions C85_default.
Print Assumptions C85_level.
Print Assumptions C85_mean_unique.
