From Coq Require Import List ZArith Bool Lia Permutation Arith.
From Verif Require Import Base RandomModel TreeModel TupleModel ContainerProof EffModel EffSpec EffProof ContextModel ContextProof RunnerModel RunnerSpec RunnerProof RunnerShrinkProof
  ConstructModel ConstructSpec.
Import ListNotations.
Local Open Scope list_scope.

(** * Evaluation of argument lists *)

Lemma evalIn_turn : forall E X (fs : list (G E (X + err))) ord acc r acc' r', NoDup ord -> length acc = length fs ->
  evalIn ord fs acc r = Ok (inl acc', r') ->
  length acc' = length fs /\ (forall j, ~ In j ord -> nth_error acc' j = nth_error acc j) /\
  (forall vals, (forall j, In j ord -> nth_error acc' j = option_map Some (nth_error vals j)) -> in_turn fs vals ord r r').
Proof.
  intros E X fs. induction ord as [|i o IH]; intros acc r acc' r' N L H; simpl in H.
  - inversion H; subst. split; auto. split; auto. intros. constructor.
  - destruct (nth_error fs i) as [f|] eqn:En; [|discriminate]. apply gbind_ok in H. destruct H as [x [r1 [H1 H2]]]. destruct x as [a|e]; [|discriminate].
    inversion N as [|? ? Ni No]; subst. destruct (IH (set_nth i (Some a) acc) _ _ _ No ltac:(rewrite set_nth_len; auto) H2) as (A & B & C).
    split; auto. split.
    + intros j Hj. rewrite B by (intros X0; apply Hj; right; auto). apply set_nth_other. intros ->. apply Hj. left. auto.
    + intros vals Hv. pose proof (nth_error_lt _ _ _ _ En) as Hlt. pose proof (Hv i (or_introl eq_refl)) as Hi.
      rewrite B, set_nth_at in Hi by (auto; lia). destruct (nth_error vals i) as [y|] eqn:Ey; [|discriminate]. cbn in Hi. injection Hi as <-.
      econstructor; eauto. apply C. intros j Hj. apply Hv. right. auto.
Qed.

Lemma evalIn_turn_back : forall E X (fs : list (G E (X + err))) vals ord r r', in_turn fs vals ord r r' -> forall acc, NoDup ord -> length acc = length fs ->
  exists acc', evalIn ord fs acc r = Ok (inl acc', r') /\ length acc' = length fs /\ (forall j, ~ In j ord -> nth_error acc' j = nth_error acc j) /\
    (forall j, In j ord -> nth_error acc' j = option_map Some (nth_error vals j)).
Proof.
  intros E X fs vals ord r r' H. induction H as [r|i o f x r r1 r2 Ef Hx Ev H IH]; intros acc N L; simpl.
  - exists acc. split; [reflexivity|]. split; auto. split; auto. intros j [].
  - inversion N as [|? ? Ni No]; subst. rewrite Ef. unfold gbind at 1. rewrite Hx.
    destruct (IH (set_nth i (Some x) acc) No ltac:(rewrite set_nth_len; auto)) as (acc' & A & B & C & D). exists acc'. split; auto. split; auto.
    pose proof (nth_error_lt _ _ _ _ Ef) as Hlt. split.
    + intros j Hj. rewrite C by (intros X0; apply Hj; right; auto). apply set_nth_other. intros ->. apply Hj. left. auto.
    + intros j [<-|Hj]; auto. rewrite C, set_nth_at by (auto; lia). rewrite Ev. auto.
Qed.

Lemma nth_ext : forall X (l l' : list X), (forall j, nth_error l j = nth_error l' j) -> l = l'.
Proof.
  intros X. induction l as [|x l IH]; intros [|y l'] H; auto; [specialize (H 0)|specialize (H 0)|]; try discriminate.
  pose proof (H 0) as H0. cbn in H0. injection H0 as ->. f_equal. apply IH. intros j. apply (H (S j)).
Qed.

Lemma collect_map_some : forall X (l : list X), collect (map Some l) = Some l.
Proof. intros X. induction l as [|x l IH]; auto. cbn. rewrite IH. auto. Qed.

Lemma evalTuple_turn : forall E X (fs : list (G E (X + err))) ord r vals r', order (length fs) ord ->
  (evalTuple ord fs r = Ok (inl vals, r') <-> length vals = length fs /\ in_turn fs vals ord r r').
Proof.
  intros E X fs ord r vals r' O. pose proof (order_nodup _ _ O) as N. split.
  - intros H. split; [eapply evalTuple_length; eauto|]. apply gbind_ok in H. destruct H as [x [r1 [H1 H2]]]. destruct x as [acc|e]; [|discriminate].
    destruct (collect acc) as [l|] eqn:C; [|discriminate]. inversion H2; subst. apply collect_some in C. subst acc.
    apply (evalIn_turn _ _ _ _ _ _ _ _ N (map_length _ _)) in H1. destruct H1 as (_ & _ & K). apply K. intros j _. rewrite nth_error_map. reflexivity.
  - intros [L T]. destruct (evalIn_turn_back _ _ _ _ _ _ _ T (map (fun _ => None) fs) N (map_length _ _)) as (acc & A & B & _ & D).
    assert (acc = map Some vals) as ->.
    { apply nth_ext. intros j. rewrite nth_error_map. destruct (lt_dec j (length fs)) as [Hj|Hj]; [apply D; apply (order_in _ _ O); auto|].
      rewrite (proj2 (nth_error_None acc j)) by lia. rewrite (proj2 (nth_error_None vals j)) by lia. reflexivity. }
    unfold evalTuple. rewrite (gbind_eq _ _ _ _ _ _ _ _ A), collect_map_some. reflexivity.
Qed.

(** * construct *)

Lemma construct_ok : forall E V A ord (gens : list (xgen E V)) (ctor : list V -> A + err) r t r', order (length gens) ord ->
  (construct ord gens ctor r = Ok (inl t, r') <->
   exists args a, length args = length gens /\ in_turn gens args ord r r' /\ ctor (map eroot args) = inl a /\ t = ENode a (gret ENil)).
Proof.
  intros E V A ord gens ctor r t r' O. unfold construct. split.
  - intros H. apply gbind_ok in H. destruct H as [x [r1 [H1 H2]]]. destruct x as [args|e]; [|discriminate].
    apply (evalTuple_turn _ _ _ _ _ _ _ O) in H1. destruct H1 as [L T]. destruct (ctor (map eroot args)) as [a|e] eqn:C; [|discriminate].
    inversion H2; subst. exists args, a. auto.
  - intros (args & a & L & T & C & ->). assert (X : evalTuple ord gens r = Ok (inl args, r')) by (apply (evalTuple_turn _ _ _ _ _ _ _ O); auto).
    rewrite (gbind_eq _ _ _ _ _ _ _ _ X), C. reflexivity.
Qed.

Lemma evalIn_throws : forall E X (fs : list (G E (X + err))) e ord acc r r', (forall i, In i ord -> (i < length fs)%nat) ->
  (evalIn ord fs acc r = Ok (inr e, r') <-> throws_in_turn fs e ord r r').
Proof.
  intros E X fs e. induction ord as [|i o IH]; intros acc r r' Ho; cbn [evalIn].
  - split; [discriminate|intros T; inversion T].
  - destruct (nth_error fs i) as [f|] eqn:En; [|apply nth_error_None in En; specialize (Ho i (or_introl eq_refl)); lia].
    split.
    + intros H0. apply gbind_ok in H0. destruct H0 as [x [r1 [H1 H2]]]. destruct x as [a|e0].
      * eapply throws_later; eauto. eapply IH; [|exact H2]. intros; apply Ho; right; auto.
      * inversion H2; subst. eapply throws_here; eauto.
    + intros T. inversion T as [? ? f0 ? ? N0 F0|? ? f0 x ? r1 ? N0 F0 T0]; subst; rewrite En in N0; inversion N0; subst f0.
      * rewrite (gbind_eq _ _ _ _ _ _ _ _ F0). reflexivity.
      * rewrite (gbind_eq _ _ _ _ _ _ _ _ F0). apply IH; auto. intros; apply Ho; right; auto.
Qed.

Lemma evalTuple_throws : forall E X (fs : list (G E (X + err))) e ord r r', order (length fs) ord ->
  (evalTuple ord fs r = Ok (inr e, r') <-> throws_in_turn fs e ord r r').
Proof.
  intros E X fs e ord r r' O. assert (Hin : forall i, In i ord -> (i < length fs)%nat) by (intros i; apply (order_in _ _ O)).
  rewrite <- (evalIn_throws _ _ _ _ _ (map (fun _ => None) fs) _ _ Hin). unfold evalTuple. split.
  - intros H0. apply gbind_ok in H0. destruct H0 as [x [r1 [H1 H2]]]. destruct x as [acc|e0].
    + exfalso. destruct (collect acc); discriminate.
    + inversion H2; subst. auto.
  - intros H1. rewrite (gbind_eq _ _ _ _ _ _ _ _ H1). reflexivity.
Qed.

Lemma construct_throws : forall E V A ord (gens : list (xgen E V)) (ctor : list V -> A + err) r e r', order (length gens) ord ->
  (construct ord gens ctor r = Ok (inr e, r') <->
   throws_in_turn gens e ord r r' \/ exists args, length args = length gens /\ in_turn gens args ord r r' /\ ctor (map eroot args) = inr e).
Proof.
  intros E V A ord gens ctor r e r' O. unfold construct. split.
  - intros H0. apply gbind_ok in H0. destruct H0 as [x [r1 [H1 H2]]]. destruct x as [args|e0].
    + apply (evalTuple_turn _ _ _ _ _ _ _ O) in H1. destruct H1 as [L T]. destruct (ctor (map eroot args)) as [a|e0] eqn:C; [discriminate|].
      inversion H2; subst. right. exists args. auto.
    + inversion H2; subst. left. apply (evalTuple_throws _ _ _ _ _ _ _ O). auto.
  - intros [T|(args & L & T & C)].
    + apply (evalTuple_throws _ _ _ _ _ _ _ O) in T. rewrite (gbind_eq _ _ _ _ _ _ _ _ T). reflexivity.
    + assert (X : evalTuple ord gens r = Ok (inl args, r')) by (apply (evalTuple_turn _ _ _ _ _ _ _ O); auto).
      rewrite (gbind_eq _ _ _ _ _ _ _ _ X), C. reflexivity.
Qed.

Lemma construct_unshrinkable : forall E V A ord (gens : list (xgen E V)) (ctor : list V -> A + err), unshrinkable (construct ord gens ctor).
Proof.
  intros E V A ord gens ctor r t r' H r0. unfold construct in H. apply gbind_ok in H. destruct H as [x [r1 [_ H]]]. destruct x as [args|e]; [|discriminate].
  destruct (ctor (map eroot args)); [|discriminate]. inversion H; subst. reflexivity.
Qed.

Lemma listed_all : forall X (l : list X) k n, (forall i, (i < n)%nat -> nth_error l (k + i) <> None) ->
  createGenHelperListed l (map (fun i => k + i)%nat (seq 0 n)) = firstn n (skipn k l).
Proof.
  intros X l k n. revert k. induction n as [|n IH]; intros k H; auto.
  cbn [seq map]. unfold createGenHelperListed in *. cbn [flat_map]. replace (k + 0)%nat with k by lia.
  pose proof (H 0%nat ltac:(lia)) as H0. rewrite Nat.add_0_r in H0. destruct (nth_error l k) as [x|] eqn:E; [|congruence].
  rewrite <- seq_shift, map_map. specialize (IH (S k)).
  rewrite (map_ext _ (fun i => S k + i)%nat) by (intros; lia). rewrite IH.
  - cbn [app]. assert (S0 : skipn k l = x :: skipn (S k) l).
    { clear -E. revert l E. induction k as [|k IH]; intros [|y l] E; try discriminate; cbn in E |- *; [congruence|]. apply IH. auto. }
    rewrite S0. reflexivity.
  - intros i Hi. specialize (H (S i) ltac:(lia)). replace (S k + i)%nat with (k + S i)%nat by lia. auto.
Qed.

Lemma constructGens_ok : forall X (defaults explicits : list X), (length explicits <= length defaults)%nat ->
  constructGens defaults explicits = explicits ++ skipn (length explicits) defaults.
Proof.
  intros X defaults explicits L. unfold constructGens.
  assert (K : createGenHelperListed defaults (map (fun i => length explicits + i)%nat (seq 0 (length defaults - length explicits))) = skipn (length explicits) defaults).
  { rewrite listed_all by (intros i Hi; apply nth_error_Some; lia). apply firstn_all2. rewrite skipn_length. lia. }
  destruct explicits as [|e explicits]; [|rewrite K; auto]. cbn [length] in K. rewrite Nat.sub_0_r in K. rewrite map_id in K. rewrite K. reflexivity.
Qed.

(** * Reports *)

Lemma shrink_other : forall E V W (P : property E V W) N,
  (forall t cur s fin s', shrinkTree P N cur t s = Ok (fin, s') -> forall j, j <> N -> nth_error fin j = nth_error cur j) /\
  (forall st cur c s fin s', shrinkStream P N cur c st s = Ok (fin, s') -> forall j, j <> N -> nth_error fin j = nth_error cur j).
Proof.
  intros E V W P N. apply etree_ind3.
  - intros a shr IH cur s fin s' H j Hj. simpl in H. destruct (shr (rnd s)) as [[st r']| | |] eqn:Es; try discriminate. eapply IH; eauto.
  - intros cur c s fin s' H j Hj. simpl in H. inversion H; subst. auto.
  - intros h tl IHh IHtl cur c s fin s' H j Hj. simpl in H. destruct (tl (rnd s)) as [[st' r']| | |] eqn:Es; try discriminate.
    apply bind_ok in H. destruct H as [[[b c'] s2] [Ht H]]. destruct (negb b || hasFailures c').
    + rewrite (IHh _ _ _ _ H j Hj). apply set_nth_other. auto.
    + eapply IHtl; eauto.
Qed.

Lemma shrinkEach_other : forall E V W (P : property E V W) streams j, nth_error streams j = Some ENil \/ nth_error streams j = None ->
  forall ord cur s fin s', shrinkEach P ord streams cur s = Ok (fin, s') -> nth_error fin j = nth_error cur j.
Proof.
  intros E V W P streams j Hj. induction ord as [|N o IH]; intros cur s fin s' H; simpl in H; [inversion H; auto|].
  destruct (nth_error streams N) as [st|] eqn:Es; [|discriminate]. apply bind_ok in H. destruct H as [[cur' s1] [H1 H2]].
  rewrite (IH _ _ _ _ H2). destruct (Nat.eq_dec j N) as [->|D]; [|eapply (proj2 (shrink_other _ _ _ P N)); eauto].
  destruct Hj as [Hj|Hj]; [|congruence]. assert (st = ENil) by congruence. subst. simpl in H1. inversion H1. auto.
Qed.

Lemma shrink_keeps : forall E V W ev (P : property E V W) s rep s' N g, nth_error (gens P) N = Some g -> unshrinkable g ->
  shrink ev P s = Ok (rep, s') -> nth_error (simplest_args rep) N = nth_error (with_args rep) N.
Proof.
  intros E V W ev P s rep s' N g Hg U H. apply shrink_inv in H. destruct H as (ts & r1 & streams & r2 & ts' & H1 & H2 & H3 & -> & ->).
  rewrite !nth_error_map. f_equal. eapply shrinkEach_other; [|exact H3].
  destruct (nth_error streams N) as [st|] eqn:Es; auto. left. f_equal.
  apply evalTuple_ok in H2. destruct H2 as [_ R]. destruct (R _ _ Es) as (f & r0 & r3 & F1 & F2).
  rewrite nth_error_map in F1. destruct (nth_error ts N) as [t|] eqn:Et; [|discriminate]. cbn in F1. inversion F1; subst. clear F1.
  apply evalTuple_ok in H1. destruct H1 as [_ R1]. destruct (R1 _ _ Et) as (g' & r4 & r5 & G1 & G2). assert (Eg : Some g' = Some g) by (etransitivity; [symmetry; exact G1|exact Hg]). injection Eg as ->.
  unfold gbind in F2. rewrite (U _ _ _ G2) in F2. inversion F2. auto.
Qed.

Lemma forAll_keeps : forall E V W fuel ev (P : property E V W) w n why rep s N g, nth_error (gens P) N = Some g -> unshrinkable g ->
  runForAll fuel ev P w = Ok (VFalsified n why rep, s) -> nth_error (simplest_args rep) N = nth_error (with_args rep) N.
Proof.
  intros E V W fuel ev P w n why rep s N g Hg U H. unfold runForAll in H. apply runLoop_ok in H. destruct H as (ks & s0 & s1 & _ & _ & _ & _ & _ & H).
  eapply shrink_keeps; eauto.
Qed.
