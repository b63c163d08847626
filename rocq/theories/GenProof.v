(** Proofs about generator combinators. *)
From Coq Require Import List ZArith Lia Bool Arith Permutation SpecFloat.
From Verif Require Import Base TreeModel TreeSpec TreeProof BinSearchProof RandomModel IntegralModel IntegralSpec IntegralProof ListModel
  ContainerModel ContainerSpec ContainerProof GenModel GenSpec.
Import ListNotations.
Local Open Scope Z_scope.

Lemma tnodes_tsize : forall A (t : tree A), tnodes t = tsize t.
Proof. reflexivity. Qed.

Lemma filterGen_step : forall E A (g : gen E A) crit fuel r t r1, g r = Ok (t, r1) ->
  filterGen (S fuel) g crit r = (if crit (root t) then gfail (filter_tol (tnodes t) crit 1 t) else filterGen fuel g crit) r1.
Proof. intros. simpl. erewrite gbind_eq by eauto. auto. Qed.

Lemma filterGen_fwd : forall E A (g : gen E A) crit fuel r t r', filterGen fuel g crit r = Ok (t, r') ->
  exists rej r1 t0, draws g r rej r1 /\ Forall (fun s => crit (root s) = false) rej /\ (length rej < fuel)%nat /\
    g r1 = Ok (t0, r') /\ crit (root t0) = true /\ filter_tol (tnodes t0) crit 1 t0 = Ok t.
Proof.
  intros E A g crit fuel. induction fuel as [|fuel IH]; intros r t r' H; [discriminate|].
  simpl in H. apply gbind_ok in H. destruct H as [s [r1 [H1 H2]]]. destruct (crit (root s)) eqn:Ec.
  - unfold gfail in H2. destruct (filter_tol (tnodes s) crit 1 s) eqn:Ef; try discriminate. inversion H2; subst.
    exists [], r, s. repeat split; auto; [constructor|simpl; lia].
  - apply IH in H2. destruct H2 as [rej [r2 [t0 [D [F [L [G1 [C1 T1]]]]]]]].
    exists (s :: rej), r2, t0. repeat split; auto; [econstructor; eauto|simpl; lia].
Qed.

Lemma filterGen_bwd : forall E A (g : gen E A) crit rej r r1 t0 r' t, draws g r rej r1 ->
  Forall (fun s => crit (root s) = false) rej -> g r1 = Ok (t0, r') -> crit (root t0) = true ->
  filter_tol (tnodes t0) crit 1 t0 = Ok t -> forall fuel, (length rej < fuel)%nat -> filterGen fuel g crit r = Ok (t, r').
Proof.
  intros E A g crit rej r r1 t0 r' t D. induction D as [r|r a r1 l r2 H D IH]; intros F G1 C1 T1 fuel L;
    (destruct fuel as [|fuel]; [simpl in L; lia|]).
  - erewrite filterGen_step by eauto. rewrite C1. unfold gfail. rewrite T1. auto.
  - inversion F; subst. erewrite filterGen_step by eauto. rewrite H2. apply IH; auto. simpl in L. lia.
Qed.

Lemma filterGen_never : forall E A (g : gen E A) crit, (forall r, exists t r', g r = Ok (t, r') /\ crit (root t) = false) ->
  forall fuel r, filterGen fuel g crit r = OutOfFuel.
Proof.
  intros E A g crit Hg. induction fuel as [|fuel IH]; intros r; auto.
  destruct (Hg r) as [t [r' [H1 H2]]]. erewrite filterGen_step by eauto. rewrite H2. apply IH.
Qed.

(** oneOf *)
Lemma scan_ok : forall ws sum n, Forall legal_weight ws ->
  scanWeights ws sum n = Ok (fold_left (SFadd dprec demax) ws sum, n + Z.of_nat (length (filter unassigned ws))).
Proof.
  induction ws as [|w ws IH]; intros sum n H; simpl; [f_equal; f_equal; lia|].
  inversion H as [|? ? [H1 H2] H3]; subst. unfold d_zero. rewrite H1, H2. cbn [orb]. rewrite IH by auto.
  unfold unassigned at 2. destruct (SFeqb w (S754_zero false)); cbn [length]; f_equal; f_equal; lia.
Qed.

Lemma scan_bad : forall ws sum n, ~ Forall legal_weight ws -> scanWeights ws sum n = Throw ERuntime.
Proof.
  induction ws as [|w ws IH]; intros sum n H; simpl; [exfalso; apply H; constructor|].
  unfold d_zero. destruct (SFltb w (S754_zero false)) eqn:E1; auto. destruct (SFltb d_one w) eqn:E2; auto. cbn [orb].
  apply IH. intros F. apply H. constructor; auto. split; auto.
Qed.

Lemma legal_dec : forall ws, Forall legal_weight ws \/ ~ Forall legal_weight ws.
Proof.
  induction ws as [|w ws IH]; [left; constructor|].
  destruct IH as [IH|IH]; [|right; intros H; inversion H; auto].
  destruct (SFltb w (S754_zero false)) eqn:E1; [right; intros H; inversion H as [|? ? [A B]]; congruence|].
  destruct (SFltb d_one w) eqn:E2; [right; intros H; inversion H as [|? ? [A B]]; congruence|].
  left. constructor; auto. split; auto.
Qed.

Lemma getRandomSize_n : forall E n (r : rst E), 0 < n -> n <= UINT32_MAX + 1 -> getRandomSize 0 n r = draw 0 (n - 1) r.
Proof.
  intros E n r H1 H2. unfold getRandomSize, UINT32_MAX in *. rewrite (wrapU_small 64) by lia.
  rewrite !wrapU_small by lia. auto.
Qed.

Lemma retry_fwd : forall E A (g : dgen E A) fuel r t r', retry fuel g r = Ok (t, r') ->
  exists l r1, draws g r l r1 /\ Forall (fun o => o = None) l /\ (length l < fuel)%nat /\ g r1 = Ok (Some t, r').
Proof.
  intros E A g fuel. induction fuel as [|fuel IH]; intros r t r' H; [discriminate|].
  simpl in H. apply gbind_ok in H. destruct H as [[s|] [r1 [H1 H2]]].
  - inversion H2; subst. exists [], r. repeat split; auto; [constructor|simpl; lia].
  - apply IH in H2. destruct H2 as [l [r2 [D [F [L G1]]]]].
    exists (None :: l), r2. repeat split; auto; [econstructor; eauto|simpl; lia].
Qed.

Lemma retry_bwd : forall E A (g : dgen E A) l r r1 t r', draws g r l r1 -> Forall (fun o => o = None) l ->
  g r1 = Ok (Some t, r') -> forall fuel, (length l < fuel)%nat -> retry fuel g r = Ok (t, r').
Proof.
  intros E A g l r r1 t r' D. induction D as [r|r a r1 l r2 H D IH]; intros F G1 fuel L;
    (destruct fuel as [|fuel]; [simpl in L; lia|]); simpl.
  - erewrite gbind_eq by eauto. auto.
  - inversion F; subst. erewrite gbind_eq by eauto. cbn. apply IH; auto. simpl in L. lia.
Qed.

Lemma draws_none_fuel : forall E A (g : dgen E A) f1 f2 r x, retry f1 g r = Ok x -> (f1 <= f2)%nat -> retry f2 g r = Ok x.
Proof.
  intros E A g f1 f2 r [t r'] H L. apply retry_fwd in H. destruct H as [l [r1 [D [F [L1 G1]]]]].
  eapply retry_bwd; eauto. lia.
Qed.

Lemma idx_nth : forall A (l : list A) i x, idx l i = Ok x <-> (0 <= i /\ nth_error l (Z.to_nat i) = Some x).
Proof.
  intros A l i x. unfold idx. destruct (Z.ltb_spec i 0).
  - split; [discriminate|lia].
  - destruct (nth_error l (Z.to_nat i)); split.
    + intros E. inversion E. auto.
    + intros [_ E]. congruence.
    + discriminate.
    + intros [_ E]. discriminate.
Qed.

Lemma nth_combine : forall A B (l : list A) (l' : list B) n a b, nth_error (combine l l') n = Some (a, b) <->
  (nth_error l n = Some a /\ nth_error l' n = Some b).
Proof.
  induction l as [|x l IH]; intros [|y l'] [|n] a b; simpl; try (split; [discriminate|intros [? ?]; discriminate]).
  - split; [intros E; inversion E; auto|intros [E1 E2]; congruence].
  - apply IH.
Qed.

Section Loop.
Context {E : engine} {A : Type} (gs : list (dgen E A)) (ws : list spec_float).
Hypothesis Hlen : length gs = length ws.
Hypothesis Hpos : 0 < Z.of_nat (length ws).
Hypothesis Hmax : Z.of_nat (length ws) <= UINT32_MAX + 1.

Lemma loop_unfold : forall fuel r, oneOfLoop (S fuel) (combine gs ws) r =
  gbind (draw 0 (Z.of_nat (length ws) - 1)) (fun dice => gbind (gfail (idx (combine gs ws) dice)) (fun gw =>
      gbind (getRandomBool (snd gw)) (fun hit =>
      if hit then retry fuel (fst gw) else oneOfLoop fuel (combine gs ws)))) r.
Proof.
  intros fuel r. cbn [oneOfLoop]. unfold weighted. rewrite combine_length, Hlen, Nat.min_id. unfold gbind at 1 4.
  rewrite getRandomSize_n by auto. auto.
Qed.

Lemma loop_fwd : forall fuel r t r', oneOfLoop fuel (combine gs ws) r = Ok (t, r') ->
  exists i g l r1 r2, chosen ws r i r1 /\ nth_error gs i = Some g /\ draws g r1 l r2 /\ Forall (fun o => o = None) l /\
    g r2 = Ok (Some t, r').
Proof.
  induction fuel as [|fuel IH]; intros r t r' H; [discriminate|].
  rewrite loop_unfold in H. apply gbind_ok in H. destruct H as [d [r1 [H1 H]]].
  apply gbind_ok in H. destruct H as [[g w] [r2 [H2 H]]]. unfold gfail in H2.
  destruct (idx (combine gs ws) d) as [gw| | |] eqn:Ei; try discriminate. inversion H2; subst gw r2.
  apply idx_nth in Ei. destruct Ei as [Hd Ei]. apply nth_combine in Ei. destruct Ei as [Eg Ew].
  apply gbind_ok in H. destruct H as [hit [r3 [H3 H]]]. cbn [snd fst] in *.
  rewrite <- (Z2Nat.id d) in H1 by auto. destruct hit.
  - apply retry_fwd in H. destruct H as [l [r4 [D [F [L G1]]]]].
    exists (Z.to_nat d), g, l, r3, r4. split; [|auto].
    exists [], r, r1, w. split; [constructor|auto].
  - apply IH in H. destruct H as [i [g' [l [r4 [r5 [[l' [r6 [r7 [w' [HR HC]]]]] HG]]]]]].
    exists i, g', l, r4, r5. split; [|auto]. exists (Z.to_nat d :: l'), r6, r7, w'. split; [|auto].
    econstructor; eauto.
Qed.

Lemma loop_bwd : forall r i r1 g l r2 t r', chosen ws r i r1 -> nth_error gs i = Some g -> draws g r1 l r2 ->
  Forall (fun o => o = None) l -> g r2 = Ok (Some t, r') ->
  exists fuel0, forall fuel, (fuel0 <= fuel)%nat -> oneOfLoop fuel (combine gs ws) r = Ok (t, r').
Proof.
  intros r i r1 g l r2 t r' [l' [r3 [r4 [w [HR [HD [HW HC]]]]]]] Hg D F G1.
  induction HR as [r|r j ra wj rb lj rc Hd Hw Hc HR IH].
  - exists (S (S (length l))). intros [|fuel] Hf; [lia|]. rewrite loop_unfold.
    erewrite gbind_eq by eauto. rewrite (gbind_eq _ _ _ _ _ _ (g, w) r4).
    + cbn [snd fst]. erewrite gbind_eq by eauto. cbn. eapply retry_bwd; eauto. lia.
    + unfold gfail. replace (idx (combine gs ws) (Z.of_nat i)) with (Ok (g, w)); auto. symmetry. apply idx_nth.
      split; [lia|]. rewrite Nat2Z.id. apply nth_combine. auto.
  - destruct (IH HD) as [f0 IH']. exists (S f0). intros [|fuel] Hf; [lia|]. rewrite loop_unfold.
    erewrite gbind_eq by eauto.
    assert (Hgj : exists gj, nth_error gs j = Some gj).
    { destruct (nth_error gs j) eqn:Ej; [eauto|]. apply nth_error_None in Ej.
      assert (j < length ws)%nat by (apply nth_error_Some; congruence). lia. }
    destruct Hgj as [gj Hgj]. rewrite (gbind_eq _ _ _ _ _ _ (gj, wj) ra).
    + cbn [snd fst]. erewrite gbind_eq by eauto. cbn. apply IH'. lia.
    + unfold gfail. replace (idx (combine gs ws) (Z.of_nat j)) with (Ok (gj, wj)); auto. symmetry. apply idx_nth.
      split; [lia|]. rewrite Nat2Z.id. apply nth_combine. auto.
Qed.
End Loop.
