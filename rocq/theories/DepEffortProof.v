(** Proofs about searches in trees that draw (C83). *)
From Coq Require Import String List ZArith Lia Bool Permutation.
From Verif Require Import Base TreeModel TreeSpec TreeProof RandomModel TupleModel TupleProof BinSearchProof IntegralModel IntegralProof ListModel ListSpec ListProof ListMainProof
  ContainerModel ContainerProof EffModel EffSpec EffProof ContextModel RunnerModel RunnerSpec RunnerProof RunnerShrinkProof EffortSpec EffortProof DepEffortSpec.
Import ListNotations.
Local Open Scope nat_scope.

(* trees that do not draw *)
Lemma costs_search : forall A (ts : list (tree A)), search ts (costs ts).
Proof.
  intros A [|t ts]; [constructor|]. pose proof (costs_search_t A (Node (root t) (t :: ts))) as H. rewrite longest_eq in H. exact H.
Qed.
Lemma elist_search : forall E A (ts : list (tree A)) n, esearch (E := E) (elist ts) n -> exists m, n <= m /\ search ts m.
Proof.
  intros E A ts n H. remember (elist ts) as st eqn:Es. revert ts Es. induction H as [st|h tl|h tl r st r' n H1 H IH|h tl r st r' n H1 H IH]; intros ts Es.
  - exists (costs ts). split; [lia|]. apply costs_search.
  - destruct ts as [|t ts]; [discriminate|]. exists (S (costs ts)). split; [lia|]. apply search_pass. apply costs_search.
  - destruct ts as [|t ts]; [discriminate|]. cbn [elist] in Es. inversion Es; subst. inversion H1; subst. destruct (IH _ eq_refl) as [m [X1 X2]]. exists (S m). split; [lia|].
    apply search_pass. auto.
  - destruct ts as [|t ts]; [discriminate|]. cbn [elist] in Es. inversion Es; subst. rewrite elift_eq in H1. inversion H1; subst. destruct (IH _ eq_refl) as [m [X1 X2]].
    exists (S m). split; [lia|]. apply search_fail. auto.
Qed.
Lemma elift_within : forall E A (t : tree A) k, within k t -> ewithin (E := E) k (elift t).
Proof.
  intros E A t k Hk n [r [st [r' [H1 H2]]]]. rewrite elift_eq in H1. inversion H1; subst. apply elist_search in H2. destruct H2 as [m [X1 X2]]. specialize (Hk _ X2). lia.
Qed.
Lemma search_elist : forall E A (r : rst E) (ts : list (tree A)) n, search ts n -> esearch (E := E) (elist ts) n.
Proof.
  intros E A r ts n H. induction H as [|c cs n H IH|c cs n H IH]; cbn [elist].
  - constructor.
  - eapply (esearch_pass _ _ r); [reflexivity|exact IH].
  - eapply (esearch_fail _ _ r); [rewrite elift_eq; reflexivity|exact IH].
Qed.
Lemma search_elift : forall E A (r : rst E) (t : tree A) n, search (shrinks t) n -> tsearch (E := E) (elift t) n.
Proof. intros E A r t n H. exists r, (elist (shrinks t)), r. split; [rewrite elift_eq; reflexivity|apply search_elist; auto]. Qed.

(* flatMap and map keep the searches *)
Lemma eflatMap_search2 : forall E A B (f : A -> egen E B),
  (forall t r b r' n, eflatMap f t r = Ok (b, r') -> tsearch b n -> tsearch t n) /\
  (forall su r st r' n, eflatMap_s f su r = Ok (st, r') -> esearch st n -> esearch su n).
Proof.
  intros E A B f. apply etree_ind3.
  - intros a shr IH r b r' n H [q [st [q' [H1 H2]]]]. rewrite eflatMap_eq in H. apply gbind_ok in H. destruct H as [b0 [r1 [_ H]]]. inversion H; subst. cbn [eshrinks] in H1.
    apply gbind_ok in H1. destruct H1 as [su [q1 [H1 H3]]]. exists q, su, q1. split; [exact H1|]. exact (IH _ _ _ H1 _ _ _ _ H3 H2).
  - intros r st r' n H Hs. inversion H; subst. inversion Hs; subst. constructor.
  - intros h tl IHh IHt r st r' n H Hs. cbn [eflatMap_s] in H. apply gbind_ok in H. destruct H as [h' [r1 [H1 H]]]. inversion H; subst. inversion Hs; subst; [constructor|apply esearch_last| |].
    + match goal with X : gbind tl _ _ = _ |- _ => apply gbind_ok in X; destruct X as [su [q1 [X1 X2]]] end. eapply esearch_pass; [exact X1|]. eapply IHt; eauto.
    + destruct (IHh _ _ _ n0 H1) as [q [su [q' [X1 X2]]]]; [do 3 eexists; eauto|]. eapply esearch_fail; eauto.
Qed.
Lemma eflatMap_search : forall E A B (f : A -> egen E B) t r b r' n, eflatMap f t r = Ok (b, r') -> tsearch b n -> tsearch t n.
Proof. intros E A B f. apply (proj1 (eflatMap_search2 E A B f)). Qed.

Lemma emap_search2 : forall E A B (f : A -> B),
  (forall (t : etree E A) n, tsearch (emap f t) n -> tsearch t n) /\ (forall (su : estream E A) n, esearch (emap_s f su) n -> esearch su n).
Proof.
  intros E A B f. apply etree_ind3.
  - intros a shr IH n [q [st [q' [H1 H2]]]]. rewrite emap_eq in H1. cbn [eshrinks] in H1. apply gbind_ok in H1. destruct H1 as [su [q1 [H1 H3]]]. inversion H3; subst.
    exists q, su, q'. split; [exact H1|]. eapply IH; eauto.
  - intros n H. inversion H; subst. constructor.
  - intros h tl IHh IHt n H. cbn [emap_s] in H. inversion H; subst; [constructor|apply esearch_last| |].
    + match goal with X : gbind tl _ _ = _ |- _ => apply gbind_ok in X; destruct X as [su [q1 [X1 X2]]]; inversion X2; subst end. eapply esearch_pass; [exact X1|]. eapply IHt; eauto.
    + destruct (IHh n0) as [q [su [q' [X1 X2]]]]; [do 3 eexists; eauto|]. eapply esearch_fail; eauto.
Qed.
Lemma emap_search : forall E A B (f : A -> B) (t : etree E A) n, tsearch (emap f t) n -> tsearch t n.
Proof. intros E A B f. apply (proj1 (emap_search2 E A B f)). Qed.

(* andThen: a search, followed by one through the candidates added at a node *)
Lemma eandThen_search2 : forall E A (thn : etree E A -> G E (estream E A)),
  (forall t r b r' n, eandThen thn t r = Ok (b, r') -> tsearch b n -> exists n1 n2, n = n1 + n2 /\ tsearch t n1 /\
     (n2 = 0 \/ exists u q st q', ereach t u /\ thn u q = Ok (st, q') /\ esearch st n2)) /\
  (forall su r st r' n, eandThen_s thn su r = Ok (st, r') -> esearch st n -> exists n1 n2, n = n1 + n2 /\ esearch su n1 /\
     (n2 = 0 \/ exists c u q st q', selem su c /\ ereach c u /\ thn u q = Ok (st, q') /\ esearch st n2)).
Proof.
  intros E A thn. apply etree_ind3.
  - intros a shr IH r b r' n H [q [st [q' [H1 H2]]]]. rewrite eandThen_eq in H. apply gbind_ok in H. destruct H as [s0 [r1 [H0 H]]]. cbn [eshrinks] in H0. destruct s0 as [|h tl].
    + inversion H; subst. cbn [eshrinks] in H1. exists 0, n. split; [auto|]. split; [exists r, ENil, r'; split; [exact H0|constructor]|]. right. exists (ENode a shr), q, st, q'.
      split; [constructor|auto].
    + inversion H; subst. cbn [eshrinks] in H1. apply gbind_ok in H1. destruct H1 as [su [q1 [H1 H3]]]. destruct (IH _ _ _ H1 _ _ _ _ H3 H2) as [n1 [n2 [-> [X1 X2]]]].
      exists n1, n2. split; [auto|]. split; [exists q, su, q1; split; [exact H1|exact X1]|]. destruct X2 as [X2|[c [u [p [st2 [p' [Y1 [Y2 [Y3 Y4]]]]]]]]]; [auto|]. right.
      exists u, p, st2, p'. split; [|auto]. eapply ereach_step; [exact H1|exact Y1|exact Y2].
  - intros r st r' n H Hs. inversion H; subst. exists n, 0. split; [lia|]. split; [inversion Hs; subst; constructor|auto].
  - intros h tl IHh IHt r st r' n H Hs. cbn [eandThen_s] in H. apply gbind_ok in H. destruct H as [h' [r1 [H1 H]]]. inversion H; subst.
    inversion Hs; subst; [exists 0, 0; repeat split; auto; constructor|exists 1, 0; repeat split; auto; apply esearch_last| |].
    + match goal with X : gbind tl _ _ = _ |- _ => apply gbind_ok in X; destruct X as [su [q1 [X1 X2]]] end.
      match goal with X : esearch _ n0 |- _ => destruct (IHt _ _ _ X1 _ _ _ _ X2 X) as [n1 [n2 [-> [Y1 Y2]]]] end.
      exists (S n1), n2. split; [lia|]. split; [eapply esearch_pass; eauto|]. destruct Y2 as [Y2|[c [u [p [st2 [p' [Z1 [Z2 [Z3 Z4]]]]]]]]]; [auto|]. right. exists c, u, p, st2, p'.
      split; [eapply selem_later; eauto|auto].
    + destruct (IHh _ _ _ n0 H1) as [n1 [n2 [-> [[q [su [q' [X1 X2]]]] Y2]]]]; [do 3 eexists; eauto|]. exists (S n1), n2. split; [lia|]. split; [eapply esearch_fail; eauto|].
      destruct Y2 as [Y2|[u [p [st2 [p' [Z1 Z2]]]]]]; [auto|]. right. exists h, u, p, st2, p'. split; [constructor|auto].
Qed.
Lemma eandThen_within : forall E A (thn : etree E A -> G E (estream E A)) t r b r' j k, eandThen thn t r = Ok (b, r') -> ewithin j t ->
  (forall u q st q' n, ereach t u -> thn u q = Ok (st, q') -> esearch st n -> n <= k) -> ewithin (j + k) b.
Proof.
  intros E A thn t r b r' j k H Hj Hk n Hn. destruct (proj1 (eandThen_search2 E A thn) _ _ _ _ _ H Hn) as [n1 [n2 [-> [H1 H2]]]].
  specialize (Hj _ H1). destruct H2 as [->|[u [q [st [q' [X1 [X2 X3]]]]]]]; [lia|]. specialize (Hk _ _ _ _ _ X1 X2 X3). lia.
Qed.

(* dependent generators *)
Lemma secondShrinks_search : forall E T U (p : etree E (T * etree E U)) r st r' n, secondShrinks p r = Ok (st, r') -> esearch st n -> tsearch (snd (eroot p)) n.
Proof.
  intros E T U p r st r' n H Hn. unfold secondShrinks in H. destruct (eroot p) as [t u]. cbn [snd]. apply gbind_ok in H. destruct H as [b [r1 [H1 H2]]].
  eapply eflatMap_search; [exact H1|]. exists r1, st, r'. auto.
Qed.
Lemma dependent_effort : forall E T U W (g1 : egen E T) (g2 : T -> egen E U) (fin : T * etree E U -> etree E W) j k,
  eeffort j g1 -> (forall r tT r' u, g1 r = Ok (tT, r') -> ereach tT u -> eeffort k (g2 (eroot u))) -> eeffort (j + k) (dependent g1 g2 fin).
Proof.
  intros E T U W g1 g2 fin j k Hj Hk r b r' H. unfold dependent in H.
  apply gbind_ok in H. destruct H as [tT [r1 [H1 H]]]. apply gbind_ok in H. destruct H as [I [r2 [H2 H]]]. apply gbind_ok in H. destruct H as [J [r3 [H3 H4]]].
  assert (HI : ewithin j I) by (intros n Hn; apply (Hj _ _ _ H1); eapply eflatMap_search; eauto).
  assert (HJ : ewithin (j + k) J).
  { eapply eandThen_within; [exact H3|exact HI|]. intros u q st q' n Hu Ht Hn. destruct (inter_reach _ _ _ _ _ _ _ _ H2 _ Hu) as [v [p1 [tU [p2 [Hv [G Er]]]]]].
    apply (secondShrinks_search _ _ _ _ _ _ _ _ Ht) in Hn. rewrite Er in Hn. cbn [snd] in Hn. exact (Hk _ _ _ _ H1 Hv _ _ _ G n Hn). }
  intros n Hn. apply HJ. eapply eflatMap_search; eauto.
Qed.
Lemma aggregateSteps_effort : forall E T (g2 : T -> egen E T) k n t, ewithin k t -> (forall x, eeffort k (g2 x)) -> eeffort k (aggregateSteps n g2 t).
Proof.
  intros E T g2 k n. induction n as [|n IH]; intros t Ht Hg r v r' H; cbn [aggregateSteps] in H; [inversion H; subst; auto|].
  apply gbind_ok in H. destruct H as [u [r1 [H1 H]]]. exact (IH u (Hg _ _ _ _ H1) Hg _ _ _ H).
Qed.
Lemma accumulateSteps_effort : forall E T (g2 : T -> egen E T) k n t r l r', accumulateSteps n g2 t r = Ok (l, r') -> ewithin k t -> (forall x, eeffort k (g2 x)) -> Forall (ewithin k) l /\ length l = S n.
Proof.
  intros E T g2 k n. induction n as [|n IH]; intros t r l r' H Ht Hg; cbn [accumulateSteps] in H; [inversion H; subst; auto|].
  apply gbind_ok in H. destruct H as [u [r1 [H1 H]]]. apply gbind_ok in H. destruct H as [l0 [r2 [H2 H]]]. inversion H; subst.
  destruct (IH _ _ _ _ H2 (Hg _ _ _ _ H1) Hg) as [X1 X2]. split; [constructor; auto|cbn [length]; lia].
Qed.
Lemma lastShrinks_search : forall E T (vec : list (etree E T)) (st : estream E (list (etree E T))) n, esearch st n -> forall su, st = lastShrinks vec su -> esearch su n.
Proof.
  intros E T vec st n H. induction H as [st|h tl|h tl r st r' n H1 H IH|h tl r st r' n H1 H IH]; intros su Es.
  - constructor.
  - destruct su; [discriminate|]. apply esearch_last.
  - destruct su as [|h0 tl0]; [discriminate|]. cbn [lastShrinks] in Es. inversion Es; subst. apply gbind_ok in H1. destruct H1 as [s0 [q [X1 X2]]]. inversion X2; subst.
    eapply esearch_pass; [exact X1|]. apply IH. auto.
  - destruct su as [|h0 tl0]; [discriminate|]. cbn [lastShrinks] in Es. inversion Es; subst. inversion H1; subst. inversion H; subst. apply esearch_last.
Qed.
Lemma shrinkLast_search : forall E T (p : etree E (list (etree E T))) r st r' n k, shrinkLast p r = Ok (st, r') -> Forall (ewithin k) (eroot p) -> esearch st n -> n <= k.
Proof.
  intros E T p r st r' n k H HF Hn. unfold shrinkLast in H. destruct (rev (eroot p)) as [|lst l] eqn:Er; [inversion H; subst; inversion Hn; lia|].
  apply gbind_ok in H. destruct H as [s [q [H1 H2]]]. inversion H2; subst.
  rewrite Forall_forall in HF. apply (HF lst); [apply in_rev; rewrite Er; left; auto|]. exists r, s, r'. split; auto. eapply lastShrinks_search; eauto.
Qed.
Lemma longest_length : forall X (l : list X) m t k, (size l <= INT64_MAX)%Z -> m <= length l -> (Z.of_nat (length l - m) <= 2 ^ Z.of_nat k)%Z ->
  shrinkListLikeLength l (Z.of_nat m) = Ok t -> longest t <= S k /\ forall v, In v (values t) -> forall x, In x v -> In x l.
Proof.
  intros X l m t k Hs Hm Hk Ht. destruct (length_ok X l m Hs Hm) as [t0 [E0 [_ Hp]]]. assert (t0 = t) by congruence. subst t0. split.
  - unfold shrinkListLikeLength, size in *.
    rewrite (wrapU_small 64) in Ht by (unfold INT64_MAX in *; lia). rewrite sizeRange_ok in Ht by (unfold INT64_MAX in *; lia). cbn [bind] in Ht.
    replace (Z.of_nat (length l) - Z.of_nat m)%Z with (Z.of_nat (length l - m)) in Ht by lia. set (d := length l - m) in *.
    rewrite (flatMapM_ok _ _ _ (fun z => firstn (Z.to_nat z) l)) in Ht.
    + injection Ht as <-. rewrite !longest_map. apply longest_bs; unfold Base.UINT64_MAX, INT64_MAX in *; lia.
    + intros z Hz. rewrite values_map in Hz. apply in_map_iff in Hz. destruct Hz as [y [<- Hy]].
      apply bs_abs_in in Hy; [|unfold Base.UINT64_MAX, INT64_MAX, d in *; lia].
      destruct (Z.eqb_spec (y + Z.of_nat m) 0) as [E|E]; [rewrite E; auto|].
      replace (y + Z.of_nat m)%Z with (Z.of_nat (Z.to_nat (y + Z.of_nat m))) by lia.
      pose proof (slice_ok X l 0 (Z.to_nat (y + Z.of_nat m))) as Hsl. change (Z.of_nat 0) with 0%Z in Hsl.
      rewrite Hsl by (unfold d in *; lia). cbn [bind]. rewrite Nat.sub_0_r, Nat2Z.id. auto.
  - intros v Hv x Hx. apply (Permutation_in _ Hp) in Hv. unfold prefixes_min in Hv. apply in_map_iff in Hv. destruct Hv as [i [<- _]]. rewrite <- (firstn_skipn i l). apply in_or_app. auto.
Qed.

(* calls *)
Lemma esearch_calls : forall E V W (P : property E V W) N,
  (forall t cur s fin s', shrinkTree P N cur t s = Ok (fin, s') -> exists n, tsearch t n /\ ncalls (lg s') <= ncalls (lg s) + n) /\
  (forall st cur c s fin s', shrinkStream P N cur c st s = Ok (fin, s') -> exists n, esearch st n /\ ncalls (lg s') <= ncalls (lg s) + n).
Proof.
  intros E V W P N. apply etree_ind3.
  - intros a shr IH cur s fin s' H. cbn [shrinkTree] in H. destruct (shr (rnd s)) as [[st r']| | |] eqn:Es; try discriminate.
    destruct (IH _ _ _ Es _ _ _ _ _ H) as [n [X1 X2]]. exists n. split; [exists (rnd s), st, r'; auto|exact X2].
  - intros cur c s fin s' H. cbn [shrinkStream] in H. inversion H; subst. exists 0. split; [constructor|lia].
  - intros h tl IHh IHt cur c s fin s' H. cbn [shrinkStream] in H. destruct (tl (rnd s)) as [[st r']| | |] eqn:Es; try discriminate.
    apply bind_ok in H. destruct H as [[[b c'] s2] [H1 H2]]. apply test_calls in H1. change (lg (with_rnd r' s)) with (lg s) in H1.
    destruct (negb b || hasFailures c').
    + destruct (IHh _ _ _ _ H2) as [n [[q [su [q' [X1 X2]]]] X3]]. exists (S n). split; [eapply esearch_fail; eauto|lia].
    + destruct (IHt _ _ _ Es _ _ _ _ _ H2) as [n [X1 X3]]. exists (S n). split; [eapply esearch_pass; eauto|lia].
Qed.
Lemma each_ecalls : forall E V W (P : property E V W) ks ord streams cur s fin s',
  shrinkEach P ord streams cur s = Ok (fin, s') -> Forall2 (fun k st => forall n, esearch st n -> n <= k) ks streams ->
  ncalls (lg s') <= ncalls (lg s) + list_sum (map (fun N => match nth_error ks N with Some k => k | None => 0 end) ord).
Proof.
  intros E V W P ks. induction ord as [|N o IH]; intros streams cur s fin s' H HF; cbn [shrinkEach] in H; [inversion H; subst; simpl; lia|].
  destruct (nth_error streams N) as [st|] eqn:En; [|discriminate]. apply bind_ok in H. destruct H as [[cur' s1] [H1 H2]].
  destruct (proj2 (esearch_calls E V W P N) _ _ _ _ _ _ H1) as [n [X1 X2]]. apply IH in H2; auto.
  assert (Hk : exists k, nth_error ks N = Some k /\ n <= k).
  { clear -HF En X1. revert N En. induction HF as [|k x ks streams Hx HF IH]; intros [|N] En; try discriminate; cbn [nth_error] in *; [inversion En; subst; eauto|eauto]. }
  destruct Hk as [k [Hk1 Hk2]]. cbn [map list_sum fold_right]. rewrite Hk1. unfold list_sum in H2. lia.
Qed.
Lemma shrink_ecalls : forall E V W ev (P : property E V W) s rep s' ks, order (length (gens P)) (ord_each ev) -> Forall2 earg_effort ks (gens P) ->
  shrink ev P s = Ok (rep, s') -> ncalls (lg s') <= ncalls (lg s) + list_sum ks.
Proof.
  intros E V W ev P s rep s' ks Ho HF H. apply shrink_inv in H. destruct H as [ts [r2 [streams [r3 [ts' [H1 [H2 [H3 _]]]]]]]].
  pose proof (evalTuple_length _ _ _ _ _ _ _ H1) as L1. pose proof (evalTuple_length _ _ _ _ _ _ _ H2) as L2. rewrite map_length in L2.
  apply evalTuple_ok in H1. destruct H1 as [_ R1]. apply evalTuple_ok in H2. destruct H2 as [_ R2].
  assert (HS : Forall2 (fun k (st : estream E V) => forall n, esearch st n -> n <= k) ks streams).
  { pose proof (Forall2_length HF) as L0 || assert (L0 : length ks = length (gens P)) by (clear -HF; induction HF; simpl; auto).
    assert (Hk : forall i k st, nth_error ks i = Some k -> nth_error streams i = Some st -> forall n, esearch st n -> n <= k).
    { intros i k st Hi Hst n Hn. destruct (R2 _ _ Hst) as [f [q [q' [F1 F2]]]]. rewrite nth_error_map in F1. destruct (nth_error ts i) as [t|] eqn:Et; cbn [option_map] in F1; [|discriminate].
      inversion F1; subst f. apply gbind_ok in F2. destruct F2 as [su [q1 [F2 F3]]]. inversion F3; subst.
      destruct (R1 _ _ Et) as [f [p [p' [G1 G2]]]].
      assert (Hf : earg_effort k f).
      { clear -HF Hi G1. revert i Hi G1. induction HF as [|k0 f0 ks fs Hx HF IH]; intros [|i] Hi G1; cbn [nth_error] in *; try discriminate; [inversion Hi; inversion G1; subst; auto|eauto]. }
      apply (Hf _ _ _ G2). exists q, st, q'. auto. }
    assert (Hl : length ks = length streams) by (exact (eq_trans L0 (eq_trans (eq_sym L1) (eq_sym L2)))). clear -Hk Hl. revert streams Hl Hk.
    induction ks as [|k ks IH]; intros [|st streams] Hl Hk; simpl in Hl; try discriminate; constructor; [apply (Hk 0 k st); auto|]. apply IH; [lia|]. intros i k' st' Hi Hs. apply (Hk (S i)); auto. }
  apply (each_ecalls _ _ _ _ ks) in H3; auto. change (lg (with_rnd r3 s)) with (lg s) in H3.
  etransitivity; [exact H3|]. apply Nat.add_le_mono_l. rewrite (list_sum_perm _ _ (Permutation_map _ Ho)).
  assert (L0 : length ks = length (gens P)) by (clear -HF; induction HF; simpl; auto). rewrite <- L0.
  rewrite sum_positions with (f := fun x => x). rewrite map_id. auto.
Qed.
