(** C93, continued: the report belongs to the first failing value drawn. *)
From Coq Require Import String List ZArith QArith Lia Lqa Bool Arith Permutation SpecFloat.
From Verif Require Import Base TreeModel TreeSpec TreeProof RandomModel TupleModel ContainerProof IntegralModel IntegralSpec IntegralProof BoolModel ContainerModel ContainerSpec ListModel StringProof PropTuple PropList PropContainer EffModel EffSpec EffProof
  ContextModel ContextSpec ContextProof RunnerModel RunnerSpec RunnerProof RunnerPureProof RunnerLogProof RunnerShrinkProof SearchSpec SearchProof ListSearchSpec PropRun PropSearch PropListSearch.
From Verif Require Import ChanceSpec ChanceProof ChanceLawProof ChanceCombProof EndingProof BugChanceProof FloatChanceProof PropChance ReportChanceSpec PropReportChance.
Import ListNotations.
Local Open Scope list_scope.

(** The first of [n] values drawn for which [ok] does not hold. *)
Fixpoint first_plan {A} (ok : A -> bool) (p : plan A) (n : nat) : plan (option A) :=
  match n with O => Ends (Ok None) | S n' => pbind p (fun a => if ok a then first_plan ok p n' else Ends (Ok (Some a))) end.
Lemma first_prob : forall A (ok : A -> bool) p (event : option A -> bool) n,
  (prob (first_plan ok p n) event == power (prob p ok) n * (if event None then 1 else 0) + series (prob p ok) n * prob p (fun a => negb (ok a) && event (Some a)))%Q.
Proof.
  intros A ok p event. induction n as [|n IH]; cbn [first_plan power series].
  - unfold prob. cbn [mean when]. ring.
  - set (D := prob p (fun a => negb (ok a) && event (Some a))) in *. set (X := prob (first_plan ok p n) event) in *.
    assert (S1 : (prob (pbind p (fun a => if ok a then first_plan ok p n else Ends (Ok (Some a)))) event == X * prob p ok + D)%Q).
    { unfold prob at 1. rewrite mean_bind. unfold D, prob at 2. unfold prob at 1. rewrite <- mean_scale, <- mean_plus. apply mean_ext.
      intros [a| | |]; cbn [over when]; try ring. destruct (ok a); cbn [negb andb].
      - unfold X, prob. ring.
      - cbn [mean when]. ring. }
    rewrite S1, IH. ring.
Qed.

Lemma first_split : forall E A V W (ev : env E) (P : property E V W) (inj : A -> V) g ok p, ord_call ev = [0%nat] -> gens P = [treeArg inj g] ->
  (forall r, exists t r', g r = Ok (t, r')) -> (forall r, seen root (g r) = play p r) -> forall n r,
  (exists l r', drawn ev P r (map (fun a => [inj a]) l) r' /\ length l = n /\ Forall (fun a => ok a = true) l /\ result (play (first_plan ok p n) r) = Ok None) \/
  (exists l a r', drawn ev P r (map (fun a => [inj a]) l ++ [[inj a]]) r' /\ (length l < n)%nat /\ Forall (fun a => ok a = true) l /\ ok a = false /\
     result (play (first_plan ok p n) r) = Ok (Some a)).
Proof.
  intros E A V W ev P inj g ok p Ho Hg Ht L. induction n as [|n IH]; intros r.
  - left. exists [], r. repeat split; constructor.
  - destruct (Ht r) as (t & r1 & E1). pose proof (one_call E A V inj g r t r1 E1) as C. rewrite <- Ho, <- Hg in C.
    assert (D : forall l r2, drawn ev P r1 l r2 -> drawn ev P r ([inj (root t)] :: l) r2).
    { intros l r2 X. pose proof (drawn_cons ev P r _ r1 l r2 C X) as Y. cbn [map] in Y. rewrite eroot_elift in Y. destruct t as [a s]. exact Y. }
    assert (Pl : forall k : A -> plan (option A), result (play (pbind p k) r) = result (play (k (root t)) r1)).
    { intros k. rewrite play_bind. unfold gbind. rewrite <- L, E1. reflexivity. }
    cbn [first_plan]. rewrite Pl. destruct (ok (root t)) eqn:K.
    + destruct (IH r1) as [(l & r2 & X1 & X2 & X3 & X4)|(l & a & r2 & X1 & X2 & X3 & X4 & X5)].
      * left. exists (root t :: l), r2. cbn [map length]. repeat split; auto.
      * right. exists (root t :: l), a, r2. cbn [map length app]. repeat split; auto. lia.
    + right. exists [], (root t), r1. repeat split; auto; [|cbn; lia]. cbn [map app]. apply D. constructor.
Qed.

Lemma first_same : forall X (p : X -> Prop) l x m y k, Forall p l -> ~ p x -> Forall p m -> ~ p y -> l ++ [x] = (m ++ [y]) ++ k -> x = y.
Proof.
  intros X p. induction l as [|a l IH]; intros x [|b m] y k Hl Hx Hm Hy H; cbn [app] in H.
  - inversion H. reflexivity.
  - inversion H as [[H1 H2]]. subst. inversion Hm; contradiction.
  - inversion H as [[H1 H2]]. subst. inversion Hl; contradiction.
  - inversion H as [[H1 H2]]. inversion Hl; inversion Hm; subst. eapply IH; eauto.
Qed.

(** The arguments reported as falsifying are the last of those drawn. *)
Lemma reported_drawn : forall E V W fuel ev (P : property E V W) beh w t why rep s', pure_property P beh -> quiet (gens P) -> no_leak beh -> ord_regen ev = ord_call ev ->
  runForAll fuel ev P w = Ok (VFalsified t why rep, s') ->
  exists l r', drawn ev P (seeded ev (seed P)) (l ++ [with_args rep]) r' /\ Forall (acceptable beh) l /\ judge (beh (with_args rep)) = JFail why.
Proof.
  intros E V W fuel ev P beh w t why rep s' HP Hq Hl Ho H. unfold runForAll in H. apply runLoop_ok in H. destruct H as [ks [s0 [s1 [H [Hf [Hn [_ [_ Hs]]]]]]]].
  destruct (history_pure _ _ _ _ _ _ _ _ _ HP Hq Hl H eq_refl) as [H0 [l [Hd [Hm [R1 [R2 R3]]]]]].
  destruct (falsifies_pure _ _ _ _ _ _ _ _ _ HP Hq Hf H0) as [ts [r1 [Ev [Hj [L _]]]]].
  assert (Hk : Forall2 (fun a k => (k = Passed /\ judge (beh a) = JPass) \/ (k = Discarded /\ judge (beh a) = JDiscard)) l ks).
  { clear -Hm. revert ks Hm. induction l as [|a l IH]; intros [|k ks] Hm; simpl in Hm; try discriminate; constructor; inversion Hm; auto. apply judge_kind. auto. }
  assert (Hw : with_args rep = map eroot ts).
  { apply shrink_inv in Hs. destruct Hs as [ts2 [r2 [_ [_ [_ [Hr [_ [_ [Hw _]]]]]]]]]. simpl in Hr. rewrite Ho, Ev in Hr. inversion Hr; subst. exact Hw. }
  exists l, r1. rewrite Hw. split; [eapply drawn_app; eauto; eapply drawn_cons; eauto; constructor|].
  split; [clear -Hk; induction Hk; constructor; auto; unfold acceptable; intuition|exact Hj].
Qed.

(** If [report a] is what is reported when [a] is the first failing value drawn: forAll tells nothing with probability q^n, and otherwise what the first failing value leads to, with
    the probability that one drawn value fails and leads there, times 1 + q + ... + q^(n-1). *)
Theorem C93_first : forall A V W (ev : setting) (g : forall E, gen E A) (inj : A -> V) (P : forall E, property E V W) beh ok q n fuel w (report : A -> list V) (event : option (list V) -> bool) d,
  likely g ok q -> likely g (fun a => negb (ok a) && event (Some (report a))) d ->
  (forall E, order 1 (ord_call (ev E)) /\ order 1 (ord_regen (ev E)) /\ order 1 (ord_shrinks (ev E)) /\ order 1 (ord_each (ev E))) ->
  (forall E r, exists t r', g E r = Ok (t, r')) ->
  (forall E, gens (P E) = [treeArg inj (g E)] /\ pure_property (P E) beh /\ tame (P E) /\ maxDurationMs (P E) = 0%Z /\ numRuns (P E) = n) ->
  no_leak beh -> decides beh inj ok -> (n < fuel)%nat ->
  (forall E r k why rep s' a, runForAll fuel (starting r (ev E)) (P E) w = Ok (VFalsified k why rep, s') -> with_args rep = [inj a] -> ok a = false -> simplest_args rep = report a) ->
  likelyResult (fun E r => told (runForAll fuel (starting r (ev E)) (P E) w)) event (power q n * (if event None then 1 else 0) + series q n * d).
Proof.
  intros A V W ev g inj P beh ok q n fuel w report event d (p & L & Q) LD HO HT HP HL HD HF HB.
  pose proof (likely_at A g p _ d L LD) as QD.
  assert (Hone : forall o, order 1 o -> o = [0%nat]) by (intros o Hx; apply Permutation_sym in Hx; apply Permutation_length_1_inv in Hx; auto).
  exists (pmap (option_map report) (first_plan ok p n)). split.
  - intros E r. destruct (HP E) as (G1 & G2 & G3 & G4 & G5). destruct (HO E) as (O1 & O2 & O3 & O4). set (e := starting r (ev E)).
    assert (Pm : forall x, result (play (first_plan ok p n) r) = Ok x -> result (play (pmap (option_map report) (first_plan ok p n)) r) = Ok (option_map report x)).
    { intros x Hx. unfold pmap. rewrite play_bind. unfold gbind. destruct (play (first_plan ok p n) r) as [[y r']| | |]; cbn [result] in Hx; try discriminate Hx. injection Hx as ->. reflexivity. }
    destruct (C93_ends E A V W e (P E) beh inj (g E) ok w fuel O1 O2 O3 O4 G1 (HT E) G2 G3 HL G4 HD ltac:(rewrite G5; exact HF)) as (v & s' & X & Y).
    assert (Hq : quiet (gens (P E))).
    { rewrite G1. constructor; [|constructor]. intros r0 e0 r0' He. apply gbind_ok in He. destruct He as [x [r1 [_ He]]]. discriminate. }
    assert (Hreg : ord_regen e = ord_call e) by (cbn; rewrite (Hone _ O1), (Hone _ O2); reflexivity).
    destruct (first_split E A V W e (P E) inj (g E) ok p (Hone _ O1) G1 (HT E) (L E) n r) as [(l & r' & D & Ln & F & R)|(l & a & r' & D & Ln & F & K & R)];
      destruct (all_pass A V beh inj ok l HD F) as [J N]; rewrite (Pm _ R); cbn [option_map].
    + destruct (C32_true_back E V W e (P E) beh w _ r' G2 HL G4 D) with (fuel := fuel) as (v' & s2 & X' & Y').
      * eapply Forall_impl; [|exact J]. intros b Hb. left. exact Hb.
      * congruence.
      * rewrite Forall_forall in J. unfold ends_in. destruct (map (fun a => [inj a]) l) as [|b m] eqn:Em using rev_ind; [left; reflexivity|]. right. exists m, b. split; [reflexivity|]. apply J. apply in_or_app. right. left. reflexivity.
      * rewrite map_length. lia.
      * rewrite X'. destruct v'; [reflexivity|reflexivity|discriminate Y'].
    + pose proof (decides_judge A V beh inj ok a HD) as Jw. rewrite K in Jw. destruct Jw as [why Jw].
      destruct Y as [Y|(k & why' & rep & ->)].
      * exfalso.
        assert (Rg : forall r, exists ts r1, evalTuple (ord_regen e) (gens (P E)) r = Ok (inl ts, r1) /\ Forall etotal ts).
        { intros r0. destruct (HT E r0) as (t & r1 & E1). exists [elift (map_tree inj t)], r1. change (ord_regen e) with (ord_regen (ev E)). rewrite (Hone _ O2), G1.
          split; [apply one_call; exact E1|]. constructor; [apply elift_total|constructor]. }
        assert (O3' : order (length (gens (P E))) (ord_shrinks e)) by (rewrite G1; exact O3). assert (O4' : order (length (gens (P E))) (ord_each e)) by (rewrite G1; exact O4).
        assert (Acc : Forall (acceptable beh) (map (fun a => [inj a]) l)) by (eapply Forall_impl; [|exact J]; intros b Hb; left; exact Hb).
        assert (Lf : (length (map (fun a => [inj a]) l) < fuel)%nat) by (rewrite map_length; lia).
        destruct (C32_false_back E V W e (P E) beh w (map (fun a => [inj a]) l) [inj a] r' why G2 HL G4 G3 Rg O3' O4' D Acc ltac:(rewrite N, G5; exact Ln) Jw fuel Lf) as (rep & s2 & X2).
        rewrite X2 in X. injection X as <- _. discriminate Y.
      * destruct (reported_drawn E V W fuel e (P E) beh w k why' rep s' G2 Hq HL Hreg X) as (l2 & r2 & D2 & A2 & J2).
        assert (Hw : with_args rep = [inj a]).
        { assert (A1 : Forall (acceptable beh) (map (fun a => [inj a]) l)) by (eapply Forall_impl; [|exact J]; intros b Hb; left; exact Hb).
          assert (N1 : ~ acceptable beh (with_args rep)) by (intros [Z|Z]; congruence). assert (N2 : ~ acceptable beh [inj a]) by (intros [Z|Z]; congruence).
          destruct (drawn_det _ _ _ _ _ _ _ _ _ _ eq_refl D2 _ _ D) as [[z Hz]|[z Hz]]; [symmetry|].
          - exact (first_same _ _ _ _ _ _ _ A1 N2 A2 N1 Hz).
          - exact (first_same _ _ _ _ _ _ _ A2 N1 A1 N2 Hz). }
        rewrite X. cbn [told]. rewrite (HB E r k why' rep s' a X Hw K). reflexivity.
  - rewrite prob_map. rewrite (first_prob A ok p (fun x => event (option_map report x)) n). cbn [option_map]. rewrite QD.
    rewrite (power_ext _ _ n Q). assert (Se : (series (prob p ok) n == series q n)%Q) by (clear -Q; induction n as [|n IH]; cbn [series]; [reflexivity|rewrite IH, Q; reflexivity]). rewrite Se. reflexivity.
Qed.

(** What is reported for a single integer, as C66_boundary says. *)
Lemma one_boundary : forall E V W fuel ev (P : property E V W) beh w n why rep s' (inj : Z -> V) ty min max,
  pure_property P beh -> no_leak beh -> order 1 (ord_call ev) -> order 1 (ord_regen ev) -> order 1 (ord_each ev) -> usable ty min max -> gens P = [intArg inj ty min max] ->
  runForAll fuel ev P w = Ok (VFalsified n why rep, s') ->
  exists v k, with_args rep = [inj v] /\ simplest_args rep = [inj k] /\ (min <= v <= max)%Z /\ bad beh [inj k] /\
    (monotone (fun x => bad beh [inj x]) (nearest_zero min max) v -> boundary (fun x => bad beh [inj x]) (nearest_zero min max) v k).
Proof.
  intros E V W fuel ev P beh w n why rep s' inj ty min max HP Hnl Ho1 Ho2 Ho3 HU Hg H.
  assert (Hone : forall o, order 1 o -> o = [0%nat]) by (intros o Hx; apply Permutation_sym in Hx; apply Permutation_length_1_inv in Hx; auto).
  assert (Hq : quiet (gens P)).
  { rewrite Hg. constructor; [|constructor]. intros r e r' He. apply gbind_ok in He. destruct He as [x [r1 [_ He]]]. discriminate. }
  assert (Hoe : order (length (gens P)) (ord_each ev)) by (rewrite Hg; auto).
  pose proof (C66_boundary E V W fuel ev P beh w n why rep s' inj ty min max [] 0%nat [] HP Hq Hnl) as C.
  destruct C as [v [k [A1 [A2 [A3 [A4 A5]]]]]]; eauto.
  { rewrite (Hone _ Ho1), (Hone _ Ho2). auto. } { rewrite Hg. auto. }
  apply runLoop_ok in H. destruct H as [ks [s0 [s1 [_ [_ [_ [_ [_ Hs]]]]]]]].
  pose proof (shrink_inv _ _ _ _ _ _ _ _ Hs) as [ts [r2 [streams [r3 [ts' [H1 [H2 [H3 [H4 H5]]]]]]]]].
  assert (Hlen : length ts = 1%nat) by (apply evalTuple_length in H1; rewrite Hg in H1; auto).
  destruct (streams_linked _ _ _ _ _ _ _ H2) as [_ Hl].
  destruct (shrinkEach_pure _ _ _ _ _ HP _ _ _ _ _ _ H3 (order_nodup _ _ Hoe)) as [I1 _].
  { intros M HM; apply Hl; apply (order_in _ _ Hoe) in HM; rewrite Hg in HM; simpl in HM; lia. }
  assert (Hw : with_args rep = [inj v]).
  { rewrite H4 in *. destruct ts as [|a [|? ?]]; simpl in Hlen; try lia. simpl in *. congruence. }
  assert (Hsim : simplest_args rep = [inj k]).
  { rewrite H5 in *. rewrite Hlen in I1. destruct ts' as [|a [|? ?]]; simpl in I1; try lia. simpl in *. congruence. }
  rewrite Hw, Hsim in A4, A5. exists v, k. split; [exact Hw|]. split; [exact Hsim|]. split; [exact A3|]. split; [exact A4|exact A5].
Qed.

(** A property that fails from [c] on upwards and from [d] on downwards, the number nearest to zero lying between: [c] is reported if the first failing number drawn is on that
    side, else [d]. (There need not be numbers on either side.) *)
Theorem C93_sides : forall V W (ev : setting) ty min max (inj : Z -> V) (P : forall E, property E V W) beh d c q hi lo n fuel w, usable ty min max ->
  (d < nearest_zero min max < c)%Z ->
  likely (fun E => interval ty min max) (fun x => (d <? x) && (x <? c))%Z q -> likely (fun E => interval ty min max) (fun x => c <=? x)%Z hi -> likely (fun E => interval ty min max) (fun x => x <=? d)%Z lo ->
  (forall E, order 1 (ord_call (ev E)) /\ order 1 (ord_regen (ev E)) /\ order 1 (ord_shrinks (ev E)) /\ order 1 (ord_each (ev E))) ->
  (forall E, gens (P E) = [intArg inj ty min max] /\ pure_property (P E) beh /\ tame (P E) /\ maxDurationMs (P E) = 0%Z /\ numRuns (P E) = n) ->
  no_leak beh -> (forall x y, inj x = inj y -> x = y) -> decides beh inj (fun x => (d <? x) && (x <? c))%Z -> (n < fuel)%nat ->
  forall event, likelyResult (fun E r => told (runForAll fuel (starting r (ev E)) (P E) w)) event
    (power q n * (if event None then 1 else 0) + series q n * (hi * (if event (Some [inj c]) then 1 else 0) + lo * (if event (Some [inj d]) then 1 else 0))).
Proof.
  intros V W ev ty min max inj P beh d c q hi lo n fuel w HU Hz LQ LH LL HO HP HL HI HD HF event.
  apply (C93_first Z V W ev (fun E => interval ty min max) inj P beh (fun x => (d <? x) && (x <? c))%Z q n fuel w (fun x => if (c <=? x)%Z then [inj c] else [inj d])); auto.
  - destruct LH as (p & L & Q). pose proof (likely_at _ _ p _ _ L LL) as Q2. exists p. split; [exact L|]. rewrite <- Q, <- Q2. unfold prob.
    rewrite (Qmult_comm (mean p (when (fun x => c <=? x)%Z))), (Qmult_comm (mean p (when (fun x => x <=? d)%Z))), <- !mean_scale, <- mean_plus. apply mean_ext.
    intros [x| | |]; cbn [when]; try ring.
    destruct (Z.ltb_spec d x), (Z.ltb_spec x c), (Z.leb_spec c x), (Z.leb_spec x d); try lia; cbn [andb negb]; destruct (event (Some [inj c])), (event (Some [inj d])); ring.
  - intros E r. destruct HU as (U1 & U2 & U3 & U4). destruct (generateInteger_ok E ty min max r U1 U2 U3 U4) as (t & r' & X & _). exists t, r'. exact X.
  - intros E r k why rep s' a X Hw Ka. destruct (HP E) as (G1 & G2 & G3 & G4 & G5). destruct (HO E) as (O1 & O2 & O3 & O4).
    destruct (one_boundary E V W fuel (starting r (ev E)) (P E) beh w k why rep s' inj ty min max G2 HL O1 O2 O4 HU G1 X) as (v & m & M1 & M2 & M3 & M4 & M5).
    assert (v = a) by (apply HI; congruence). subst v. rewrite M2. set (z := nearest_zero min max) in *.
    assert (BD : forall x, bad beh [inj x] <-> (x <= d \/ c <= x)%Z).
    { intros x. rewrite (proj1 (HD x)). destruct (Z.ltb_spec d x), (Z.ltb_spec x c); cbn [andb]; split; intros; try discriminate; try reflexivity; lia. }
    assert (Ka' : (a <= d \/ c <= a)%Z) by (destruct (Z.ltb_spec d a), (Z.ltb_spec a c); cbn [andb] in Ka; try discriminate; lia).
    assert (Mo : monotone (fun x => bad beh [inj x]) z a).
    { intros x y Hx Hy Hn Hb. apply BD. apply BD in Hb. unfold on_way, nearer in *. lia. }
    destruct (M5 Mo) as (B1 & B2 & B3). apply BD in B2. unfold on_way in B1, B3.
    destruct (Z.leb_spec c a).
    + assert (m = c) as ->; [|reflexivity]. destruct (Z.eq_dec m c) as [|Ne]; [assumption|]. exfalso. apply (B3 c); [lia|lia|]. apply BD. lia.
    + assert (m = d) as ->; [|reflexivity]. destruct (Z.eq_dec m d) as [|Ne]; [assumption|]. exfalso. apply (B3 d); [lia|lia|]. apply BD. lia.
Qed.

Lemma average_part : forall min max a b (f : Z -> bool), (min <= max)%Z -> (min <= a <= b)%Z -> (b <= max + 1)%Z -> (forall x, (min <= x <= max)%Z -> f x = (a <=? x)%Z && (x <? b)%Z) ->
  (average min max (tells f) == inject_Z (b - a) / inject_Z (max - min + 1))%Q.
Proof.
  intros min max a b f H1 H2 H3 Hf. pose proof (average_shift 0 (max - min) min (tells f)) as A. replace (0 + min)%Z with min in A by lia. replace (max - min + min)%Z with max in A by lia. rewrite A.
  replace (b - a)%Z with ((b - min) - (a - min))%Z by lia. rewrite <- (average_between (max - min) (a - min) (b - min)) by lia. apply average_ext. intros z Hz. unfold tells. rewrite Hf by lia.
  replace (a <=? z + min)%Z with (a - min <=? z)%Z by (destruct (Z.leb_spec (a - min) z), (Z.leb_spec a (z + min)); auto; lia).
  replace (z + min <? b)%Z with (z <? b - min)%Z by (destruct (Z.ltb_spec z (b - min)), (Z.ltb_spec (z + min) b); auto; lia). reflexivity.
Qed.
Ltac by_cases := intros; repeat match goal with |- context [Z.ltb ?a ?b] => destruct (Z.ltb_spec a b) | |- context [Z.leb ?a ?b] => destruct (Z.leb_spec a b) end; cbn [andb]; try reflexivity; lia.

(** For a proper range: the numbers between, above and below decide. *)
Theorem C93_range : forall V W (ev : setting) ty min max (inj : Z -> V) (P : forall E, property E V W) beh d c n fuel w, usable ty min max -> ~ (min = tmin ty /\ max = tmax ty) ->
  (min - 1 <= d)%Z -> (d < nearest_zero min max < c)%Z -> (c <= max + 1)%Z ->
  (forall E, order 1 (ord_call (ev E)) /\ order 1 (ord_regen (ev E)) /\ order 1 (ord_shrinks (ev E)) /\ order 1 (ord_each (ev E))) ->
  (forall E, gens (P E) = [intArg inj ty min max] /\ pure_property (P E) beh /\ tame (P E) /\ maxDurationMs (P E) = 0%Z /\ numRuns (P E) = n) ->
  no_leak beh -> (forall x y, inj x = inj y -> x = y) -> decides beh inj (fun x => (d <? x) && (x <? c))%Z -> (n < fuel)%nat ->
  let width := inject_Z (max - min + 1) in let q := (inject_Z (c - d - 1) / width)%Q in
  forall event, likelyResult (fun E r => told (runForAll fuel (starting r (ev E)) (P E) w)) event
    (power q n * (if event None then 1 else 0) +
     series q n * (inject_Z (max + 1 - c) / width * (if event (Some [inj c]) then 1 else 0) + inject_Z (d + 1 - min) / width * (if event (Some [inj d]) then 1 else 0))).
Proof.
  intros V W ev ty min max inj P beh d c n fuel w HU HW H1 Hz H2 HO HP HL HI HD HF width q event. pose proof HU as (U1 & U2 & U3 & U4).
  assert (Nz : (min <= nearest_zero min max <= max)%Z) by (unfold nearest_zero; lia).
  assert (L : forall f a b, (min <= a <= b)%Z -> (b <= max + 1)%Z -> (forall x, (min <= x <= max)%Z -> f x = (a <=? x)%Z && (x <? b)%Z) ->
    likely (fun E => interval ty min max) f (inject_Z (b - a) / width)).
  { intros f a b Ha Hb Hf. destruct (C78_integer ty min max f U1 U2 U3 U4 HW) as (p & L & Q). exists p. split; [exact L|]. rewrite Q. apply average_part; auto. }
  apply (C93_sides V W ev ty min max inj P beh d c); auto.
  - unfold q. replace (c - d - 1)%Z with (c - (d + 1))%Z by lia. apply L; try lia; by_cases.
  - apply L; try lia; by_cases.
  - apply (L _ min (d + 1)%Z); try lia; by_cases.
Qed.

(** For a whole type: half of the numbers come from the list of special values. *)
Theorem C93_whole : forall V W (ev : setting) ty (inj : Z -> V) (P : forall E, property E V W) beh d c n fuel w, ty <> TChar -> (d < 0 < c)%Z ->
  (forall E, order 1 (ord_call (ev E)) /\ order 1 (ord_regen (ev E)) /\ order 1 (ord_shrinks (ev E)) /\ order 1 (ord_each (ev E))) ->
  (forall E, gens (P E) = [intArg inj ty (tmin ty) (tmax ty)] /\ pure_property (P E) beh /\ tame (P E) /\ maxDurationMs (P E) = 0%Z /\ numRuns (P E) = n) ->
  no_leak beh -> (forall x y, inj x = inj y -> x = y) -> decides beh inj (fun x => (d <? x) && (x <? c))%Z -> (n < fuel)%nat ->
  let chance f := (odds (2 ^ 63) * share f (boundaryValues ty) + (1 - odds (2 ^ 63)) * average (tmin ty) (tmax ty) (tells f))%Q in
  let q := chance (fun x => (d <? x) && (x <? c))%Z in
  forall event, likelyResult (fun E r => told (runForAll fuel (starting r (ev E)) (P E) w)) event
    (power q n * (if event None then 1 else 0) +
     series q n * (chance (fun x => c <=? x)%Z * (if event (Some [inj c]) then 1 else 0) + chance (fun x => x <=? d)%Z * (if event (Some [inj d]) then 1 else 0))).
Proof.
  intros V W ev ty inj P beh d c n fuel w Ht Hz HO HP HL HI HD HF chance q event.
  assert (L : forall f, likely (fun E => interval ty (tmin ty) (tmax ty)) f (chance f)) by (intros f; exact (C78_any_integer ty f Ht)).
  apply (C93_sides V W ev ty (tmin ty) (tmax ty) inj P beh d c q (chance (fun x => c <=? x)%Z) (chance (fun x => x <=? d)%Z)); auto.
  - unfold usable. pose proof (tmin_le_tmax ty). split; [lia|]. split; [lia|]. split; [lia|]. intros [X _]. contradiction.
  - assert (nearest_zero (tmin ty) (tmax ty) = 0%Z) as ->; [|lia]. destruct ty; reflexivity.
  - apply L.
Qed.

(** ** Strings *)

Lemma failing_prefix_is : forall A (ok : list A -> bool) s k, (k <= length s)%nat -> ok (firstn k s) = false -> (forall j, (j < k)%nat -> ok (firstn j s) = true) ->
  failing_prefix ok [] s = firstn k s.
Proof.
  intros A ok s k. cut (forall before, (k <= length s)%nat -> ok (before ++ firstn k s) = false -> (forall j, (j < k)%nat -> ok (before ++ firstn j s) = true) ->
    failing_prefix ok before s = before ++ firstn k s).
  { intros H. apply (H []). }
  revert s. induction k as [|k IH]; intros s before Hk Hf Ho.
  - cbn [firstn] in *. rewrite app_nil_r in Hf |- *. destruct s; cbn [failing_prefix]; rewrite Hf; reflexivity.
  - destruct s as [|x s]; [cbn in Hk; lia|]. pose proof (Ho 0%nat ltac:(lia)) as O0. cbn [firstn] in O0, Hf |- *. rewrite app_nil_r in O0. cbn [failing_prefix]. rewrite O0.
    rewrite (IH s (before ++ [x])); [rewrite <- app_assoc; reflexivity|cbn in Hk; lia|rewrite <- app_assoc; exact Hf|].
    intros j Hj. rewrite <- app_assoc. apply (Ho (S j)). lia.
Qed.

Lemma firstn_add : forall A i k (s : list A), firstn (i + k) s = firstn i s ++ firstn k (skipn i s).
Proof. intros A. induction i as [|i IH]; intros k s; [reflexivity|]. destruct s as [|x s]; cbn [Nat.add firstn skipn app]; [destruct k; reflexivity|]. rewrite IH. reflexivity. Qed.
Lemma report_length : forall E V W fuel ev (P : property E V W) beh w n why rep s', pure_property P beh -> order (length (gens P)) (ord_each ev) ->
  runForAll fuel ev P w = Ok (VFalsified n why rep, s') -> length (simplest_args rep) = length (gens P).
Proof.
  intros E V W fuel ev P beh w n why rep s' HP Hoe H. apply runLoop_ok in H. destruct H as [ks [s0 [s1 [_ [_ [_ [_ [_ Hs]]]]]]]].
  pose proof (shrink_inv _ _ _ _ _ _ _ _ Hs) as [ts [r2 [streams [r3 [ts' [H1 [H2 [H3 [H4 H5]]]]]]]]].
  assert (Hlen : length ts = length (gens P)) by (eapply evalTuple_length; eauto).
  destruct (streams_linked _ _ _ _ _ _ _ H2) as [_ Hl].
  destruct (shrinkEach_pure _ _ _ _ _ HP _ _ _ _ _ _ H3 (order_nodup _ _ Hoe)) as [I1 _].
  { intros M HM; apply Hl; apply (order_in _ _ Hoe) in HM; lia. }
  rewrite H5, map_length. congruence.
Qed.
Lemma string_returns : forall E A (g : gen E A) mx, (0 <= mx <= UINT32_MAX)%Z -> always_returns g -> always_returns (arbi_string g {| minSize := 0; maxSize := mx |}).
Proof.
  intros E A g mx Hmx Hg r. destruct (C22_string E A g 0 mx r) as (n & r1 & _ & Hn & Hiff); try lia. destruct (draws_total E _ g Hg (Z.to_nat n) r1) as (vec & r' & D & Ln).
  assert (Hu : (size (map root vec) <= UINT64_MAX)%Z) by (unfold size, UINT64_MAX, UINT32_MAX in *; rewrite map_length; lia).
  destruct (C19_string_enumerates A (map root vec) 0 (Nat.le_0_l _) Hu) as [t1 [E1 [E2 _]]]. destruct (C19_string_infix A (map root vec) 0 (Nat.le_0_l _) Hu) as [t2 [F1 [F2 _]]].
  cbn [Z.of_nat] in *. rewrite E1 in F1. inversion F1; subst t2. exists t1, r'. apply Hiff. exists vec. repeat split; auto; try (unfold size; lia).
Qed.

(** A string without a minimum length and a property failing on what begins with a failing string: the shortest failing prefix of the first failing string is reported. *)
Theorem C93_string : forall A V W (ev : setting) (elemGen : forall E, gen E A) mx (inj : list A -> V) (P : forall E, property E V W) beh ok q n fuel w (event : option (list V) -> bool) d,
  let g := fun E => arbi_string (elemGen E) {| minSize := 0; maxSize := mx |} in (0 <= mx <= UINT32_MAX)%Z -> (forall E r, exists t r', elemGen E r = Ok (t, r')) ->
  likely g ok q -> likely g (fun a => negb (ok a) && event (Some [inj (failing_prefix ok [] a)])) d ->
  (forall E, order 1 (ord_call (ev E)) /\ order 1 (ord_regen (ev E)) /\ order 1 (ord_shrinks (ev E)) /\ order 1 (ord_each (ev E))) ->
  (forall E, gens (P E) = [treeArg inj (g E)] /\ pure_property (P E) beh /\ tame (P E) /\ maxDurationMs (P E) = 0%Z /\ numRuns (P E) = n) ->
  no_leak beh -> (forall x y, inj x = inj y -> x = y) -> decides beh inj ok -> (forall a b, ok a = false -> ok (a ++ b) = false) -> (n < fuel)%nat ->
  likelyResult (fun E r => told (runForAll fuel (starting r (ev E)) (P E) w)) event (power q n * (if event None then 1 else 0) + series q n * d).
Proof.
  intros A V W ev elemGen mx inj P beh ok q n fuel w event d g Hmx HE LQ LD HO HP HL HI HD HM HF.
  assert (Hone : forall o, order 1 o -> o = [0%nat]) by (intros o Hx; apply Permutation_sym in Hx; apply Permutation_length_1_inv in Hx; auto).
  apply (C93_first (list A) V W ev g inj P beh ok q n fuel w (fun a => [inj (failing_prefix ok [] a)]) event d LQ LD HO); auto.
  - intros E r. apply string_returns; auto. intros r0. apply HE.
  - intros E r k why rep s' a X Hw Ka. destruct (HP E) as (G1 & G2 & G3 & G4 & G5). destruct (HO E) as (O1 & O2 & O3 & O4).
    assert (Hq : quiet (gens (P E))).
    { rewrite G1. constructor; [|constructor]. intros r0 e0 r0' He. apply gbind_ok in He. destruct He as [x [r1 [_ He]]]. discriminate. }
    destruct (C67_string E V W fuel (starting r (ev E)) (P E) beh w k why rep s' A inj (elemGen E) mx [] 0%nat []) as (v & m & S1 & S2 & S3 & S4 & S5); auto.
    + cbn. rewrite (Hone _ O1), (Hone _ O2). reflexivity.
    + rewrite G1. exact O4.
    + rewrite G1. reflexivity.
    + assert (Ls : length (simplest_args rep) = 1%nat) by (rewrite (report_length E V W fuel (starting r (ev E)) (P E) beh w k why rep s' G2); [rewrite G1; reflexivity|rewrite G1; exact O4|exact X]).
      rewrite Hw in S1. cbn [nth_error] in S1. injection S1 as S1. apply HI in S1. subst v.
      destruct (simplest_args rep) as [|y [|? ?]]; cbn in Ls; try lia. cbn [nth_error] in S2. injection S2 as ->. rewrite Hw in S4, S5.
      assert (BD : forall x, bad beh (set_nth 0 (inj x) (partly [] [inj m] [inj a])) <-> ok x = false) by (intros x; exact (proj1 (HD x))).
      destruct S5 as (j & J1 & J2 & J3 & J4).
      { intros i i' _ Hi Hi' Hb. apply BD. apply BD in Hb. replace (firstn i' a) with (firstn i a ++ firstn (i' - i) (skipn i a)); [apply HM; exact Hb|].
        rewrite <- firstn_add. f_equal. lia. }
      rewrite J1. f_equal. f_equal. symmetry. apply failing_prefix_is; [lia|apply BD; rewrite <- J1; exact J3|].
      intros i Hi. destruct (ok (firstn i a)) eqn:Ki; [reflexivity|]. exfalso. apply (J4 i); [lia|]. apply BD. exact Ki.
Qed.

(** Two runs of [](int n) { return -20 < n && n < 50; } on interval<int>(-30, 100). *)
Definition behr93 (args : list Z) : list op * ures := ([], URet (match args with [x] => (-20 <? x)%Z && (x <? 50)%Z | _ => true end)).
Definition propr93 (ty : ity) (min max : Z) (n : nat) : forall E, property E Z unit := fun E =>
  {| func := fun args w => (fst (behr93 args), snd (behr93 args), w); gens := [intArg (fun x => x) ty min max]; onStartup := None; onCleanup := None; numRuns := n; maxDurationMs := 0; seed := 0 |}.
Lemma parts93 : forall ty min max n E, gens (propr93 ty min max n E) = [intArg (fun x => x) ty min max] /\ pure_property (propr93 ty min max n E) behr93 /\ tame (propr93 ty min max n E) /\
  maxDurationMs (propr93 ty min max n E) = 0%Z /\ numRuns (propr93 ty min max n E) = n.
Proof. intros. split; [reflexivity|]. split; [repeat split|]. split; [repeat split; intros; discriminate|]. split; reflexivity. Qed.
Lemma no_leak93 : no_leak behr93.
Proof. intros args H. exfalso. apply H. reflexivity. Qed.
Lemma decidesr93 : decides behr93 (fun x => x) (fun x => (-20 <? x) && (x <? 50))%Z.
Proof.
  intros a. unfold bad, behr93. cbn [fst snd failed_expectations]. split; [|repeat split; discriminate]. destruct ((-20 <? a)%Z && (a <? 50)%Z); split; intros H; try discriminate; auto.
  - destruct H as [H|H]; exfalso; apply H; reflexivity.
  - left. discriminate.
Qed.
(** 50 is reported with probability (1 + 69/131) * 51/131, -20 with probability (1 + 69/131) * 11/131. *)
Example C93_range_ex :
  likelyResult (fun E r => told (runForAll 3 (starting r (leftToRight 1 E)) (propr93 TI32 (-30) 100 2 E) tt)) (fun x => match x with Some [m] => (m =? 50)%Z | _ => false end) ((200 # 131) * (51 # 131)) /\
  likelyResult (fun E r => told (runForAll 3 (starting r (leftToRight 1 E)) (propr93 TI32 (-30) 100 2 E) tt)) (fun x => match x with Some [m] => (m =? -20)%Z | _ => false end) ((200 # 131) * (11 # 131)).
Proof.
  assert (U : usable TI32 (-30) 100) by (unfold usable; cbn; repeat split; try lia; intros [H _]; discriminate).
  assert (HW : ~ ((-30)%Z = tmin TI32 /\ 100%Z = tmax TI32)) by (intros [H _]; discriminate).
  pose proof (C93_range Z unit (leftToRight 1) TI32 (-30) 100 (fun x => x) (propr93 TI32 (-30) 100 2) behr93 (-20) 50 2 3 tt U HW ltac:(lia) ltac:(cbn; lia) ltac:(lia) order93_leftToRight
    (parts93 TI32 (-30) 100 2) no_leak93 (fun x y H => H) decidesr93 ltac:(lia)) as X. cbv zeta in X.
  split.
  - destruct (X (fun x => match x with Some [m] => (m =? 50)%Z | _ => false end)) as (p & L & Q). exists p. split; [exact L|]. refine (Qeq_trans _ _ _ Q _). vm_compute. reflexivity.
  - destruct (X (fun x => match x with Some [m] => (m =? -20)%Z | _ => false end)) as (p & L & Q). exists p. split; [exact L|]. refine (Qeq_trans _ _ _ Q _). vm_compute. reflexivity.
Qed.
Example C93_sides_ex : (-20 < nearest_zero (-30) 100 < 50)%Z /\ likely (fun E => interval TI32 (-30) 100) (fun x => (-20 <? x) && (x <? 50))%Z (69 # 131) /\
  likely (fun E => interval TI32 (-30) 100) (fun x => 50 <=? x)%Z (51 # 131) /\ likely (fun E => interval TI32 (-30) 100) (fun x => x <=? -20)%Z (11 # 131).
Proof.
  assert (L : forall f q, (average (-30) 100 (tells f) == q)%Q -> likely (fun E => interval TI32 (-30) 100) f q).
  { intros f q Hq. destruct (C78_integer TI32 (-30) 100 f) as (p & L & Q); try (cbn; lia); try (intros [H _]; discriminate). exists p. split; [exact L|]. rewrite Q. exact Hq. }
  split; [cbn; lia|]. split; [|split]; apply L; vm_compute; reflexivity.
Qed.
(** The same on Arbi<int8_t>, one run: of the 15 special values, 127 and 126 are above, -128 and -127 are below. *)
Example C93_whole_ex :
  likelyResult (fun E r => told (runForAll 2 (starting r (leftToRight 1 E)) (propr93 TI8 (tmin TI8) (tmax TI8) 1 E) tt)) (fun x => match x with Some [m] => (m =? 50)%Z | _ => false end)
    (odds (2 ^ 63) * (2 # 15) + (1 - odds (2 ^ 63)) * (78 # 256)) /\
  likelyResult (fun E r => told (runForAll 2 (starting r (leftToRight 1 E)) (propr93 TI8 (tmin TI8) (tmax TI8) 1 E) tt)) (fun x => match x with Some [m] => (m =? -20)%Z | _ => false end)
    (odds (2 ^ 63) * (2 # 15) + (1 - odds (2 ^ 63)) * (109 # 256)).
Proof.
  pose proof (C93_whole Z unit (leftToRight 1) TI8 (fun x => x) (propr93 TI8 (tmin TI8) (tmax TI8) 1) behr93 (-20) 50 1 2 tt ltac:(discriminate) ltac:(lia) order93_leftToRight
    (parts93 TI8 (tmin TI8) (tmax TI8) 1) no_leak93 (fun x y H => H) decidesr93 ltac:(lia)) as X. cbv zeta in X.
  split.
  - destruct (X (fun x => match x with Some [m] => (m =? 50)%Z | _ => false end)) as (p & L & Q). exists p. split; [exact L|]. refine (Qeq_trans _ _ _ Q _). vm_compute. reflexivity.
  - destruct (X (fun x => match x with Some [m] => (m =? -20)%Z | _ => false end)) as (p & L & Q). exists p. split; [exact L|]. refine (Qeq_trans _ _ _ Q _). vm_compute. reflexivity.
Qed.

(** Strings of at most two dice, failing if there is a six; two runs: a six alone is reported with probability (1 + 91/108) / 9. *)
Definition noSix (s : list Z) : bool := forallb (fun x => negb (x =? 6)%Z) s.
Definition behs93 (args : list (list Z)) : list op * ures := ([], URet (match args with [s] => noSix s | _ => true end)).
Definition diceString : forall E, gen E (list Z) := fun E => arbi_string (interval TI32 1 6) {| minSize := 0; maxSize := 2 |}.
Definition props93 : forall E, property E (list Z) unit := fun E =>
  {| func := fun args w => (fst (behs93 args), snd (behs93 args), w); gens := [treeArg (fun x => x) (diceString E)]; onStartup := None; onCleanup := None; numRuns := 2; maxDurationMs := 0; seed := 0 |}.
Definition onlySix (x : option (list (list Z))) : bool := match x with Some [[m]] => (m =? 6)%Z | _ => false end.
Lemma diceString_plan : law diceString (list_plan 0 2 (picked TI32 1 6)).
Proof.
  apply (string_law Z (fun E => interval TI32 1 6) (picked TI32 1 6) 0 2); try lia; try (unfold UINT32_MAX; lia).
  intros E. apply integer_law; try (cbn; lia); intros [H _]; discriminate.
Qed.
Lemma decidess93 : decides behs93 (fun x => x) noSix.
Proof.
  intros a. unfold bad, behs93. cbn [fst snd failed_expectations]. split; [|repeat split; discriminate]. destruct (noSix a); split; intros H; try discriminate; auto.
  - destruct H as [H|H]; exfalso; apply H; reflexivity.
  - left. discriminate.
Qed.
Lemma usabled93 : usable TI32 1 6.
Proof. unfold usable. cbn. repeat split; try lia; intros [H _]; discriminate. Qed.
Example C93_string_ex : likelyResult (fun E r => told (runForAll 3 (starting r (leftToRight 1 E)) (props93 E) tt)) onlySix ((199 # 108) * (1 # 9)).
Proof.
  assert (LQ : likely diceString noSix (91 # 108)) by (eexists; split; [apply diceString_plan|vm_compute; reflexivity]).
  assert (LD : likely diceString (fun a => negb (noSix a) && onlySix (Some [failing_prefix noSix [] a])) (1 # 9)) by (eexists; split; [apply diceString_plan|vm_compute; reflexivity]).
  destruct (C93_string Z (list Z) unit (leftToRight 1) (fun E => interval TI32 1 6) 2 (fun x => x) props93 behs93 noSix (91 # 108) 2 3 tt onlySix (1 # 9)) as (p & L & Q); auto; try lia.
  - split; [lia|vm_compute; discriminate].
  - intros E r. destruct usabled93 as (U1 & U2 & U3 & U4). destruct (generateInteger_ok E TI32 1 6 r U1 U2 U3 U4) as (t & r' & X & _). exists t, r'. exact X.
  - apply order93_leftToRight.
  - intros E. split; [reflexivity|]. split; [repeat split|]. split; [repeat split; intros; discriminate|]. split; reflexivity.
  - intros args H. exfalso. apply H. reflexivity.
  - apply decidess93.
  - intros a b. unfold noSix. rewrite forallb_app. intros ->. reflexivity.
  - exists p. split; [exact L|]. refine (Qeq_trans _ _ _ Q _). vm_compute. reflexivity.
Qed.
(** The plan behind C93_first for this generator. *)
Example C93_first_ex : (prob (first_plan noSix (list_plan 0 2 (picked TI32 1 6)) 2) (fun x => match x with Some [a; b] => (a =? 3)%Z && (b =? 6)%Z | _ => false end) == (199 # 108) * (1 # 108))%Q.
Proof. vm_compute. reflexivity. Qed.

Print Assumptions C93_first.
Print Assumptions C93_sides.
Print Assumptions C93_range.
Print Assumptions C93_whole.
Print Assumptions C93_string.
