(** C93: how likely each report of a failing property of one integer is. *)
From Coq Require Import String List ZArith QArith Lia Lqa Bool Arith Permutation SpecFloat.
From Verif Require Import Base TreeModel TreeSpec TreeProof RandomModel TupleModel ContainerProof IntegralModel IntegralSpec IntegralProof BoolModel ContainerModel EffModel EffSpec EffProof
  ContextModel ContextSpec ContextProof RunnerModel RunnerSpec RunnerProof RunnerPureProof RunnerShrinkProof SearchSpec SearchProof PropRun PropSearch PropListSearch.
From Verif Require Import ChanceSpec ChanceProof ChanceLawProof ChanceCombProof EndingProof BugChanceProof FloatChanceProof PropChance ReportChanceSpec.
Import ListNotations.
Local Open Scope list_scope.

Lemma decides_judge : forall A V beh (inj : A -> V) ok a, decides beh inj ok ->
  if ok a then judge (beh [inj a]) = JPass else exists why, judge (beh [inj a]) = JFail why.
Proof.
  intros A V beh inj ok a H. destruct (H a) as (H1 & H2 & H3 & H4). unfold bad in H1. unfold judge.
  revert H1 H2 H3 H4. generalize (fst (beh [inj a])) (snd (beh [inj a])) (ok a). intros os u k [H1 H1'] H2 H3 H4.
  destruct k.
  - assert (B : ~ (u <> URet true \/ failed_expectations os <> [])) by (intros X; apply H1 in X; discriminate X).
    destruct u as [[|]|e]; [|exfalso; apply B; left; intros X; discriminate X|exfalso; apply B; left; intros X; discriminate X].
    destruct (failed_expectations os); [reflexivity|]. exfalso. apply B. right. intros X. discriminate X.
  - specialize (H1' eq_refl). destruct u as [b|e].
    + destruct (failed_expectations os); [|eexists; reflexivity]. destruct b; [|eexists; reflexivity]. exfalso. destruct H1' as [X|X]; apply X; reflexivity.
    + destruct e; try (eexists; reflexivity); exfalso; [apply H2|apply H3|apply H4]; reflexivity.
Qed.

Lemma one_call : forall E A V (inj : A -> V) (g : gen E A) r t r', g r = Ok (t, r') ->
  evalTuple (E := E) [0%nat] [treeArg inj g] r = Ok (inl [elift (map_tree inj t)], r').
Proof. intros E A V inj g r t r' H. unfold evalTuple, gbind. cbn [map evalIn nth_error]. unfold treeArg, gbind. rewrite H. reflexivity. Qed.

Lemma runs_split : forall E A V W (ev : env E) (P : property E V W) (inj : A -> V) g ok, ord_call ev = [0%nat] -> gens P = [treeArg inj g] ->
  (forall r, exists t r', g r = Ok (t, r')) -> forall n r,
  (exists l r', drawn ev P r (map (fun a => [inj a]) l) r' /\ length l = n /\ Forall (fun a => ok a = true) l) \/
  (exists l a r', drawn ev P r (map (fun a => [inj a]) l ++ [[inj a]]) r' /\ (length l < n)%nat /\ Forall (fun a => ok a = true) l /\ ok a = false).
Proof.
  intros E A V W ev P inj g ok Ho Hg Ht. induction n as [|n IH]; intros r.
  - left. exists [], r. repeat split; constructor.
  - destruct (Ht r) as (t & r1 & E1). pose proof (one_call E A V inj g r t r1 E1) as C. rewrite <- Ho, <- Hg in C.
    assert (D : forall l r2, drawn ev P r1 l r2 -> drawn ev P r ([inj (root t)] :: l) r2).
    { intros l r2 X. pose proof (drawn_cons ev P r _ r1 l r2 C X) as Y. cbn [map] in Y. rewrite eroot_elift in Y. destruct t as [a s]. exact Y. }
    destruct (ok (root t)) eqn:K.
    + destruct (IH r1) as [(l & r2 & X1 & X2 & X3)|(l & a & r2 & X1 & X2 & X3 & X4)].
      * left. exists (root t :: l), r2. cbn [map length]. repeat split; auto.
      * right. exists (root t :: l), a, r2. cbn [map length app]. repeat split; auto. lia.
    + right. exists [], (root t), r1. repeat split; auto; [|cbn; lia]. cbn [map app]. apply D. constructor.
Qed.

Lemma all_pass : forall A V beh (inj : A -> V) ok l, decides beh inj ok -> Forall (fun a => ok a = true) l ->
  Forall (fun a => judge (beh a) = JPass) (map (fun a => [inj a]) l) /\ length (filter (is_pass beh) (map (fun a => [inj a]) l)) = length l.
Proof.
  intros A V beh inj ok l HD H. induction H as [|a l Ha H IH]; [split; [constructor|reflexivity]|]. destruct IH as [I1 I2].
  pose proof (decides_judge A V beh inj ok a HD) as J. rewrite Ha in J. cbn [map filter]. unfold is_pass at 1. rewrite J. cbn [length]. split; [constructor; auto|congruence].
Qed.

(** With a generator that always returns, forAll always ends, and does not throw. *)
Theorem C93_ends : forall E A V W (ev : env E) (P : property E V W) beh (inj : A -> V) g ok w fuel,
  order 1 (ord_call ev) -> order 1 (ord_regen ev) -> order 1 (ord_shrinks ev) -> order 1 (ord_each ev) -> gens P = [treeArg inj g] -> (forall r, exists t r', g r = Ok (t, r')) ->
  pure_property P beh -> tame P -> no_leak beh -> maxDurationMs P = 0%Z -> decides beh inj ok -> (numRuns P < fuel)%nat ->
  exists v s', runForAll fuel ev P w = Ok (v, s') /\ (succeeded v = true \/ exists n why rep, v = VFalsified n why rep).
Proof.
  intros E A V W ev P beh inj g ok w fuel Ho1 Ho2 Ho3 Ho4 Hg Ht HP HT HL HM HD HF.
  assert (Hone : forall o, order 1 o -> o = [0%nat]) by (intros o Hx; apply Permutation_sym in Hx; apply Permutation_length_1_inv in Hx; auto).
  destruct (runs_split E A V W ev P inj g ok (Hone _ Ho1) Hg Ht (numRuns P) (seeded ev (seed P))) as [(l & r' & D & Ln & F)|(l & a & r' & D & Ln & F & K)].
  - destruct (all_pass A V beh inj ok l HD F) as [J N].
    destruct (C32_true_back E V W ev P beh w _ r' HP HL HM D) with (fuel := fuel) as (v & s' & X & Y); eauto.
    + eapply Forall_impl; [|exact J]. intros b Hb. left. exact Hb.
    + congruence.
    + rewrite Forall_forall in J. unfold ends_in. destruct (map (fun a => [inj a]) l) as [|b m] eqn:Em using rev_ind; [left; reflexivity|]. right. exists m, b. split; [reflexivity|]. apply J. apply in_or_app. right. left. reflexivity.
    + rewrite map_length. lia.
  - destruct (all_pass A V beh inj ok l HD F) as [J N]. pose proof (decides_judge A V beh inj ok a HD) as Jw. rewrite K in Jw. destruct Jw as [why Jw].
    assert (R : forall r, exists ts r1, evalTuple (ord_regen ev) (gens P) r = Ok (inl ts, r1) /\ Forall etotal ts).
    { intros r. destruct (Ht r) as (t & r1 & E1). exists [elift (map_tree inj t)], r1. rewrite (Hone _ Ho2), Hg. split; [apply one_call; exact E1|]. constructor; [apply elift_total|constructor]. }
    assert (O3 : order (length (gens P)) (ord_shrinks ev)) by (rewrite Hg; exact Ho3). assert (O4 : order (length (gens P)) (ord_each ev)) by (rewrite Hg; exact Ho4).
    assert (Acc : Forall (acceptable beh) (map (fun a => [inj a]) l)) by (eapply Forall_impl; [|exact J]; intros b Hb; left; exact Hb).
    assert (Lf : (length (map (fun a => [inj a]) l) < fuel)%nat) by (rewrite map_length; lia).
    destruct (C32_false_back E V W ev P beh w (map (fun a => [inj a]) l) [inj a] r' why HP HL HM HT R O3 O4 D Acc ltac:(rewrite N; exact Ln) Jw fuel Lf) as (rep & s' & X).
    eexists _, s'. split; [exact X|]. right. eexists _, _, rep. reflexivity.
Qed.

(** If whatever falsifies the property is reported as [best], these are the only two things forAll can tell, and their probabilities are those of the generator: forAll returns true
    with probability q^n and reports [best] otherwise. *)
Theorem C93_two : forall A V W (ev : setting) (g : forall E, gen E A) (inj : A -> V) (P : forall E, property E V W) beh ok q n fuel w best, likely g ok q ->
  (forall E, order 1 (ord_call (ev E)) /\ order 1 (ord_regen (ev E)) /\ order 1 (ord_shrinks (ev E)) /\ order 1 (ord_each (ev E))) ->
  (forall E r, exists t r', g E r = Ok (t, r')) ->
  (forall E, gens (P E) = [treeArg inj (g E)] /\ pure_property (P E) beh /\ tame (P E) /\ maxDurationMs (P E) = 0%Z /\ numRuns (P E) = n) ->
  no_leak beh -> decides beh inj ok -> (n < fuel)%nat ->
  (forall E r k why rep s', runForAll fuel (starting r (ev E)) (P E) w = Ok (VFalsified k why rep, s') -> simplest_args rep = best) ->
  forall event, likelyResult (fun E r => told (runForAll fuel (starting r (ev E)) (P E) w)) event (split (power q n) (event None) (event (Some best))).
Proof.
  intros A V W ev g inj P beh ok q n fuel w best (p & L & Q) HO HT HP HL HD HF HB event.
  assert (Hone : forall o, order 1 o -> o = [0%nat]) by (intros o Hx; apply Permutation_sym in Hx; apply Permutation_length_1_inv in Hx; auto).
  assert (F : inputsFollow ev P (pmap (fun a => inl [inj a]) p)).
  { intros E r. destruct (HP E) as (-> & _). destruct (HO E) as (Ho & _). rewrite (Hone _ Ho). destruct (HT E r) as (t & r' & E1). rewrite (one_call E A V inj (g E) r t r' E1).
    unfold pmap. rewrite play_bind. unfold gbind. rewrite <- (L E r), E1. cbn. rewrite eroot_elift. destruct t. reflexivity. }
  assert (JD : forall a, judge (beh [inj a]) = if ok a then JPass else judge (beh [inj a])).
  { intros a. pose proof (decides_judge A V beh inj ok a HD) as X. destruct (ok a); auto. }
  assert (D : (prob (pmap (fun a => inl [inj a]) p) (discarding beh) == 0)%Q).
  { rewrite prob_map. apply prob_none. intros a. unfold discarding, judgeInput. pose proof (decides_judge A V beh inj ok a HD) as X. destruct (ok a); [rewrite X|destruct X as [why X]; rewrite X]; reflexivity. }
  assert (C : (prob (pmap (fun a => inl [inj a]) p) (passing beh) == q)%Q).
  { rewrite prob_map, <- Q. apply prob_ext. intros a. unfold passing, judgeInput. pose proof (decides_judge A V beh inj ok a HD) as X.
    destruct (ok a); [rewrite X|destruct X as [why X]; rewrite X]; reflexivity. }
  assert (R : (power (series (prob (pmap (fun a => inl [inj a]) p) (discarding beh)) fuel * prob (pmap (fun a => inl [inj a]) p) (passing beh)) n == power q n)%Q).
  { apply power_ext. rewrite C. destruct fuel as [|f]; [lia|]. cbn [series]. generalize (series (prob (pmap (fun a => inl [inj a]) p) (discarding beh)) f). intros x. rewrite D. ring. }
  destruct (C78_forAll V W ev P beh _ fuel n w (fun E => match HP E with conj _ (conj a (conj _ b)) => conj a b end) HL F) as [(pl & Lp & R1) (pl2 & Lp2 & R2)].
  assert (R3 : (prob pl negb == 1 - power q n)%Q).
  { rewrite <- R. rewrite <- R2. apply (C78_unique_result _ (fun E r => Ok (returnedTrue (runForAll fuel (starting r (ev E)) (P E) w))) negb); [exists pl|exists pl2]; split; try assumption; reflexivity. }
  exists (pmap (fun b : bool => if b then None else Some best) pl). split.
  - intros E r. unfold pmap. rewrite play_bind. specialize (Lp E r). destruct (HP E) as (G1 & G2 & G3 & G4 & G5). destruct (HO E) as (O1 & O2 & O3 & O4).
    destruct (C93_ends E A V W (starting r (ev E)) (P E) beh inj (g E) ok w fuel O1 O2 O3 O4 G1 (HT E) G2 G3 HL G4 HD ltac:(rewrite G5; exact HF)) as (v & s' & X & Y).
    unfold gbind. rewrite X in Lp |- *. destruct (play pl r) as [[b r']| | |]; cbn [result] in Lp; try discriminate Lp. cbn [returnedTrue] in Lp. injection Lp as <-. cbn [play result told].
    destruct Y as [Y|(k & why & rep & ->)].
    + rewrite Y. destruct v; [reflexivity|reflexivity|discriminate Y].
    + cbn [succeeded]. rewrite (HB E r k why rep s' X). reflexivity.
  - rewrite prob_map. unfold split. rewrite <- R, <- R1. rewrite R1, R, <- R3. rewrite <- R, <- R1. unfold prob.
    rewrite (Qmult_comm (mean pl (when (fun b => b)))), (Qmult_comm (mean pl (when negb))), <- !mean_scale, <- mean_plus. apply mean_ext.
    intros [[|]| | |]; cbn [when negb]; try ring; destruct (event None), (event (Some best)); ring.
Qed.

(** An integer argument, the property failing from some distance from the end of the range nearest to zero on, with [c] the only closest failing number: [c] is what is reported,
    whatever number was drawn first. *)
Theorem C93_integer : forall V W (ev : setting) ty min max (inj : Z -> V) (P : forall E, property E V W) beh ok c q n fuel w, usable ty min max ->
  likely (fun E => interval ty min max) ok q ->
  (forall E, order 1 (ord_call (ev E)) /\ order 1 (ord_regen (ev E)) /\ order 1 (ord_shrinks (ev E)) /\ order 1 (ord_each (ev E))) ->
  (forall E, gens (P E) = [intArg inj ty min max] /\ pure_property (P E) beh /\ tame (P E) /\ maxDurationMs (P E) = 0%Z /\ numRuns (P E) = n) ->
  no_leak beh -> decides beh inj ok -> (n < fuel)%nat ->
  (forall x y, (min <= x <= max)%Z -> (min <= y <= max)%Z -> nearer (nearest_zero min max) x y -> ok x = false -> ok y = false) ->
  (min <= c <= max)%Z -> ok c = false -> (forall x, (min <= x <= max)%Z -> ok x = false -> x <> c -> (Z.abs (c - nearest_zero min max) < Z.abs (x - nearest_zero min max))%Z) ->
  forall event, likelyResult (fun E r => told (runForAll fuel (starting r (ev E)) (P E) w)) event (split (power q n) (event None) (event (Some [inj c]))).
Proof.
  intros V W ev ty min max inj P beh ok c q n fuel w HU HQ HO HP HL HD HF HM Hc Kc HN event.
  apply (C93_two Z V W ev (fun E => interval ty min max) inj P beh ok q n fuel w [inj c]); auto.
  - intros E r. destruct HU as (U1 & U2 & U3 & U4). destruct (generateInteger_ok E ty min max r U1 U2 U3 U4) as (t & r' & X & _). exists t, r'. exact X.
  - intros E r k why rep s' X. destruct (HP E) as (G1 & G2 & G3 & G4 & G5). destruct (HO E) as (O1 & O2 & O3 & O4).
    destruct (C66_one E V W fuel (starting r (ev E)) (P E) beh w k why rep s' inj ty min max G2 HL O1 O2 O4 HU G1) as (m & M1 & M2 & M3 & M4); auto.
    + intros x y Hx Hy Hn Hb. apply (HD y). apply (HM x y); auto. apply (HD x). exact Hb.
    + rewrite M1. destruct (Z.eq_dec m c) as [->|Ne]; [reflexivity|]. exfalso. apply (HD m) in M3.
      apply (M4 c Hc); [apply HN; auto|]. apply (HD c). exact Kc.
Qed.

(** Numbers that are not negative, the property failing from [c] on. *)
Theorem C93_upward : forall V W (ev : setting) ty min max (inj : Z -> V) (P : forall E, property E V W) beh c n fuel w, usable ty min max -> (0 <= min)%Z ->
  ~ (min = tmin ty /\ max = tmax ty) ->
  (forall E, order 1 (ord_call (ev E)) /\ order 1 (ord_regen (ev E)) /\ order 1 (ord_shrinks (ev E)) /\ order 1 (ord_each (ev E))) ->
  (forall E, gens (P E) = [intArg inj ty min max] /\ pure_property (P E) beh /\ tame (P E) /\ maxDurationMs (P E) = 0%Z /\ numRuns (P E) = n) ->
  no_leak beh -> decides beh inj (fun x => x <? c)%Z -> (n < fuel)%nat -> (min <= c <= max)%Z ->
  forall event, likelyResult (fun E r => told (runForAll fuel (starting r (ev E)) (P E) w)) event
    (split (power (inject_Z (c - min) / inject_Z (max - min + 1)) n) (event None) (event (Some [inj c]))).
Proof.
  intros V W ev ty min max inj P beh c n fuel w HU H0 HW HO HP HL HD HF Hc. pose proof HU as (U1 & U2 & U3 & U4).
  assert (NZ : nearest_zero min max = min) by (unfold nearest_zero; lia).
  apply (C93_integer V W ev ty min max inj P beh (fun x => x <? c)%Z c); auto; rewrite ?NZ.
  - destruct (C78_integer ty min max (fun x => x <? c)%Z U1 U2 U3 U4 HW) as (p & L & Q). exists p. split; [exact L|]. rewrite Q.
    pose proof (average_shift 0 (max - min) min (tells (fun x => x <? c)%Z)) as A. replace (0 + min)%Z with min in A by lia. replace (max - min + min)%Z with max in A by lia. rewrite A.
    rewrite <- (average_lt (max - min) (c - min)) by lia. apply average_ext. intros z Hz. unfold tells.
    replace (z <? c - min)%Z with (z + min <? c)%Z; [reflexivity|]. destruct (Z.ltb_spec (z + min) c), (Z.ltb_spec z (c - min)); auto; lia.
  - intros x y Hx Hy Hn K. unfold nearer in Hn. apply Z.ltb_ge in K. apply Z.ltb_ge. lia.
  - apply Z.ltb_ge. lia.
  - intros x Hx K Ne. apply Z.ltb_ge in K. lia.
Qed.

(** Numbers that are not positive, the property failing from [c] downwards. *)
Theorem C93_downward : forall V W (ev : setting) ty min max (inj : Z -> V) (P : forall E, property E V W) beh c n fuel w, usable ty min max -> (max <= 0)%Z ->
  ~ (min = tmin ty /\ max = tmax ty) ->
  (forall E, order 1 (ord_call (ev E)) /\ order 1 (ord_regen (ev E)) /\ order 1 (ord_shrinks (ev E)) /\ order 1 (ord_each (ev E))) ->
  (forall E, gens (P E) = [intArg inj ty min max] /\ pure_property (P E) beh /\ tame (P E) /\ maxDurationMs (P E) = 0%Z /\ numRuns (P E) = n) ->
  no_leak beh -> decides beh inj (fun x => c <? x)%Z -> (n < fuel)%nat -> (min <= c <= max)%Z ->
  forall event, likelyResult (fun E r => told (runForAll fuel (starting r (ev E)) (P E) w)) event
    (split (power (inject_Z (max - c) / inject_Z (max - min + 1)) n) (event None) (event (Some [inj c]))).
Proof.
  intros V W ev ty min max inj P beh c n fuel w HU H0 HW HO HP HL HD HF Hc. pose proof HU as (U1 & U2 & U3 & U4).
  assert (NZ : nearest_zero min max = max) by (unfold nearest_zero; lia).
  apply (C93_integer V W ev ty min max inj P beh (fun x => c <? x)%Z c); auto; rewrite ?NZ.
  - destruct (C78_integer ty min max (fun x => c <? x)%Z U1 U2 U3 U4 HW) as (p & L & Q). exists p. split; [exact L|]. rewrite Q.
    pose proof (average_shift 0 (max - min) min (tells (fun x => c <? x)%Z)) as A. replace (0 + min)%Z with min in A by lia. replace (max - min + min)%Z with max in A by lia. rewrite A.
    replace (max - c)%Z with ((max - min + 1) - (c - min + 1))%Z by lia. rewrite <- (average_between (max - min) (c - min + 1) (max - min + 1)) by lia. apply average_ext. intros z Hz. unfold tells.
    replace ((c - min + 1 <=? z)%Z && (z <? max - min + 1)%Z) with (c <? z + min)%Z; [reflexivity|].
    destruct (Z.ltb_spec c (z + min)), (Z.leb_spec (c - min + 1) z), (Z.ltb_spec z (max - min + 1)); cbn [andb]; auto; lia.
  - intros x y Hx Hy Hn K. unfold nearer in Hn. apply Z.ltb_ge in K. apply Z.ltb_ge. lia.
  - apply Z.ltb_ge. lia.
  - intros x Hx K Ne. apply Z.ltb_ge in K. lia.
Qed.

(** forAll with three runs of [](int n) { return n < 900; } on interval<int>(0, 999). *)
Definition beh93 (args : list Z) : list op * ures := ([], URet (match args with [x] => (x <? 900)%Z | _ => true end)).
Definition prop93 : forall E, property E Z unit := fun E =>
  {| func := fun args w => (fst (beh93 args), snd (beh93 args), w); gens := [intArg (fun x => x) TI32 0 999]; onStartup := None; onCleanup := None; numRuns := 3; maxDurationMs := 0; seed := 0 |}.
Lemma tame93 : forall E, tame (prop93 E).
Proof. intros E. repeat split; intros; discriminate. Qed.
Lemma decides93 : decides beh93 (fun x => x) (fun x => x <? 900)%Z.
Proof.
  intros a. unfold bad, beh93. cbn. split; [|repeat split; discriminate]. destruct (a <? 900)%Z; split; intros H; try discriminate; auto.
  - destruct H as [H|H]; exfalso; apply H; reflexivity.
  - left. discriminate.
Qed.
Lemma usable93 : usable TI32 0 999.
Proof. unfold usable. cbn. repeat split; try lia; intros [H _]; discriminate. Qed.
(** It passes with probability 729/1000 and reports 900 with probability 271/1000; it never reports anything else. *)
Example C93_upward_ex : forall (ev : setting),
  (forall E, order 1 (ord_call (ev E)) /\ order 1 (ord_regen (ev E)) /\ order 1 (ord_shrinks (ev E)) /\ order 1 (ord_each (ev E))) ->
  likelyResult (fun E r => told (runForAll 4 (starting r (ev E)) (prop93 E) tt)) (fun x => match x with None => true | _ => false end) (729 # 1000) /\
  likelyResult (fun E r => told (runForAll 4 (starting r (ev E)) (prop93 E) tt)) (fun x => match x with Some [m] => (m =? 900)%Z | _ => false end) (271 # 1000) /\
  likelyResult (fun E r => told (runForAll 4 (starting r (ev E)) (prop93 E) tt)) (fun x => match x with Some [m] => negb (m =? 900)%Z | _ => false end) 0.
Proof.
  intros ev HO.
  assert (X : forall event, likelyResult (fun E r => told (runForAll 4 (starting r (ev E)) (prop93 E) tt)) event
    (split (power (inject_Z (900 - 0) / inject_Z (999 - 0 + 1)) 3) (event None) (event (Some [900%Z])))).
  { apply (C93_upward Z unit ev TI32 0 999 (fun x => x) prop93 beh93 900 3 4 tt usable93); auto; try lia; try apply decides93.
    - intros [H _]. discriminate.
    - intros E. split; [reflexivity|]. split; [repeat split|]. split; [apply tame93|]. split; reflexivity.
    - intros args H. exfalso. apply H. reflexivity. }
  repeat split.
  - destruct (X (fun x => match x with None => true | _ => false end)) as (p & L & Q). exists p. split; [exact L|]. refine (Qeq_trans _ _ _ Q _). vm_compute. reflexivity.
  - destruct (X (fun x => match x with Some [m] => (m =? 900)%Z | _ => false end)) as (p & L & Q). exists p. split; [exact L|]. refine (Qeq_trans _ _ _ Q _). vm_compute. reflexivity.
  - destruct (X (fun x => match x with Some [m] => negb (m =? 900)%Z | _ => false end)) as (p & L & Q). exists p. split; [exact L|]. refine (Qeq_trans _ _ _ Q _). vm_compute. reflexivity.
Qed.

Definition order93 (ev : setting) : Prop := forall E, order 1 (ord_call (ev E)) /\ order 1 (ord_regen (ev E)) /\ order 1 (ord_shrinks (ev E)) /\ order 1 (ord_each (ev E)).
Lemma order93_leftToRight : order93 (leftToRight 1).
Proof. intros E. repeat split; apply Permutation_refl. Qed.
Example C93_ends_ex : forall E (r : rst E), exists v s', runForAll 4 (starting r (leftToRight 1 E)) (prop93 E) tt = Ok (v, s') /\ (succeeded v = true \/ exists n why rep, v = VFalsified n why rep).
Proof.
  intros E q. destruct (order93_leftToRight E) as (O1 & O2 & O3 & O4).
  apply (C93_ends E Z Z unit (starting q (leftToRight 1 E)) (prop93 E) beh93 (fun x => x) (interval TI32 0 999) (fun x => x <? 900)%Z tt 4 O1 O2 O3 O4); auto; try apply tame93; try apply decides93.
  - intros r. destruct usable93 as (U1 & U2 & U3 & U4). destruct (generateInteger_ok E TI32 0 999 r U1 U2 U3 U4) as (t & r' & X & _). exists t, r'. exact X.
  - repeat split.
  - intros args H. exfalso. apply H. reflexivity.
Qed.

(** A single run of [](bool b) { return !b; }: true is reported with probability 1/2 + 2^-64. *)
Definition behb93 (args : list bool) : list op * ures := ([], URet (match args with [b] => negb b | _ => true end)).
Definition propb93 : forall E, property E bool unit := fun E =>
  {| func := fun args w => (fst (behb93 args), snd (behb93 args), w); gens := [treeArg (fun x => x) (arbi_bool d_half)]; onStartup := None; onCleanup := None; numRuns := 1; maxDurationMs := 0; seed := 0 |}.
Example C93_two_ex : forall (ev : setting), order93 ev ->
  likelyResult (fun E r => told (runForAll 2 (starting r (ev E)) (propb93 E) tt)) (fun x => match x with Some [true] => true | _ => false end) (odds (2 ^ 63)).
Proof.
  intros ev HO.
  assert (NL : no_leak behb93) by (intros args H; exfalso; apply H; reflexivity).
  assert (PP : forall E, pure_property (propb93 E) behb93) by (intros E; repeat split).
  destruct (C93_two bool bool unit ev (fun E => arbi_bool d_half) (fun x => x) propb93 behb93 negb (1 - odds (2 ^ 63)) 1 2 tt [true]) with (event := fun x : option (list bool) => match x with Some [true] => true | _ => false end) as (p & L & Q); auto.
  - apply (C78_bool d_half). apply coin_half.
  - intros E r. unfold arbi_bool, gbind, getRandomBool. change (SFeqb d_half d_one) with false. cbv iota. unfold next8U, gbind, draw. change (0 <=? UINT64_MAX)%Z with true. cbv iota.
    replace (d_to_uint64 (SFmul dprec demax d_2_64 d_half)) with (Ok (2 ^ 63)%Z) by (vm_compute; reflexivity). destruct (unif E 0 UINT64_MAX r) as [a r']. eexists _, _. reflexivity.
  - intros E. split; [reflexivity|]. split; [apply PP|]. split; [repeat split; intros; discriminate|]. split; reflexivity.
  - intros a. unfold bad, behb93. cbn. split; [|repeat split; discriminate]. destruct a; cbn; split; intros H; try discriminate; auto.
    + left. discriminate.
    + destruct H as [H|H]; exfalso; apply H; reflexivity.
  - intros E r k why rep s' X. destruct (HO E) as (O1 & O2 & O3 & O4).
    assert (Hone : forall o, order 1 o -> o = [0%nat]) by (intros o Hx; apply Permutation_sym in Hx; apply Permutation_length_1_inv in Hx; auto).
    apply (C34_still_fails E bool unit 2 (starting r (ev E)) (propb93 E) behb93 tt k why rep s') in X; auto.
    + unfold bad, behb93 in X. cbn [fst snd failed_expectations] in X. destruct X as [X|X]; [|exfalso; apply X; reflexivity].
      destruct (simplest_args rep) as [|[|] [|? ?]]; try reflexivity; exfalso; apply X; reflexivity.
    + constructor; [|constructor]. intros q e q' He. apply gbind_ok in He. destruct He as [x [r1 [_ He]]]. discriminate.
    + cbn. rewrite (Hone _ O1), (Hone _ O2). reflexivity.
  - exists p. split; [exact L|]. refine (Qeq_trans _ _ _ Q _). vm_compute. reflexivity.
Qed.

(** A range on both sides of zero: two runs of [](int n) { return n < 50; } on interval<int>(-30, 100). *)
Definition behm93 (args : list Z) : list op * ures := ([], URet (match args with [x] => (x <? 50)%Z | _ => true end)).
Definition propm93 : forall E, property E Z unit := fun E =>
  {| func := fun args w => (fst (behm93 args), snd (behm93 args), w); gens := [intArg (fun x => x) TI32 (-30) 100]; onStartup := None; onCleanup := None; numRuns := 2; maxDurationMs := 0; seed := 0 |}.
Example C93_integer_ex : forall (ev : setting), order93 ev ->
  likelyResult (fun E r => told (runForAll 3 (starting r (ev E)) (propm93 E) tt)) (fun x => match x with Some [m] => (m =? 50)%Z | _ => false end) (1 - (80 # 131) * (80 # 131)).
Proof.
  intros ev HO.
  assert (U : usable TI32 (-30) 100) by (unfold usable; cbn; repeat split; try lia; intros [H _]; discriminate).
  destruct (C93_integer Z unit ev TI32 (-30) 100 (fun x => x) propm93 behm93 (fun x => x <? 50)%Z 50 (80 # 131) 2 3 tt U) with (event := fun x : option (list Z) => match x with Some [m] => (m =? 50)%Z | _ => false end) as (p & L & Q); auto; try lia.
  - pose proof U as (U1 & U2 & U3 & U4). destruct (C78_integer TI32 (-30) 100 (fun x => x <? 50)%Z U1 U2 U3 U4) as (p & L & Q); [intros [H _]; discriminate|]. exists p. split; [exact L|]. rewrite Q. vm_compute. reflexivity.
  - intros E. split; [reflexivity|]. split; [repeat split|]. split; [repeat split; intros; discriminate|]. split; reflexivity.
  - intros args H. exfalso. apply H. reflexivity.
  - intros a. unfold bad, behm93. cbn. split; [|repeat split; discriminate]. destruct (a <? 50)%Z; split; intros H; try discriminate; auto.
    + destruct H as [H|H]; exfalso; apply H; reflexivity.
    + left. discriminate.
  - intros x y Hx Hy Hn K. change (nearest_zero (-30) 100) with 0%Z in Hn. unfold nearer in Hn. apply Z.ltb_ge in K. apply Z.ltb_ge. lia.
  - intros x Hx K Ne. change (nearest_zero (-30) 100) with 0%Z. apply Z.ltb_ge in K. lia.
  - exists p. split; [exact L|]. refine (Qeq_trans _ _ _ Q _). vm_compute. reflexivity.
Qed.

(** Two runs of [](int n) { return n > -41; } on interval<int>(-50, -1). *)
Definition behd93 (args : list Z) : list op * ures := ([], URet (match args with [x] => (-41 <? x)%Z | _ => true end)).
Definition propd93 : forall E, property E Z unit := fun E =>
  {| func := fun args w => (fst (behd93 args), snd (behd93 args), w); gens := [intArg (fun x => x) TI32 (-50) (-1)]; onStartup := None; onCleanup := None; numRuns := 2; maxDurationMs := 0; seed := 0 |}.
Example C93_downward_ex : forall (ev : setting), order93 ev ->
  likelyResult (fun E r => told (runForAll 3 (starting r (ev E)) (propd93 E) tt)) (fun x => match x with Some [m] => (m =? -41)%Z | _ => false end) (9 # 25).
Proof.
  intros ev HO.
  assert (U : usable TI32 (-50) (-1)) by (unfold usable; cbn; repeat split; try lia; intros [H _]; discriminate).
  destruct (C93_downward Z unit ev TI32 (-50) (-1) (fun x => x) propd93 behd93 (-41) 2 3 tt U) with (event := fun x : option (list Z) => match x with Some [m] => (m =? -41)%Z | _ => false end) as (p & L & Q); auto; try lia.
  - intros [H _]. discriminate.
  - intros E. split; [reflexivity|]. split; [repeat split|]. split; [repeat split; intros; discriminate|]. split; reflexivity.
  - intros args H. exfalso. apply H. reflexivity.
  - intros a. unfold bad, behd93. cbn [fst snd failed_expectations]. split; [|repeat split; discriminate]. destruct (-41 <? a)%Z; split; intros H; try discriminate; auto.
    + destruct H as [H|H]; exfalso; apply H; reflexivity.
    + left. discriminate.
  - exists p. split; [exact L|]. refine (Qeq_trans _ _ _ Q _). vm_compute. reflexivity.
Qed.

Print Assumptions C93_ends.
Print Assumptions C93_two.
Print Assumptions C93_integer.
Print Assumptions C93_upward.
Print Assumptions C93_downward.
