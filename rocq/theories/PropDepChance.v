(** How likely the values of the dependent combinators are. *)
From Coq Require Import List ZArith QArith Bool Lia.
From Verif Require Import Base TreeModel TreeSpec RandomModel IntegralModel IntegralSpec ListModel ContainerModel GenModel EffModel ContextModel RunnerModel RunnerSpec.
From Verif Require Import IntegralProof ChanceSpec ChanceProof DepChanceSpec DepChanceProof DepChanceMainProof.
From Verif Require PropChance.
Import ListNotations.
Local Open Scope Q_scope.

(** The mean is determined by the generator. *)
Theorem C84_unique : forall A (V V' : A -> Prop) g p p' f, obeys V g p -> obeys V' g p' -> expect p f == expect p' f.
Proof. exact obeys_unique. Qed.

(** Generators whose shrinks draw nothing. *)
Theorem C84_pure : forall A, exists L : plan (tree A) -> plan (ptree A), forall (V : A -> Prop) (g : forall E, gen E A) p,
  (forall E r, g E r = play p r) -> ends (all_values V) p ->
  obeys V (fun E => liftGen (g E)) (L p) /\ forall f, expect (L p) f == mean p (fun x => match x with Ok t => f (root t) | _ => 0 end).
Proof.
  intros A. exists (pthen (fun t => Ends (Ok (plift t)))). intros V g p Hg Hp. split; [apply obeys_lift; auto|]. intros f. eapply expect_lift. exact Hp.
Qed.
(** Integers between [min] and [max]: all equally likely. *)
Theorem C84_interval : exists P : ity -> Z -> Z -> plan (tree Z), forall ty min max,
  (tmin ty <= min)%Z -> (min <= max)%Z -> (max <= tmax ty)%Z -> ~ reversed_char ty min max -> ~ (min = tmin ty /\ max = tmax ty) ->
  (forall E (r : rst E), interval ty min max r = play (P ty min max) r) /\ ends (all_values (fun v => (min <= v <= max)%Z)) (P ty min max) /\
  forall f, mean (P ty min max) (fun x => match x with Ok t => f (root t) | _ => 0 end) == average min max f.
Proof.
  exists intPlan. intros ty min max H1 H2 H3 Hc Hf. split; [intros; apply intPlan_play; auto|]. split.
  - apply (intPlan_mean ty min max (fun _ => 0)); auto.
  - intros f. apply intPlan_mean; auto.
Qed.
(** Vectors and lists: any length is equally likely, and the elements are independent. *)
Theorem C84_vector : forall A, exists P : Z -> Z -> plan (tree A) -> plan (tree (list A)), forall (V : A -> Prop) (g : forall E, gen E A) p mn mx,
  (0 <= mn)%Z -> (mn <= mx)%Z -> (mx <= UINT32_MAX)%Z -> (forall E r, g E r = play p r) -> ends (all_values V) p ->
  (forall E (r : rst E), arbi_vector (g E) {| minSize := mn; maxSize := mx |} r = play (P mn mx p) r) /\ ends (all_values (fits_size mn mx V)) (P mn mx p) /\
  forall f, mean (P mn mx p) (fun x => match x with Ok t => f (root t) | _ => 0 end) ==
    average mn mx (fun n => many (fun h => mean p (fun x => match x with Ok t => h (root t) | _ => 0 end)) (Z.to_nat n) f).
Proof.
  intros A. exists vecPlan. intros V g p mn mx H0 H1 H2 Hg Hp. split; [intros; apply vecPlan_play; auto|]. split; [apply vecPlan_ends; auto|].
  intros f. eapply vecPlan_mean; eauto.
Qed.

(** Pairs: first the first component is drawn, then the second, given the first. *)
Theorem C84_dependency : forall T U (V : T -> Prop) (V2 : T -> U -> Prop) (g1 : forall E, egen E T) (g2 : forall E, T -> egen E U) p1 p2,
  obeys V g1 p1 -> (forall a, V a -> obeys (V2 a) (fun E => g2 E a) (p2 a)) ->
  exists p, obeys (fun y => V (fst y) /\ V2 (fst y) (snd y)) (fun E => dependency (g1 E) (g2 E)) p /\
    forall f, expect p f == expect p1 (fun a => expect (p2 a) (fun b => f (a, b))).
Proof. exact @dependency_chance. Qed.
(** Tuples of two, and of more. *)
Theorem C84_chain : forall A (V : A -> Prop) (V2 : A -> A -> Prop) (g1 : forall E, egen E A) (g2 : forall E, A -> egen E A) p1 p2,
  obeys V g1 p1 -> (forall a, V a -> obeys (V2 a) (fun E => g2 E a) (p2 a)) ->
  exists p, obeys (fun l => exists a b, l = [a; b] /\ V a /\ V2 a b) (fun E => chain (g1 E) (g2 E)) p /\
    forall f, expect p f == expect p1 (fun a => expect (p2 a) (fun b => f [a; b])).
Proof. exact chain_chance. Qed.
Theorem C84_chainMore : forall A (V : list A -> Prop) (V2 : list A -> A -> Prop) (g1 : forall E, egen E (list A)) (g2 : forall E, list A -> egen E A) p1 p2,
  obeys V g1 p1 -> (forall a, V a -> obeys (V2 a) (fun E => g2 E a) (p2 a)) ->
  exists p, obeys (fun l => exists a b, l = a ++ [b] /\ V a /\ V2 a b) (fun E => chainMore (g1 E) (g2 E)) p /\
    forall f, expect p f == expect p1 (fun a => expect (p2 a) (fun b => f (a ++ [b]))).
Proof. exact chainMore_chance. Qed.
(** Only the second value. *)
Theorem C84_derive : forall T U (V : T -> Prop) (V2 : T -> U -> Prop) (g1 : forall E, egen E T) (g2 : forall E, T -> egen E U) p1 p2,
  obeys V g1 p1 -> (forall a, V a -> obeys (V2 a) (fun E => g2 E a) (p2 a)) ->
  exists p, obeys (fun b => exists a, V a /\ V2 a b) (fun E => derive (g1 E) (g2 E)) p /\
    forall f, expect p f == expect p1 (fun a => expect (p2 a) f).
Proof. exact @derive_chance. Qed.
(** aggregate takes any number of steps between the bounds, all equally likely, after the first value. *)
Theorem C84_aggregate : forall A (V : A -> Prop) (g1 : forall E, egen E A) (g2 : forall E, A -> egen E A) p1 p2 mn mx,
  obeys V g1 p1 -> (forall a, V a -> obeys V (fun E => g2 E a) (p2 a)) -> (0 <= mn)%Z -> (mn <= mx)%Z -> (mx < UINT64_MAX)%Z ->
  exists p, obeys V (fun E => aggregate (g1 E) (g2 E) mn mx) p /\
    forall f, expect p f == average mn mx (fun n => expect p1 (walk p2 (Z.to_nat n) f)).
Proof. exact aggregate_chance. Qed.
(** accumulate gives lists of any length between the bounds, all equally likely: one step fewer than aggregate takes. *)
Theorem C84_accumulate : forall A (V : A -> Prop) (g1 : forall E, egen E A) (g2 : forall E, A -> egen E A) p1 p2 mn mx,
  obeys V g1 p1 -> (forall a, V a -> obeys V (fun E => g2 E a) (p2 a)) -> (0 <= mn)%Z -> (mn <= mx)%Z -> (mx <= INT64_MAX)%Z ->
  exists p, obeys (fits_size mn mx V) (fun E => accumulate (g1 E) (g2 E) mn mx) p /\
    forall f, expect p f == average mn mx (fun n => if (n =? 0)%Z then f [] else expect p1 (trail p2 (Z.to_nat n - 1) f)).
Proof. exact accumulate_chance. Qed.

(** As an argument of forAll, for the results of C78. *)
Theorem C84_argument : forall A (V : A -> Prop) g p, obeys V g p ->
  exists q, argumentFollows (fun E => argument (g E)) q /\ forall ev, prob q (left ev) == expect p (tells ev).
Proof.
  intros A V g p O. exists (pthen (fun t => Ends (Ok (inl (proot t)))) p). split; [apply (argument_follows A V); exact O|]. intros ev. unfold prob, expect. rewrite mean_then.
  eapply mean_ends; [apply O|]. intros t _. reflexivity.
Qed.
(** A property of one such argument that never discards: [n] runs find a failure with probability 1 - (1 - q)^n, [q] being the probability of a failing value. *)
Theorem C84_detection : forall A W (V : A -> Prop) g p (ev : setting) (P : forall E, property E A W) beh fuel n w, obeys V g p ->
  (forall E, pure_property (P E) beh /\ maxDurationMs (P E) = 0%Z /\ numRuns (P E) = n /\ gens (P E) = [argument (g E)] /\ ord_call (ev E) = [0%nat]) -> no_leak beh ->
  (forall a, V a -> discarding beh (inl [a]) = false) ->
  let q := expect p (tells (fun a => negb (passing beh (inl [a])))) in
  likelyResult (fun E r => Ok (returnedTrue (runForAll (S fuel) (starting r (ev E)) (P E) w))) negb (1 - power (1 - q) n).
Proof.
  intros A W V g p ev P beh fuel n w O HP HL Hd q. assert (C : ends (calm V) p) by apply O.
  apply (PropChance.C78_detection A W ev P beh (inputPlan p)); auto.
  - intros E. destruct (HP E) as (H1 & H2 & H3 & _). auto.
  - apply (input_follows A W V g p ev P O). intros E. destruct (HP E) as (_ & _ & _ & H4 & H5). auto.
  - rewrite (input_mean A V p _ C). eapply mean_ends_const; [exact C|]. intros t Ht. apply calm_root in Ht. unfold tells. rewrite (Hd _ Ht). reflexivity.
  - rewrite (input_mean A V p _ C). unfold q. rewrite (expect_not A V p _ C). ring.
Qed.

(** ** Examples *)
Local Open Scope Z_scope.
Definition below (b : Z) : forall E, Z -> egen E Z := fun E a => liftGen (interval TI32 b a).
(** A plan for every interval that the examples use. *)
Lemma ints : exists P : Z -> Z -> plan (ptree Z), forall a b, -1000 <= a -> a <= b -> b <= 9999 ->
  obeys (fun v => a <= v <= b) (fun E => liftGen (interval TI32 a b)) (P a b) /\ (forall f, (expect (P a b) f == average a b f)%Q).
Proof.
  destruct C84_interval as (P & HP), (C84_pure Z) as (L & HL). exists (fun a b => L (P TI32 a b)). intros a b H1 H2 H3.
  destruct (HP TI32 a b) as (X & Y & Z0); [cbn; lia|lia|cbn; lia|intros [C _]; discriminate C|cbn; lia|].
  destruct (HL (fun v => a <= v <= b) (fun E => interval TI32 a b) (P TI32 a b) X Y) as [O M]. split; [exact O|]. intros f. rewrite M. apply Z0.
Qed.
Lemma average_eq : forall lo hi f g, (forall z, (lo <= z <= hi)%Z -> f z == g z)%Q -> (average lo hi f == average lo hi g)%Q.
Proof. exact average_ext. Qed.

(* a die, and a number not above it *)
Example C84_dependency_ex : exists p, obeys (fun y => 1 <= fst y <= 6 /\ 1 <= snd y <= fst y) (fun E => dependency (liftGen (interval TI32 1 6)) (below 1 E)) p /\
  (expect p (tells (fun y => snd y =? 1)) == 49 # 120)%Q /\ (expect p (tells (fun y => (fst y =? 6) && (snd y =? 6))) == 1 # 36)%Q.
Proof.
  destruct ints as (P & HP). destruct (C84_dependency Z Z (fun a => 1 <= a <= 6) (fun a b => 1 <= b <= a) (fun E => liftGen (interval TI32 1 6)) (below 1) (P 1 6) (P 1)) as (p & O & M).
  - apply HP; lia.
  - intros a Ha. apply HP; lia.
  - exists p. split; [exact O|]. split; rewrite M; rewrite (proj2 (HP 1 6 ltac:(lia) ltac:(lia) ltac:(lia))).
    + rewrite (average_eq _ _ _ (fun a => average 1 a (tells (fun b => b =? 1)))); [vm_compute; reflexivity|]. intros a Ha. apply (HP 1 a); lia.
    + rewrite (average_eq _ _ _ (fun a => average 1 a (tells (fun b => (a =? 6) && (b =? 6))))); [vm_compute; reflexivity|]. intros a Ha. apply (HP 1 a); lia.
Qed.
(* the same number only: the smaller ones are more likely *)
Example C84_derive_ex : exists p, obeys (fun b => exists a, 1 <= a <= 6 /\ 1 <= b <= a) (fun E => derive (liftGen (interval TI32 1 6)) (below 1 E)) p /\
  (expect p (tells (fun b => b =? 1)) == 49 # 120)%Q /\ (expect p (tells (fun b => b =? 6)) == 1 # 36)%Q.
Proof.
  destruct ints as (P & HP). destruct (C84_derive Z Z (fun a => 1 <= a <= 6) (fun a b => 1 <= b <= a) (fun E => liftGen (interval TI32 1 6)) (below 1) (P 1 6) (P 1)) as (p & O & M).
  - apply HP; lia.
  - intros a Ha. apply HP; lia.
  - exists p. split; [exact O|]. split; rewrite M; rewrite (proj2 (HP 1 6 ltac:(lia) ltac:(lia) ltac:(lia))).
    + rewrite (average_eq _ _ _ (fun a => average 1 a (tells (fun b => b =? 1)))); [vm_compute; reflexivity|]. intros a Ha. apply (HP 1 a); lia.
    + rewrite (average_eq _ _ _ (fun a => average 1 a (tells (fun b => b =? 6)))); [vm_compute; reflexivity|]. intros a Ha. apply (HP 1 a); lia.
Qed.
(* year, month and day *)
Definition days (y m : Z) : Z := if m =? 2 then (if y mod 4 =? 0 then 29 else 28) else if (m =? 4) || (m =? 6) || (m =? 9) || (m =? 11) then 30 else 31.
Definition daysOf (l : list Z) : Z := match l with [y; m] => days y m | _ => 1 end.
Lemma days_range : forall l, 1 <= daysOf l <= 31.
Proof. intros l. unfold daysOf, days. destruct l as [|y [|m [|]]]; try lia. destruct (m =? 2); [destruct (y mod 4 =? 0)|destruct (_ || _ || _ || _)]; lia. Qed.
Definition date : forall E, egen E (list Z) := fun E =>
  chainMore (chain (liftGen (interval TI32 2001 2004)) (fun _ => liftGen (interval TI32 1 12))) (fun ym => liftGen (interval TI32 1 (daysOf ym))).
Example C84_chain_ex : exists p, obeys (fun l => exists ym d, l = ym ++ [d] /\ 1 <= d <= daysOf ym) date p /\
  (expect p (tells (fun l => match l with [y; m; d] => (m =? 2) && (d =? 29) | _ => false end)) == 1 # 1392)%Q /\
  (expect p (tells (fun l => match l with [y; m; d] => d =? 31 | _ => false end)) == 7 # 372)%Q.
Proof.
  destruct ints as (P & HP).
  destruct (C84_chain Z (fun y => 2001 <= y <= 2004) (fun _ m => 1 <= m <= 12) (fun E => liftGen (interval TI32 2001 2004)) (fun E _ => liftGen (interval TI32 1 12)) (P 2001 2004) (fun _ => P 1 12)) as (p & O & M).
  { apply HP; lia. }
  { intros a _. apply HP; lia. }
  destruct (C84_chainMore Z _ (fun ym d => 1 <= d <= daysOf ym) _ (fun E ym => liftGen (interval TI32 1 (daysOf ym))) p (fun ym => P 1 (daysOf ym)) O) as (q & O' & M').
  { intros a _. pose proof (days_range a). apply HP; lia. }
  assert (D : forall h, (expect q h == average 2001 2004 (fun y => average 1 12 (fun m => average 1 (days y m) (fun d => h [y; m; d]))))%Q).
  { intros h. rewrite M', M. rewrite (proj2 (HP 2001 2004 ltac:(lia) ltac:(lia) ltac:(lia))). apply average_ext. intros y Hy.
    rewrite (proj2 (HP 1 12 ltac:(lia) ltac:(lia) ltac:(lia))). apply average_ext. intros m Hm. pose proof (days_range [y; m]). apply (HP 1 (daysOf [y; m])); lia. }
  exists q. split; [|split; rewrite D; vm_compute; reflexivity]. eapply obeys_weaken; [exact O'|]. intros l (ym & d & -> & _ & Hd). exists ym, d. auto.
Qed.
(* from 3, one or two steps, each to a number not above the current one *)
Example C84_aggregate_ex : exists p, obeys (fun a => 0 <= a <= 3) (fun E => aggregate (liftGen (interval TI32 3 3)) (below 0 E) 1 2) p /\
  (expect p (tells (fun a => a =? 0)) == 37 # 96)%Q.
Proof.
  destruct ints as (P & HP). destruct (C84_aggregate Z (fun a => 0 <= a <= 3) (fun E => liftGen (interval TI32 3 3)) (below 0) (P 3 3) (P 0) 1 2) as (p & O & M); try (unfold UINT64_MAX; lia).
  - eapply obeys_weaken; [apply (HP 3 3); lia|]. cbn beta. lia.
  - intros a Ha. eapply obeys_weaken; [apply (HP 0 a); lia|]. cbn beta. lia.
  - exists p. split; [exact O|]. rewrite M.
    rewrite (average_eq _ _ _ (fun n => average 3 3 (fun a => if n =? 1 then average 0 a (tells (fun x => x =? 0)) else average 0 a (fun b => average 0 b (tells (fun x => x =? 0)))))); [vm_compute; reflexivity|].
    intros n Hn. rewrite (proj2 (HP 3 3 ltac:(lia) ltac:(lia) ltac:(lia))). apply average_ext. intros a Ha.
    assert (Hc : n = 1 \/ n = 2) by lia. destruct Hc as [-> | ->].
    + change (Z.to_nat 1) with 1%nat. cbn [walk Z.eqb]. apply (HP 0 a); lia.
    + change (Z.to_nat 2) with 2%nat. cbn [walk Z.eqb]. rewrite (proj2 (HP 0 a ltac:(lia) ltac:(lia) ltac:(lia))). apply average_ext. intros b Hb. apply (HP 0 b); lia.
Qed.
(* lists of two or three such numbers *)
Example C84_accumulate_ex : exists p, obeys (fits_size 0 2 (fun a => 0 <= a <= 3)) (fun E => accumulate (liftGen (interval TI32 3 3)) (below 0 E) 0 2) p /\
  (expect p (tells (fun l => match l with [] => true | _ => false end)) == 1 # 3)%Q /\ (expect p (tells (fun l => match l with [a; b] => b =? 0 | _ => false end)) == 1 # 12)%Q.
Proof.
  destruct ints as (P & HP). destruct (C84_accumulate Z (fun a => 0 <= a <= 3) (fun E => liftGen (interval TI32 3 3)) (below 0) (P 3 3) (P 0) 0 2) as (p & O & M); try (unfold INT64_MAX; lia).
  - eapply obeys_weaken; [apply (HP 3 3); lia|]. cbn beta. lia.
  - intros a Ha. eapply obeys_weaken; [apply (HP 0 a); lia|]. cbn beta. lia.
  - assert (D : forall h, (expect p h == average 0 2 (fun n => if n =? 0 then h [] else average 3 3 (fun a => if n =? 1 then h [a] else average 0 a (fun b => h [a; b]))))%Q).
    { intros h. rewrite M. apply average_ext. intros n Hn. destruct (n =? 0) eqn:E0; [reflexivity|]. apply Z.eqb_neq in E0.
      rewrite (proj2 (HP 3 3 ltac:(lia) ltac:(lia) ltac:(lia))). apply average_ext. intros a Ha.
      assert (Hc : n = 1 \/ n = 2) by lia. destruct Hc as [-> | ->].
      - reflexivity.
      - change (Z.to_nat 2 - 1)%nat with 1%nat. cbn [trail Z.eqb]. apply (HP 0 a); lia. }
    exists p. split; [exact O|]. split; rewrite D; vm_compute; reflexivity.
Qed.
(* a vector whose length is another value drawn before: two dice or three *)
Example C84_vector_ex : exists p, obeys (fun l => exists n, 2 <= n <= 3 /\ fits_size n n (fun v => 1 <= v <= 6) l)
  (fun E => derive (liftGen (interval TI32 2 3)) (fun n => liftGen (arbi_vector (interval TI32 1 6) {| minSize := n; maxSize := n |}))) p /\
  (expect p (tells (fun l => forallb (Z.eqb 6) l)) == 7 # 432)%Q.
Proof.
  destruct ints as (P & HP), C84_interval as (I & HI), (C84_vector Z) as (Vp & HV), (C84_pure (list Z)) as (L & HL).
  destruct (HI TI32 1 6) as (X & Y & Z0); [cbn; lia|lia|cbn; lia|intros [C _]; discriminate C|cbn; lia|].
  destruct (C84_derive Z (list Z) (fun n => 2 <= n <= 3) (fun n => fits_size n n (fun v => 1 <= v <= 6)) (fun E => liftGen (interval TI32 2 3))
    (fun E n => liftGen (arbi_vector (interval TI32 1 6) {| minSize := n; maxSize := n |})) (P 2 3) (fun n => L (Vp n n (I TI32 1 6)))) as (p & O & M).
  - apply HP; lia.
  - intros n Hn. destruct (HV (fun v => 1 <= v <= 6) (fun E => interval TI32 1 6) (I TI32 1 6) n n ltac:(lia) ltac:(lia) ltac:(unfold UINT32_MAX; lia) X Y) as (A1 & A2 & _).
    exact (proj1 (HL _ (fun E => arbi_vector (interval TI32 1 6) {| minSize := n; maxSize := n |}) _ A1 A2)).
  - exists p. split; [exact O|]. rewrite M. rewrite (proj2 (HP 2 3 ltac:(lia) ltac:(lia) ltac:(lia))).
    rewrite (average_eq _ _ _ (fun n => average n n (fun k => many (fun h => average 1 6 h) (Z.to_nat k) (tells (fun l => forallb (Z.eqb 6) l))))); [vm_compute; reflexivity|].
    intros n Hn. destruct (HV (fun v => 1 <= v <= 6) (fun E => interval TI32 1 6) (I TI32 1 6) n n ltac:(lia) ltac:(lia) ltac:(unfold UINT32_MAX; lia) X Y) as (A1 & A2 & A3).
    rewrite (proj2 (HL _ (fun E => arbi_vector (interval TI32 1 6) {| minSize := n; maxSize := n |}) _ A1 A2)). rewrite A3. apply average_ext. intros k _.
    assert (K : forall j f g, (forall l, f l == g l)%Q -> (many (fun h => mean (I TI32 1%Z 6%Z) (fun x => match x with Ok t => h (root t) | _ => 0%Q end)) j f == many (fun h => average 1%Z 6%Z h) j g)%Q).
    { induction j as [|j IH]; intros f g Hfg; cbn [many]; [auto|]. refine (Qeq_trans _ _ _ (Z0 (fun a => many _ j (fun l => f (a :: l)))) _). apply average_ext. intros z _. apply IH. auto. }
    apply K. reflexivity.
Qed.
(* 100 runs find the 29th of February with probability 1 - (1391/1392)^100 *)
Definition noLeapDay (args : list (list Z)) : list op * ures :=
  match args with [[y; m; d]] => ([], URet (negb ((m =? 2) && (d =? 29)))) | _ => ([], URet true) end.
Definition dates (n : nat) : forall E, property E (list Z) unit := fun E =>
  {| func := fun args w => (fst (noLeapDay args), snd (noLeapDay args), w); gens := [argument (date E)]; onStartup := None; onCleanup := None; numRuns := n; maxDurationMs := 0; seed := 0 |}.
Lemma leapDay_plain : forall args, exists b, noLeapDay args = ([], URet b).
Proof. intros args. unfold noLeapDay. destruct args as [|[|y [|m [|d [|? ?]]]] [|? ?]]; eauto. Qed.
Example C84_detection_ex : forall (ev : setting), (forall E, ord_call (ev E) = [0%nat]) ->
  likelyResult (fun E r => Ok (returnedTrue (runForAll 1 (starting r (ev E)) (dates 100 E) tt))) negb (1 - power (1 - (1 # 1392)) 100) /\ (1 - power (1 - (1 # 1392)) 100 < 7 # 100)%Q.
Proof.
  intros ev Hev. split; [|vm_compute; reflexivity]. destruct C84_chain_ex as (p & O & M & _).
  destruct (C84_detection (list Z) unit _ date p ev (dates 100) noLeapDay 0 100 tt O) as (q & Hq & Pq).
  - intros E. repeat split. apply Hev.
  - intros args A. exfalso. apply A. destruct (leapDay_plain args) as [b ->]. reflexivity.
  - intros a _. unfold discarding, judgeInput. destruct (leapDay_plain [a]) as [[|] ->]; reflexivity.
  - exists q. split; [exact Hq|]. rewrite Pq.
    assert (Pw : forall a b k, (a == b)%Q -> (power a k == power b k)%Q) by (intros a b k Hab; induction k as [|k IH]; cbn [power]; [reflexivity|apply Qmult_comp; assumption]).
    rewrite (Pw _ (1 - (1 # 1392))%Q); [reflexivity|]. rewrite <- M. apply Qplus_comp; [reflexivity|]. apply Qopp_comp. eapply mean_ends; [apply O|]. intros t _. unfold tells.
    f_equiv. unfold passing, judgeInput, noLeapDay. destruct (proot t) as [|y [|m [|d [|? ?]]]]; try reflexivity. destruct ((m =? 2) && (d =? 29)); reflexivity.
Qed.

Print Assumptions C84_unique.
Print Assumptions C84_pure.
Print Assumptions C84_interval.
Print Assumptions C84_vector.
Print Assumptions C84_dependency.
Print Assumptions C84_chain.
Print Assumptions C84_chainMore.
Print Assumptions C84_derive.
Print Assumptions C84_aggregate.
Print Assumptions C84_accumulate.
Print Assumptions C84_argument.
Print Assumptions C84_detection.
