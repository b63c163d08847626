(** Shrinking reports minimal failing arguments (C80). *)
From Coq Require Import String List ZArith Lia Bool Permutation.
From Verif Require Import Base TreeModel TreeSpec TreeProof RandomModel TupleModel TupleProof BinSearchProof IntegralModel IntegralSpec IntegralProof
  BoolModel ListModel ListSpec ListProof ListMainProof ContainerModel ContainerSpec ContainerProof GenModel GenSpec GenProof TupleGenModel
  EffModel EffSpec EffProof ContextModel ContextSpec ContextProof RunnerModel RunnerSpec RunnerProof RunnerPureProof RunnerShrinkProof
  SearchSpec SearchProof ListSearchSpec ListSearchProof MinimalSpec MinimalProof PropList PropContainer PropGen PropRun PropSearch PropListSearch.
Import ListNotations.
Local Open Scope list_scope.

(** * C80: shrinking reports minimal failing arguments *)

(** ** Generators whose trees lead to minimal values *)
Theorem C80_integer : forall E ty min max, usable ty min max -> minimising (E := E) (le_int (nearest_zero min max)) (generateInteger ty min max).
Proof. exact integer_minimising. Qed.

Theorem C80_bool : forall E p, minimising (E := E) le_bool (arbi_bool p).
Proof. intros E p r t r' H. apply gbind_ok in H. destruct H as [b [r1 [_ H]]]. inversion H; subst. apply bool_minimises. Qed.

Theorem C80_just : forall E A (a : A), minimising (E := E) eq (just a).
Proof. intros E A a r t r' H. inversion H; subst. apply leaf_minimises. Qed.

(** A pair or a tuple is as simple as another when each component is. *)
Theorem C80_pair : forall E A B fb (g1 : gen E A) (g2 : gen E B) le le', orders le -> orders le' -> minimising le g1 -> minimising le' g2 ->
  minimising (le_pair le le') (pairOf fb g1 g2) /\ orders (le_pair le le').
Proof.
  intros E A B fb g1 g2 le le' O1 O2 M1 M2. split; [|apply le_pair_orders; auto].
  intros r t r' H. unfold pairOf in H. destruct fb; apply gbind_ok in H; destruct H as [a [r1 [H1 H]]]; apply gbind_ok in H; destruct H as [b [r2 [H2 H]]];
    inversion H; subst; apply pair_minimises; eauto.
Qed.

Theorem C80_tuple : forall E U ord (gs : list (gen E U)) les, Forall orders les -> Forall2 minimising les gs ->
  minimising (le_each les) (tupleOf ord gs) /\ orders (le_each les).
Proof.
  intros E U ord gs les Ho HM. split; [|apply le_each_orders; auto].
  intros r t r' H. unfold tupleOf in H. apply gbind_ok in H. destruct H as [[es|e] [r1 [H1 H]]]; [|discriminate]. inversion H; subst.
  apply tuple_minimises; auto. apply evalTuple_ok in H1. destruct H1 as [L R]. rewrite map_length in L.
  assert (Hk : forall i e, nth_error es i = Some e -> exists g q q', nth_error gs i = Some g /\ g q = Ok (e, q')).
  { intros i e Hi. destruct (R i e Hi) as [f [q [q' [F1 F2]]]]. unfold gen in *. rewrite nth_error_map in F1. destruct (nth_error gs i) as [g|] eqn:Eg; cbn [option_map] in F1; [|discriminate].
    inversion F1; subst f. apply gbind_ok in F2. destruct F2 as [u [q1 [F2 F3]]]. inversion F3; subst. exists g, q, q'. auto. }
  clear -HM Hk L. revert es L Hk. induction HM as [|le g les gs Hg HM IH]; intros [|e es] L Hk; simpl in L; try discriminate; constructor.
  - destruct (Hk 0%nat e eq_refl) as [g' [q [q' [G1 G2]]]]. inversion G1; subst. eapply Hg; eauto.
  - apply IH; auto. intros i x Hi. apply (Hk (S i) x Hi).
Qed.

(** transform by a function that maps different values to different values. *)
Theorem C80_transform : forall E A B (g : gen E A) (f : A -> B) le, (forall x y, f x = f y -> x = y) -> minimising le g -> minimising (le_image f le) (transformGen g f).
Proof. intros E A B g f le Hf HM r t r' H. apply gbind_ok in H. destruct H as [u [r1 [H1 H]]]. inversion H; subst. apply map_minimises; eauto. Qed.

(** oneOf of generators that agree on what is simple. *)
Theorem C80_oneOf : forall E A (gws : list (weighted E A)) (gs : list (gen E A)) g le fuel, (0 < length gws)%nat -> (Z.of_nat (length gws) <= UINT32_MAX + 1)%Z ->
  map fst gws = map no_discard gs -> Forall (minimising le) gs -> oneOf gws = Ok g -> minimising le (g fuel).
Proof.
  intros E A gws gs g le fuel H0 H1 Hg HM Ho r t r' H.
  assert (Hw : exists ws, oneOfWeights (map snd gws) = Ok ws) by (unfold oneOf in Ho; destruct (oneOfWeights (map snd gws)); try discriminate; eauto).
  destruct Hw as [ws Hw]. destruct (proj1 (C25_first_accepted _ _ _ _ _ H0 H1 Ho Hw r t r')) as [i [gi [l [q1 [q2 [_ [Hn [_ [_ Hi]]]]]]]]]; [eauto|].
  rewrite Hg, nth_error_map in Hn. destruct (nth_error gs i) as [g0|] eqn:Eg; [|discriminate]. simpl in Hn. inversion Hn; subst gi.
  apply gbind_ok in Hi. destruct Hi as [u [q3 [Hi Hx]]]. inversion Hx; subst. rewrite Forall_forall in HM. apply nth_error_In in Eg. eapply HM; eauto.
Qed.

(** Sets by inclusion, maps by prefixes (in the order of the keys), vectors of elements that do not shrink by deletion of elements. *)
Theorem C80_set : forall E A fuel lt (elemGen : gen E A) mn mx, strict_order lt -> (0 <= mn <= mx)%Z -> (mx <= UINT32_MAX)%Z ->
  minimising (le_sub (Z.to_nat mn)) (arbi_set fuel lt elemGen {| minSize := mn; maxSize := mx |}).
Proof.
  intros E A fuel lt eg mn mx Hso H0 H2 r t r' H. apply arbi_set_tree in H; auto. destruct H as [Hsz Ht]. rewrite Ht.
  apply mtree_minimises; [apply u32_int64; lia|unfold size in Hsz; lia].
Qed.

Theorem C80_map : forall E K T fuel lt (keyGen : gen E K) (elemGen : gen E T) mn mx, strict_order lt -> (0 <= mn <= mx)%Z -> (mx <= UINT32_MAX)%Z ->
  minimising (le_prefix (Z.to_nat mn)) (arbi_map fuel lt keyGen elemGen {| minSize := mn; maxSize := mx |}).
Proof.
  intros E K T fuel lt kg eg mn mx Hso H0 H2 r t r' H. apply arbi_map_tree in H; auto. destruct H as [Hsz Ht]. rewrite Ht.
  apply prefix_minimises; unfold size, UINT64_MAX, UINT32_MAX in *; lia.
Qed.

Theorem C80_vector : forall E A (elemGen : gen E A) mn mx, (0 <= mn <= mx)%Z -> (mx <= UINT32_MAX)%Z ->
  (forall r t r', elemGen r = Ok (t, r') -> shrinks t = []) -> minimising (le_sub (Z.to_nat mn)) (arbi_vector elemGen {| minSize := mn; maxSize := mx |}).
Proof.
  intros E A eg mn mx H0 H2 Hl r t r' H. destruct (C22_vector E A eg mn mx r) as [k [r1 [_ [Hk Hiff]]]]; try lia. apply Hiff in H. destruct H as [vec [D1 [D2 [D3 _]]]].
  eapply vec_minimises; [| | |rewrite Z2Nat.id by lia; exact D3].
  - rewrite D2; apply u32_int64; lia.
  - unfold size in D2; lia.
  - clear -D1 Hl. induction D1 as [|r a r1 l r2 G D IH]; constructor; eauto.
Qed.

Theorem C80_orders : (forall c, orders (le_int c)) /\ orders le_bool /\ (forall A, orders (@eq A)) /\ (forall X m, orders (le_sub (X := X) m)) /\
  (forall X m, orders (le_prefix (X := X) m)) /\ (forall A B (f : A -> B) le, (forall x y, f x = f y -> x = y) -> orders le -> orders (le_image f le)).
Proof.
  split; [exact le_int_orders|]. split; [exact le_bool_orders|]. split; [split; intros; subst; auto|]. split; [exact le_sub_orders|]. split; [exact le_prefix_orders|].
  intros A B f le Hf [T Q]. split.
  - intros u v w [x [y [-> [-> H1]]]] [y' [z [E [-> H2]]]]. apply Hf in E. subst y'. exists x, z. eauto.
  - intros u v [x [y [-> [-> H]]]]. destruct (Q _ _ H). split; [exists x, x|exists y, y]; auto.
Qed.

(** ** Arguments *)

(** An argument drawn by a minimising generator, embedded in the type of arguments; [le] is the order on the embedded values. *)
Definition minimising_arg {E V} (le : V -> V -> Prop) (f : xgen E V) : Prop :=
  exists A (inj : A -> V) (g : gen E A) (leA : A -> A -> Prop), f = treeArg inj g /\ (forall x y, inj x = inj y -> x = y) /\ orders leA /\ minimising leA g /\
    forall v w, le v w <-> le_image inj leA v w.

Lemma le_each_nth : forall U (les : list (U -> U -> Prop)) xs ys, le_each les xs ys <->
  length xs = length les /\ length ys = length les /\
  forall N le x y, nth_error les N = Some le -> nth_error xs N = Some x -> nth_error ys N = Some y -> le x y.
Proof.
  intros U les. induction les as [|le les IH]; intros xs ys; split.
  - destruct xs, ys; simpl; intros H; try contradiction. split; [auto|]. split; [auto|]. intros [|N] le x y E1; discriminate.
  - intros [H1 [H2 _]]. destruct xs, ys; try discriminate. exact I.
  - destruct xs as [|x xs], ys as [|y ys]; simpl; intros H; try contradiction. destruct H as [H1 H2]. apply IH in H2. destruct H2 as [L1 [L2 H2]].
    split; [lia|]. split; [lia|]. intros [|N] l a b E1 E2 E3; cbn [nth_error] in *; [assert (l = le) by congruence; assert (a = x) by congruence; assert (b = y) by congruence; subst; exact H1|apply (H2 N l a b); auto].
  - intros [H1 [H2 H]]. destruct xs as [|x xs], ys as [|y ys]; try discriminate. simpl. split; [apply (H 0%nat le x y); auto|].
    apply IH. split; [simpl in H1; lia|]. split; [simpl in H2; lia|]. intros N l a b. apply (H (S N)).
Qed.

Lemma args_orders : forall E V (les : list (V -> V -> Prop)) (fs : list (xgen E V)), Forall2 minimising_arg les fs -> Forall orders les.
Proof.
  intros E V les fs H. induction H as [|le f les fs [A [inj [g [leA [_ [Hi [Ho [_ Hle]]]]]]]] H IH]; constructor; auto.
  destruct C80_orders as [_ [_ [_ [_ [_ Him]]]]]. destruct (Him _ _ inj leA Hi Ho) as [T Q]. split.
  - intros x y z. rewrite !Hle. apply T.
  - intros x y. rewrite !Hle. apply Q.
Qed.

Lemma args_quiet : forall E V (les : list (V -> V -> Prop)) (fs : list (xgen E V)), Forall2 minimising_arg les fs -> quiet fs.
Proof.
  intros E V les fs H. induction H as [|le f les fs [A [inj [g [leA [-> _]]]]] H IH]; constructor; auto.
  intros r e r' He. apply gbind_ok in He. destruct He as [x [r1 [_ He]]]. discriminate.
Qed.

(** The arguments reported are as simple as the ones drawn, fail, and no simpler arguments fail, provided failing is upward closed below the arguments drawn. *)
Theorem C80_arguments : forall E V W fuel ev (P : property E V W) beh w n why rep s' les,
  pure_property P beh -> no_leak beh -> ord_regen ev = ord_call ev -> order (length (gens P)) (ord_each ev) ->
  Forall2 minimising_arg les (gens P) -> runForAll fuel ev P w = Ok (VFalsified n why rep, s') ->
  le_each les (simplest_args rep) (with_args rep) /\
  (upward (le_each les) (with_args rep) (bad beh) -> minimal (le_each les) (bad beh) (simplest_args rep)).
Proof.
  intros E V W fuel ev P beh w n why rep s' les HP Hnl Ho Hoe HM H.
  pose proof (args_quiet _ _ _ _ HM) as Hq. pose proof (args_orders _ _ _ _ HM) as Hor.
  pose proof (C34_still_fails _ _ _ _ _ _ _ _ _ _ _ _ HP Hq Hnl Ho Hoe H) as Hfin.
  assert (Hlen : length les = length (gens P)) by (clear -HM; induction HM; simpl; auto).
  assert (Hlens : length (with_args rep) = length (gens P) /\ length (simplest_args rep) = length (gens P)).
  { pose proof H as H'. apply runLoop_ok in H'. destruct H' as [ks [s0 [s1 [_ [_ [_ [_ [_ Hs]]]]]]]].
    pose proof (shrink_inv _ _ _ _ _ _ _ _ Hs) as [ts [r2 [_ [_ [_ [H1 _]]]]]].
    destruct (C34_result _ _ _ _ _ _ _ _ _ HP Hoe Hs) as [ini [fin [A [B [C _]]]]].
    pose proof (shrink_inv _ _ _ _ _ _ _ _ Hs) as [ts0 [r3 [streams [r4 [ts' [H2 [_ [_ [H4 _]]]]]]]]].
    apply evalTuple_length in H2. assert (L : length (with_args rep) = length (gens P)) by (rewrite H4, map_length; auto).
    split; auto. rewrite B, map_length. rewrite A, map_length in L. rewrite <- L. clear -C. induction C; simpl; auto. }
  destruct Hlens as [Li Lf]. set (ini := with_args rep) in *. set (fin := simplest_args rep) in *.
  (* the search at each position *)
  assert (Hpos : forall N le, nth_error les N = Some le -> exists o1 o2 A (inj : A -> V) (leA : A -> A -> Prop) a r, ord_each ev = o1 ++ N :: o2 /\
    orders leA /\ (forall v w, le v w <-> le_image inj leA v w) /\ (forall x y, inj x = inj y -> x = y) /\ nth_error ini N = Some (inj a) /\ nth_error fin N = Some (inj r) /\ leA r a /\
    let fails x := bad beh (set_nth N (inj x) (partly o1 fin ini)) in upward leA a fails -> minimal leA fails r).
  { intros N le HN. assert (HN' : (N < length (gens P))%nat) by (rewrite <- Hlen; apply nth_error_Some; congruence).
    destruct (in_split N (ord_each ev)) as [o1 [o2 Es]]; [apply (order_in _ _ Hoe); auto|].
    assert (Hg : exists f, nth_error (gens P) N = Some f /\ minimising_arg le f).
    { clear -HM HN. revert N HN. induction HM as [|l f les fs Hl HM IH]; intros [|N] HN; simpl in HN; try discriminate; [inversion HN; subst; exists f; auto|apply IH; auto]. }
    destruct Hg as [f [Hf [A [inj [g [leA [-> [Hi [Hoa [Hm Hle]]]]]]]]]].
    destruct (falsified_scan _ _ _ _ _ _ _ _ _ _ _ _ _ _ _ _ _ _ HP Hq Hnl Ho Hoe Hf Es H) as [q [q' [t [tried [found [T1 [T2 [T3 [T4 T5]]]]]]]]].
    destruct (Hm _ _ _ T1) as [M1 M2]. exists o1, o2, A, inj, leA, (root t), (root (ending t found)).
    split; auto. split; auto. split; auto. split; auto. split; auto. split; auto. split; [apply M1; eapply scan_in_values; eauto|].
    cbv zeta. intros Hu. apply (M2 _ _ _ T5 T4 Hu). }
  assert (Hbelow : le_each les fin ini).
  { apply le_each_nth. split; [lia|]. split; [lia|]. intros N le x y E1 E2 E3.
    destruct (Hpos N le E1) as [o1 [o2 [A [inj [leA [a [r [_ [_ [Hle [_ [P1 [P2 [P3 _]]]]]]]]]]]]]].
    rewrite P1 in E3. rewrite P2 in E2. inversion E2; inversion E3; subst. apply Hle. exists r, a. auto. }
  split; auto. intros Hup. split; auto. intros xs Hxs Hbad.
  pose proof (proj1 (le_each_nth _ _ _ _) Hbelow) as [_ [_ Bn]]. pose proof (proj1 (le_each_nth _ _ _ _) Hxs) as [Lx [_ Xn]].
  assert (Hrefl : forall N le u v, nth_error les N = Some le -> le u v -> le u u /\ le v v).
  { intros N le u v E1 Hl. apply nth_error_In in E1. rewrite Forall_forall in Hor. apply (proj2 (Hor _ E1) _ _ Hl). }
  assert (Htrans : forall N le u v w, nth_error les N = Some le -> le u v -> le v w -> le u w).
  { intros N le u v x E1. apply nth_error_In in E1. rewrite Forall_forall in Hor. apply (proj1 (Hor _ E1)). }
  apply le_each_nth. split; [lia|]. split; [lia|]. intros N le f x E1 E2 E3.
  destruct (Hpos N le E1) as [o1 [o2 [A [inj [leA [a [r [Es [[Tr Q] [Hle [Hi [P1 [P2 [P3 P4]]]]]]]]]]]]]].
  assert (Hf : f = inj r) by congruence. subst f. cbv zeta in P4.
  assert (HN : (N < length ini)%nat) by (rewrite Li, <- Hlen; apply nth_error_Some; congruence).
  assert (Lp : length (partly o1 fin ini) = length ini).
  { unfold partly. rewrite map_length, !combine_length, seq_length. lia. }
  (* the tuples tried at this position, and what is below them *)
  assert (Hbase : forall M le' u, M <> N -> nth_error les M = Some le' -> nth_error (set_nth N u (partly o1 fin ini)) M = nth_error fin M \/
                                                                 nth_error (set_nth N u (partly o1 fin ini)) M = nth_error ini M).
  { intros M le' u HM' _. rewrite set_nth_other by auto. rewrite partly_nth by lia. destruct (existsb (Nat.eqb M) o1); auto. }
  assert (Hat : forall u, nth_error (set_nth N u (partly o1 fin ini)) N = Some u) by (intros u; apply set_nth_at; lia).
  assert (Hother : forall M u v, M <> N -> nth_error (set_nth N u (partly o1 fin ini)) M = nth_error (set_nth N v (partly o1 fin ini)) M) by (intros; rewrite !set_nth_other; auto).
  assert (Hl : forall u, length (set_nth N u (partly o1 fin ini)) = length les) by (intros; rewrite set_nth_len; lia).
  assert (Hself : forall M le' y, nth_error les M = Some le' -> nth_error fin M = Some y \/ nth_error ini M = Some y -> le' y y).
  { intros M le' y E4 Hy. assert (HM' : (M < length les)%nat) by (apply nth_error_Some; congruence).
    destruct (nth_error fin M) as [f|] eqn:Ef; [|apply nth_error_None in Ef; lia]. destruct (nth_error ini M) as [i|] eqn:Ei; [|apply nth_error_None in Ei; lia].
    pose proof (Bn M le' f i E4 Ef Ei) as Hfi. destruct (Hrefl _ _ _ _ E4 Hfi). destruct Hy as [Hy|Hy]; inversion Hy; subst; auto. }
  assert (Htop : forall u, le u (inj a) -> le_each les (set_nth N u (partly o1 fin ini)) ini).
  { intros u Hu. apply le_each_nth. split; [apply Hl|]. split; [lia|]. intros M le' y z E4 E5 E6. destruct (Nat.eq_dec M N) as [->|HM'].
    - rewrite Hat in E5. assert (le' = le) by congruence. assert (z = inj a) by congruence. subst. inversion E5; subst. auto.
    - destruct (Hbase M le' u HM' E4) as [B|B]; rewrite B in E5; [eapply Bn; eauto|]. assert (y = z) by congruence. subst. eapply Hself; eauto. }
  assert (Hlex : exists x', x = inj x' /\ leA x' r).
  { pose proof (Xn N le x _ E1 E3 P2) as Hx. apply Hle in Hx. destruct Hx as [x' [r' [-> [Er Hx]]]]. apply Hi in Er. subst r'. eauto. }
  destruct Hlex as [x' [-> Hx']]. apply Hle. exists r, x'. split; auto. split; auto. destruct P4 as [_ P4].
  - intros y z Hyz Hz Hb. apply (Hup (set_nth N (inj y) (partly o1 fin ini))); auto.
    + apply le_each_nth. split; [apply Hl|]. split; [apply Hl|]. intros M le' b c E4 E5 E6. destruct (Nat.eq_dec M N) as [->|HM'].
      * rewrite Hat in E5, E6. assert (le' = le) by congruence. subst. inversion E5; inversion E6; subst. apply Hle. exists y, z. auto.
      * rewrite (Hother M _ (inj y) HM') in E6. assert (b = c) by congruence. subst c. destruct (Hbase M le' (inj y) HM' E4) as [B|B]; rewrite B in E5; eapply Hself; eauto.
    + apply Htop. apply Hle. exists z, a. auto.
  - apply P4; auto. apply (Hup xs); auto.
    + apply le_each_nth. split; [lia|]. split; [apply Hl|]. intros M le' b c E4 E5 E6. destruct (Nat.eq_dec M N) as [->|HM'].
      * rewrite Hat in E6. assert (le' = le) by congruence. subst. assert (b = inj x') by congruence. inversion E6; subst. apply Hle. exists x', x'. split; auto. split; auto. apply (proj1 (Q _ _ Hx')).
      * assert (HM2 : (M < length les)%nat) by (apply nth_error_Some; congruence).
        destruct (nth_error fin M) as [fM|] eqn:EfM; [|apply nth_error_None in EfM; lia].
        pose proof (Xn M le' b fM E4 E5 EfM) as Hb. destruct (Hbase M le' (inj x') HM' E4) as [B|B]; rewrite B in E6.
        -- rewrite EfM in E6. inversion E6; subst. auto.
        -- eapply Htrans; [exact E4|exact Hb|]. eapply Bn; eauto.
    + apply Htop. apply Hle. exists x', a. split; auto. split; auto. eapply Tr; eauto.
Qed.

(** If among the arguments as simple as those drawn some failing ones are as simple as all failing ones, then those are reported (up to being equally simple). *)
Theorem C80_least : forall E V W fuel ev (P : property E V W) beh w n why rep s' les m,
  pure_property P beh -> no_leak beh -> ord_regen ev = ord_call ev -> order (length (gens P)) (ord_each ev) ->
  Forall2 minimising_arg les (gens P) -> runForAll fuel ev P w = Ok (VFalsified n why rep, s') -> upward (le_each les) (with_args rep) (bad beh) ->
  bad beh m -> (forall xs, le_each les xs (with_args rep) -> bad beh xs -> le_each les m xs) ->
  le_each les m (simplest_args rep) /\ le_each les (simplest_args rep) m.
Proof.
  intros E V W fuel ev P beh w n why rep s' les m HP Hnl Ho Hoe HM H Hup Hm Hleast.
  destruct (C80_arguments _ _ _ _ _ _ _ _ _ _ _ _ _ HP Hnl Ho Hoe HM H) as [Hb Hmin]. destruct (Hmin Hup) as [Hf Hx].
  assert (L : le_each les m (simplest_args rep)) by (apply Hleast; auto). auto.
Qed.

(** Integers.  [rs]: type and range of each argument. *)
Definition range := (ity * Z * Z)%type.
Definition in_order (rs : list range) : list Z -> list Z -> Prop := le_each (map (fun r => le_int (nearest_zero (snd (fst r)) (snd r))) rs).
Theorem C80_integers : forall E W fuel ev (P : property E Z W) beh w n why rep s' rs,
  pure_property P beh -> no_leak beh -> ord_regen ev = ord_call ev -> order (length (gens P)) (ord_each ev) ->
  Forall (fun r : range => usable (fst (fst r)) (snd (fst r)) (snd r)) rs -> gens P = map (fun r : range => intArg (fun x => x) (fst (fst r)) (snd (fst r)) (snd r)) rs ->
  (forall xs ys, in_order rs xs ys -> in_order rs ys (with_args rep) -> bad beh xs -> bad beh ys) ->
  runForAll fuel ev P w = Ok (VFalsified n why rep, s') ->
  in_order rs (simplest_args rep) (with_args rep) /\ bad beh (simplest_args rep) /\
  forall xs, in_order rs xs (simplest_args rep) -> bad beh xs -> xs = simplest_args rep.
Proof.
  intros E W fuel ev P beh w n why rep s' rs HP Hnl Ho Hoe Hu Hg Hup H.
  assert (HM : Forall2 minimising_arg (map (fun r => le_int (nearest_zero (snd (fst r)) (snd r))) rs) (gens P)).
  { rewrite Hg. clear -Hu. induction Hu as [|[[ty mn] mx] rs Hr Hu IH]; constructor; auto. cbn [fst snd] in *.
    exists Z, (fun x => x), (generateInteger ty mn mx), (le_int (nearest_zero mn mx)). split; auto. split; auto. split; [apply le_int_orders|].
    split; [apply C80_integer; auto|]. intros v w. split; [intros L; exists v, w; auto|intros [x [y [-> [-> L]]]]; auto]. }
  destruct (C80_arguments _ _ _ _ _ _ _ _ _ _ _ _ _ HP Hnl Ho Hoe HM H) as [Hb Hmin]. split; auto. destruct (Hmin Hup) as [Hf Hx]. split; auto.
  intros xs L Hxs. pose proof (Hx xs L Hxs) as L'. unfold in_order in *. clear -L L'. revert L L'. generalize (simplest_args rep). revert xs.
  induction rs as [|r rs IH]; intros [|x xs] [|y ys]; simpl; try tauto. intros [A B] [C D]. f_equal; [unfold le_int, on_way in *; lia|apply IH; auto].
Qed.

(** ** The number of calls *)
Theorem C80_trying : forall E : engine,
  (forall ty min max k, usable ty min max -> (max - min <= 2 ^ Z.of_nat k)%Z -> trying (E := E) (S k) (generateInteger ty min max)) /\
  (forall p, trying (E := E) 1 (arbi_bool p)) /\ (forall A (a : A), trying (E := E) 0 (just a)) /\
  (forall A B fb (g1 : gen E A) (g2 : gen E B) j k, trying j g1 -> trying k g2 -> trying (j + k) (pairOf fb g1 g2)) /\
  (forall U ord (gs : list (gen E U)) ks, Forall2 trying ks gs -> trying (list_sum ks) (tupleOf ord gs)) /\
  (forall A B (g : gen E A) (f : A -> B) k, trying k g -> trying k (transformGen g f)) /\
  (forall A fuel lt (g : gen E A) mn mx k, strict_order lt -> (0 <= mn <= mx)%Z -> (mx <= UINT32_MAX)%Z -> (mx <= 2 ^ Z.of_nat k)%Z ->
     trying (S k * S (Z.to_nat mx)) (arbi_set fuel lt g {| minSize := mn; maxSize := mx |})) /\
  (forall K T fuel lt (g1 : gen E K) (g2 : gen E T) mn mx k, strict_order lt -> (0 <= mn <= mx)%Z -> (mx <= UINT32_MAX)%Z -> (mx - mn <= 2 ^ Z.of_nat k)%Z ->
     trying (S k) (arbi_map fuel lt g1 g2 {| minSize := mn; maxSize := mx |})).
Proof.
  intros E. split; [intros; apply integer_trying; auto|]. split.
  { intros p r t r' H. apply gbind_ok in H. destruct H as [b [r1 [_ H]]]. inversion H; subst. apply bool_tries. } split.
  { intros A a r t r' H. inversion H; subst. apply leaf_tries. } split.
  { intros A B fb g1 g2 j k H1 H2 r t r' H. unfold pairOf in H. destruct fb; apply gbind_ok in H; destruct H as [a [r1 [G1 H]]]; apply gbind_ok in H; destruct H as [b [r2 [G2 H]]];
      inversion H; subst; apply pair_tries; eauto. } split.
  { intros U ord gs ks HM r t r' H. unfold tupleOf in H. apply gbind_ok in H. destruct H as [[es|e] [r1 [H1 H]]]; [|discriminate]. inversion H; subst.
    apply tuple_tries. apply evalTuple_ok in H1. destruct H1 as [L R]. rewrite map_length in L.
    assert (Hk : forall i e, nth_error es i = Some e -> exists g q q', nth_error gs i = Some g /\ g q = Ok (e, q')).
    { intros i e Hi. destruct (R i e Hi) as [f [q [q' [F1 F2]]]]. unfold gen in *. rewrite nth_error_map in F1. destruct (nth_error gs i) as [g|] eqn:Eg; cbn [option_map] in F1; [|discriminate].
      inversion F1; subst f. apply gbind_ok in F2. destruct F2 as [u [q1 [F2 F3]]]. inversion F3; subst. exists g, q, q'. auto. }
    clear -HM Hk L. revert es L Hk. induction HM as [|le g les gs Hg HM IH]; intros [|e es] L Hk; simpl in L; try discriminate; constructor.
    - destruct (Hk 0%nat e eq_refl) as [g' [q [q' [G1 G2]]]]. inversion G1; subst. eapply Hg; eauto.
    - apply IH; auto. intros i x Hi. apply (Hk (S i) x Hi). } split.
  { intros A B g f k HM r t r' H. apply gbind_ok in H. destruct H as [u [r1 [H1 H]]]. inversion H; subst. apply map_tries; eauto. } split.
  { intros A fuel lt g mn mx k Hso H0 H2 Hk r t r' H. apply arbi_set_tree in H; auto. destruct H as [Hsz Ht]. rewrite Ht.
    intros fails tried found Hs. unfold size in Hsz. etransitivity; [eapply (mtree_tries _ (root t) (Z.to_nat mn) k); [apply u32_int64; unfold size; lia|lia|lia|exact Hs]|].
    apply Nat.mul_le_mono_l. lia. }
  intros K T fuel lt g1 g2 mn mx k Hso H0 H2 Hk r t r' H. apply arbi_map_tree in H; auto. destruct H as [Hsz Ht]. rewrite Ht.
  apply prefix_tries; unfold size, UINT64_MAX, UINT32_MAX in *; lia.
Qed.

(** While shrinking, the property is called at most as often as the bounds of its arguments add up to, whatever it does. *)
Theorem C80_calls : forall E V W ev (P : property E V W) beh s rep s' ks, pure_property P beh -> order (length (gens P)) (ord_each ev) ->
  Forall2 (fun f k => exists A (inj : A -> V) (g : gen E A), f = treeArg inj g /\ trying k g) (gens P) ks ->
  shrink ev P s = Ok (rep, s') -> exists l, lg s' = lg s ++ calls beh l /\ (length l <= list_sum ks)%nat.
Proof.
  intros E V W ev P beh s rep s' ks HP Ho Hg H.
  pose proof (shrink_inv _ _ _ _ _ _ _ _ H) as [ts [r2 [_ [_ [_ [H1 _]]]]]].
  destruct (C66_search _ _ _ _ _ _ _ _ _ _ _ HP Ho H1 H) as [logs [L1 [L2 L3]]]. exists (concat logs). split; auto.
  destruct (evalTuple_ok _ _ _ _ _ _ _ H1) as [_ Hev].
  assert (Hlen : length ts = length (gens P)) by (eapply evalTuple_length; eauto).
  assert (Hks : length ks = length (gens P)) by (clear -Hg; induction Hg; simpl; auto).
  assert (Hb : forall o1 N o2, ord_each ev = o1 ++ N :: o2 -> exists lo k, nth_error logs (length o1) = Some lo /\ nth_error ks N = Some k /\ (length lo <= k)%nat).
  { intros o1 N o2 E1. assert (HN : (N < length (gens P))%nat) by (apply (order_in _ _ Ho); rewrite E1; apply in_or_app; right; left; auto).
    destruct (nth_error ts N) as [x|] eqn:Ex; [|apply nth_error_None in Ex; lia].
    destruct (Hev N x Ex) as [f [q [q' [F1 F2]]]]. destruct (nth_error ks N) as [k|] eqn:Ek; [|apply nth_error_None in Ek; lia].
    assert (Hgk : exists A (inj : A -> V) (g : gen E A), f = treeArg inj g /\ trying k g).
    { clear -Hg F1 Ek. unfold xgen in *. revert N F1 Ek. induction Hg as [|f0 k0 fs ks H Hg IH]; intros [|N] F1 Ek; simpl in *; try discriminate; [inversion F1; inversion Ek; subst; auto|eauto]. }
    destruct Hgk as [A [inj [g [-> Ht]]]]. destruct (treeArg_ok _ _ _ _ _ _ _ _ F2) as [t [T1 ->]].
    destruct (L3 o1 N o2 _ E1 Ex) as [tried [found [S1 [_ [_ S4]]]]]. exists (map (fun a => set_nth N a (partly o1 (simplest_args rep) (with_args rep))) tried), k.
    split; [exact S4|]. split; auto. rewrite map_length. eapply map_tries; [eapply Ht; eauto|exact S1]. }
  assert (Hsum : forall o1 o2 ls, ord_each ev = o1 ++ o2 -> skipn (length o1) logs = ls -> (length (concat ls) <= list_sum (map (fun N => nth N ks 0%nat) o2))%nat).
  { intros o1 o2. revert o1. induction o2 as [|N o2 IH]; intros o1 ls E1 E2.
    - assert (length logs <= length o1)%nat. { rewrite L1. apply Permutation_length in Ho. rewrite E1, app_nil_r, seq_length in Ho. lia. }
      rewrite skipn_all2 in E2 by auto. subst ls. simpl. lia.
    - destruct (Hb o1 N o2 E1) as [lo [k [B1 [B2 B3]]]].
      assert (Esk : ls = lo :: skipn (S (length o1)) logs).
      { rewrite <- E2. clear -B1. revert B1. generalize (length o1). intros n. revert logs. induction n as [|n IH]; intros [|x logs] B1; simpl in *; try discriminate; [inversion B1; auto|apply IH; auto]. }
      rewrite Esk. cbn [concat map list_sum fold_right]. rewrite app_length.
      assert (IH' := IH (o1 ++ [N]) (skipn (S (length o1)) logs)). rewrite <- app_assoc in IH'. rewrite app_length, Nat.add_1_r in IH'. specialize (IH' E1 eq_refl).
      rewrite (nth_error_nth _ _ _ B2). change (fold_right Init.Nat.add 0%nat) with list_sum. lia. }
  specialize (Hsum [] (ord_each ev) logs eq_refl eq_refl). etransitivity; [exact Hsum|].
  assert (Hp : list_sum (map (fun N => nth N ks 0%nat) (ord_each ev)) = list_sum (map (fun N => nth N ks 0%nat) (seq 0 (length ks)))).
  { rewrite Hks. clear -Ho. unfold order in Ho. induction Ho; simpl; try lia. }
  rewrite Hp. apply Nat.eq_le_incl. clear. f_equal. apply nth_ext with (d := 0%nat) (d' := 0%nat); [rewrite map_length, seq_length; auto|].
  intros i Hi. rewrite map_length, seq_length in Hi. rewrite (nth_indep _ 0%nat (nth 0 ks 0%nat)) by (rewrite map_length, seq_length; auto).
  rewrite (map_nth (fun N => nth N ks 0%nat)). rewrite seq_nth by auto. auto.
Qed.

(** ** Examples *)

(** A property of one argument that holds when [good] does, and what is reported for it: arguments drawn, arguments reported, number of calls. *)
Definition f80 {A} (good : A -> bool) (a : list A) : list op * ures := match a with [x] => ([], URet (good x)) | _ => ([], URet true) end.
Definition prop80 {A} (good : A -> bool) (g : gen replay A) : property replay A unit :=
  {| func := fun a w => (fst (f80 good a), snd (f80 good a), w); gens := [treeArg (fun x => x) g];
     onStartup := None; onCleanup := None; numRuns := 5; maxDurationMs := 0; seed := 1 |}.
Definition report80 {A} (good : A -> bool) (g : gen replay A) (draws : list Z) : option (list A * list A * nat) :=
  match runForAll 5 (inOrder 1 draws) (prop80 good g) tt with
  | Ok (VFalsified _ _ rep, s) => Some (with_args rep, simplest_args rep, length (lg s))
  | _ => None
  end.
Lemma bad80 : forall A (good : A -> bool) x, bad (f80 good) [x] <-> good x = false.
Proof.
  intros A good x. unfold bad. cbn [f80 fst snd failed_expectations]. destruct (good x); split; intros H; auto.
  - destruct H as [H|H]; exfalso; apply H; reflexivity.
  - discriminate.
  - left. discriminate.
Qed.
Lemma no_leak80 : forall A (good : A -> bool), no_leak (f80 good).
Proof. intros A good [|x [|y a]] H; exfalso; apply H; reflexivity. Qed.

(** What C80_arguments says of one argument. *)
Lemma one80 : forall A (good : A -> bool) (g : gen replay A) le draws v r k, orders le -> minimising le g -> report80 good g draws = Some ([v], [r], k) ->
  (forall x y, le x y -> le y v -> good x = false -> good y = false) -> forall x, le x r -> good x = false -> le r x.
Proof.
  intros A good g le draws v r k Ho HM H Hup x Hx Hb. unfold report80 in H.
  destruct (runForAll 5 (inOrder 1 draws) (prop80 good g) tt) as [[[| |n why rep] s]| | |] eqn:E; try discriminate. inversion H as [[Ha Hs Hk]]. clear H.
  assert (HF : Forall2 (minimising_arg (E := replay)) [le] (gens (prop80 good g))).
  { constructor; [|constructor]. exists A, (fun x => x), g, le. split; [reflexivity|]. split; [auto|]. split; [auto|]. split; [auto|].
    intros a b. split; [intros L; exists a, b; auto|intros [a' [b' [-> [-> L]]]]; auto]. }
  assert (HP : pure_property (prop80 good g) (f80 good)) by (split; auto).
  destruct (C80_arguments _ _ _ 5 (inOrder 1 draws) (prop80 good g) (f80 good) tt _ _ _ _ [le] HP (no_leak80 A good) eq_refl (Permutation_refl _) HF E) as [_ H].
  rewrite Ha, Hs in H. destruct H as [_ H].
  - intros [|a [|a' l]] [|b [|b' m]]; simpl; try tauto. intros [L1 _] [L2 _]. rewrite !bad80. eauto.
  - destruct (H [x]) as [L _]; [split; [auto|exact I]|apply bad80; auto|auto].
Qed.

Definition upto (n : Z) : gen replay Z := generateInteger TI32 0 n.
Definition sum100 (p : Z * Z) : bool := negb ((10 <=? fst p) && (100 <=? fst p + snd p))%Z.
Example C80_pair_ex : report80 sum100 (pairOf true (upto 200) (upto 200)) [90; 150]%Z = Some ([(90, 150)], [(10, 90)], 17%nat)%Z /\
  usable TI32 0 200 /\ (forall x y, le_pair (le_int 0) (le_int 0) x y -> le_pair (le_int 0) (le_int 0) y (90, 150)%Z -> sum100 x = false -> sum100 y = false).
Proof.
  split; [vm_compute; reflexivity|]. split; [split; [|split; [|split]]; try (vm_compute; discriminate); intros [H _]; discriminate|].
  intros [x1 x2] [y1 y2] [H1 H2] [H3 H4]. unfold le_int, on_way, sum100 in *. cbn [fst snd] in *.
  rewrite !negb_false_iff, !andb_true_iff, !Z.leb_le. lia.
Qed.
Example C80_tuple_ex : report80 (fun l => negb (100 <=? fold_right Z.add 0 l)%Z) (tupleOf [2; 0; 1]%nat [upto 200; upto 50; upto 60]) [55; 90; 30]%Z
  = Some ([[90; 30; 55]], [[15; 30; 55]], 22%nat)%Z.
Proof. vm_compute. reflexivity. Qed.
Example C80_transform_ex : report80 (fun x => (x <? 15)%Z) (transformGen (upto 100) (fun x => 2 * x + 1)%Z) [31]%Z = Some ([63], [15], 7%nat)%Z /\
  (forall x y, 2 * x + 1 = 2 * y + 1 -> x = y)%Z.
Proof. split; [vm_compute; reflexivity|intros; lia]. Qed.
Example C80_bool_ex : report80 (fun p => fst p || (snd p <? 7)%Z) (pairOf false (transformGen (arbi_bool d_half) negb) (upto 50)) [20; 5; 0]%Z
  = Some ([(false, 20)], [(false, 7)], 7%nat)%Z.
Proof. vm_compute. reflexivity. Qed.
Definition draw80 : gen replay Z := lazyGen (E := replay) (fun r => match (r : list Z) with x :: q => Ok (x, q) | [] => Ok (0%Z, r) end).
Example C80_vector_ex : report80 (fun l => negb (five_then_big false l)) (arbi_vector draw80 {| minSize := 0; maxSize := 6 |}) [5; 3; 5; 8; 5; 9]%Z
  = Some ([[3; 5; 8; 5; 9]], [[5; 8]], 7%nat)%Z /\ (forall r t r', draw80 r = Ok (t, r') -> shrinks t = []).
Proof. split; [vm_compute; reflexivity|]. intros [|x r] t r' H; inversion H; subst; reflexivity. Qed.
Example C80_set_ex : report80 (fun l => negb (five_then_big false l)) set67 [5; 3; 5; 8; 1; 9]%Z = Some ([[1; 3; 5; 8; 9]], [[5; 8]], 9%nat)%Z /\ strict_order Z.ltb.
Proof. split; [vm_compute; reflexivity|]. split; [intros; apply Z.ltb_irrefl|intros a b c; rewrite !Z.ltb_lt; lia]. Qed.
Example C80_map_ex : report80 (fun l => (length l <? 2)%nat) map67 [4; 3; 1; 9; 5; 2; 0; 7; 8]%Z = Some ([[(1, 2); (3, 0); (5, 7); (9, 8)]], [[(1, 2); (3, 0)]], 4%nat)%Z.
Proof. vm_compute. reflexivity. Qed.
Example C80_oneOf_ex : exists g, oneOf [(no_discard (upto 100), d_half); (no_discard (upto 1000), d_zero)] = Ok g /\
  report80 (fun x => (x <? 37)%Z) (g 9%nat) [1; 7; 350]%Z = Some ([350], [37], 11%nat)%Z /\ report80 (fun x => (x <? 37)%Z) (g 9%nat) [0; 7; 50]%Z = Some ([50], [37], 8%nat)%Z.
Proof. eexists. split; [reflexivity|]. split; vm_compute; reflexivity. Qed.
(** All theorems together: a pair of an integer and a pair of booleans, and what C80_arguments gives for it. *)
Example C80_arguments_ex : let g := pairOf true (upto 200) (pairOf true (arbi_bool d_half) (arbi_bool d_half)) in
  let good (p : Z * (bool * bool)) := ((fst p <? 12)%Z || negb (fst (snd p) || (100 <=? fst p)%Z)) in
  report80 good g [150; 0; 0]%Z = Some ([(150, (true, true))], [(12, (true, false))], 11%nat)%Z /\
  minimising (le_pair (le_int 0) (le_pair le_bool le_bool)) g /\
  forall x, le_pair (le_int 0) (le_pair le_bool le_bool) x (12, (true, false))%Z -> good x = false -> x = (12, (true, false))%Z.
Proof.
  intros g good. split; [vm_compute; reflexivity|].
  split; [apply C80_pair; [apply le_int_orders|apply le_pair_orders; apply le_bool_orders|apply (C80_integer replay TI32 0 200)|apply C80_pair; try apply le_bool_orders; apply C80_bool];
    split; [|split; [|split]]; try (vm_compute; discriminate); intros [H _]; discriminate|].
  intros [z [b c]] [H1 [H2 H3]] Hg. unfold good in Hg. cbn [fst snd] in *. unfold le_bool in *. destruct c; [discriminate (H3 eq_refl)|].
  apply orb_false_iff in Hg. destruct Hg as [Hz Hg]. apply Z.ltb_ge in Hz. unfold le_int, on_way in H1. assert (z = 12)%Z by lia. subst z. destruct b; [auto|discriminate].
Qed.
Definition ranges66 : list range := [(TI32, 0, 200); (TI32, -200, 200)]%Z.
Lemma bad66 : forall x y, bad f66 [x; y] <-> (10 <= x /\ 100 <= x + y)%Z.
Proof.
  intros x y. unfold bad, f66. cbn [fst snd failed_expectations]. destruct (Z.leb_spec 10 x); destruct (Z.leb_spec 100 (x + y)); cbn [andb negb]; split; intros H1; try lia;
    try (left; discriminate); destruct H1 as [H1|H1]; exfalso; apply H1; reflexivity.
Qed.
(** (90, 150) is drawn and (10, 90) reported; (0, 100), for instance, does not fail, and (100, 0) is not simpler. *)
Example C80_integers_ex : gens prop66 = map (fun r : range => intArg (fun x => x) (fst (fst r)) (snd (fst r)) (snd r)) ranges66 /\
  Forall (fun r : range => usable (fst (fst r)) (snd (fst r)) (snd r)) ranges66 /\
  (forall xs ys, in_order ranges66 xs ys -> in_order ranges66 ys [90; 150]%Z -> bad f66 xs -> bad f66 ys) /\
  match runForAll 5 (inOrder 2 [90; 150]%Z) prop66 tt with Ok (VFalsified n why rep, s) => with_args rep = [90; 150]%Z /\ simplest_args rep = [10; 90]%Z | _ => False end.
Proof.
  split; [reflexivity|]. split; [|split; [|vm_compute; auto]].
  - repeat constructor; cbn [fst snd]; try (vm_compute; discriminate); intros [H _]; discriminate.
  - intros [|x1 [|x2 [|x3 xs]]] [|y1 [|y2 [|y3 ys]]]; unfold in_order; cbn [ranges66 map le_each fst snd]; try tauto.
    intros [A [B _]] [C [D _]]. rewrite !bad66. unfold le_int, on_way, nearest_zero in *. lia.
Qed.
(** Failing from 7 in the first and 3 in the second argument: (7, 3) is the simplest failing pair, and found. *)
Example C80_least_ex : report80 (fun p => negb ((7 <=? fst p) && (3 <=? snd p)))%Z (pairOf true (upto 200) (upto 200)) [90; 150]%Z = Some ([(90, 150)], [(7, 3)], 17%nat)%Z /\
  forall x, negb ((7 <=? fst x) && (3 <=? snd x))%Z = false -> le_pair (le_int 0) (le_int 0) (7, 3)%Z x.
Proof.
  split; [vm_compute; reflexivity|]. intros [x y] H. rewrite negb_false_iff, andb_true_iff, !Z.leb_le in H. cbn [fst snd] in H. unfold le_pair, le_int, on_way. cbn [fst snd]. lia.
Qed.
Example C80_calls_ex : exists rep s', shrink (inOrder 1 []) (prop80 sum100 (pairOf true (upto 200) (upto 200))) (start67 [90; 150]%Z) = Ok (rep, s') /\ length (lg s') = 16%nat /\
  trying (E := replay) (9 + 9) (pairOf true (upto 200) (upto 200)).
Proof.
  assert (T : trying (E := replay) 9 (upto 200)).
  { destruct (C80_trying replay) as [T _]. apply (T TI32 0 200 8%nat)%Z; [|vm_compute; discriminate]. split; [|split; [|split]]; try (vm_compute; discriminate); intros [H _]; discriminate. }
  assert (Tp : trying (E := replay) (9 + 9) (pairOf true (upto 200) (upto 200))) by (destruct (C80_trying replay) as [_ [_ [_ [C _]]]]; apply C; auto).
  assert (X : match shrink (inOrder 1 []) (prop80 sum100 (pairOf true (upto 200) (upto 200))) (start67 [90; 150]%Z) with Ok (rep, s') => length (lg s') = 16%nat | _ => False end) by (vm_compute; auto).
  destruct (shrink (inOrder 1 []) (prop80 sum100 (pairOf true (upto 200) (upto 200))) (start67 [90; 150]%Z)) as [[rep s']| | |]; try contradiction. exists rep, s'. auto.
Qed.

(** ** What does not hold *)

(** filter does not keep the quality: candidates behind two rejected ones are lost.  Even numbers; failing from 1 on; 6 is drawn and 4 reported, though 2 fails. *)
Theorem C80_filter_refuted : ~ (forall E A (g : gen E A) (crit : A -> bool) le fuel, orders le -> minimising le g ->
  minimising (fun x y => le x y /\ crit x = true /\ crit y = true) (filterGen fuel g crit)).
Proof.
  intros H. assert (Hu : usable TI32 0 200) by (split; [|split; [|split]]; try (vm_compute; discriminate); intros [C _]; discriminate).
  specialize (H replay Z (upto 200) Z.even (le_int 0) 20%nat (le_int_orders 0) (C80_integer replay TI32 0 200 Hu)).
  assert (R : report80 (fun x => (x <? 1)%Z) (filterGen 20 (upto 200) Z.even) [6]%Z = Some ([6], [4], 3%nat)%Z) by (vm_compute; reflexivity).
  pose proof (one80 Z _ _ _ _ _ _ _ (conj (fun x y z A B => conj (proj1 (le_int_orders 0) x y z (proj1 A) (proj1 B)) (conj (proj1 (proj2 A)) (proj2 (proj2 B))))
    (fun x y A => conj (conj (proj1 (proj2 (le_int_orders 0) x y (proj1 A))) (conj (proj1 (proj2 A)) (proj1 (proj2 A))))
                       (conj (proj2 (proj2 (le_int_orders 0) x y (proj1 A))) (conj (proj2 (proj2 A)) (proj2 (proj2 A)))))) H R) as X.
  destruct (X ltac:(intros x y [L _] [L' _]; rewrite !Z.ltb_ge; unfold le_int, on_way in *; lia) 2%Z) as [L _];
    [split; [unfold le_int, on_way; lia|auto]|reflexivity|unfold le_int, on_way in L; lia].
Qed.

(** Nor do vectors with shrinking elements: all elements are shrunk in step, so one that cannot be shrunk keeps the others.
    Failing when the first element is 8 or more; [8; 8] is drawn and reported, though [8; 0] fails. *)
Definition le_vec {A} (m : nat) (le : A -> A -> Prop) (x y : list A) : Prop := exists s, In s (sublists y) /\ (m <= length s)%nat /\ Forall2 le x s.
Lemma sub_match : forall A (le : A -> A -> Prop) y s' s, Forall2 le y s' -> In s (sublists y) -> exists s'', In s'' (sublists s') /\ Forall2 le s s''.
Proof.
  intros A le y s' s H. revert s. induction H as [|a b y s' Hab H IH]; intros s Hs; simpl in Hs.
  - destruct Hs as [<-|[]]. exists []. split; [left; auto|constructor].
  - apply in_app_iff in Hs. simpl. destruct Hs as [Hs|Hs].
    + apply in_map_iff in Hs. destruct Hs as [u [<- Hu]]. destruct (IH u Hu) as [w [W1 W2]]. exists (b :: w). split; [apply in_app_iff; left; apply in_map; auto|constructor; auto].
    + destruct (IH s Hs) as [w [W1 W2]]. exists w. split; [apply in_app_iff; auto|auto].
Qed.
Lemma le_vec_orders : forall A m (le : A -> A -> Prop), (forall x, le x x) -> orders le -> orders (le_vec m le).
Proof.
  intros A m le Hr [T _]. assert (F : forall l, Forall2 le l l) by (induction l; constructor; auto).
  assert (L : forall a b, Forall2 le a b -> length a = length b) by (induction 1; simpl; auto). split.
  - intros x y z [s [S1 [S2 S3]]] [s' [S4 [S5 S6]]]. destruct (sub_match _ _ _ _ _ S6 S1) as [w [W1 W2]]. exists w. split; [eapply sublists_trans; eauto|].
    split; [rewrite <- (L _ _ W2); auto|]. clear -T S3 W2. revert w W2. induction S3 as [|a b x s Hab S3 IH]; intros w W2; inversion W2; subst; constructor; eauto.
  - intros x y [s [S1 [S2 S3]]]. split; [exists x|exists y]; (split; [apply sublists_self|]); (split; [|apply F]).
    + rewrite (L _ _ S3). auto.
    + apply sublists_len in S1. lia.
Qed.
Theorem C80_elements_refuted : ~ (forall E A (g : gen E A) le mn mx, orders le -> minimising le g -> (0 <= mn <= mx)%Z -> (mx <= UINT32_MAX)%Z ->
  minimising (le_vec (Z.to_nat mn) le) (arbi_vector g {| minSize := mn; maxSize := mx |})).
Proof.
  intros H. assert (Hu : usable TI32 0 200) by (split; [|split; [|split]]; try (vm_compute; discriminate); intros [C _]; discriminate).
  specialize (H replay Z (upto 200) (le_int 0) 2%Z 2%Z (le_int_orders 0) (C80_integer replay TI32 0 200 Hu) ltac:(lia) ltac:(vm_compute; discriminate)).
  set (good := fun l : list Z => (nth 0 l 0 <? 8)%Z).
  assert (R : report80 good (arbi_vector (upto 200) {| minSize := 2; maxSize := 2 |}) [2; 8; 8]%Z = Some ([[8; 8]], [[8; 8]], 5%nat)%Z) by (vm_compute; reflexivity).
  assert (Hr : forall x, le_int 0 x x) by (intros x; unfold le_int, on_way; lia).
  assert (Htwo : forall x y, le_vec (Z.to_nat 2) (le_int 0) x y -> length y = 2%nat -> Forall2 (le_int 0) x y).
  { intros x y [s [S1 [S2 S3]]] L. assert (s = y) by (apply sublists_full; auto; apply sublists_len in S1; unfold Z.to_nat in S2; simpl in S2; lia). subst. auto. }
  assert (Lf : forall a b, Forall2 (le_int 0) a b -> length a = length b) by (induction 1; simpl; auto).
  pose proof (one80 (list Z) good _ _ _ _ _ _ (le_vec_orders Z _ _ Hr (le_int_orders 0)) H R) as X.
  assert (Y : le_vec (Z.to_nat 2) (le_int 0) [8; 8]%Z [8; 0]%Z).
  { apply X; [| |reflexivity].
    - intros x y Hxy Hy. apply Htwo in Hy; [|reflexivity]. pose proof (Lf _ _ Hy) as Ly. apply Htwo in Hxy; [|auto]. unfold good. rewrite !Z.ltb_ge.
      inversion Hy as [|y1 z1 ys zs Y1 Y2]; subst. inversion Hxy as [|x1 w1 xs ws X1 X2]; subst. cbn [nth]. unfold le_int, on_way in *. lia.
    - exists [8; 8]%Z. split; [apply sublists_self|]. split; [simpl; auto|]. repeat constructor; unfold le_int, on_way; lia. }
  apply Htwo in Y; [|reflexivity]. inversion Y as [|? ? ? ? _ Y2]; subst. inversion Y2 as [|? ? ? ? Y3 _]; subst. unfold le_int, on_way in Y3. lia.
Qed.

(** Without upward closure: the first argument is not shrunk again after the second.  Failing when the first is 10 or more, or the second is 0: (20, 5) is drawn,
    (10, 0) reported; (0, 0) fails. *)
Theorem C80_upward_refuted : ~ (forall A (g : gen replay A) le good draws v r k, orders le -> minimising le g -> report80 good g draws = Some ([v], [r], k) ->
  forall x, le x r -> good x = false -> le r x).
Proof.
  intros H. assert (Hu : usable TI32 0 200) by (split; [|split; [|split]]; try (vm_compute; discriminate); intros [C _]; discriminate).
  pose proof (C80_integer replay TI32 0 200 Hu) as HM. change (nearest_zero 0 200) with 0%Z in HM.
  destruct (C80_pair replay Z Z true (upto 200) (upto 200) _ _ (le_int_orders 0) (le_int_orders 0) HM HM) as [M O].
  specialize (H (Z * Z)%type _ _ (fun p => (fst p <? 10) && negb (snd p =? 0))%Z [20; 5]%Z (20, 5)%Z (10, 0)%Z 8%nat O M ltac:(vm_compute; reflexivity) (0, 0)%Z).
  destruct H as [L _]; [split; unfold le_int, on_way; cbn [fst snd]; lia|reflexivity|]. unfold le_int, on_way in L. cbn [fst snd] in L. lia.
Qed.

Print Assumptions C80_integer.
Print Assumptions C80_bool.
Print Assumptions C80_just.
Print Assumptions C80_pair.
Print Assumptions C80_tuple.
Print Assumptions C80_transform.
Print Assumptions C80_oneOf.
Print Assumptions C80_set.
Print Assumptions C80_map.
Print Assumptions C80_vector.
Print Assumptions C80_orders.
Print Assumptions C80_arguments.
Print Assumptions C80_least.
Print Assumptions C80_integers.
Print Assumptions C80_trying.
Print Assumptions C80_calls.
Print Assumptions C80_filter_refuted.
Print Assumptions C80_elements_refuted.
Print Assumptions C80_upward_refuted.
